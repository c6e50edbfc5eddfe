(** C94: what is written to files and loaded from them. *)
From stdpp Require Import list list_numbers.
From Coq Require Import Lia ZifyBool.
From Verif Require Import Layouts_Model Blocks_Model Checkpoints_Model Checkpoints_Spec Checkpoints_Proofs.

(** The processes of a parallel write can come in any order. *)
Definition any_order (m : distribution) (h : handler) : Prop := match h with Parallel order => forall n, Permutation (order n) (seq 0 (processes m)) | _ => True end.
(** No axis is empty. *)
Definition nonempty (tshape : list nat) (m : distribution) : Prop := Forall (fun n => 0 < n) tshape /\ Forall (fun x : nat * nat => 0 < x.1) (axes_of m).

(** After any writes with any handler, the dataset holds the global data of every write, in order. *)
Theorem files_hold_global_data : forall (A : Type) (fill : A) tshape m h ws gs, good_distribution m -> any_order m h -> nonempty tshape m ->
  Forall2 (parts_of tshape m) ws gs -> gs <> [] -> holds tshape m (saved fill tshape m h ws) gs.
Proof.
  intros A fill tshape m h ws gs Hm Ho [Ht Hx] HF Hne. destruct h as [|order|]; cbn [saved].
  - apply (run_holds tshape m (gather_write fill tshape m) (gather_right fill tshape m Hm) ws gs HF 0 []); try done. lia.
  - apply (run_holds tshape m _ (parallel_right fill tshape m Hm order Ho) ws gs HF 0 []); try done. lia.
  - by apply virtual_holds.
Qed.
Print Assumptions files_hold_global_data.
(** The slab that a process writes lies in the file. *)
Theorem slabs_lie_in_file : forall tshape m r, good_distribution m ->
  Forall2 (fun x n => x <= n) (zip_with Nat.add (local_start tshape m r) (local_shape tshape m r)) (tshape ++ map fst (axes_of m)).
Proof. intros tshape m r Hm. by apply slab_fits. Qed.
Print Assumptions slabs_lie_in_file.

(** Indices count from the front, or from the back if negative. *)
Definition selects (n : nat) (index : Z) (i : nat) : Prop := i < n /\ (index = Z.of_nat i \/ index = Z.of_nat i - Z.of_nat n)%Z.
Lemma selected n index i : selects n index i -> python_index n index = Some i.
Proof.
  intros [Hi H]. unfold python_index. destruct (index <? 0)%Z eqn:E; [destruct H as [->| ->]; [lia|]|destruct H as [->| ->]; [|lia]].
  - replace (Z.of_nat i - Z.of_nat n + Z.of_nat n)%Z with (Z.of_nat i) by lia. assert (((0 <=? Z.of_nat i) && (Z.of_nat i <? Z.of_nat n))%Z = true) as -> by lia. by rewrite Nat2Z.id.
  - assert (((0 <=? Z.of_nat i) && (Z.of_nat i <? Z.of_nat n))%Z = true) as -> by lia. by rewrite Nat2Z.id.
Qed.
Lemma holds_entry {A} tshape m (d gs : list (list nat -> A)) i g : holds tshape m d gs -> gs !! i = Some g -> exists e, d !! i = Some e /\ forall t s, global_index tshape m t s -> e (t ++ s) = g (t ++ s).
Proof.
  intros [HL H] Hg. destruct (lookup_lt_is_Some_2 d i) as [e He]; [rewrite HL; by eapply lookup_lt_Some|]. exists e. split; [done|]. intros t s Hi. by apply (H i g e t s).
Qed.
Lemma same_indices tshape m m' t s : map fst (axes_of m) = map fst (axes_of m') -> global_index tshape m t s -> global_index tshape m' t s.
Proof.
  intros E [Ht Hs]. split; [done|]. revert E s Hs. generalize (axes_of m) (axes_of m'). intros ax. induction ax as [|x ax IH]; intros [|y ax'] E s Hs; try done. inversion Hs as [|i ? s' ? Hi Hs']; subst. injection E as E1 E2. constructor; [by rewrite <- E1|]. by apply IH.
Qed.
Lemma scaled_sizes ax shape : length ax = length shape -> Forall2 (fun (x : nat * nat) n => x.1 = 1 -> n = 1) ax shape -> map fst (scaled_axes ax shape) = shape.
Proof.
  intros _ H. induction H as [|x n ax shape Hx _ IH]; [done|]. cbn [scaled_axes zip_with map fst]. f_equal; [|exact IH]. destruct (x.1 =? 1) eqn:E; [|done]. symmetry. apply Hx. lia.
Qed.
(** Grid data written on one mesh and loaded on another, with the same or another resolution: the field takes the scales of the file, and every process
    gets its part of the write selected. *)
Theorem load_grid_data : forall (A : Type) (fill : A) tshape m h ws gs i g index flags grid coeff, good_distribution m -> any_order m h -> nonempty tshape m ->
  Forall2 (parts_of tshape m) ws gs -> gs !! i = Some g -> selects (length gs) index i -> forallb id flags = true ->
  let shape := map fst (axes_of m) in Forall2 (fun (x : nat * nat) n => x.1 = 1 -> n = 1) (axes_of grid) shape ->
  let m' := Distribution (mesh grid) (locals grid) (scaled_axes (axes_of grid) shape) in good_distribution m' ->
  exists p, (forall r, load_from_hdf5 (length tshape) flags shape (saved fill tshape m h ws) index grid coeff r = Some (shape, p r)) /\ parts_of tshape m' p g.
Proof.
  intros A fill tshape m h ws gs i g index flags grid coeff Hm Ho Hn HF Hg Hi Hf shape Hs m' Hm'.
  assert (H : holds tshape m (saved fill tshape m h ws) gs) by (apply files_hold_global_data; try done; by intros ->).
  destruct (holds_entry _ _ _ _ _ _ H Hg) as (e & He & Hv). assert (Es : map fst (axes_of m') = shape) by (apply scaled_sizes; [by apply (Forall2_length _ _ _ Hs)|done]).
  exists (fun r => local_part (length tshape) (elements m' r) e). split.
  - intros r. unfold load_from_hdf5. rewrite Hf. fold m'. destruct H as [HL _]. rewrite HL, (selected _ _ _ Hi). cbn [mbind option_bind]. rewrite He. cbn [mbind option_bind]. by rewrite Es.
  - apply local_part_parts; [done|]. intros t s Hts. apply Hv. eapply same_indices; [|exact Hts]. by rewrite Es.
Qed.
Print Assumptions load_grid_data.
(** Coefficients can be loaded with the same resolution only. *)
Theorem load_coefficients : forall (A : Type) (fill : A) tshape m h ws gs i g index flags grid coeff, good_distribution m -> any_order m h -> nonempty tshape m ->
  Forall2 (parts_of tshape m) ws gs -> gs !! i = Some g -> selects (length gs) index i -> flags <> [] -> forallb negb flags = true -> good_distribution coeff ->
  let shape := map fst (axes_of m) in
  (shape = map fst (axes_of coeff) -> exists p, (forall r, load_from_hdf5 (length tshape) flags shape (saved fill tshape m h ws) index grid coeff r = Some (shape, p r)) /\ parts_of tshape coeff p g) /\
  (shape <> map fst (axes_of coeff) -> forall r, load_from_hdf5 (length tshape) flags shape (saved fill tshape m h ws) index grid coeff r = None).
Proof.
  intros A fill tshape m h ws gs i g index flags grid coeff Hm Ho Hn HF Hg Hi Hne Hf Hc shape.
  assert (Hb : forallb id flags = false) by (destruct flags as [|[|] flags]; done).
  assert (H : holds tshape m (saved fill tshape m h ws) gs) by (apply files_hold_global_data; try done; by intros ->).
  destruct (holds_entry _ _ _ _ _ _ H Hg) as (e & He & Hv). split.
  - intros Es. exists (fun r => local_part (length tshape) (elements coeff r) e). split.
    + intros r. unfold load_from_hdf5. rewrite Hb, Hf, decide_True by done. destruct H as [HL _]. rewrite HL, (selected _ _ _ Hi). cbn [mbind option_bind]. rewrite He. done.
    + apply local_part_parts; [done|]. intros t s Hts. apply Hv. by eapply same_indices.
  - intros Es r. unfold load_from_hdf5. by rewrite Hb, Hf, decide_False.
Qed.
Print Assumptions load_coefficients.
(** Data in layouts between the grid and coefficients cannot be loaded. *)
Theorem load_mixed_raises : forall (A : Type) k flags shape (d : list (list nat -> A)) index grid coeff r, true ∈ flags -> false ∈ flags -> load_from_hdf5 k flags shape d index grid coeff r = None.
Proof.
  intros A k flags shape d index grid coeff r Ht Hf. unfold load_from_hdf5. assert (forallb id flags = false) as ->.
  { apply not_true_iff_false. rewrite forallb_forall. intros H. apply elem_of_list_In in Hf. by apply H in Hf. }
  assert (forallb negb flags = false) as ->; [|done]. apply not_true_iff_false. rewrite forallb_forall. intros H. apply elem_of_list_In in Ht. by apply H in Ht.
Qed.
Print Assumptions load_mixed_raises.
(** A field that is constant along an axis takes the data at the first point from a file with more points, without an exception. *)
Theorem load_constant_refuted : forall (A : Type) (d : list (list nat -> A)) e n coeff, d !! 0 = Some e -> 1 < n ->
  exists p, load_from_hdf5 0 [true] [n] d 0 (Distribution [] [true] [(1, 1)]) coeff 0 = Some ([1], p) /\ p [0] = e [0].
Proof.
  intros A d e n coeff He Hn. assert (0 < length d) by (by eapply lookup_lt_Some). eexists. split.
  - unfold load_from_hdf5. cbn [forallb id andb]. rewrite (selected _ _ 0) by (split; [done|by left]). cbn [mbind option_bind]. rewrite He. cbn [mbind option_bind]. reflexivity.
  - done.
Qed.
Print Assumptions load_constant_refuted.

(** ** Crashes *)
(** Each write is a row of values, one for every dataset: first the time scales, then the tasks.  Writes completed before a crash can be loaded by their
    number, wherever the next write was interrupted. *)
Lemma load_all_lookup {V} (f : list (list V)) index j d : f !! j = Some d -> load_all f index !! j = Some (i ← python_index (length d) index; d !! i).
Proof. intros H. unfold load_all. by rewrite list_lookup_fmap, H. Qed.
Theorem complete_writes_survive : forall (V : Type) (fill : V) scales tasks rows row c i r, Forall (fun r => length r = scales + tasks) (row :: rows) -> rows !! i = Some r ->
  load_all (crashed fill scales tasks rows row c) (Z.of_nat i) = map Some r.
Proof.
  intros V fill scales tasks rows row c i r HF Hi. assert (Hne : rows <> []) by by intros ->. pose proof (lookup_lt_Some _ _ _ Hi) as Hl.
  assert (Hr : length r = scales + tasks) by (inversion HF as [|? ? _ HF']; by apply (Forall_lookup_1 _ _ _ _ HF' Hi)).
  apply list_eq. intros j. destruct (decide (j < scales + tasks)) as [Hj|Hj].
  - rewrite (load_all_lookup _ _ _ _ (crashed_lookup fill scales tasks rows row c j HF Hne Hj)). destruct (lookup_lt_is_Some_2 r j) as [v Hv]; [lia|]. rewrite list_lookup_fmap, Hv. cbn [fmap option_fmap option_map]. f_equal.
    rewrite effect_entries by (unfold column; by rewrite map_length). assert (E : column fill j rows !! i = Some v) by (unfold column; rewrite list_lookup_fmap, Hi; cbn; by rewrite (nth_lookup_Some _ _ _ _ Hv)).
    assert (Lc : length (column fill j rows) = length rows) by (unfold column; by rewrite map_length).
    assert (G : forall l, (i0 ← python_index (length (column fill j rows ++ l)) (Z.of_nat i); (column fill j rows ++ l) !! i0) = Some v).
    { intros l. rewrite (selected _ _ i) by (split; [rewrite app_length, Lc; lia|by left]). cbn [mbind option_bind]. rewrite lookup_app_l by (rewrite Lc; done). exact E. }
    destruct (c - 2 * j) as [|[|?]]; [|apply G|apply G]. specialize (G []). by rewrite app_nil_r in G.
  - rewrite !lookup_ge_None_2; [done|rewrite map_length; lia|]. unfold load_all. rewrite map_length, crashed_length by done. lia.
Qed.
Print Assumptions complete_writes_survive.
(** What is loaded as the last write after a crash: of every dataset its own last entry. *)
Theorem last_after_crash : forall (V : Type) (fill : V) scales tasks rows last row c, Forall (fun r => length r = scales + tasks) (row :: rows ++ [last]) ->
  load_all (crashed fill scales tasks (rows ++ [last]) row c) (-1) =
  map (fun j => Some (if decide (2 * j + 1 < c) then nth j row fill else if decide (2 * j + 1 = c) then fill else nth j last fill)) (seq 0 (scales + tasks)).
Proof.
  intros V fill scales tasks rows last row c HF. assert (Hne : rows ++ [last] <> []) by by destruct rows. apply list_eq. intros j. destruct (decide (j < scales + tasks)) as [Hj|Hj].
  - rewrite (load_all_lookup _ _ _ _ (crashed_lookup fill scales tasks _ row c j HF Hne Hj)). rewrite list_lookup_fmap, lookup_seq_lt by done. cbn [fmap option_fmap option_map Nat.add]. f_equal.
    assert (Lc : length (column fill j (rows ++ [last])) = length rows + 1) by (unfold column; rewrite map_length, app_length; done).
    assert (Ls : length (rows ++ [last]) = length rows + 1) by by rewrite app_length. rewrite effect_entries by (rewrite Lc, Ls; done).
    destruct (c - 2 * j) as [|[|k]] eqn:E.
    + rewrite (decide_False (P := _ < _)) by lia. rewrite (decide_False (P := _ = _)) by lia. rewrite (selected _ _ (length rows)) by (split; [lia|right; lia]). cbn [mbind option_bind]. unfold column. rewrite map_app, lookup_app_r by (rewrite map_length; lia). rewrite map_length, Nat.sub_diag. done.
    + rewrite (decide_False (P := _ < _)) by lia. rewrite (decide_True (P := _ = _)) by lia. rewrite (selected _ _ (length rows + 1)) by (rewrite app_length, Lc; split; [cbn; lia|right; cbn; lia]). cbn [mbind option_bind]. rewrite lookup_app_r by lia. by rewrite Lc, Nat.sub_diag.
    + rewrite (decide_True (P := _ < _)) by lia. rewrite (selected _ _ (length rows + 1)) by (rewrite app_length, Lc; split; [cbn; lia|right; cbn; lia]). cbn [mbind option_bind]. rewrite lookup_app_r by lia. by rewrite Lc, Nat.sub_diag.
  - rewrite !lookup_ge_None_2; [done|rewrite map_length, seq_length; lia|]. unfold load_all. rewrite map_length, crashed_length by done. lia.
Qed.
Print Assumptions last_after_crash.
(** So a crash between the time scales and the tasks leaves a file whose last write has the new time and the old fields. *)
Theorem last_write_refuted : forall (V : Type) (fill : V) scales tasks rows last row, Forall (fun r => length r = scales + tasks) (row :: rows ++ [last]) ->
  load_all (crashed fill scales tasks (rows ++ [last]) row (2 * scales)) (-1) = map Some (take scales row ++ drop scales last).
Proof.
  intros V fill scales tasks rows last row HF. rewrite last_after_crash by done. assert (Hr : length row = scales + tasks) by (by inversion HF).
  assert (Hl : length last = scales + tasks) by (inversion HF as [|? ? _ HF']; apply Forall_app in HF' as [_ HF']; by inversion HF').
  apply list_eq. intros j. rewrite !list_lookup_fmap. destruct (decide (j < scales + tasks)) as [Hj|Hj].
  - rewrite lookup_seq_lt by done. cbn [fmap option_fmap option_map Nat.add]. destruct (decide (j < scales)) as [H|H].
    + rewrite (decide_True (P := _ < _)) by lia. rewrite lookup_app_l by (rewrite take_length; lia). rewrite lookup_take by done. destruct (lookup_lt_is_Some_2 row j) as [v Hv]; [lia|]. rewrite Hv. cbn. by rewrite (nth_lookup_Some _ _ _ _ Hv).
    + rewrite (decide_False (P := _ < _)) by lia. rewrite (decide_False (P := _ = _)) by lia. rewrite lookup_app_r by (rewrite take_length; lia). rewrite take_length, lookup_drop. replace (scales + (j - scales `min` length row)) with j by lia. destruct (lookup_lt_is_Some_2 last j) as [v Hv]; [lia|]. rewrite Hv. cbn. by rewrite (nth_lookup_Some _ _ _ _ Hv).
  - rewrite !lookup_ge_None_2; [done|rewrite app_length, take_length, drop_length; lia|rewrite seq_length; lia].
Qed.
Print Assumptions last_write_refuted.

(** A vector field on a 5 by 6 grid over 4 processes in a row, one of which has no points. *)
Definition ex_m := Distribution [4] [false; true] [(5, 1); (6, 1)].
Definition ex_g (k : nat) : list nat -> nat := fun idx => foldl (fun a i => 7 * a + i) k idx.
Definition ex_p (k : nat) : nat -> list nat -> nat := fun r j => ex_g k (take 1 j ++ zip_with (fun e i => nth i e 0) (elements ex_m r) (drop 1 j)).
Example checkpoints_ex : good_distribution ex_m /\ any_order ex_m (Parallel (fun n => rev (seq 0 4))) /\ nonempty [2] ex_m /\ Forall2 (parts_of [2] ex_m) [ex_p 1; ex_p 2] [ex_g 1; ex_g 2] /\
  map (fun r => local_start [2] ex_m r) (seq 0 4) = [[0; 0; 0]; [0; 2; 0]; [0; 4; 0]; [0; 5; 0]] /\ map (fun r => local_size [2] ex_m r) (seq 0 4) = [24; 24; 12; 0] /\
  map (fun e => e [1; 4; 3]) (saved 0 [2] ex_m Virtual [ex_p 1; ex_p 2]) = [423; 766].
Proof.
  split; [|split; [|split; [|split; [|done]]]].
  - repeat split; repeat constructor; cbn; try lia; [by exists 5|by exists 6].
  - intros n. cbn. apply Permutation_sym, Permutation_rev.
  - split; repeat constructor; cbn; lia.
  - assert (H : forall k, parts_of [2] ex_m (ex_p k) (ex_g k)).
    { intros k r els t j Hr E Ht Hj. unfold ex_p, elements. rewrite E. cbn [default from_option]. inversion Ht as [|i n t' l Hi Ht']; subst. inversion Ht'; subst. done. }
    repeat constructor; apply H.
Qed.
