(** Proofs about the writing and loading of tasks. *)
From stdpp Require Import list list_numbers.
From Coq Require Import Lia ZifyBool.
From Verif Require Import Layouts_Model Layouts_Proofs Blocks_Model Blocks_Proofs Checkpoints_Model Checkpoints_Spec.

(** ** Parts of global data *)
Lemma some_elements m r : good_distribution m -> local_elements (mesh m) (locals m) (axes_of m) r = Some (elements m r).
Proof. intros (_ & H & _). unfold elements. by destruct (local_elements_ok (mesh m) (locals m) (axes_of m) r H) as (els & ->). Qed.
Definition contiguous (e : list nat) : Prop := e = seq (axis_slice e).1 ((axis_slice e).2 - (axis_slice e).1).
Lemma elements_contiguous m r : good_distribution m -> Forall contiguous (elements m r).
Proof. intros H. eapply local_elements_contig, some_elements, H. Qed.
Definition starts (ax : axes) (els : list (list nat)) : list nat := zip_with (fun (x : nat * nat) e => match e with [] => x.1 | i :: _ => i end) ax els.
Lemma contiguous_cases e : contiguous e -> e = [] \/ exists lo n, e = seq lo (S n) /\ axis_slice e = (lo, lo + S n).
Proof.
  intros H. destruct e as [|i e]; [by left|right]. unfold contiguous in H. destruct (axis_slice (i :: e)) as [a b] eqn:E. cbn [fst snd] in H. destruct (b - a) as [|n] eqn:En; [done|]. exists a, n. split; [done|]. f_equal. lia.
Qed.
Lemma in_slab_tensor tshape t st co s : Forall2 (fun i n => i < n) t tshape -> in_slab (replicate (length tshape) 0 ++ st) (tshape ++ co) (t ++ s) = in_slab st co s.
Proof. induction 1 as [|i n t tshape Hi _ IH]; [done|]. cbn [length replicate app in_slab]. rewrite IH. assert ((0 <=? i) && (i <? 0 + n) = true) as -> by lia. done. Qed.
Lemma in_slab_elements ax els s : Forall contiguous els -> length els = length ax -> length s = length ax ->
  in_slab (starts ax els) (map length els) s = true <-> Forall2 (fun i e => i ∈ e) s els.
Proof.
  intros HC. revert ax s. induction HC as [|e els He _ IH]; intros [|x ax] [|i s]; try done. intros [= HL] [= HS]. cbn [starts zip_with map in_slab]. fold (starts ax els). rewrite andb_true_iff, IH by done.
  assert (E : ((match e with [] => x.1 | j :: _ => j end <=? i) && (i <? match e with [] => x.1 | j :: _ => j end + length e)) = true <-> i ∈ e).
  { destruct (contiguous_cases e He) as [->|(lo & n & -> & _)]; [rewrite elem_of_nil; cbn [length]; lia|]. rewrite elem_of_seq. cbn [seq length]. rewrite seq_length. lia. }
  rewrite E. split; [intros [? ?]; by constructor|intros H; by inversion H].
Qed.
Lemma elements_length m r : good_distribution m -> length (elements m r) = length (axes_of m).
Proof.
  intros H. pose proof (some_elements m r H) as E. destruct H as (_ & Hn & Hl & _). unfold local_elements in E.
  destruct (assign_masked_ok (locals m) 1 (mesh m) Hn) as (e & E1 & L1 & _). destruct (assign_masked_ok (locals m) 0 (cart_coords (mesh m) r)) as (e' & E2 & L2 & _); [by rewrite cart_coords_length|].
  rewrite E1 in E. cbn in E. rewrite E2 in E. cbn in E. injection E as <-. clear E1 E2 Hn. revert L1 L2. generalize (locals m), (axes_of m), Hl. clear. intros l ax. revert l e e'. induction ax as [|[n c] ax IH]; intros [|b l] [|x e] [|y e']; cbn; try done. intros [= H1] [= H2] [= H3]. f_equal. by eapply IH.
Qed.
Lemma offsets ax els s : Forall contiguous els -> length els = length ax -> Forall2 (fun i e => i ∈ e) s els ->
  zip_with (fun e i => nth i e 0) els (zip_with Nat.sub s (starts ax els)) = s /\ Forall2 (fun i e => i < length e) (zip_with Nat.sub s (starts ax els)) els /\
  zip_with (fun (x : nat * nat) i => i - x.1) (slices els) s = zip_with Nat.sub s (starts ax els).
Proof.
  intros HC HL HF. revert ax HL HC. induction HF as [|i e s els Hi _ IH]; intros [|x ax] HL HC; try done; [by repeat constructor|]. inversion HC as [|? ? He HC']; subst. destruct (IH ax ltac:(by injection HL) HC') as (E1 & E2 & E3).
  destruct (contiguous_cases e He) as [->|(lo & n & -> & Es)]; [by apply elem_of_nil in Hi|]. apply elem_of_seq in Hi. cbn [starts zip_with seq slices map]. repeat split.
  - f_equal; [|exact E1]. change (lo :: seq (S lo) n) with (seq lo (S n)). rewrite seq_nth by lia. lia.
  - constructor; [|exact E2]. cbn [length]. rewrite seq_length. lia.
  - change (lo :: seq (S lo) n) with (seq lo (S n)). rewrite Es. cbn [fst]. f_equal. exact E3.
Qed.
Lemma sub_tensor (tshape t : list nat) st s : length t = length tshape -> zip_with Nat.sub (t ++ s) (replicate (length tshape) 0 ++ st) = t ++ zip_with Nat.sub s st.
Proof. intros H. rewrite <- H. clear H. induction t as [|i t IH]; [done|]. cbn. rewrite IH. f_equal. lia. Qed.

Section writes.
Context {A : Type} (fill : A) (tshape : list nat) (m : distribution) (Hm : good_distribution m).
Implicit Types (p : nat -> list nat -> A) (g : list nat -> A).
Lemma owner t s : global_index tshape m t s -> exists r, r < processes m /\ Forall2 (fun i e => i ∈ e) s (elements m r) /\
  in_slab (local_start tshape m r) (local_shape tshape m r) (t ++ s) = true /\
  (forall r', r' < processes m -> in_slab (local_start tshape m r') (local_shape tshape m r') (t ++ s) = true -> r' = r).
Proof.
  intros [Ht Hs]. destruct Hm as (Hd & Hn & Hl & Hc).
  assert (HF : Forall2 (fun i (x : nat * nat) => i < x.1 /\ 0 < x.2) s (axes_of m)) by (apply Forall2_same_length_lookup_2; [by apply (Forall2_length _ _ _ Hs)|]; intros i x y Hx Hy; split; [by apply (Forall2_lookup_lr _ _ _ _ _ _ Hs Hx Hy)|by apply (Forall_lookup_1 _ _ _ _ Hc Hy)]).
  assert (IN : forall r, in_slab (local_start tshape m r) (local_shape tshape m r) (t ++ s) = true <-> in_local (mesh m) (locals m) (axes_of m) r s).
  { intros r. unfold local_start, local_shape. rewrite in_slab_tensor by done. fold (starts (axes_of m) (elements m r)). rewrite in_slab_elements by (by apply elements_contiguous || by apply elements_length || by apply (Forall2_length _ _ _ Hs)).
    unfold in_local. rewrite some_elements by done. split; [intros H; by exists (elements m r)|intros (els & [= <-] & H); done]. }
  destruct (tile (mesh m) Hd (locals m) (axes_of m) s Hn Hl HF) as (r & Hr & Hin & Hu). exists r. split; [done|]. split; [|split; [by apply IN|]].
  - destruct Hin as (els & E & H). rewrite some_elements in E by done. by injection E as <-.
  - intros r' Hr' H. apply Hu; [done|]. by apply IN.
Qed.
Lemma owner_value p g t s r : parts_of tshape m p g -> global_index tshape m t s -> r < processes m -> Forall2 (fun i e => i ∈ e) s (elements m r) ->
  p r (zip_with Nat.sub (t ++ s) (local_start tshape m r)) = g (t ++ s).
Proof.
  intros Hp [Ht Hs] Hr Hin. unfold local_start. rewrite sub_tensor by (by apply (Forall2_length _ _ _ Ht)). fold (starts (axes_of m) (elements m r)).
  destruct (offsets (axes_of m) (elements m r) s (elements_contiguous m r Hm) (elements_length m r Hm) Hin) as (E1 & E2 & _).
  rewrite (Hp r (elements m r)) by (done || by apply some_elements). by rewrite E1.
Qed.
Lemma gathered_value p g t s : parts_of tshape m p g -> global_index tshape m t s -> gathered tshape m p (t ++ s) = g (t ++ s).
Proof.
  intros Hp Hg. destruct (owner t s Hg) as (r & Hr & Hin & _). rewrite <- (owner_value p g t s r Hp Hg Hr Hin). destruct Hg as [Ht Hs]. unfold gathered. rewrite <- (Forall2_length _ _ _ Ht), take_app, drop_app.
  destruct Hm as (Hd & Hn & Hl & Hc). destruct (assign_masked_ok (locals m) 1 (mesh m) Hn) as (ext & He & _). rewrite He. cbn [default from_option].
  assert (HF : Forall2 (fun i (x : nat * nat) => i < x.1 /\ 0 < x.2) s (axes_of m)) by (apply Forall2_same_length_lookup_2; [by apply (Forall2_length _ _ _ Hs)|]; intros i x y Hx Hy; split; [by apply (Forall2_lookup_lr _ _ _ _ _ _ Hs Hx Hy)|by apply (Forall_lookup_1 _ _ _ _ Hc Hy)]).
  destruct (gather_find (mesh m) Hd (locals m) (axes_of m) s ext r (elements m r) Hn Hl HF He Hr (some_elements m r Hm) Hin) as [E1 E2].
  unfold gather_data. unfold id in *. rewrite E1, E2. destruct (offsets (axes_of m) (elements m r) s (elements_contiguous m r Hm) (elements_length m r Hm) Hin) as (_ & _ & ->).
  unfold local_start. rewrite sub_tensor by (by apply (Forall2_length _ _ _ Ht)). done.
Qed.
Lemma slabs_value p g order e t s : parts_of tshape m p g -> global_index tshape m t s -> Permutation order (seq 0 (processes m)) ->
  foldl (fun e r => slab_write tshape m p r e) e order (t ++ s) = g (t ++ s).
Proof.
  intros Hp Hg HP. destruct (owner t s Hg) as (r & Hr & Hin & Hs & Hu). pose proof (owner_value p g t s r Hp Hg Hr Hin) as V.
  assert (G : forall l e, Forall (fun r => r < processes m) l -> foldl (fun e r => slab_write tshape m p r e) e l (t ++ s) = if bool_decide (r ∈ l) then g (t ++ s) else e (t ++ s)).
  { intros l. induction l as [|q l IH]; intros e' Hl; [done|]. inversion Hl; subst. cbn [foldl]. rewrite IH by done. destruct (decide (r ∈ l)) as [E|E].
    - rewrite !bool_decide_true; [done|by right|done].
    - rewrite (bool_decide_false (r ∈ l)) by done. unfold slab_write. destruct (in_slab (local_start tshape m q) _ _) eqn:Eq.
      + assert (q = r) as -> by (by apply Hu). rewrite bool_decide_true by left. done.
      + rewrite bool_decide_false; [done|]. rewrite elem_of_cons. intros [->|?]; [congruence|done]. }
  rewrite G.
  - rewrite bool_decide_true; [done|]. rewrite HP. apply elem_of_seq. lia.
  - rewrite HP. apply Forall_forall. intros x Hx%elem_of_seq. lia.
Qed.

(** ** Sequences of writes *)
Lemma resize_store n (d : list (list nat -> A)) e : length d = Nat.max 1 n -> <[n + 1 - 1 := e]> (resize fill (n + 1) d) = take n d ++ [e].
Proof.
  intros H. unfold resize. replace (n + 1 - 1) with n by lia. destruct n as [|n].
  - destruct d as [|x [|y d]]; done.
  - replace (S n + 1 - length d) with 1 by lia. rewrite take_ge by lia. rewrite (take_ge d (S n)) by lia. cbn [replicate]. rewrite insert_app_r_alt by lia. replace (S n - length d) with 0 by lia. done.
Qed.
Lemma resize_alter n (d : list (list nat -> A)) f : length d = Nat.max 1 n -> exists x, alter f (n + 1 - 1) (resize fill (n + 1) d) = take n d ++ [f x].
Proof.
  intros H. unfold resize. replace (n + 1 - 1) with n by lia. destruct n as [|n].
  - destruct d as [|x [|y d]]; try done. by exists x.
  - replace (S n + 1 - length d) with 1 by lia. rewrite take_ge by lia. rewrite (take_ge d (S n)) by lia. cbn [replicate]. exists (blank fill). replace (S n) with (length d + 0) by lia. by rewrite alter_app_r.
Qed.
Lemma foldl_alter {B} (f : nat -> B -> B) order k (d : list B) : foldl (fun d r => alter (f r) k d) d order = alter (fun e => foldl (fun e r => f r e) e order) k d.
Proof.
  revert d. induction order as [|r order IH]; intros d; cbn.
  - symmetry. apply list_alter_id. done.
  - rewrite IH. by rewrite <- list_alter_compose.
Qed.
Definition right_write (write : nat -> (nat -> list nat -> A) -> list (list nat -> A) -> list (list nat -> A)) : Prop :=
  forall n p g d, parts_of tshape m p g -> length d = Nat.max 1 n ->
    exists e, write (n + 1) p d = take n d ++ [e] /\ forall t s, global_index tshape m t s -> e (t ++ s) = g (t ++ s).
Lemma run_holds write : right_write write -> forall ws gs, Forall2 (parts_of tshape m) ws gs -> forall n gs0 d, length gs0 = n -> length d = Nat.max 1 n ->
  (0 < n -> holds tshape m d gs0) -> gs0 ++ gs <> [] -> holds tshape m (run write n ws d) (gs0 ++ gs).
Proof.
  intros HW ws gs HF. induction HF as [|p g ws gs Hp _ IH]; intros n gs0 d L0 Ld H0 Hne.
  - rewrite app_nil_r in *. apply H0. destruct gs0; [done|]. cbn in L0. lia.
  - cbn [run]. destruct (HW n p g d Hp Ld) as (e & -> & He). replace (gs0 ++ g :: gs) with ((gs0 ++ [g]) ++ gs) by by rewrite <- app_assoc.
    assert (Lt : length (take n d) = n) by (rewrite take_length; lia).
    apply IH; [rewrite app_length; cbn; lia|rewrite app_length, Lt; cbn; lia| |by destruct gs0]. intros _. split; [rewrite !app_length, Lt; cbn; lia|].
    intros i g' e' t s Hg' He' Hi. apply lookup_app_Some in Hg' as [Hg'|[Hl Hg']].
    + pose proof (lookup_lt_Some _ _ _ Hg'). rewrite lookup_app_l in He' by lia. rewrite lookup_take in He' by lia. destruct H0 as [_ H0]; [lia|]. by eapply H0.
    + rewrite lookup_app_r in He' by lia. replace (i - length (take n d)) with (i - length gs0) in He' by lia. destruct (i - length gs0); [|done]. injection Hg' as <-. injection He' as <-. by apply He.
Qed.
Lemma gather_right : right_write (gather_write fill tshape m).
Proof. intros n p g d Hp Hd. exists (gathered tshape m p). split; [by apply resize_store|]. intros t s Hg. by apply gathered_value. Qed.
Lemma parallel_right order : (forall n, Permutation (order n) (seq 0 (processes m))) -> right_write (fun n => parallel_write fill tshape m (order n) n).
Proof.
  intros HP n p g d Hp Hd. unfold parallel_write. rewrite (foldl_alter (slab_write tshape m p)). destruct (resize_alter n d (fun e => foldl (fun e r => slab_write tshape m p r e) e (order (n + 1))) Hd) as (x & ->). eexists. split; [done|]. intros t s Hg. by apply slabs_value.
Qed.

(** ** Virtual datasets *)
Lemma run_process r : local_size tshape m r <> 0 -> forall ws n f d, f r = Some d -> run (virtual_write fill tshape m) n ws f r = Some (run (fun k p d => <[k - 1 := p r]> (resize fill k d)) n ws d).
Proof.
  intros Hr ws. induction ws as [|p ws IH]; intros n f d E; [done|]. cbn [run]. apply IH. unfold virtual_write. rewrite decide_False by done. by rewrite E.
Qed.
Lemma run_entries r ws : forall n (d : list (list nat -> A)), length d = Nat.max 1 n -> ws <> [] ->
  run (fun k p d => <[k - 1 := p r]> (resize fill k d)) n ws d = take n d ++ map (fun p : nat -> list nat -> A => p r) ws.
Proof.
  induction ws as [|p ws IH]; intros n d Hd Hne; [done|]. cbn [run]. rewrite resize_store by done. assert (Lt : length (take n d) = n) by (rewrite take_length; lia). destruct ws as [|p' ws]; [done|].
  rewrite IH; [|rewrite app_length, Lt; cbn; lia|done]. rewrite take_ge by (rewrite app_length, Lt; cbn; lia). rewrite <- app_assoc. done.
Qed.
Lemma slab_size start count idx : in_slab start count idx = true -> foldr Nat.mul 1 count <> 0.
Proof. revert count idx. induction start as [|s start IH]; intros [|c count] [|i idx]; try done. cbn [in_slab foldr]. intros [H1 H2]%andb_true_iff. apply IH in H2. assert (c <> 0) by lia. nia. Qed.
Lemma virtual_holds ws gs : Forall2 (parts_of tshape m) ws gs -> gs <> [] -> Forall (fun n => 0 < n) tshape -> Forall (fun x : nat * nat => 0 < x.1) (axes_of m) ->
  holds tshape m (saved fill tshape m Virtual ws) gs.
Proof.
  intros HF Hne Ht Hx. unfold saved. set (f := run _ 0 ws _). assert (Hws : ws <> []) by (intros ->; apply Hne; by inversion HF).
  assert (Hf : forall r, local_size tshape m r <> 0 -> f r = Some (map (fun p => p r) ws)).
  { intros r Hr. unfold f. rewrite (run_process r Hr ws 0 _ [blank fill]) by (unfold setup_process_files; by rewrite decide_False). by rewrite run_entries. }
  assert (Hsrc : forall r, In r (sources tshape m) <-> r < processes m /\ local_size tshape m r <> 0).
  { intros r. unfold sources. rewrite filter_In, in_seq, negb_true_iff, Nat.eqb_neq. intuition lia. }
  assert (Hlen : foldr Nat.max 0 (map (writes_of f) (sources tshape m)) = length ws).
  { assert (exists r, In r (sources tshape m)) as [r0 H0].
    { destruct (owner (map (fun _ => 0) tshape) (map (fun _ => 0) (axes_of m))) as (r & Hr & _ & Hs & _).
      - split; [clear -Ht; induction Ht; by constructor|clear -Hx; induction Hx; by constructor].
      - exists r. apply Hsrc. split; [done|]. by eapply slab_size. }
    assert (E : forall l, (forall r, In r l -> writes_of f r = length ws) -> foldr Nat.max 0 (map (writes_of f) l) = match l with [] => 0 | _ => length ws end).
    { intros l. induction l as [|r l IH]; intros H; [done|]. cbn [map foldr]. rewrite IH by (intros q Hq; apply H; by right). rewrite H by by left. destruct l; lia. }
    rewrite E; [by destruct (sources tshape m)|]. intros r Hr. apply Hsrc in Hr as [_ Hr]. unfold writes_of. rewrite Hf by done. apply map_length. }
  split; [unfold joint; rewrite map_length, seq_length, Hlen; by apply (Forall2_length _ _ _ HF)|].
  intros i g e t s Hg He Hi. unfold joint in He. rewrite Hlen in He. pose proof (lookup_lt_Some _ _ _ Hg) as Hlt. rewrite <- (Forall2_length _ _ _ HF) in Hlt.
  rewrite list_lookup_fmap, lookup_seq_lt in He by done. cbn in He. injection He as <-.
  destruct (owner t s Hi) as (r & Hr & Hin & Hs & Hu). unfold joint_entry.
  destruct (List.find _ _) as [q|] eqn:Ef.
  - apply find_some in Ef as [Hq Hq']. apply Hsrc in Hq as [Hq1 Hq2]. assert (q = r) as -> by (by apply Hu). rewrite Hf by done. destruct (Forall2_lookup_r _ _ _ _ _ HF Hg) as (p & Ep & Hp). rewrite list_lookup_fmap, Ep. cbn. by apply owner_value.
  - exfalso. assert (Hr' : In r (sources tshape m)) by (apply Hsrc; split; [done|by eapply slab_size]). apply (find_none _ _ Ef) in Hr'. congruence.
Qed.

(** ** Loading *)
Lemma element_bound r e x k i : elements m r !! k = Some e -> axes_of m !! k = Some x -> i ∈ e -> i < x.1.
Proof.
  intros He Hx Hi. pose proof (some_elements m r Hm) as E. pose proof Hm as (_ & Hn & _ & Hc). unfold local_elements in E.
  destruct (assign_masked_ok (locals m) 1 (mesh m) Hn) as (e1 & E1 & _ & _). destruct (assign_masked_ok (locals m) 0 (cart_coords (mesh m) r)) as (e2 & E2 & _ & _); [by rewrite cart_coords_length|].
  rewrite E1 in E. cbn in E. rewrite E2 in E. cbn in E. injection E as E. rewrite <- E in He. destruct (Forall_lookup_1 _ _ _ _ Hc Hx) as [Hc0 [q Hq]]. clear E E1 E2 Hn Hc. destruct Hm as [_ _]. revert k He Hx.
  generalize (locals m) e1 e2. induction (axes_of m) as [|[n c] ax IH]; intros [|b l] [|P e1'] [|q' e2'] k He Hx; try done. destruct k as [|k].
  - cbn in He, Hx. injection He as <-. injection Hx as <-. cbn in *. rewrite axis_elements_seq, elem_of_seq in Hi. assert (ax_hi n c b P q' <= cdiv n c) by (unfold ax_hi, nch; destruct b; lia). assert (cdiv n c = q) by (rewrite Hq, Nat.mul_comm; by apply cdiv_exact). nia.
  - by eapply (IH l e1' e2' k).
Qed.
Lemma positions r j : Forall2 (fun i e => i < length e) j (elements m r) ->
  zip_with (fun (x : nat * nat) i => x.1 + i) (slices (elements m r)) j = zip_with (fun e i => nth i e 0) (elements m r) j /\
  Forall2 (fun i (x : nat * nat) => i < x.1) (zip_with (fun e i => nth i e 0) (elements m r) j) (axes_of m).
Proof.
  intros HF. split.
  - pose proof (elements_contiguous m r Hm) as HC. induction HF as [|i e j els Hi _ IH]; [done|]. inversion HC as [|? ? He HC']; subst. cbn [slices map zip_with]. f_equal; [|by apply IH].
    destruct (contiguous_cases e He) as [->|(lo & n & -> & Es)]; [cbn in Hi; lia|]. rewrite Es. rewrite seq_length in Hi. rewrite seq_nth by lia. done.
  - apply Forall2_same_length_lookup_2; [rewrite zip_with_length, (Forall2_length _ _ _ HF), elements_length by done; lia|].
    intros k i x Hk Hx. apply lookup_zip_with_Some in Hk as (e & i' & -> & He & Hi). eapply element_bound; [done|done|]. apply elem_of_list_In, nth_In. by apply (Forall2_lookup_lr _ _ _ _ _ _ HF Hi He).
Qed.
Lemma local_part_parts (e g : list nat -> A) : (forall t s, global_index tshape m t s -> e (t ++ s) = g (t ++ s)) -> parts_of tshape m (fun r => local_part (length tshape) (elements m r) e) g.
Proof.
  intros H r els t j Hr E Ht Hj. rewrite some_elements in E by done. injection E as <-. unfold local_part. rewrite <- (Forall2_length _ _ _ Ht), take_app, drop_app. destruct (positions r j Hj) as [-> HP]. apply H. by split.
Qed.
Lemma slab_fits r : Forall2 (fun x n => x <= n) (zip_with Nat.add (local_start tshape m r) (local_shape tshape m r)) (tshape ++ map fst (axes_of m)).
Proof.
  unfold local_start, local_shape. rewrite zip_with_app by by rewrite replicate_length. apply Forall2_app.
  - clear. induction tshape as [|n l IH]; constructor; [lia|done].
  - fold (starts (axes_of m) (elements m r)). pose proof (elements_contiguous m r Hm) as HC. pose proof (elements_length m r Hm) as HL. apply Forall2_same_length_lookup_2; [unfold starts; rewrite !zip_with_length, !map_length; lia|].
    intros k a b Ha Hb. apply lookup_zip_with_Some in Ha as (u & v & -> & Hu & Hv). apply lookup_zip_with_Some in Hu as (x & e & -> & Hx & He). rewrite list_lookup_fmap, He in Hv. rewrite list_lookup_fmap, Hx in Hb. cbn in Hv, Hb. injection Hv as <-. injection Hb as <-.
    destruct (contiguous_cases e (Forall_lookup_1 _ _ _ _ HC He)) as [->|(lo & n & -> & _)]; [cbn; lia|]. cbn [seq]. change (lo :: seq (S lo) n) with (seq lo (S n)). rewrite seq_length. assert (lo + n < x.1) by (eapply element_bound; [done|done|]; apply elem_of_seq; lia). lia.
Qed.
End writes.

(** ** Crashes *)
Section crash.
Context {V : Type} (fill : V).
Definition extended (n : nat) (d : list V) : list V := take n d ++ replicate (n - length d) fill.
Definition effect (n : nat) (v : V) (k : nat) (d : list V) : list V := match k with 0 => d | 1 => extended n d | _ => <[n - 1 := v]> (extended n d) end.
Fixpoint ops_from (j0 n : nat) (row : list V) : list op := match row with [] => [] | v :: row => Resize j0 n :: Store j0 n v :: ops_from (S j0) n row end.
Lemma write_ops_from n row : write_ops n row = ops_from 0 n row.
Proof.
  unfold write_ops. assert (H : forall j0, concat (imap (fun j v => [Resize (j0 + j) n; Store (j0 + j) n v]) row) = ops_from j0 n row); [|apply (H 0)].
  induction row as [|v row IH]; intros j0; [done|]. cbn [imap concat ops_from]. rewrite Nat.add_0_r. cbn. do 2 f_equal. rewrite <- (IH (S j0)). f_equal. apply imap_ext. intros i x _. cbn. by rewrite Nat.add_succ_r.
Qed.
Lemma ops_effect n row : forall j0 c f j, (performs fill (take c (ops_from j0 n row)) f) !! j =
  if decide (j0 <= j) then match row !! (j - j0) with Some v => effect n v (c - 2 * (j - j0)) <$> f !! j | None => f !! j end else f !! j.
Proof.
  induction row as [|v row IH]; intros j0 c f j.
  - cbn [ops_from]. rewrite take_nil. cbn. by destruct (decide _).
  - cbn [ops_from]. destruct c as [|[|c]]; cbn [take performs foldl].
    + destruct (decide _); [|done]. destruct ((v :: row) !! (j - j0)); [|done]. cbn. by destruct (f !! j).
    + cbn [perform]. destruct (decide (j0 = j)) as [->|Hj].
      * rewrite list_lookup_alter, decide_True, Nat.sub_diag by lia. done.
      * rewrite list_lookup_alter_ne by done. destruct (decide _); [|done]. destruct (j - j0) eqn:E; [lia|]. cbn. destruct (row !! n0); [|done]. by destruct (f !! j).
    + fold (performs fill (take c (ops_from (S j0) n row)) (perform fill (Store j0 n v) (perform fill (Resize j0 n) f))). rewrite IH. cbn [perform]. destruct (decide (j0 = j)) as [->|Hj].
      * rewrite decide_False by lia. rewrite decide_True, Nat.sub_diag by lia. rewrite !list_lookup_alter. cbn. by destruct (f !! j).
      * rewrite !list_lookup_alter_ne by done. destruct (decide (S j0 <= j)) as [H|H]; [|by rewrite decide_False by lia]. rewrite decide_True by lia. replace (j - j0) with (S (j - S j0)) by lia. cbn [lookup list_lookup]. replace (S (S c) - 2 * S (j - S j0)) with (c - 2 * (j - S j0)) by lia. done.
Qed.
Lemma ops_length j0 n (row : list V) : length (ops_from j0 n row) = 2 * length row.
Proof. revert j0. induction row as [|v row IH]; intros j0; [done|]. cbn [ops_from length]. rewrite IH. lia. Qed.
Lemma extended_store n d v : length d = n \/ n = 0 /\ length d = 1 -> <[n + 1 - 1 := v]> (extended (n + 1) d) = take n d ++ [v].
Proof.
  intros H. unfold extended. replace (n + 1 - 1) with n by lia. destruct H as [H|[-> H]].
  - replace (n + 1 - length d) with 1 by lia. rewrite take_ge by lia. rewrite (take_ge d n) by lia. cbn. rewrite insert_app_r_alt by lia. by replace (n - length d) with 0 by lia.
  - destruct d as [|x [|y d]]; done.
Qed.
Definition column (j : nat) (rows : list (list V)) : list V := map (fun r => nth j r fill) rows.
(** Datasets after complete writes. *)
Lemma process_columns W rows : Forall (fun r : list V => length r = W) rows -> forall num rows0 f, length rows0 = num -> length f = W ->
  (forall j d, f !! j = Some d -> (length d = num \/ num = 0 /\ length d = 1) /\ take num d = column j rows0) ->
  length (process_all fill num rows f) = W /\ forall j d, process_all fill num rows f !! j = Some d ->
    (length d = num + length rows \/ num + length rows = 0 /\ length d = 1) /\ take (num + length rows) d = column j (rows0 ++ rows).
Proof.
  intros HF. induction HF as [|row rows Hrow _ IH]; intros num rows0 f L0 Lf Hf.
  - cbn [process_all length]. rewrite Nat.add_0_r, app_nil_r. done.
  - cbn [process_all]. set (f' := performs fill _ f).
    assert (E : forall j, f' !! j = match row !! j with Some v => effect (num + 1) v (2 * length row - 2 * j) <$> f !! j | None => f !! j end).
    { intros j. unfold f'. rewrite write_ops_from. rewrite <- (firstn_all (ops_from 0 (num + 1) row)), ops_length. rewrite (ops_effect (num + 1) row 0), decide_True by lia. by rewrite Nat.sub_0_r. }
    replace (rows0 ++ row :: rows) with ((rows0 ++ [row]) ++ rows) by by rewrite <- app_assoc. replace (num + length (row :: rows)) with (num + 1 + length rows) by (cbn; lia).
    apply IH; [rewrite app_length; cbn; lia| |].
    + apply Nat.le_antisymm; apply Nat.le_ngt; intros H.
      * destruct (lookup_lt_is_Some_2 f' W H) as [d Hd]. rewrite E in Hd. rewrite (lookup_ge_None_2 row) in Hd by lia. apply lookup_lt_Some in Hd. lia.
      * destruct (lookup_lt_is_Some_2 f (length f')) as [d Hd]; [lia|]. destruct (lookup_lt_is_Some_2 row (length f')) as [v Hv]; [lia|]. specialize (E (length f')). rewrite Hv, Hd in E. rewrite lookup_ge_None_2 in E by lia. done.
    + intros j d Hd. rewrite E in Hd. destruct (row !! j) as [v|] eqn:Ev.
      * apply fmap_Some in Hd as (d0 & Hd0 & ->). destruct (Hf j d0 Hd0) as [HL HC]. pose proof (lookup_lt_Some _ _ _ Ev). assert (exists q, 2 * length row - 2 * j = S (S q)) as [q ->] by (exists (2 * length row - 2 * j - 2); lia). cbn [effect]. rewrite extended_store by done. rewrite HC.
        assert (length (column j rows0) = num) by (unfold column; rewrite map_length; lia). split; [left; rewrite app_length; cbn; lia|]. rewrite take_ge by (rewrite app_length; cbn; lia). unfold column. rewrite map_app. cbn. by rewrite (nth_lookup_Some _ _ _ _ Ev).
      * apply lookup_ge_None_1 in Ev. apply lookup_lt_Some in Hd. lia.
Qed.
Lemma new_columns scales tasks : length (new_file fill scales tasks) = scales + tasks /\ forall j d, new_file fill scales tasks !! j = Some d -> (length d = 0 \/ 0 = 0 /\ length d = 1) /\ take 0 d = column j [].
Proof.
  unfold new_file. split; [by rewrite app_length, !replicate_length|]. intros j d Hd. apply lookup_app_Some in Hd as [Hd|[_ Hd]]; apply lookup_replicate in Hd as [-> _]; (split; [|done]); [by left|by right].
Qed.
Lemma complete_columns scales tasks rows : Forall (fun r : list V => length r = scales + tasks) rows -> rows <> [] ->
  process_all fill 0 rows (new_file fill scales tasks) = map (fun j => column j rows) (seq 0 (scales + tasks)).
Proof.
  intros HF Hne. destruct (new_columns scales tasks) as [L H]. destruct (process_columns (scales + tasks) rows HF 0 [] (new_file fill scales tasks) eq_refl L H) as [L' H'].
  assert (0 < length rows) by (destruct rows; [done|cbn; lia]). apply list_eq. intros j. destruct (process_all fill 0 rows _ !! j) as [d|] eqn:E.
  - destruct (H' j d E) as [Hl Hc]. pose proof (lookup_lt_Some _ _ _ E). rewrite list_lookup_fmap, lookup_seq_lt by lia. rewrite app_nil_l in Hc. cbn [fmap option_fmap option_map Nat.add] in *. rewrite <- Hc, take_ge; [done|]. lia.
  - apply lookup_ge_None_1 in E. rewrite lookup_ge_None_2; [done|]. rewrite map_length, seq_length. lia.
Qed.
Lemma crashed_lookup scales tasks rows row c j : Forall (fun r : list V => length r = scales + tasks) (row :: rows) -> rows <> [] -> j < scales + tasks ->
  crashed fill scales tasks rows row c !! j = Some (effect (length rows + 1) (nth j row fill) (c - 2 * j) (column j rows)).
Proof.
  intros HF Hne Hj. inversion HF as [|? ? Hrow HF']; subst. unfold crashed. rewrite complete_columns by done. rewrite write_ops_from, ops_effect, decide_True, Nat.sub_0_r by lia.
  destruct (row !! j) as [v|] eqn:E; [|apply lookup_ge_None_1 in E; lia]. rewrite list_lookup_fmap, lookup_seq_lt by done. cbn [fmap option_fmap option_map]. by rewrite (nth_lookup_Some _ _ _ _ E).
Qed.
Lemma crashed_length scales tasks rows row c : Forall (fun r : list V => length r = scales + tasks) (row :: rows) -> rows <> [] -> length (crashed fill scales tasks rows row c) = scales + tasks.
Proof.
  intros HF Hne. apply Nat.le_antisymm; apply Nat.le_ngt; intros H.
  - destruct (lookup_lt_is_Some_2 _ _ H) as [d Hd]. inversion HF as [|? ? Hrow HF']; subst. unfold crashed in Hd. rewrite complete_columns in Hd by done. rewrite write_ops_from, ops_effect, decide_True, Nat.sub_0_r in Hd by lia. rewrite (lookup_ge_None_2 row) in Hd by lia. apply lookup_lt_Some in Hd. rewrite map_length, seq_length in Hd. lia.
  - pose proof (crashed_lookup scales tasks rows row c _ HF Hne H) as E. rewrite lookup_ge_None_2 in E by lia. done.
Qed.
Lemma extended_last n d : length d = n -> extended (n + 1) d = d ++ [fill].
Proof. intros <-. unfold extended. rewrite take_ge by lia. by replace (length d + 1 - length d) with 1 by lia. Qed.
Lemma effect_entries n v k d : length d = n -> effect (n + 1) v k d = match k with 0 => d | 1 => d ++ [fill] | _ => d ++ [v] end.
Proof.
  intros H. destruct k as [|[|k]]; [done|by apply extended_last|]. cbn [effect]. rewrite extended_store by by left. by rewrite take_ge by lia.
Qed.
End crash.
