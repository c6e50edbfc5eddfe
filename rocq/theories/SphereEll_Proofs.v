From Coq Require Import List Arith Bool ZArith Lia Field.
Import ListNotations.
From Verif Require Import CSR_Spec Sphere_Model Sphere_Spec Sphere_Proofs SphereEll_Model SphereEll_Spec.
From Verif Require Blocks_Model MatSolvers_Proofs.
Local Open Scope nat_scope.

(** ** Bounds of selections *)
Lemma filter_flat_map {A B} (p : B -> bool) (f : A -> list B) l : filter p (flat_map f l) = flat_map (fun x => filter p (f x)) l.
Proof. induction l as [|x l IH]; [reflexivity|]. cbn. rewrite filter_app, IH. reflexivity. Qed.
Lemma filter_seq_hd p s n : forall x, In x (filter p (seq s n)) -> hd 0 (filter p (seq s n)) <= x /\ In (hd 0 (filter p (seq s n))) (filter p (seq s n)).
Proof.
  revert s. induction n as [|n IH]; intros s x H; [destruct H|]. cbn [seq filter] in *. destruct (p s) eqn:E; cbn [hd].
  - split; [|left; reflexivity]. destruct H as [<-|H]; [lia|]. apply filter_In in H. destruct H as [H _]. apply in_seq in H. lia.
  - apply IH. exact H.
Qed.
Lemma filter_seq_last p s n : forall x, In x (filter p (seq s n)) -> x <= last (filter p (seq s n)) 0 /\ In (last (filter p (seq s n)) 0) (filter p (seq s n)).
Proof.
  revert s. induction n as [|n IH]; intros s x H; [destruct H|]. rewrite seq_S in *. rewrite filter_app in *. cbn [filter] in *. destruct (p (s + n)) eqn:E.
  - rewrite last_last. split; [|apply in_or_app; right; left; reflexivity]. apply in_app_or in H. destruct H as [H|[<-|[]]]; [|lia]. apply filter_In in H. destruct H as [H _]. apply in_seq in H. lia.
  - rewrite app_nil_r in *. apply IH. exact H.
Qed.
Definition extent (p : nat -> bool) (n : nat) : nat * nat := (hd 0 (filter p (seq 0 n)), last (filter p (seq 0 n)) 0 + 1).
Lemma extent_inside p n a : a < n -> p a = true -> inside a (extent p n) = true.
Proof.
  intros Ha Hp. assert (H : In a (filter p (seq 0 n))) by (apply filter_In; split; [apply in_seq; lia|exact Hp]).
  apply inside_iff. unfold extent. cbn [fst snd]. destruct (filter_seq_hd p 0 n a H) as [H1 _]. destruct (filter_seq_last p 0 n a H) as [H2 _]. lia.
Qed.
Lemma extent_ends p n a : a < n -> p a = true -> p (fst (extent p n)) = true /\ p (snd (extent p n) - 1) = true /\ snd (extent p n) <= n /\ 0 < snd (extent p n).
Proof.
  intros Ha Hp. assert (H : In a (filter p (seq 0 n))) by (apply filter_In; split; [apply in_seq; lia|exact Hp]).
  unfold extent. cbn [fst snd]. destruct (filter_seq_hd p 0 n a H) as [_ H1]. destruct (filter_seq_last p 0 n a H) as [_ H2]. apply filter_In in H1, H2. rewrite Nat.add_sub. destruct H1 as [_ H1], H2 as [H3 H2]. apply in_seq in H3. split; [exact H1|]. split; [exact H2|]. lia.
Qed.
Lemma extent_convex p n a : (forall x y z, x < y -> y < z -> z < n -> p x = true -> p z = true -> p y = true) -> (exists x, x < n /\ p x = true) ->
  inside a (extent p n) = true -> p a = true.
Proof.
  intros C (x & Hx & Px) Hi. apply inside_iff in Hi. destruct (extent_ends p n x Hx Px) as (E1 & E2 & E3 & E4). destruct (extent p n) as [lo hi]. cbn [fst snd] in *.
  destruct (Nat.eq_dec a lo) as [->|N1]; [exact E1|]. destruct (Nat.eq_dec a (hi - 1)) as [->|N2]; [exact E2|]. apply (C lo a (hi - 1)); try assumption; lia.
Qed.

(** ** Slices of a degree *)
Lemma ell_slices g (G : nat -> nat -> Z * Z) nr nc x : groupset_slices (g, 1) G nr nc (None, Some x) =
  flat_map (fun b => if existsb (fun a => (x =? snd (G a b))%Z) (seq 0 nr) then [(extent (fun a => (x =? snd (G a b))%Z) nr, (b, b + 1))] else []) (seq 0 nc).
Proof.
  unfold groupset_slices. cbn [fst snd subslices flat_map]. rewrite app_nil_r. replace (Blocks_Model.cdiv nc 1) with nc by (pose proof (cdiv_mul 1 nc ltac:(lia)) as E; rewrite Nat.mul_1_l in E; auto).
  rewrite !flat_map_concat_map, map_map. f_equal. apply map_ext_in. intros b Hb. apply in_seq in Hb. cbn [within]. replace (seq (1 * b) (Nat.min (1 * b + 1) nc - 1 * b)) with [b] by (replace (Nat.min (1 * b + 1) nc - 1 * b) with 1 by lia; cbn; f_equal; lia).
  assert (E : forall l, filter (fun a => existsb (fun b0 => matches None (fst (G a b0)) && matches (Some x) (snd (G a b0))) [b]) l = filter (fun a => (x =? snd (G a b))%Z) l).
  { intros l. apply filter_ext. intros a. cbn. rewrite orb_false_r. reflexivity. }
  rewrite E. unfold extent. cbn [bounds]. destruct (existsb (fun a => (x =? snd (G a b))%Z) (seq 0 nr)) eqn:X.
  - destruct (filter (fun a => (x =? snd (G a b))%Z) (seq 0 nr)) as [|u l] eqn:F; [|repeat f_equal; lia]. exfalso. apply existsb_exists in X. destruct X as (a & H1 & H2). assert (In a []) by (rewrite <- F; apply filter_In; split; assumption). contradiction.
  - rewrite filter_nil; [reflexivity|]. intros a Ha. destruct (x =? snd (G a b))%Z eqn:Y; [|reflexivity]. exfalso. rewrite <- not_true_iff_false in X. apply X. apply existsb_exists. exists a. split; assumption.
Qed.
Section Table.
Context (d : dtype) (Nphi Ntheta c0 n j0 nc : nat).
Notation G := (fun a b => coeff_group d Nphi Ntheta (coeff_chunk d * c0 + a) (j0 + b)).
Notation R := (coeff_chunk d * n).
Notation sel x b := (fun a => (x =? degree d Nphi Ntheta c0 j0 a b)%Z).
Definition ell_entry (x : Z) (b : nat) : ell_map := (x, extent (sel x b) R, (b, b + 1)).
Lemma covering a b : a < R -> b < nc ->
  filter (fun e => covers e a b) (ell_maps d Nphi Ntheta c0 n j0 nc) =
  flat_map (fun x => if existsb (sel x b) (seq 0 R) && inside a (extent (sel x b) R) then [ell_entry x b] else []) (local_groupsets snd G R nc).
Proof.
  intros Ha Hb. unfold ell_maps. rewrite filter_flat_map. rewrite !flat_map_concat_map. f_equal. apply map_ext. intros x. rewrite ell_slices. fold (degree d Nphi Ntheta c0 j0).
  rewrite !flat_map_concat_map, concat_map, map_map, <- flat_map_concat_map, filter_flat_map.
  rewrite (flat_map_single _ _ b); [|apply seq_NoDup|apply in_seq; lia|].
  - change (fun a0 => (x =? snd (coeff_group d Nphi Ntheta (coeff_chunk d * c0 + a0) (j0 + b)))%Z) with (sel x b).
    destruct (existsb (sel x b) (seq 0 R)); [|reflexivity]. cbn [map filter andb]. unfold covers at 1. cbn [fst snd]. replace (inside b (b, b + 1)) with true by (symmetry; apply inside_iff; cbn; lia). rewrite andb_true_r. reflexivity.
  - intros y Hy N. destruct (existsb _ (seq 0 R)); [|reflexivity]. cbn [map filter]. unfold covers at 1. cbn [fst snd]. replace (inside b (y, y + 1)) with false; [rewrite andb_false_r; reflexivity|]. symmetry. apply not_true_iff_false. rewrite inside_iff. cbn. lia.
Qed.
Lemma degree_listed a b : a < R -> b < nc -> In (degree d Nphi Ntheta c0 j0 a b) (local_groupsets snd G R nc).
Proof.
  intros Ha Hb. apply ordered_set_in. apply in_flat_map. exists a. split; [apply in_seq; lia|]. apply in_map_iff. exists b. split; [reflexivity|apply in_seq; lia].
Qed.
(** The column is well separated. *)
Definition convex (b : nat) : Prop := forall x y z, x < y -> y < z -> z < R -> degree d Nphi Ntheta c0 j0 x b = degree d Nphi Ntheta c0 j0 z b -> degree d Nphi Ntheta c0 j0 y b = degree d Nphi Ntheta c0 j0 x b.
Lemma covering_one a b : a < R -> b < nc -> convex b -> filter (fun e => covers e a b) (ell_maps d Nphi Ntheta c0 n j0 nc) = [ell_entry (degree d Nphi Ntheta c0 j0 a b) b].
Proof.
  intros Ha Hb C. rewrite covering by assumption. rewrite (flat_map_single _ _ (degree d Nphi Ntheta c0 j0 a b)).
  - replace (existsb _ (seq 0 R)) with true by (symmetry; apply existsb_exists; exists a; split; [apply in_seq; lia|apply Z.eqb_refl]). rewrite extent_inside by (try assumption; apply Z.eqb_refl). reflexivity.
  - apply ordered_set_nodup.
  - apply degree_listed; assumption.
  - intros x Hx N. destruct (existsb (sel x b) (seq 0 R)) eqn:X; [|reflexivity]. destruct (inside a (extent (sel x b) R)) eqn:Y; [|reflexivity]. exfalso. apply N. apply existsb_exists in X. destruct X as (u & U1 & U2). apply in_seq in U1.
    apply Z.eqb_eq. apply (extent_convex (sel x b) R a); [|exists u; split; [lia|exact U2]|exact Y]. intros p q r H1 H2 H3 E1 E2. apply Z.eqb_eq in E1, E2. apply Z.eqb_eq. rewrite (C p q r) by (try assumption; lia). exact E1.
Qed.
Lemma covering_many a b x : a < R -> b < nc -> inside a (extent (sel x b) R) = true -> (exists u, u < R /\ degree d Nphi Ntheta c0 j0 u b = x) ->
  In (ell_entry x b) (filter (fun e => covers e a b) (ell_maps d Nphi Ntheta c0 n j0 nc)).
Proof.
  intros Ha Hb Hi (u & Hu & E). rewrite covering by assumption. apply in_flat_map. exists x. split; [rewrite <- E; apply degree_listed; assumption|]. replace (existsb _ (seq 0 R)) with true; [rewrite Hi; left; reflexivity|]. symmetry. apply existsb_exists. exists u. split; [apply in_seq; lia|]. apply Z.eqb_eq. symmetry. exact E.
Qed.
End Table.

(** ** Degrees of a column *)
Definition ell_at (L sh c j : nat) : Z :=
  if c =? 0 then if j <=? L then Z.of_nat j else (Z.of_nat j - Z.of_nat sh)%Z else if j <? c + sh then (Z.of_nat L - Z.of_nat j)%Z else (Z.of_nat j - Z.of_nat sh)%Z.
Lemma ell_at_canon d Nphi Ntheta c j : snd (canon d Nphi Ntheta c j) = ell_at (Lmax d Ntheta) (offset d Nphi Ntheta) c j.
Proof. unfold canon, ell_at. destruct (c =? 0), (j <=? Lmax d Ntheta), (j <? c + offset d Nphi Ntheta); reflexivity. Qed.
Lemma ell_at_convex L sh c1 c c2 j : c1 < c -> c < c2 -> (L < j -> c2 + sh <= j) -> ell_at L sh c1 j = ell_at L sh c2 j -> ell_at L sh c j = ell_at L sh c1 j \/ (c1 = 0 /\ 2 * j = L /\ 0 < sh /\ sh < j /\ j - sh + 1 <= c2).
Proof.
  unfold ell_at. intros H1 H2 HL. destruct (Nat.eqb_spec c1 0), (Nat.eqb_spec c 0), (Nat.eqb_spec c2 0); try lia; destruct (Nat.leb_spec j L), (Nat.ltb_spec j (c + sh)), (Nat.ltb_spec j (c2 + sh)); try lia; destruct (Nat.ltb_spec j (c1 + sh)); lia.
Qed.
Lemma offset_value d Nphi Ntheta : 2 < Nphi -> Nphi <= 2 * Ntheta -> offset d Nphi Ntheta = Ntheta - Nphi / 2 /\ (0 < offset d Nphi Ntheta -> Nphi < 2 * Ntheta).
Proof.
  intros H1 H2. unfold offset. replace (Nphi <=? 2) with false by (symmetry; apply Nat.leb_gt; lia). pose proof (Nat.div_mod Nphi 2 ltac:(lia)). pose proof (Nat.mod_upper_bound Nphi 2 ltac:(lia)). destruct d; cbn [Lmax]; lia.
Qed.
Lemma offset_small d Nphi Ntheta : Nphi <= 2 -> offset d Nphi Ntheta = 0.
Proof. intros H. unfold offset. apply Nat.leb_le in H. rewrite H. reflexivity. Qed.
Lemma high_columns d Nphi Ntheta c j : good_resolution d Nphi -> 0 < Ntheta -> Nphi <= 2 * Ntheta -> c < pieces d Nphi -> j < columns d Nphi Ntheta -> Lmax d Ntheta < j -> c + offset d Nphi Ntheta <= j.
Proof.
  intros Hg H0 HN Hc Hj HL. rewrite columns_offset in Hj. unfold pieces in Hc. destruct (Nat.leb_spec Nphi 2) as [H|H]; [rewrite offset_small in * by exact H; lia|].
  destruct (good_big _ _ Hg H) as (h & E & Hh & E2 & _). unfold offset in *. replace (Nphi <=? 2) with false in * by (symmetry; apply Nat.leb_gt; lia). rewrite E2 in *. destruct d; cbn [parts Lmax] in *.
  - lia.
  - assert (Nphi / 4 = h) by (rewrite E; replace (2 * 2 * h) with (h * 4) by lia; apply Nat.div_mul; lia). lia.
Qed.
Lemma degree_value d Nphi Ntheta c0 n j0 nc a b : good_resolution d Nphi -> c0 + n <= pieces d Nphi -> j0 + nc <= columns d Nphi Ntheta -> a < coeff_chunk d * n -> b < nc ->
  degree d Nphi Ntheta c0 j0 a b = ell_at (Lmax d Ntheta) (offset d Nphi Ntheta) (c0 + a / parts d) (j0 + b).
Proof.
  intros Hg Hc Hj Ha Hb. unfold degree. rewrite coeff_chunk_parts in *. pose proof (parts_pos d) as HP. rewrite coeff_group_canon; [|exact Hg| |lia].
  - rewrite ell_at_canon, local_row by exact HP. reflexivity.
  - apply Nat.lt_le_trans with (parts d * c0 + parts d * n); [apply Nat.add_lt_mono_l; exact Ha|]. rewrite <- Nat.mul_add_distr_l. apply Nat.mul_le_mono_l. exact Hc.
Qed.
Lemma column_convex d Nphi Ntheta c0 n j0 nc b : good_resolution d Nphi -> 0 < Ntheta -> Nphi <= 2 * Ntheta -> c0 + n <= pieces d Nphi -> j0 + nc <= columns d Nphi Ntheta -> b < nc ->
  ~ straddled d Nphi Ntheta c0 n j0 nc -> convex d Nphi Ntheta c0 n j0 b.
Proof.
  intros Hg H0 HN Hc Hj Hb NS x y z Hxy Hyz Hz. pose proof (parts_pos d) as HP. rewrite !(degree_value d Nphi Ntheta c0 n j0 nc) by (try assumption; lia). intros E.
  assert (Hx1 : x / parts d <= y / parts d) by (apply Nat.div_le_mono; lia). assert (Hy1 : y / parts d <= z / parts d) by (apply Nat.div_le_mono; lia).
  assert (Hz1 : z / parts d < n) by (apply Nat.div_lt_upper_bound; [lia|]; rewrite <- coeff_chunk_parts; exact Hz).
  destruct (Nat.eq_dec (x / parts d) (y / parts d)) as [->|N1]; [reflexivity|]. destruct (Nat.eq_dec (y / parts d) (z / parts d)) as [->|N2]; [symmetry; exact E|].
  revert Hx1 Hy1 Hz1 N1 N2 E. generalize (x / parts d) (y / parts d) (z / parts d). clear x y z Hxy Hyz Hz. intros x y z Hx Hy Hz N1 N2 E.
  destruct (ell_at_convex (Lmax d Ntheta) (offset d Nphi Ntheta) (c0 + x) (c0 + y) (c0 + z) (j0 + b)) as [H|H]; try lia; try assumption.
  - intros HL. apply high_columns; try assumption; lia.
  - exfalso. apply NS. destruct H as (H1 & H2 & H3 & H4 & H5). assert (H6 : 2 < Nphi). { destruct (le_lt_dec Nphi 2) as [H6|H6]; [|exact H6]. rewrite offset_small in H3 by exact H6. lia. }
    destruct (offset_value d Nphi Ntheta H6 HN) as [O1 O2]. rewrite O1 in *. split; [lia|]. exists (j0 + b). rewrite <- Lmax_top. lia.
Qed.
Lemma column_straddled d Nphi Ntheta c0 n j0 nc : good_resolution d Nphi -> 0 < Ntheta -> Nphi <= 2 * Ntheta -> c0 + n <= pieces d Nphi -> j0 + nc <= columns d Nphi Ntheta ->
  straddled d Nphi Ntheta c0 n j0 nc -> exists a b x, a < coeff_chunk d * n /\ b < nc /\ x <> degree d Nphi Ntheta c0 j0 a b
    /\ inside a (extent (fun a => (x =? degree d Nphi Ntheta c0 j0 a b)%Z) (coeff_chunk d * n)) = true /\ exists u, u < coeff_chunk d * n /\ degree d Nphi Ntheta c0 j0 u b = x.
Proof.
  intros Hg H0 HN Hc Hj (-> & j & Hj1 & Hj2 & Hp & Hs & Hj3 & Hj4). pose proof (parts_pos d) as HP. destruct (offset_value d Nphi Ntheta Hp HN) as [O1 _]. rewrite <- O1 in Hj3, Hj4.
  assert (HO : 0 < offset d Nphi Ntheta). { rewrite O1. pose proof (Nat.div_mod Nphi 2 ltac:(lia)). lia. }
  assert (Hn : forall c, c < n -> parts d * c < coeff_chunk d * n) by (intros c Hcn; change (coeff_chunk d) with (parts d); exact (proj1 (Nat.mul_lt_mono_pos_l _ _ _ HP) Hcn)).
  assert (V : forall c, c < n -> degree d Nphi Ntheta 0 j0 (parts d * c) (j - j0) = ell_at (Lmax d Ntheta) (offset d Nphi Ntheta) c j).
  { intros c Hcn. rewrite (degree_value d Nphi Ntheta 0 n j0 nc) by (try assumption; try lia; auto). rewrite Nat.add_0_l, (Nat.mul_comm (parts d) c), Nat.div_mul by lia. f_equal. lia. }
  rewrite <- Lmax_top in Hj2. set (c2 := j - offset d Nphi Ntheta + 1) in *.
  exists (parts d * 1), (j - j0), (Z.of_nat j). split; [apply Hn; lia|]. split; [lia|].
  assert (V1 : ell_at (Lmax d Ntheta) (offset d Nphi Ntheta) 1 j <> Z.of_nat j). { unfold ell_at. cbn [Nat.eqb]. destruct (Nat.ltb_spec j (1 + offset d Nphi Ntheta)); lia. }
  assert (V2 : ell_at (Lmax d Ntheta) (offset d Nphi Ntheta) c2 j = Z.of_nat j). { unfold ell_at. destruct (Nat.eqb_spec c2 0); [lia|]. destruct (Nat.ltb_spec j (c2 + offset d Nphi Ntheta)); lia. }
  assert (V0 : ell_at (Lmax d Ntheta) (offset d Nphi Ntheta) 0 j = Z.of_nat j). { unfold ell_at. cbn [Nat.eqb]. destruct (Nat.leb_spec j (Lmax d Ntheta)); lia. }
  split; [rewrite V by lia; intros X; apply V1; symmetry; exact X|]. split.
  - apply inside_iff.
    assert (I0 := extent_inside (fun a => (Z.of_nat j =? degree d Nphi Ntheta 0 j0 a (j - j0))%Z) (coeff_chunk d * n) (parts d * 0) ltac:(apply Hn; lia)).
    assert (I2 := extent_inside (fun a => (Z.of_nat j =? degree d Nphi Ntheta 0 j0 a (j - j0))%Z) (coeff_chunk d * n) (parts d * c2) ltac:(apply Hn; lia)).
    cbv beta in I0, I2. rewrite V, V0 in I0 by lia. rewrite V, V2 in I2 by lia. specialize (I0 (Z.eqb_refl _)). specialize (I2 (Z.eqb_refl _)). apply inside_iff in I0, I2.
    assert (parts d * 1 <= parts d * c2) by (apply Nat.mul_le_mono_l; lia). lia.
  - exists (parts d * 0). split; [apply Hn; lia|]. rewrite V by lia. exact V0.
Qed.

(** ** Loops *)
Lemma filter_single {A} (p : A -> bool) l e : filter p l = [e] -> exists l1 l2, l = l1 ++ e :: l2 /\ p e = true /\ (forall x, In x l1 -> p x = false) /\ (forall x, In x l2 -> p x = false).
Proof.
  induction l as [|y l IH]; [discriminate|]. cbn. destruct (p y) eqn:E; intros H.
  - injection H as -> H. exists [], l. split; [reflexivity|]. split; [exact E|]. split; [intros x []|]. intros x Hx. destruct (p x) eqn:X; [|reflexivity]. exfalso. assert (In x (filter p l)) by (apply filter_In; split; assumption). rewrite H in H0. exact H0.
  - destruct (IH H) as (l1 & l2 & -> & H1 & H2 & H3). exists (y :: l1), l2. split; [reflexivity|]. split; [exact H1|]. split; [|exact H3]. intros x [<-|Hx]; [exact E|apply H2; exact Hx].
Qed.
Lemma fold_keep {S E T V} (step : S -> E -> S) (obs : S -> T -> V) l : (forall s e, In e l -> forall t, obs (step s e) t = obs s t) -> forall s t, obs (fold_left step l s) t = obs s t.
Proof.
  induction l as [|e l IH]; intros H s t; [reflexivity|]. cbn [fold_left]. rewrite IH by (intros s' e' He'; apply H; right; exact He'). apply H. left. reflexivity.
Qed.
Lemma fold_once {S E T V} (p : E -> bool) (step : S -> E -> S) (obs : S -> T -> V) l e : filter p l = [e] -> (forall s e', p e' = false -> forall t, obs (step s e') t = obs s t) ->
  forall s, exists s', (forall t, obs s' t = obs s t) /\ forall t, obs (fold_left step l s) t = obs (step s' e) t.
Proof.
  intros H K s. destruct (filter_single _ _ _ H) as (l1 & l2 & -> & _ & H1 & H2). exists (fold_left step l1 s). split.
  - intros t. apply fold_keep. intros s' e' He'. apply K. apply H1. exact He'.
  - intros t. rewrite fold_left_app. cbn [fold_left]. apply fold_keep. intros s' e' He'. apply K. apply H2. exact He'.
Qed.
Section Fields.
Context {K : Type} (k0 k1 : K) (kadd kmul ksub kdiv : K -> K -> K) (kopp kinv : K -> K).
Context (Hf : field_theory k0 k1 kadd kmul ksub kopp kdiv kinv eq).
Add Field Kell : Hf.
Notation total := (CSR_Spec.total k0 kadd).
Notation total_ext := (MatSolvers_Proofs.total_ext k0 k1 kadd kmul ksub kdiv kopp kinv Hf).
Definition contribution (nmin : Z -> nat) (Nr : nat) (allowed : component -> Z -> bool) (A : component -> component -> Z -> nat -> nat -> K) (x : component -> @data K) (ell : Z) (a b : nat) (rin r : component) (k : nat) : K :=
  if (allowed rin ell && allowed r ell) && ((nmin ell <=? k) && (k <? Nr)) then total (Nr - nmin ell) (fun q => kmul (A rin r ell (k - nmin ell) q) (x rin a b (nmin ell + q))) else k0.
Lemma same_iff i j : same i j = true <-> i = j.
Proof. unfold same. destruct (list_eq_dec Nat.eq_dec i j); split; congruence. Qed.
Lemma ell_loop nmin Nr allowed A x rin rout a b maps e (out : component -> @data K) r k : filter (fun e => covers e a b) maps = [e] ->
  fold_left (ell_step k0 kadd kmul nmin Nr allowed A x rin rout) maps out r a b k = if same r rout then kadd (out r a b k) (contribution nmin Nr allowed A x (fst (fst e)) a b rin r k) else out r a b k.
Proof.
  intros H. destruct (filter_single _ _ _ H) as (_ & _ & _ & He & _ & _). cbv beta in He.
  destruct (fold_once (fun e => covers e a b) (ell_step k0 kadd kmul nmin Nr allowed A x rin rout) (fun (s : component -> @data K) (t : component * nat) => s (fst t) a b (snd t)) maps e H) with (s := out) as (s' & E1 & E2).
  { intros s e' He' t. unfold ell_step. destruct (_ && _); [|reflexivity]. rewrite He', andb_false_r. reflexivity. }
  specialize (E2 (r, k)). specialize (E1 (r, k)). cbn [fst snd] in E1, E2. rewrite E2. unfold ell_step, contribution. rewrite <- E1. destruct (same r rout) eqn:Er.
  - apply same_iff in Er. subst rout. destruct (allowed rin (fst (fst e)) && allowed r (fst (fst e))); cbn [andb]; [|ring]. replace (same r r) with true by (symmetry; apply same_iff; reflexivity). rewrite He. cbn [andb]. destruct (_ && _); [reflexivity|ring].
  - destruct (_ && _); [|reflexivity]. rewrite Er. reflexivity.
Qed.
Lemma out_loop nmin Nr allowed A x rin a b maps e r k outs : filter (fun e => covers e a b) maps = [e] -> NoDup outs -> forall out : component -> @data K,
  fold_left (fun out rout => fold_left (ell_step k0 kadd kmul nmin Nr allowed A x rin rout) maps out) outs out r a b k
  = kadd (out r a b k) (if existsb (same r) outs then contribution nmin Nr allowed A x (fst (fst e)) a b rin r k else k0).
Proof.
  intros H N. induction N as [|rout outs Hn N IH]; intros out; cbn [fold_left existsb]; [ring|]. rewrite IH, (ell_loop nmin Nr allowed A x rin rout a b maps e) by exact H. destruct (same r rout) eqn:E; cbn [orb]; [|reflexivity].
  apply same_iff in E. subst rout. replace (existsb (same r) outs) with false; [ring|]. symmetry. apply not_true_iff_false. intros X. apply existsb_exists in X. destruct X as (y & Y1 & Y2). apply same_iff in Y2. subst y. contradiction.
Qed.
Lemma operate_value nmin Nr allowed A x a b maps e r k outs components : filter (fun e => covers e a b) maps = [e] -> (forall rin, In rin components -> NoDup (outs rin)) ->
  operate k0 kadd kmul nmin Nr allowed A components outs maps x r a b k
  = fold_right kadd k0 (map (fun rin => if existsb (same r) (outs rin) then contribution nmin Nr allowed A x (fst (fst e)) a b rin r k else k0) components).
Proof.
  intros H N. unfold operate. assert (G : forall out : component -> @data K, fold_left (fun out rin => fold_left (fun out rout => fold_left (ell_step k0 kadd kmul nmin Nr allowed A x rin rout) maps out) (outs rin) out) components out r a b k
    = kadd (out r a b k) (fold_right kadd k0 (map (fun rin => if existsb (same r) (outs rin) then contribution nmin Nr allowed A x (fst (fst e)) a b rin r k else k0) components))).
  { induction components as [|c cs IH]; intros out; cbn [fold_left map fold_right]; [ring|]. rewrite IH by (intros rin Hr; apply N; right; exact Hr). rewrite (out_loop nmin Nr allowed A x c a b maps e) by (try exact H; apply N; left; reflexivity). ring. }
  rewrite G. ring.
Qed.
Lemma recombine_value q M a b maps e (x : nat -> @data K) i t : filter (fun e => covers e a b) maps = [e] ->
  fold_left (recombine_step k0 kadd kmul q M) maps x i a b t = total q (fun k => kmul (M (fst (fst e)) i k) (x k a b t)).
Proof.
  intros H. destruct (filter_single _ _ _ H) as (_ & _ & _ & He & _ & _). cbv beta in He.
  destruct (fold_once (fun e => covers e a b) (recombine_step k0 kadd kmul q M) (fun (s : nat -> @data K) (u : nat * nat) => s (fst u) a b (snd u)) maps e H) with (s := x) as (s' & E1 & E2).
  { intros s e' He' u. unfold recombine_step. rewrite He'. reflexivity. }
  specialize (E2 (i, t)). cbn [fst snd] in E2. rewrite E2. unfold recombine_step. rewrite He. apply total_ext. intros k _. specialize (E1 (k, t)). cbn [fst snd] in E1. rewrite E1. reflexivity.
Qed.
End Fields.
