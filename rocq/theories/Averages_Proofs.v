(** Proofs about averages. *)
From Coq Require Import List Arith Bool ZArith Reals Lia Lra.
From Coquelicot Require Import Coquelicot.
Import ListNotations.
From Verif Require Import CSR_Spec Radial_Model Sphere_Model Sphere_Spec Sphere_Proofs Sphere_Props SphereEll_Model SphereEll_Spec SphereEll_Proofs Polar_Model Polar_Spec Polar_Proofs Integrals_Spec Integrals_Proofs Averages_Model Averages_Spec.
From Verif Require Import Codomain_Proofs JacobiCalc_Proofs JacobiCalc_Ops.
From Verif Require Blocks_Model Integrals_Model.
Local Open Scope nat_scope.

(** ** Shares *)
Lemma cdiv_pos n P : 0 < n -> 0 < P -> 0 < Blocks_Model.cdiv n P.
Proof. intros Hn HP. unfold Blocks_Model.cdiv. apply Nat.div_str_pos. lia. Qed.
Lemma cdiv_mono n n' P : 0 < P -> n <= n' -> Blocks_Model.cdiv n P <= Blocks_Model.cdiv n' P.
Proof. intros HP H. unfold Blocks_Model.cdiv. apply Nat.div_le_mono; lia. Qed.
Lemma share_bound n P p : fst (share n P p) + snd (share n P p) <= n.
Proof. unfold share. cbn [fst snd]. lia. Qed.
Lemma share_first n P : 0 < n -> 0 < P -> fst (share n P 0) = 0 /\ 0 < snd (share n P 0).
Proof. intros Hn HP. pose proof (cdiv_pos n P Hn HP). unfold share. cbn [fst snd]. nia. Qed.
Lemma share_later n P p : 0 < n -> 0 < P -> 0 < p -> 0 < fst (share n P p).
Proof. intros Hn HP Hp. pose proof (cdiv_pos n P Hn HP). unfold share. cbn [fst]. nia. Qed.
Lemma share_one P p : 0 < P -> share 1 P p = if p =? 0 then (0, 1) else (1, 0).
Proof.
  intros HP. unfold share. replace (Blocks_Model.cdiv 1 P) with 1; [|unfold Blocks_Model.cdiv; replace (1 + P - 1) with (1 * P) by lia; rewrite Nat.div_mul by lia; reflexivity].
  destruct (Nat.eqb_spec p 0) as [->|H]; [reflexivity|]. f_equal; lia.
Qed.

(** ** Copies through masks *)
Lemma flat_map_filter {A B} (p : B -> bool) (f : A -> list B) l : filter p (flat_map f l) = flat_map (fun x => filter p (f x)) l.
Proof. apply filter_flat_map. Qed.
Lemma seq_prefix {B} (f : nat -> list B) n n0 : n0 <= n -> (forall x, n0 <= x < n -> f x = []) -> flat_map f (seq 0 n) = flat_map f (seq 0 n0).
Proof.
  intros Hn Hf. replace n with (n0 + (n - n0)) by lia. rewrite seq_app, flat_map_app. rewrite (Parallel_Proofs.flat_map_nil _ (seq (0 + n0) (n - n0))); [apply app_nil_r|].
  intros x Hx. apply in_seq in Hx. apply Hf. lia.
Qed.
Lemma flat_map_same {A B} (f g : A -> list B) l : (forall x, In x l -> f x = g x) -> flat_map f l = flat_map g l.
Proof. induction l as [|x l IH]; intros H; [reflexivity|]. cbn. rewrite (H x) by (left; reflexivity). rewrite IH; [reflexivity|]. intros y Hy. apply H. right. exact Hy. Qed.
Lemma filter_map_all {A B} (p : B -> bool) (f : A -> B) l (v : bool) : (forall x, p (f x) = v) -> filter p (map f l) = if v then map f l else [].
Proof. intros H. induction l as [|x l IH]; [destruct v; reflexivity|]. cbn [map filter]. rewrite H, IH. destruct v; reflexivity. Qed.
Definition block_places (R C K : nat) : list (nat * nat * nat) := flat_map (fun a => flat_map (fun b => map (fun k => (a, b, k)) (seq 0 K)) (seq 0 C)) (seq 0 R).
Lemma zero_places_block order nr nc nk R C : R <= nr -> C <= nc -> (forall a b, a < nr -> b < nc -> order a b = 0%Z <-> a < R /\ b < C) -> zero_places order nr nc nk = block_places R C nk.
Proof.
  intros HR HC H. unfold zero_places, block_places. rewrite flat_map_filter.
  assert (E : forall a, a < nr -> filter (fun p : nat * nat * nat => let '(a, b, _) := p in (order a b =? 0)%Z) (flat_map (fun b => map (fun k => (a, b, k)) (seq 0 nk)) (seq 0 nc)) = if a <? R then flat_map (fun b => map (fun k => (a, b, k)) (seq 0 nk)) (seq 0 C) else []).
  { intros a Ha. rewrite flat_map_filter. rewrite (flat_map_same _ (fun b => if (a <? R) && (b <? C) then map (fun k => (a, b, k)) (seq 0 nk) else [])).
    - destruct (Nat.ltb_spec a R) as [Hr|Hr]; cbn [andb]; [|apply Parallel_Proofs.flat_map_nil; reflexivity]. rewrite (seq_prefix _ nc C HC) by (intros b Hb; destruct (Nat.ltb_spec b C); [lia|reflexivity]).
      apply flat_map_same. intros b Hb. apply in_seq in Hb. destruct (Nat.ltb_spec b C); [reflexivity|lia].
    - intros b Hb. apply in_seq in Hb. rewrite (filter_map_all _ _ _ ((a <? R) && (b <? C))); [reflexivity|]. intros k. specialize (H a b Ha ltac:(lia)).
      destruct (Z.eqb_spec (order a b) 0) as [E|E]; destruct (Nat.ltb_spec a R), (Nat.ltb_spec b C); cbn [andb]; try reflexivity; try (apply H in E; lia); try (exfalso; apply E; apply H; lia). }
  rewrite (flat_map_same _ (fun a => if a <? R then flat_map (fun b => map (fun k => (a, b, k)) (seq 0 nk)) (seq 0 C) else [])) by (intros a Ha; apply in_seq in Ha; apply E; lia).
  rewrite (seq_prefix _ nr R HR) by (intros a Ha; destruct (Nat.ltb_spec a R); [lia|reflexivity]). apply flat_map_same. intros a Ha. apply in_seq in Ha. destruct (Nat.ltb_spec a R); [reflexivity|lia].
Qed.
Lemma block_in R C K a b k : In (a, b, k) (block_places R C K) <-> a < R /\ b < C /\ k < K.
Proof.
  unfold block_places. rewrite in_flat_map. split.
  - intros (x & Hx & H). apply in_flat_map in H. destruct H as (y & Hy & H). apply in_map_iff in H. destruct H as (z & E & Hz). injection E as -> -> ->. apply in_seq in Hx, Hy, Hz. lia.
  - intros (Ha & Hb & Hk). exists a. split; [apply in_seq; lia|]. apply in_flat_map. exists b. split; [apply in_seq; lia|]. apply in_map. apply in_seq. lia.
Qed.
Lemma flat_map_const {A B} (f : A -> list B) l n : (forall x, In x l -> length (f x) = n) -> length (flat_map f l) = length l * n.
Proof. induction l as [|x l IH]; intros H; [reflexivity|]. cbn [flat_map]. rewrite app_length, (H x) by (left; reflexivity). rewrite IH; [cbn [length]; lia|]. intros y Hy. apply H. right. exact Hy. Qed.
Lemma block_length R C K : length (block_places R C K) = R * (C * K).
Proof.
  unfold block_places. rewrite (flat_map_const _ _ (C * K)); [rewrite seq_length; reflexivity|]. intros a _. rewrite (flat_map_const _ _ K); [rewrite seq_length; reflexivity|]. intros b _. rewrite map_length, seq_length. reflexivity.
Qed.
Lemma same_place_iff p q : same_place p q = true <-> p = q.
Proof. destruct p as [[a b] k], q as [[a' b'] k']. cbn. rewrite !andb_true_iff, !Nat.eqb_eq. split; [intros ((-> & ->) & ->); reflexivity|]. intros E. injection E as -> -> ->. auto. Qed.
Lemma place_index_nth p l : In p l -> exists q, place_index p l = Some q /\ q < length l /\ nth q l (0, 0, 0) = p.
Proof.
  induction l as [|x l IH]; intros H; [destruct H|]. cbn [place_index]. destruct (same_place p x) eqn:E.
  - apply same_place_iff in E. subst. exists 0. cbn. split; [reflexivity|]. split; [lia|reflexivity].
  - destruct H as [->|H]; [exfalso; rewrite (proj2 (same_place_iff p p) eq_refl) in E; discriminate|]. destruct (IH H) as (q & E1 & E2 & E3). exists (S q). rewrite E1. cbn. split; [reflexivity|]. split; [lia|exact E3].
Qed.
Lemma masked_copy_same l x : exists out, masked_copy l l x = Some out /\ forall a b k, In (a, b, k) l -> out a b k = x a b k.
Proof.
  unfold masked_copy. rewrite Nat.eqb_refl. cbn [orb]. eexists. split; [reflexivity|]. intros a b k H. destruct (place_index_nth _ _ H) as (q & E1 & E2 & E3). cbv beta. rewrite E1.
  replace (if length l =? 1 then 0 else q) with q by (destruct (Nat.eqb_spec (length l) 1); lia). rewrite E3. reflexivity.
Qed.

(** ** Orders of coefficients *)
Section Orders.
Context (d : dtype) (Nphi Ntheta : nat) (Hg : good_resolution d Nphi).
Lemma zero_order i j : i < fst (coeff_shape d Nphi Ntheta) -> j < columns d Nphi Ntheta -> fst (coeff_group d Nphi Ntheta i j) = 0%Z <-> i < parts d /\ j < top_degree d Ntheta + 1.
Proof.
  intros Hi Hj. rewrite coeff_shape_rows in Hi by exact Hg. pose proof (parts_pos d) as HP. assert (Hc : i / parts d < pieces d Nphi) by (apply Nat.div_lt_upper_bound; lia).
  rewrite coeff_group_canon by assumption. rewrite canon_order, half_order_zero; [|exact Hg|exact Hc|apply half_at_ok; assumption].
  rewrite <- Lmax_top. unfold half_at. split.
  - intros [E1 E2]. rewrite E1 in E2. cbn [Nat.eqb] in E2. apply Nat.div_small_iff in E1; [|lia]. destruct (Nat.leb_spec j (Lmax d Ntheta)); [lia|discriminate].
  - intros [H1 H2]. rewrite Nat.div_small by exact H1. cbn [Nat.eqb]. split; [reflexivity|]. destruct (Nat.leb_spec j (Lmax d Ntheta)); [reflexivity|lia].
Qed.
Lemma zero_group i j : i < parts d -> i < fst (coeff_shape d Nphi Ntheta) -> j < top_degree d Ntheta + 1 -> coeff_group d Nphi Ntheta i j = (0%Z, Z.of_nat j).
Proof.
  intros Hi Hr Hj. rewrite coeff_shape_rows in Hr by exact Hg. rewrite coeff_group_canon; [|exact Hg|exact Hr|rewrite columns_offset, Lmax_top; lia]. rewrite Nat.div_small by exact Hi. unfold canon. cbn [Nat.eqb]. rewrite Lmax_top.
  destruct (Nat.leb_spec j (top_degree d Ntheta)); [reflexivity|lia].
Qed.
Lemma pieces_pos : 0 < pieces d Nphi.
Proof. unfold pieces. destruct (Nat.leb_spec Nphi 2) as [H|H]; [lia|]. destruct (good_big _ _ Hg H) as (h & E & H0 & E2 & _). subst Nphi. destruct d; cbn [parts] in *; [rewrite E2; lia|]. replace (2 * 2 * h) with (h * 4) by lia. rewrite Nat.div_mul by lia. exact H0. Qed.
Lemma chunks_pieces : coeff_chunks d Nphi Ntheta = pieces d Nphi.
Proof. unfold coeff_chunks. rewrite coeff_shape_rows by exact Hg. replace (coeff_chunk d) with (parts d) by (destruct d; reflexivity). apply cdiv_mul. apply parts_pos. Qed.
End Orders.
Lemma good_one d : good_resolution d 1. Proof. split; [lia|left; reflexivity]. Qed.
Lemma columns_one d Ntheta : columns d 1 Ntheta = top_degree d Ntheta + 1.
Proof. rewrite columns_offset. change (Lmax d Ntheta) with (top_degree d Ntheta). unfold offset. cbn [Nat.leb]. lia. Qed.
Lemma columns_least d Nphi Ntheta : top_degree d Ntheta + 1 <= columns d Nphi Ntheta.
Proof. rewrite columns_offset. change (Lmax d Ntheta) with (top_degree d Ntheta). lia. Qed.

(** ** Places of order zero *)
Section Places.
Context (d : dtype) (Nphi : nat) (Hg : good_resolution d Nphi) (P p Q q : nat) (HP : 0 < P) (HQ : 0 < Q).
Notation R0 := (if p =? 0 then parts d else 0).
Lemma first_rows n : 0 < n -> let (c0, m) := share n P p in forall h, parts d <= h -> R0 <= h * m /\ forall a, h * c0 + a < parts d <-> a < R0.
Proof.
  intros Hn. pose proof (share_first n P Hn HP) as S1. pose proof (share_later n P p Hn HP) as S2. pose proof (parts_pos d) as Hp. destruct (Nat.eqb_spec p 0) as [E|E].
  - rewrite E. destruct (share n P 0) as [c0 m]. cbn [fst snd] in S1. destruct S1 as [-> S1]. intros h Hh. split; [nia|]. intros a. lia.
  - destruct (share n P p) as [c0 m]. cbn [fst snd] in S2. specialize (S2 ltac:(lia)). intros h Hh. split; [lia|]. intros a. nia.
Qed.
Lemma coeff_places Ntheta nk : let (c0, n) := share (coeff_chunks d Nphi Ntheta) P p in let (j0, nc) := share (snd (coeff_shape d Nphi Ntheta)) Q q in
  zero_places (fun a b => fst (coeff_group d Nphi Ntheta (coeff_chunk d * c0 + a) (j0 + b))) (coeff_chunk d * n) nc nk = block_places R0 (Nat.min nc (top_degree d Ntheta + 1 - j0)) nk.
Proof.
  pose proof (chunks_pieces d Nphi Ntheta Hg) as EC. pose proof (first_rows (coeff_chunks d Nphi Ntheta) ltac:(rewrite EC; apply pieces_pos; exact Hg)) as F. pose proof (share_bound (coeff_chunks d Nphi Ntheta) P p) as B.
  destruct (share (coeff_chunks d Nphi Ntheta) P p) as [c0 n]. cbn [fst snd] in B. pose proof (share_bound (snd (coeff_shape d Nphi Ntheta)) Q q) as B2. destruct (share (snd (coeff_shape d Nphi Ntheta)) Q q) as [j0 nc]. cbn [fst snd] in B2.
  replace (coeff_chunk d) with (parts d) by (destruct d; reflexivity). destruct (F (parts d) ltac:(lia)) as [F1 F2]. rewrite EC in B.
  apply zero_places_block; [exact F1|lia|]. intros a b Ha Hb. rewrite zero_order; [|exact Hg|rewrite coeff_shape_rows by exact Hg; nia|unfold columns; lia]. rewrite F2. lia.
Qed.
End Places.

(** ** Loops over tables *)
Lemma fold_filter {S E} (step : option S -> E -> option S) (f : E -> bool) l : (forall e, step None e = None) -> (forall e o, In e l -> f e = false -> step (Some o) e = Some o) ->
  forall o, fold_left step l (Some o) = fold_left step (filter f l) (Some o).
Proof.
  intros HN H. assert (HN' : forall l, fold_left step l None = None) by (clear H l; induction l as [|e l IH]; [reflexivity|]; cbn; rewrite HN; exact IH).
  induction l as [|e l IH]; intros o; [reflexivity|]. cbn [fold_left filter]. assert (IH' := IH (fun e' o' H' => H e' o' (or_intror H'))). destruct (f e) eqn:Ef; cbn [fold_left].
  - destruct (step (Some o) e) as [o'|]; [apply IH'|rewrite !HN'; reflexivity].
  - rewrite (H e o (or_introl eq_refl) Ef). apply IH'.
Qed.
Lemma later_entries d Nphi Ntheta c0 n j0 nc : good_resolution d Nphi -> 0 < Ntheta -> Nphi <= 2 * Ntheta -> c0 + n <= pieces d Nphi -> j0 + nc <= columns d Nphi Ntheta ->
  forall ell ms es, In (ell, ms, es) (ell_maps d Nphi Ntheta c0 n j0 nc) -> ell <> 0%Z -> c0 = 0 -> j0 = 0 -> parts d <= fst ms \/ 1 <= fst es.
Proof.
  intros Hg Ht HN Hc Hj ell ms es Hi Hl E0 F0. unfold ell_maps in Hi. apply in_flat_map in Hi. destruct Hi as (x & Hx & Hi). apply in_map_iff in Hi. destruct Hi as ([ms' es'] & E & Hi). cbn [fst snd] in E. injection E as -> -> ->.
  rewrite ell_slices in Hi. apply in_flat_map in Hi. destruct Hi as (b & Hb & Hi). destruct (existsb _ _) eqn:X; [|destruct Hi]. destruct Hi as [E|[]]. injection E as <- <-. cbn [fst]. destruct b as [|b]; [|right; lia]. left.
  apply existsb_exists in X. destruct X as (a & Ha & X). apply in_seq in Ha, Hb.
  match goal with |- context [extent ?s ?r] => destruct (extent_ends s r a ltac:(lia) X) as (X1 & _ & _ & _); pose proof (extent_inside s r a ltac:(lia) X) as X5 end. apply inside_iff in X5. apply Z.eqb_eq in X1.
  match goal with |- _ <= ?f => set (y := f) in * end. destruct (Nat.le_gt_cases (parts d) y) as [H|H]; [exact H|]. exfalso. apply Hl. rewrite X1. apply (local_zero d Nphi Ntheta Hg Ht HN c0 n j0 nc Hc Hj y 0); lia.
Qed.
