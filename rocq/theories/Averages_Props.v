(** Averages over azimuth and over spheres are means of the functions that coefficients stand for. *)
From Coq Require Import List Arith Bool ZArith Reals Lia Lra.
From Coquelicot Require Import Coquelicot.
Import ListNotations.
From Verif Require Import CSR_Spec Radial_Model Radial_Spec Sphere_Model Sphere_Spec Sphere_Proofs Sphere_Props SphereEll_Model SphereEll_Spec SphereEll_Proofs Polar_Model Polar_Spec Polar_Proofs Polar_Props Integrals_Spec Integrals_Proofs Averages_Model Averages_Spec Averages_Proofs.
From Verif Require Import Codomain_Proofs JacobiCalc_Proofs JacobiCalc_Ops.
From Verif Require Blocks_Model Integrals_Model.
Local Open Scope nat_scope.

Lemma chunks_one d Ntheta : coeff_chunks d 1 Ntheta = 1. Proof. rewrite chunks_pieces by apply good_one. reflexivity. Qed.
Lemma aligned_columns W M Q q : M <= W -> 0 < M -> q < Q -> Q = 1 \/ M = 1 \/ Blocks_Model.cdiv W Q = Blocks_Model.cdiv M Q ->
  let (j0, nc) := share W Q q in let (j1, nc1) := share M Q q in Nat.min nc (M - j0) = nc1 /\ (0 < nc1 -> j0 = j1) /\ j1 + nc1 <= M.
Proof.
  intros HW HM Hq H. unfold share. assert (Hp := cdiv_pos W Q ltac:(lia) ltac:(lia)). assert (Hp' := cdiv_pos M Q ltac:(lia) ltac:(lia)).
  set (B := Blocks_Model.cdiv W Q) in *. set (B' := Blocks_Model.cdiv M Q) in *. rewrite !Nat.mul_add_distr_l, !Nat.mul_1_r.
  destruct H as [->|[E|E]].
  - assert (B = W) by (unfold B, Blocks_Model.cdiv; rewrite Nat.div_1_r; lia). assert (B' = M) by (unfold B', Blocks_Model.cdiv; rewrite Nat.div_1_r; lia). assert (q = 0) as -> by lia. lia.
  - assert (B' = 1) by (unfold B', Blocks_Model.cdiv; rewrite E; replace (1 + Q - 1) with (1 * Q) by lia; rewrite Nat.div_mul; lia). destruct q as [|q]; [lia|]. assert (1 <= B * S q) by nia. lia.
  - rewrite E in *. lia.
Qed.

(** On every process the average over azimuth has the coefficients of the field, those of order zero ... *)
Theorem azimuthal_average_value d Nphi Ntheta nk P p Q q C : good_resolution d Nphi -> 0 < P -> q < Q -> aligned d Nphi Ntheta Q ->
  let (c0, n) := share (pieces d Nphi) P p in let (j0, nc) := share (columns d Nphi Ntheta) Q q in let (c1, n1) := share (pieces d 1) P p in let (j1, nc1) := share (columns d 1 Ntheta) Q q in
  exists out, azimuthal_average d Nphi Ntheta nk P p Q q (from C (parts d * c0) j0) = Some out /\ agree (parts d * n1) nc1 nk out (from C (parts d * c1) j1).
Proof.
  intros Hg HP Hq Ha. pose proof (coeff_places d Nphi Hg P p Q q HP ltac:(lia) Ntheta nk) as S1. pose proof (coeff_places d 1 (good_one d) P p Q q HP ltac:(lia) Ntheta nk) as S2. unfold azimuthal_average. change (pieces d 1) with 1.
  fold (columns d Nphi Ntheta) in S1. fold (columns d Nphi Ntheta). fold (columns d 1 Ntheta) in S2. fold (columns d 1 Ntheta). rewrite columns_one in *. rewrite (chunks_pieces d Nphi Ntheta Hg) in *. rewrite chunks_one in *.
  assert (HA := aligned_columns (columns d Nphi Ntheta) (top_degree d Ntheta + 1) Q q (columns_least d Nphi Ntheta) ltac:(lia) Hq ltac:(unfold aligned in Ha; lia)).
  pose proof (share_first (pieces d Nphi) P (pieces_pos d Nphi Hg) HP) as F1. rewrite (share_one P p HP) in *. destruct (share (pieces d Nphi) P p) as [c0 n] eqn:Es, (share (columns d Nphi Ntheta) Q q) as [j0 nc], (share (top_degree d Ntheta + 1) Q q) as [j1 nc1].
  destruct HA as (A1 & A2 & A3). rewrite S1. destruct (Nat.eqb_spec p 0) as [E|E].
  - subst p. rewrite Es in F1. cbn [fst snd] in F1. destruct F1 as [-> F1]. rewrite S2. replace (Nat.min nc1 (top_degree d Ntheta + 1 - j1)) with nc1 by lia. rewrite A1.
    destruct (masked_copy_same (block_places (parts d) nc1 nk) (from C (parts d * 0) j0)) as (out & E1 & E2). exists out. split; [exact E1|]. intros a b k H1 H2 H3. rewrite E2 by (apply block_in; lia). unfold from. rewrite A2 by lia. reflexivity.
  - rewrite S2. cbn [block_places seq flat_map]. eexists. split; [reflexivity|]. intros a b k H1. lia.
Qed.
(** ... in particular if there are twice as many points in azimuth as in colatitude, or colatitude is not distributed. *)
Theorem usually_aligned d Nphi Ntheta Q : Q = 1 \/ (2 < Nphi /\ Nphi = 2 * Ntheta) \/ Nphi = 1 -> aligned d Nphi Ntheta Q.
Proof.
  intros [H|[[H H']|H]]; [left; exact H| |].
  - right. right. replace (columns d Nphi Ntheta) with (top_degree d Ntheta + 1); [reflexivity|]. rewrite columns_offset. change (Lmax d Ntheta) with (top_degree d Ntheta). destruct (offset_value d Nphi Ntheta H ltac:(lia)) as [E _]. rewrite E. subst Nphi. replace (2 * Ntheta / 2) with Ntheta by (rewrite Nat.mul_comm, Nat.div_mul; lia). lia.
  - right. right. subst. rewrite columns_one. reflexivity.
Qed.
(** Otherwise it fails on the first process. *)
Theorem azimuthal_average_refuted d Nphi Ntheta nk P Q x : good_resolution d Nphi -> 0 < P -> 0 < Q -> 0 < nk -> ~ aligned d Nphi Ntheta Q -> azimuthal_average d Nphi Ntheta nk P 0 Q 0 x = None.
Proof.
  intros Hg HP HQ Hk Ha. pose proof (coeff_places d Nphi Hg P 0 Q 0 HP HQ Ntheta nk) as S1. pose proof (coeff_places d 1 (good_one d) P 0 Q 0 HP HQ Ntheta nk) as S2. unfold azimuthal_average.
  fold (columns d Nphi Ntheta) in S1. fold (columns d Nphi Ntheta). fold (columns d 1 Ntheta) in S2. fold (columns d 1 Ntheta). rewrite columns_one in *. cbn [Nat.eqb] in S1, S2. unfold aligned in Ha.
  destruct (share (coeff_chunks d Nphi Ntheta) P 0) as [c0 n], (share (coeff_chunks d 1 Ntheta) P 0) as [c1 n1]. unfold share in *. rewrite !Nat.mul_0_r, !Nat.mul_1_r, !Nat.min_0_r, !Nat.sub_0_r in *. cbn [Nat.add] in *. rewrite ?Nat.mul_1_r in *.
  rewrite S1, S2. unfold masked_copy. rewrite !block_length. pose proof (cdiv_mono _ _ Q HQ (columns_least d Nphi Ntheta)) as M1. pose proof (cdiv_pos (top_degree d Ntheta + 1) Q ltac:(lia) HQ) as M2. pose proof (columns_least d Nphi Ntheta) as M3. pose proof (parts_pos d) as HPP.
  assert (M4 : Blocks_Model.cdiv (top_degree d Ntheta + 1) Q < top_degree d Ntheta + 1) by (unfold Blocks_Model.cdiv; apply Nat.div_lt_upper_bound; nia).
  set (B := Blocks_Model.cdiv (columns d Nphi Ntheta) Q) in *. set (B' := Blocks_Model.cdiv (top_degree d Ntheta + 1) Q) in *. set (T := top_degree d Ntheta + 1) in *. set (W := columns d Nphi Ntheta) in *.
  assert (E1 : exists u, Nat.min (Nat.min W B) T = B' + S u) by (exists (Nat.min (Nat.min W B) T - B' - 1); lia). destruct E1 as (u & E1). replace (Nat.min (Nat.min T B') T) with B' by lia. rewrite E1.
  destruct (Nat.eqb_spec (parts d * ((B' + S u) * nk)) (parts d * (B' * nk))) as [E|_]; [nia|]. destruct (Nat.eqb_spec (parts d * ((B' + S u) * nk)) 1) as [E|_]; [nia|]. reflexivity.
Qed.

(** On disks and annuli. *)
Theorem polar_average_value pl d Nphi Nr Ng P q C : good_resolution d Nphi -> 0 < Nr -> 0 < Ng -> 0 < P ->
  let (c0, n) := share (polar_chunks d Nphi) P q in let (c1, n1) := share 1 P q in
  exists out, polar_azimuthal_average pl d Nphi Nr Ng P q (fun a b => C (parts d * c0 + a) b) = Some out /\ forall a b, a < parts d * n1 -> b < Nr -> out a b = C (parts d * c1 + a) b.
Proof.
  intros Hg HNr HNg HP. unfold polar_azimuthal_average. pose proof (parts_pos d) as HPP. replace (polar_chunks d 1) with 1 by (destruct d; reflexivity).
  assert (HC : 0 < polar_chunks d Nphi). { unfold polar_chunks. apply cdiv_pos; [|destruct d; cbn; lia]. destruct Hg as [H0 _]. unfold polar_rows. destruct d; [lia|destruct (1 <? Nphi); lia]. }
  pose proof (share_first _ P HC HP) as F. rewrite (share_one P q HP). destruct (share (polar_chunks d Nphi) P q) as [c0 n] eqn:Es. destruct (Nat.eqb_spec q 0) as [->|Hq].
  - rewrite Es in F. cbn [fst snd] in F. destruct F as [-> F]. rewrite (polar_maps_entries pl d 1 Nr Ng 0 1 (good_one d) ltac:(lia) HNg ltac:(reflexivity)).
    + cbn [obind seq map fold_left]. unfold average_step, polar_entry. cbn [obind]. rewrite order_zero, Nat.sub_0_r, !Nat.mul_0_r. cbn [Nat.add]. change (polar_chunk d) with (parts d). unfold clipped. cbn [fst snd].
      replace (first_degree pl 0) with 0 by (destruct pl; reflexivity). replace (Integrals_Model.n_size (nmin pl 0) Nr) with Nr by (unfold Integrals_Model.n_size; destruct pl; cbn; lia). replace (Nat.min (parts d) (parts d * n) - 0) with (parts d) by nia. replace (Nat.min (parts d) (parts d * 1) - 0) with (parts d) by lia. replace (Nat.min Nr Nr - 0) with Nr by lia.
      destruct (Nat.eqb_spec (parts d * Nr) 0) as [E|_]; [nia|]. cbn [orb]. cbn [Z.eqb]. rewrite !Nat.eqb_refl. cbn [andb orb]. eexists. split; [reflexivity|]. intros a b Ha Hb. cbv beta. assert (E1 : inside a (0, parts d) = true) by (apply inside_iff; cbn; lia). assert (E2 : inside b (0, Nr) = true) by (apply inside_iff; cbn; lia). rewrite E1, E2. cbn [andb fst].
      rewrite Rplus_0_l. cbn [Nat.add]. f_equal. destruct (Nat.eqb_spec (parts d) 1); lia.
    + intros r Hr. assert (r = 0) as -> by lia. rewrite order_zero. destruct pl; cbn; lia.
  - assert (E : polar_maps pl d 1 Nr Ng 1 0 = Some []) by (apply (polar_maps_entries pl d 1 Nr Ng 1 0 (good_one d) ltac:(lia) HNg ltac:(reflexivity)); intros r Hr; lia). rewrite E. cbn [obind fold_left]. eexists. split; [reflexivity|]. intros a b Ha. lia.
Qed.

(** Averages over spheres keep the coefficients of degree zero, in balls and shells ... *)
Theorem spherical_average_value d nmin Nphi Ntheta Nr P p Q q C : good_resolution d Nphi -> 0 < Ntheta -> Nphi <= 2 * Ntheta -> 0 < Nr -> 0 < P -> 0 < Q -> nmin 0%Z = 0 ->
  let (c0, n) := share (pieces d Nphi) P p in let (j0, nc) := share (columns d Nphi Ntheta) Q q in let (c1, n1) := share (pieces d 1) P p in let (j1, nc1) := share (columns d 1 1) Q q in
  exists out, spherical_average d nmin Nphi Ntheta Nr P p Q q (from C (parts d * c0) j0) = Some out /\ agree (parts d * n1) nc1 Nr out (from C (parts d * c1) j1).
Proof.
  intros Hg Ht HN HNr HP HQ Hm. unfold spherical_average. fold (columns d Nphi Ntheta). fold (columns d 1 1). change (pieces d 1) with 1. rewrite (chunks_pieces d Nphi Ntheta Hg), chunks_one, columns_one. replace (top_degree d 1 + 1) with 1 by (destruct d; reflexivity).
  pose proof (parts_pos d) as HPP. replace (coeff_chunk d) with (parts d) by (destruct d; reflexivity).
  pose proof (share_first (pieces d Nphi) P (pieces_pos d Nphi Hg) HP) as F1. pose proof (share_bound (pieces d Nphi) P p) as B1. pose proof (columns_least d Nphi Ntheta) as HL. pose proof (share_first (columns d Nphi Ntheta) Q ltac:(lia) HQ) as F2. pose proof (share_bound (columns d Nphi Ntheta) Q q) as B2.
  rewrite (share_one P p HP), (share_one Q q HQ). destruct (share (pieces d Nphi) P p) as [c0 n] eqn:E1, (share (columns d Nphi Ntheta) Q q) as [j0 nc] eqn:E2. cbn [fst snd] in B1, B2.
  assert (SK : forall R1 C1 R2 C2 (x : nat -> nat -> nat -> R) ell ms es o, clipped ms R2 * clipped es C2 = 0 -> spherical_step nmin Nr R1 C1 R2 C2 x (Some o) (ell, ms, es) = Some o).
  { intros R1 C1 R2 C2 x ell ms es o H. unfold spherical_step. cbn [obind]. rewrite H. cbn [Nat.mul Nat.eqb]. rewrite orb_true_r. reflexivity. }
  destruct (Nat.eqb_spec p 0) as [Hp|Hp]; [destruct (Nat.eqb_spec q 0) as [Hq|Hq]|].
  - subst p q. rewrite E1 in F1. rewrite E2 in F2. cbn [fst snd] in F1, F2. destruct F1 as [-> F1], F2 as [-> F2]. rewrite (fold_filter _ (fun e : ell_map => (fst (fst e) =? 0)%Z)); [|reflexivity|].
    + rewrite (zero_entries d Nphi Ntheta Hg Ht HN 0 n 0 nc B1 B2). cbn [Nat.eqb andb]. replace (0 <? n) with true by (symmetry; apply Nat.ltb_lt; exact F1). replace (0 <? nc) with true by (symmetry; apply Nat.ltb_lt; exact F2). cbn [andb fold_left].
      unfold spherical_step. cbn [obind]. unfold clipped. cbn [fst snd]. rewrite Hm, !Nat.sub_0_r. replace (Nat.min (parts d) (parts d * n)) with (parts d) by nia. replace (Nat.min (parts d) (parts d * 1)) with (parts d) by lia. replace (Nat.min 1 nc) with 1 by lia. cbn [Nat.min].
      destruct (Nat.eqb_spec (parts d * 1 * Nr) 0) as [E|_]; [nia|]. cbn [orb Z.eqb]. rewrite !Nat.eqb_refl. cbn [andb]. eexists. split; [reflexivity|]. intros a b k Ha Hb Hk. cbv beta.
      assert (X1 : inside a (0, parts d) = true) by (apply inside_iff; cbn; lia). assert (X2 : inside b (0, 1) = true) by (apply inside_iff; cbn; lia). rewrite X1, X2. cbn [andb Nat.leb]. replace (k <? Nr) with true by (symmetry; apply Nat.ltb_lt; exact Hk). apply Rplus_0_l.
    + intros [[ell ms] es] o He Hf. cbn [fst] in Hf. apply Z.eqb_neq in Hf. apply SK. destruct (later_entries d Nphi Ntheta 0 n 0 nc Hg Ht HN B1 B2 ell ms es He Hf eq_refl eq_refl) as [H|H]; unfold clipped; [replace (Nat.min (snd ms) (parts d * 1) - fst ms) with 0 by lia; reflexivity|replace (Nat.min (snd es) 1 - fst es) with 0 by lia; apply Nat.mul_0_r].
  - rewrite (fold_filter _ (fun _ => false)); [|reflexivity|intros [[ell ms] es] o _ _; apply SK; unfold clipped; rewrite Nat.min_0_r; apply Nat.mul_0_r]. rewrite filter_nil by reflexivity. cbn [fold_left]. eexists. split; [reflexivity|]. intros a b k _ Hb. lia.
  - destruct (if q =? 0 then (0, 1) else (1, 0)) as [j1 nc1]. rewrite Nat.mul_0_r. rewrite (fold_filter _ (fun _ => false)); [|reflexivity|intros [[ell ms] es] o _ _; apply SK; unfold clipped; rewrite Nat.min_0_r; reflexivity]. rewrite filter_nil by reflexivity. cbn [fold_left]. eexists. split; [reflexivity|]. intros a b k Ha. lia.
Qed.
(** ... and for scalars on spheres. *)
Theorem sphere_average_value d Nphi Ntheta P p Q q (C : nat -> nat -> R) : good_resolution d Nphi -> 0 < Ntheta -> Nphi <= 2 * Ntheta -> 0 < P -> 0 < Q ->
  let (c0, n) := share (pieces d Nphi) P p in let (j0, nc) := share (columns d Nphi Ntheta) Q q in let (c1, n1) := share (pieces d 1) P p in let (j1, nc1) := share (columns d 1 1) Q q in
  exists out, sphere_average None d Nphi Ntheta P p Q q (fun _ a b => C (parts d * c0 + a) (j0 + b)) = Some out /\ forall a b, a < parts d * n1 -> b < nc1 -> out 0 a b = C (parts d * c1 + a) (j1 + b).
Proof.
  intros Hg Ht HN HP HQ. unfold sphere_average. fold (columns d Nphi Ntheta). fold (columns d 1 1). change (pieces d 1) with 1. rewrite (chunks_pieces d Nphi Ntheta Hg), chunks_one, columns_one. replace (top_degree d 1 + 1) with 1 by (destruct d; reflexivity).
  pose proof (parts_pos d) as HPP. replace (coeff_chunk d) with (parts d) by (destruct d; reflexivity).
  pose proof (share_first (pieces d Nphi) P (pieces_pos d Nphi Hg) HP) as F1. pose proof (share_bound (pieces d Nphi) P p) as B1. pose proof (columns_least d Nphi Ntheta) as HL. pose proof (share_first (columns d Nphi Ntheta) Q ltac:(lia) HQ) as F2. pose proof (share_bound (columns d Nphi Ntheta) Q q) as B2.
  rewrite (share_one P p HP), (share_one Q q HQ). destruct (share (pieces d Nphi) P p) as [c0 n] eqn:E1, (share (columns d Nphi Ntheta) Q q) as [j0 nc] eqn:E2. cbn [fst snd] in B1, B2.
  destruct (Nat.eqb_spec p 0) as [Hp|Hp]; [destruct (Nat.eqb_spec q 0) as [Hq|Hq]|].
  - subst p q. rewrite E1 in F1. rewrite E2 in F2. cbn [fst snd] in F1, F2. destruct F1 as [-> F1], F2 as [-> F2]. unfold local_sphere_average. rewrite !Nat.mul_1_r.
    destruct (Nat.eqb_spec (parts d * n * nc) 0) as [E|_]; [nia|]. destruct (Nat.eqb_spec (parts d) 0) as [E|_]; [lia|]. cbn [orb app length Nat.add].
    replace (Nat.min (parts d * n) (parts d)) with (parts d) by nia. replace (Nat.min nc 1) with 1 by lia.
    set (eq := (parts d * n =? parts d) && (nc =? 1)). assert (X : (if eq then (parts d * n, nc) else (parts d, 1)) = (parts d, 1) /\ cut (if eq then [] else [parts d; 1]) [parts d * n; nc] = [parts d; 1] /\ cut (if eq then [] else [parts d; 1]) [parts d; 1] = [parts d; 1]).
    { destruct eq eqn:Ee; cbn [cut]; [apply andb_true_iff in Ee; rewrite !Nat.eqb_eq in Ee; destruct Ee as [-> ->]; auto|]. replace (Nat.min (parts d) (parts d * n)) with (parts d) by nia. replace (Nat.min 1 nc) with 1 by lia. rewrite Nat.min_id. auto. }
    destruct X as (-> & -> & ->). cbn [seq fold_left obind Nat.ltb Nat.leb nth]. unfold sphere_component, fits, broadcast. cbn [fst snd]. rewrite !Nat.eqb_refl. cbn [andb]. cbn [andb obind]. eexists. split; [reflexivity|]. intros a b Ha Hb. rewrite ?Nat.mul_1_r in Ha. cbn [Nat.eqb].
    assert (b = 0) as -> by lia. replace (a <? parts d) with true by (symmetry; apply Nat.ltb_lt; exact Ha). cbn [Nat.ltb Nat.leb andb]. unfold at_index. cbn [Nat.eqb]. replace (if parts d =? 1 then 0 else a) with a by (destruct (Nat.eqb_spec (parts d) 1); lia). rewrite !Nat.mul_0_r. cbn [Nat.add].
    rewrite zero_group; [|exact Hg|exact Ha|rewrite coeff_shape_rows by exact Hg; pose proof (pieces_pos d Nphi Hg); nia|lia]. cbn [snd]. change (Z.of_nat 0 =? 0)%Z with true. cbv iota. ring.
  - unfold local_sphere_average. rewrite Nat.mul_0_r. cbn [Nat.eqb]. rewrite orb_true_r. eexists. split; [reflexivity|]. intros a b _ Hb. lia.
  - destruct (if q =? 0 then (0, 1) else (1, 0)) as [j1 nc1]. unfold local_sphere_average. rewrite Nat.mul_0_r, Nat.mul_0_l. cbn [Nat.eqb]. rewrite orb_true_r. eexists. split; [reflexivity|]. intros a b Ha. lia.
Qed.
(** Tensors on spheres are not averaged: the slices for rows and columns are taken of components. *)
Theorem sphere_tensor_average_refuted comps d Nphi Ntheta P Q x : good_resolution d Nphi -> 0 < comps -> 0 < P -> 1 < snd (share (columns d Nphi Ntheta) Q 0) -> sphere_average (Some comps) d Nphi Ntheta P 0 Q 0 x = None.
Proof.
  intros Hg Hc HP HW. assert (HQ : 0 < Q) by (destruct Q; [unfold share, Blocks_Model.cdiv in HW; cbn in HW; lia|lia]). unfold sphere_average. fold (columns d Nphi Ntheta). fold (columns d 1 1). rewrite (chunks_pieces d Nphi Ntheta Hg), chunks_one, columns_one. replace (top_degree d 1 + 1) with 1 by (destruct d; reflexivity).
  pose proof (share_first (pieces d Nphi) P (pieces_pos d Nphi Hg) HP) as F1. rewrite (share_one P 0 HP), (share_one Q 0 HQ). cbn [Nat.eqb]. destruct (share (pieces d Nphi) P 0) as [c0 n], (share (columns d Nphi Ntheta) Q 0) as [j0 nc]. cbn [fst snd] in *. destruct F1 as [-> F1].
  unfold local_sphere_average. replace (coeff_chunk d) with (parts d) by (destruct d; reflexivity). pose proof (parts_pos d) as HPP. rewrite !Nat.mul_1_r. destruct (Nat.eqb_spec (parts d * n * nc) 0) as [E|_]; [nia|]. destruct (Nat.eqb_spec (parts d) 0) as [E|_]; [lia|]. cbn [orb].
  destruct (Nat.eqb_spec nc 1) as [E|_]; [lia|]. rewrite andb_false_r. cbn [app cut length Nat.add nth]. replace (Nat.min (parts d * n) (parts d)) with (parts d) by nia. replace (Nat.min nc 1) with 1 by lia. replace (Nat.min 1 (parts d * n)) with 1 by nia. replace (Nat.min 1 (parts d)) with 1 by lia.
  assert (FN : forall f : option (nat -> nat -> nat -> R) -> nat -> option (nat -> nat -> nat -> R), (forall i, f None i = None) -> forall l, fold_left f l None = None) by (intros f Hf; induction l as [|i l IH]; [reflexivity|]; cbn; rewrite Hf; exact IH).
  destruct comps as [|comps]; [lia|]. cbn [seq fold_left obind]. assert (FI : (0 <? Nat.min (parts d) (S comps)) = true) by (apply Nat.ltb_lt; lia). rewrite FI.
  assert (E : sphere_component (parts d, 1) (fun a b => snd (coeff_group d Nphi Ntheta (parts d * 0 + a) (j0 + b))) (1, nc) (1, 1) (x 0) (fun _ _ => 0%R) = None).
  { unfold sphere_component, fits, broadcast. cbn [fst snd]. destruct (Nat.eqb_spec 1 nc); [lia|]. cbn [Nat.eqb]. destruct (Nat.eqb_spec nc 1); [lia|]. rewrite andb_false_r. reflexivity. }
  cbn [Nat.mul] in E |- *. rewrite E. cbn [obind]. apply FN. reflexivity.
Qed.

(** ** What it means for functions *)
Local Open Scope R_scope.
Notation total := (CSR_Spec.total 0 Rplus).
Lemma two_PI : 2 * PI <> 0. Proof. pose proof PI_RGT_0. lra. Qed.
Lemma mean_of_sum P Q (m : nat -> nat -> Z) (G : nat -> nat -> R) :
  azimuthal_mean (fun phi => total P (fun i => total Q (fun j => wave (m i j) i phi * G i j))) = total P (fun i => total Q (fun j => if (m i j =? 0)%Z && Nat.even i then G i j else 0)).
Proof.
  unfold azimuthal_mean. set (W i j := if (m i j =? 0)%Z && Nat.even i then 2 * PI else 0).
  rewrite (is_value _ 0 (2 * PI) (total P (fun i => total Q (fun j => G i j * W i j)))).
  - unfold Rdiv. rewrite Rmult_comm, <- Rtotal_scale. apply Rtotal_ext. intros i _. rewrite <- Rtotal_scale. apply Rtotal_ext. intros j _. unfold W. destruct ((m i j =? 0)%Z && Nat.even i); [field; apply PI_neq0|ring].
  - apply is_RInt_ext with (fun phi => total P (fun i => total Q (fun j => G i j * wave (m i j) i phi))); [intros phi _; apply Rtotal_ext; intros i _; apply Rtotal_ext; intros j _; ring|].
    apply (total_integral P (fun i phi => total Q (fun j => G i j * wave (m i j) i phi)) (fun i => total Q (fun j => G i j * W i j))). intros i _. apply (total_integral Q (fun j phi => G i j * wave (m i j) i phi) (fun j => G i j * W i j)). intros j _. apply scaled_is, wave_integral.
Qed.
Lemma wave_zero phi : wave 0 0 phi = 1 /\ wave 0 1 phi = 0.
Proof. unfold wave. cbn [Nat.even]. rewrite Rmult_0_l, cos_0, sin_0. split; [reflexivity|apply Ropp_0]. Qed.
Section Orders.
Context (Nphi Ntheta : nat) (Hg : good_resolution Float64 Nphi).
Notation rows := (fst (coeff_shape Float64 Nphi Ntheta)). Notation cols := (snd (coeff_shape Float64 Nphi Ntheta)). Notation degrees := (top_degree Float64 Ntheta + 1)%nat.
Lemma order_place i j : (i < rows)%nat -> (j < cols)%nat -> fst (coeff_group Float64 Nphi Ntheta i j) = 0%Z -> Nat.even i = true -> i = 0%nat /\ (j < degrees)%nat.
Proof.
  intros Hi Hj E Ev. apply zero_order in E; [|exact Hg|exact Hi|exact Hj]. destruct E as [E1 E2]. split; [|exact E2]. cbn [parts] in E1. destruct i as [|[|i]]; [reflexivity|discriminate|lia].
Qed.
Lemma rows_pos : (2 <= rows)%nat. Proof. rewrite coeff_shape_rows by exact Hg. pose proof (pieces_pos _ _ Hg). cbn [parts]. lia. Qed.
Lemma row_group i j : (i < 2)%nat -> (j < degrees)%nat -> coeff_group Float64 Nphi Ntheta i j = (0%Z, Z.of_nat j). Proof. intros Hi Hj. pose proof rows_pos. apply zero_group; [exact Hg|exact Hi|lia|exact Hj]. Qed.
Lemma mean_of_orders (g : Z -> Z -> nat -> nat -> R) :
  azimuthal_mean (fun phi => total rows (fun i => total cols (fun j => let (m, ell) := coeff_group Float64 Nphi Ntheta i j in wave m i phi * g m ell i j))) = total degrees (fun j => g 0%Z (Z.of_nat j) 0%nat j).
Proof.
  transitivity (azimuthal_mean (fun phi => total rows (fun i => total cols (fun j => wave (fst (coeff_group Float64 Nphi Ntheta i j)) i phi * (let (m, ell) := coeff_group Float64 Nphi Ntheta i j in g m ell i j))))).
  { reflexivity. }
  rewrite mean_of_sum. pose proof rows_pos as HP. pose proof (columns_least Float64 Nphi Ntheta) as HC. unfold columns in HC.
  assert (Hoff : forall i j, (i < rows)%nat -> (j < cols)%nat -> ~ (i = 0%nat /\ (j < degrees)%nat) -> (if (fst (coeff_group Float64 Nphi Ntheta i j) =? 0)%Z && Nat.even i then (let (m, ell) := coeff_group Float64 Nphi Ntheta i j in g m ell i j) else 0) = 0).
  { intros i j Hi Hj Hne. destruct (Z.eqb_spec (fst (coeff_group Float64 Nphi Ntheta i j)) 0) as [E|E]; [|reflexivity]. destruct (Nat.even i) eqn:Ev; [|reflexivity]. exfalso. apply Hne, order_place; assumption. }
  rewrite (Rtotal_single rows 0); [|lia|intros i Hi Hne; apply Rtotal_zero; intros j Hj; apply Hoff; [exact Hi|exact Hj|lia]].
  rewrite (Rtotal_more degrees cols); [|exact HC|intros j Hj; apply Hoff; lia]. apply Rtotal_ext. intros j Hj. rewrite row_group by lia. reflexivity.
Qed.
End Orders.
Lemma one_order Ntheta (g : Z -> Z -> nat -> nat -> R) phi :
  total (fst (coeff_shape Float64 1 Ntheta)) (fun i => total (snd (coeff_shape Float64 1 Ntheta)) (fun j => let (m, ell) := coeff_group Float64 1 Ntheta i j in wave m i phi * g m ell i j)) = total (top_degree Float64 Ntheta + 1) (fun j => g 0%Z (Z.of_nat j) 0%nat j).
Proof.
  rewrite coeff_shape_rows by apply good_one. change (snd (coeff_shape Float64 1 Ntheta)) with (columns Float64 1 Ntheta). rewrite columns_one. change (parts Float64 * pieces Float64 1)%nat with 2%nat. rewrite (Rtotal_single 2 0); [|lia|].
  - apply Rtotal_ext. intros j Hj. rewrite row_group by (try apply good_one; lia). rewrite (proj1 (wave_zero phi)). ring.
  - intros i Hi Hne. apply Rtotal_zero. intros j Hj. rewrite row_group by (try apply good_one; lia). replace i with 1%nat by lia. rewrite (proj2 (wave_zero phi)). ring.
Qed.

(** The field with one point in azimuth and the same coefficients is the mean over azimuth: on spheres, ... *)
Theorem sphere_azimuthal_mean Nphi Ntheta Y C x phi : good_resolution Float64 Nphi -> azimuthal_mean (fun phi => sphere_field Nphi Ntheta Y C phi x) = sphere_field 1 Ntheta Y C phi x.
Proof.
  intros Hg. pose proof (mean_of_orders Nphi Ntheta Hg (fun m ell i j => Y m ell x * C i j)) as H1. pose proof (one_order Ntheta (fun m ell i j => Y m ell x * C i j) phi) as H2. cbv beta in H1, H2. rewrite <- H2 in H1.
  unfold sphere_field. etransitivity; [|etransitivity; [exact H1|]].
  - unfold azimuthal_mean. f_equal. apply RInt_ext. intros t _. apply Rtotal_ext. intros i _. apply Rtotal_ext. intros j _. destruct (coeff_group Float64 Nphi Ntheta i j). on_R. ring.
  - apply Rtotal_ext. intros i _. apply Rtotal_ext. intros j _. destruct (coeff_group Float64 1 Ntheta i j). ring.
Qed.
(** ... in balls and shells ... *)
Theorem spherical_azimuthal_mean Nphi Ntheta Nr first Y radial C x r phi : good_resolution Float64 Nphi ->
  azimuthal_mean (fun phi => spherical_field Nphi Ntheta Nr first Y radial C phi x r) = spherical_field 1 Ntheta Nr first Y radial C phi x r.
Proof.
  intros Hg. set (g m ell i j := Y m ell x * series (Nr - first ell) (fun n => C i j (first ell + n)%nat) (radial ell) r). pose proof (mean_of_orders Nphi Ntheta Hg g) as H1. pose proof (one_order Ntheta g phi) as H2. rewrite <- H2 in H1.
  unfold spherical_field. etransitivity; [|etransitivity; [exact H1|]].
  - unfold azimuthal_mean. f_equal. apply RInt_ext. intros t _. apply Rtotal_ext. intros i _. apply Rtotal_ext. intros j _. unfold g. destruct (coeff_group Float64 Nphi Ntheta i j). on_R. ring.
  - apply Rtotal_ext. intros i _. apply Rtotal_ext. intros j _. unfold g. destruct (coeff_group Float64 1 Ntheta i j). ring.
Qed.
(** ... and on disks and annuli. *)
Theorem polar_azimuthal_mean pl Nphi Nr radial C r phi : good_resolution Float64 Nphi -> Nphi <> 2%nat ->
  azimuthal_mean (fun phi => polar_field pl Nphi Nr radial C phi r) = polar_field pl 1 Nr radial C phi r.
Proof.
  intros Hg H2. set (g i := let m := order_in Float64 Nphi 0 i in series (Nr - first_degree pl m) (fun n => C i (first_degree pl m + n)%nat) (radial m) r).
  transitivity (azimuthal_mean (fun phi => total (polar_rows Float64 Nphi) (fun i => total 1 (fun _ => wave (order_in Float64 Nphi 0 i) i phi * g i)))).
  { unfold azimuthal_mean. f_equal. apply RInt_ext. intros t _. apply Rtotal_ext. intros i _. rewrite (Rtotal_single 1 0) by lia. reflexivity. }
  rewrite mean_of_sum. assert (HO : (0 < orders Float64 Nphi)%nat) by (apply (orders_pos Nphi H2 Float64 Nphi Hg)). assert (HP : (0 < polar_rows Float64 Nphi)%nat) by (rewrite orders_rows by assumption; cbn [parts]; lia).
  rewrite (Rtotal_single _ 0); [|exact HP|].
  - rewrite (Rtotal_single 1 0) by lia. rewrite order_in_zero by assumption. cbn [Z.eqb Nat.even andb]. unfold g. rewrite order_in_zero by assumption. unfold polar_field. rewrite orders_rows by (try apply good_one; lia). change (parts Float64 * orders Float64 1)%nat with 2%nat. rewrite (Rtotal_single 2 0); [|lia|].
    + rewrite order_in_zero by (try apply good_one; lia). rewrite (proj1 (wave_zero phi)). cbv zeta. ring.
    + intros i Hi Hne. replace i with 1%nat by lia. change (order_in Float64 1 0 1) with 0%Z. rewrite (proj2 (wave_zero phi)). cbv zeta. ring.
  - intros i Hi Hne. rewrite (Rtotal_single 1 0) by lia. destruct (Z.eqb_spec (order_in Float64 Nphi 0 i) 0) as [E|E]; [|reflexivity]. destruct (Nat.even i) eqn:Ev; [|reflexivity]. exfalso. apply Hne, (row_zero Nphi); assumption.
Qed.

(** The field with one point in both angles is the mean over spheres. *)
Lemma mean_over_spheres Nphi Ntheta (Hg : good_resolution Float64 Nphi) Y (g : Z -> Z -> nat -> nat -> R) : angular Y ->
  spherical_mean (fun phi x => total (fst (coeff_shape Float64 Nphi Ntheta)) (fun i => total (snd (coeff_shape Float64 Nphi Ntheta)) (fun j => let (m, ell) := coeff_group Float64 Nphi Ntheta i j in wave m i phi * Y m ell x * g m ell i j))) = / sqrt 2 * g 0%Z 0%Z 0%nat 0%nat.
Proof.
  intros (Y1 & Y2 & Y3). set (K m ell := RInt (Y m ell) (-1) 1). assert (HK : forall m ell, is_RInt (Y m ell) (-1) 1 (K m ell)) by (intros; apply (RInt_correct (V := R_CompleteNormedModule)); apply Y1).
  transitivity (azimuthal_mean (fun phi => total (fst (coeff_shape Float64 Nphi Ntheta)) (fun i => total (snd (coeff_shape Float64 Nphi Ntheta)) (fun j => let (m, ell) := coeff_group Float64 Nphi Ntheta i j in wave m i phi * (K m ell / 2 * g m ell i j))))).
  - unfold spherical_mean, azimuthal_mean. set (F phi := total (fst (coeff_shape Float64 Nphi Ntheta)) (fun i => total (snd (coeff_shape Float64 Nphi Ntheta)) (fun j => let (m, ell) := coeff_group Float64 Nphi Ntheta i j in wave m i phi * (K m ell / 2 * g m ell i j)))).
    rewrite (RInt_ext _ (fun phi => 2 * F phi)).
    + assert (X : ex_RInt F 0 (2 * PI)).
      { eexists. apply is_RInt_ext with (fun phi => total (fst (coeff_shape Float64 Nphi Ntheta)) (fun i => total (snd (coeff_shape Float64 Nphi Ntheta)) (fun j => (let (m, ell) := coeff_group Float64 Nphi Ntheta i j in K m ell / 2 * g m ell i j) * wave (fst (coeff_group Float64 Nphi Ntheta i j)) i phi))).
        - intros phi _. unfold F. apply Rtotal_ext. intros i _. apply Rtotal_ext. intros j _. destruct (coeff_group Float64 Nphi Ntheta i j). cbn [fst]. on_R. ring.
        - apply (total_integral _ (fun i phi => total (snd (coeff_shape Float64 Nphi Ntheta)) (fun j => (let (m, ell) := coeff_group Float64 Nphi Ntheta i j in K m ell / 2 * g m ell i j) * wave (fst (coeff_group Float64 Nphi Ntheta i j)) i phi))
            (fun i => total (snd (coeff_shape Float64 Nphi Ntheta)) (fun j => (let (m, ell) := coeff_group Float64 Nphi Ntheta i j in K m ell / 2 * g m ell i j) * (if (fst (coeff_group Float64 Nphi Ntheta i j) =? 0)%Z && Nat.even i then 2 * PI else 0)))). intros i _.
          apply (total_integral _ (fun j phi => (let (m, ell) := coeff_group Float64 Nphi Ntheta i j in K m ell / 2 * g m ell i j) * wave (fst (coeff_group Float64 Nphi Ntheta i j)) i phi) (fun j => (let (m, ell) := coeff_group Float64 Nphi Ntheta i j in K m ell / 2 * g m ell i j) * (if (fst (coeff_group Float64 Nphi Ntheta i j) =? 0)%Z && Nat.even i then 2 * PI else 0))). intros j _. apply scaled_is, wave_integral. }
      destruct X as [v X]. rewrite (is_value _ _ _ _ X). rewrite (is_value _ _ _ _ (scaled_is _ 2 _ _ _ X)). field. apply PI_neq0.
    + intros phi _. apply is_value. unfold F. rewrite <- Rtotal_scale.
      apply (total_integral _ (fun i x => total (snd (coeff_shape Float64 Nphi Ntheta)) (fun j => let (m, ell) := coeff_group Float64 Nphi Ntheta i j in wave m i phi * Y m ell x * g m ell i j)) (fun i => 2 * total (snd (coeff_shape Float64 Nphi Ntheta)) (fun j => let (m, ell) := coeff_group Float64 Nphi Ntheta i j in wave m i phi * (K m ell / 2 * g m ell i j)))). intros i _. rewrite <- Rtotal_scale.
      apply (total_integral _ (fun j x => let (m, ell) := coeff_group Float64 Nphi Ntheta i j in wave m i phi * Y m ell x * g m ell i j) (fun j => 2 * (let (m, ell) := coeff_group Float64 Nphi Ntheta i j in wave m i phi * (K m ell / 2 * g m ell i j)))). intros j _. destruct (coeff_group Float64 Nphi Ntheta i j) as [m ell].
      replace (2 * (wave m i phi * (K m ell / 2 * g m ell i j))) with (wave m i phi * g m ell i j * K m ell) by field. apply is_RInt_ext with (fun x => wave m i phi * g m ell i j * Y m ell x); [intros x _; on_R; ring|]. apply scaled_is, HK.
  - rewrite (mean_of_orders Nphi Ntheta Hg (fun m ell i j => K m ell / 2 * g m ell i j)). rewrite (Rtotal_single _ 0); [|lia|].
    + change (Z.of_nat 0) with 0%Z. replace (K 0%Z 0%Z) with (2 / sqrt 2); [field; apply sqrt2_neq_0|]. symmetry. unfold K. apply is_value. apply is_RInt_ext with (fun _ => / sqrt 2); [intros x _; symmetry; apply Y2|]. replace (2 / sqrt 2) with (scal (1 - -1) (/ sqrt 2)) by (unfold scal; cbn; unfold mult; cbn; field; apply sqrt2_neq_0). apply (is_RInt_const (-1) 1 (/ sqrt 2)).
    + intros j Hj Hne. unfold K. rewrite Y3 by lia. field.
Qed.
Theorem sphere_mean Nphi Ntheta Y C phi x : good_resolution Float64 Nphi -> angular Y -> spherical_mean (sphere_field Nphi Ntheta Y C) = sphere_field 1 1 Y C phi x.
Proof.
  intros Hg HY. unfold sphere_field. rewrite (mean_over_spheres Nphi Ntheta Hg Y (fun _ _ i j => C i j) HY). pose proof (one_order 1 (fun m ell i j => Y m ell x * C i j) phi) as H. change (top_degree Float64 1 + 1)%nat with 1%nat in H. rewrite (Rtotal_single 1 0) in H by lia. cbv beta in H.
  change (Z.of_nat 0) with 0%Z in H. rewrite (proj1 (proj2 HY)) in H. rewrite <- H. apply Rtotal_ext. intros i _. apply Rtotal_ext. intros j _. destruct (coeff_group Float64 1 1 i j). ring.
Qed.
Theorem ball_shell_mean Nphi Ntheta Nr first Y radial C r phi x : good_resolution Float64 Nphi -> angular Y ->
  spherical_mean (fun phi x => spherical_field Nphi Ntheta Nr first Y radial C phi x r) = spherical_field 1 1 Nr first Y radial C phi x r.
Proof.
  intros Hg HY. set (g := fun (m : Z) ell i j => series (Nr - first ell) (fun n => C i j (first ell + n)%nat) (radial ell) r). unfold spherical_field. etransitivity; [exact (mean_over_spheres Nphi Ntheta Hg Y g HY)|].
  pose proof (one_order 1 (fun m ell i j => Y m ell x * g m ell i j) phi) as H. change (top_degree Float64 1 + 1)%nat with 1%nat in H. rewrite (Rtotal_single 1 0) in H by lia. cbv beta in H.
  change (Z.of_nat 0) with 0%Z in H. rewrite (proj1 (proj2 HY)) in H. rewrite <- H. apply Rtotal_ext. intros i _. apply Rtotal_ext. intros j _. unfold g. destruct (coeff_group Float64 1 1 i j). ring.
Qed.

(** ** Cases *)
Local Open Scope nat_scope.
(** Distributed over 2 x 2 processes, aligned and not. *)
Example average_case : good_resolution Float64 8 /\ aligned Float64 8 4 2 /\ share (pieces Float64 8) 2 1 = (1, 1) /\ share (columns Float64 8 4) 2 1 = (2, 1) /\ share (columns Float64 1 4) 2 1 = (2, 1).
Proof. repeat split; try (vm_compute; reflexivity); [vm_compute; lia|right; reflexivity|right; right; vm_compute; reflexivity]. Qed.
Example misaligned_case : good_resolution Float64 8 /\ ~ aligned Float64 8 8 2.
Proof. split; [split; [lia|right; reflexivity]|]. unfold aligned. vm_compute. intros [H|[H|H]]; discriminate. Qed.
(** The coefficients [100 i + 10 j + k] of order zero. *)
Definition numbered (i j k : nat) : R := INR (100 * i + 10 * j + k).
Example average_run : exists out, azimuthal_average Float64 8 4 2 2 0 2 1 (from numbered 0 2) = Some out /\ out 0 0 1 = INR 21 /\ out 1 0 0 = INR 120.
Proof. eexists. split; [vm_compute; reflexivity|]. split; vm_compute; reflexivity. Qed.
Example tensor_case : good_resolution Float64 8 /\ 1 < snd (share (columns Float64 8 4) 1 0).
Proof. split; [split; [lia|right; reflexivity]|vm_compute; lia]. Qed.
Example spherical_case : exists out, spherical_average Float64 (fun _ => 0) 8 4 3 2 0 2 0 (from numbered 0 0) = Some out /\ out 0 0 2 = (0 + INR 2)%R /\ out 1 0 0 = (0 + INR 100)%R.
Proof. eexists. split; [vm_compute; reflexivity|]. split; vm_compute; reflexivity. Qed.

Print Assumptions azimuthal_average_value.
Print Assumptions usually_aligned.
Print Assumptions azimuthal_average_refuted.
Print Assumptions polar_average_value.
Print Assumptions spherical_average_value.
Print Assumptions sphere_average_value.
Print Assumptions sphere_tensor_average_refuted.
Print Assumptions sphere_azimuthal_mean.
Print Assumptions spherical_azimuthal_mean.
Print Assumptions polar_azimuthal_mean.
Print Assumptions sphere_mean.
Print Assumptions ball_shell_mean.
