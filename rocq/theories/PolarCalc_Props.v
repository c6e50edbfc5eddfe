(** Vector calculus on disks and annuli is that of the functions that coefficients stand for (C86). *)
From Coq Require Import List ZArith Reals Bool Lia Lra.
From Coquelicot Require Import Coquelicot.
Import ListNotations.
From Verif Require Spin_Spec.
From Verif Require Import JacobiCalc_Spec JacobiCalc_Proofs SphericalVec_Model SphericalVec_Spec SphericalVec_Proofs PolarVec_Model PolarVec_Spec PolarVec_Proofs PolarVec_Props.
From Verif Require Import SphereCalc_Proofs SphereCalc_Props SphericalCalc_Fields PolarCalc_Spec.
Local Open Scope R_scope.

(** The parts are the components that the library gives in coordinates, of which the azimuth is the first (C54). *)
Theorem polar_parts u : Spin_Spec.coordinate_components [Some 0%nat] [2%nat] u [1%nat] = radius_part u [] /\ Spin_Spec.coordinate_components [Some 0%nat] [2%nat] u [0%nat] = azimuth_part u [].
Proof. exact (parts_components u). Qed.
Theorem polar_parts_tensor u : let x := Spin_Spec.coordinate_components [Some 0%nat; Some 0%nat] [2%nat; 2%nat] u in
  x [1%nat; 1%nat] = radius_part (radius_part u) [] /\ x [1%nat; 0%nat] = azimuth_part (radius_part u) [] /\ x [0%nat; 1%nat] = radius_part (azimuth_part u) [] /\ x [0%nat; 0%nat] = azimuth_part (azimuth_part u) [].
Proof. exact (parts_components_tensor u). Qed.

Notation wave m phi := ((cos (IZR m%Z * phi), sin (IZR m%Z * phi)) : C).
Lemma wave_derive m phi (z : C) : has_derivative (fun p => z * wave m p)%C phi (Ci * RtoC (IZR m) * (z * wave m phi))%C.
Proof.
  replace (Ci * RtoC (IZR m) * (z * wave m phi))%C with (z * (Ci * RtoC (IZR m) * wave m phi))%C by ring. apply derivative_times.
  split; unfold Re, Im, Ci, Cmult, RtoC; cbn [fst snd]; auto_derive; trivial; ring.
Qed.
Lemma right_derive f t a (z : C) : has_derivative f t a -> has_derivative (fun q => f q * z)%C t (a * z)%C.
Proof. intros H. rewrite Cmult_comm. apply (derivative_ext (fun q => z * f q)%C); [intros q; apply Cmult_comm|apply derivative_times, H]. Qed.
Lemma csum_times {A} (l : list A) (f : A -> C) z : (z * csum l f)%C = csum l (fun a => z * f a)%C.
Proof. unfold csum. induction l as [|a l IH]; cbn [map fold_right]; [ring|]. rewrite <- IH. ring. Qed.
Lemma csum_plus {A} (l : list A) (f h : A -> C) : (csum l f + csum l h)%C = csum l (fun a => f a + h a)%C.
Proof. unfold csum. induction l as [|a l IH]; cbn [map fold_right]; [ring|]. rewrite <- IH. ring. Qed.
Lemma csum_minus {A} (l : list A) (f h : A -> C) : (csum l f - csum l h)%C = csum l (fun a => f a - h a)%C.
Proof. unfold csum. induction l as [|a l IH]; cbn [map fold_right]; [ring|]. rewrite <- IH. ring. Qed.
Lemma halves : (RtoC (/ sqrt 2) * RtoC (/ sqrt 2) * (RtoC 1 + RtoC 1) = RtoC 1)%C.
Proof. rewrite <- RtoC_plus, <- !RtoC_mult. f_equal. destruct root2 as [S2 R2]. transitivity (2 * / (sqrt 2 * sqrt 2)); [field; exact R2|rewrite S2; field]. Qed.
Lemma ii : (Ci * Ci = - RtoC 1)%C. Proof. apply injective_projections; cbn; ring. Qed.

Section Mass.
Context (mass : R -> R -> R) (Hm : mass_rules mass) (g : flat).
Notation field := (plane mass g).
Notation radial k sig size x i r := (fun m => function_of (size m) (x m i) (flat_modes mass g k (m + spintotal sig i)%Z) r).
Definition slope (k : nat) (sig : list slot) (size : Z -> nat) (x : Z -> vectors) (i : index) (r : R) (m : Z) : C := slope_of (fun q => radial k sig size x i q m) r.
Lemma slope_derive k sig size x i r m e : has_derivative (fun q => radial k sig size x i q m) r e -> slope k sig size x i r m = e.
Proof. intros D. exact (slope_unique _ _ _ D). Qed.
Lemma radial_derive k sig size ms x i phi r : fit g k -> (forall m, In m ms -> (1 <= size m)%nat) -> component_of sig i -> 0 < r ->
  has_derivative (fun q => field k sig size ms x i phi q) r (csum ms (fun m => slope k sig size x i r m * wave m phi)%C).
Proof.
  intros Hp He Hi Hr. unfold plane. apply (csum_derive ms (fun q m => radial k sig size x i q m * wave m phi)%C (fun m => slope k sig size x i r m * wave m phi)%C). intros m Hmm. apply (right_derive (fun q => radial k sig size x i q m)).
  destruct (polar_gradient mass Hm g (size m) m k sig (x m) (He m Hmm) Hp) as (u & _ & H). destruct (H i Hi r Hr) as (e & D & _). rewrite (slope_derive k sig size x i r m e D). exact D.
Qed.
Lemma azimuth_derive k sig size ms x i phi r : has_derivative (fun p => field k sig size ms x i p r) phi (csum ms (fun m => Ci * RtoC (IZR m) * (radial k sig size x i r m * wave m phi))%C).
Proof. unfold plane. apply (csum_derive ms (fun p m => radial k sig size x i r m * wave m p)%C). intros m _. apply wave_derive. Qed.

(** ** Gradients *)
Theorem plane_gradient k sig size ms x u i phi r : fit g k -> each_order ms size (fun N m => pgradient g k N m sig) x u -> component_of sig i -> 0 < r ->
  let T := field k sig size ms x i in let G j := field (S k) (polar :: sig) size ms u j phi r in
  exists er ep, has_derivative (fun q => T phi q) r er /\ has_derivative (fun p => T p r) phi ep
  /\ (radius_part G i = er /\ azimuth_part G i = (ep + Ci * RtoC (IZR (spintotal sig i)) * T phi r) / RtoC r)%C.
Proof.
  intros Hp He Hi Hr T G. assert (Nr : r <> 0) by lra. eexists. eexists. split; [apply (radial_derive k sig size ms x i phi r Hp); [intros m Hmm; apply (He m Hmm)|exact Hi|exact Hr]|]. split; [apply azimuth_derive|].
  assert (V : forall m, In m ms -> let f := radial k sig size x i r m in let e := slope k sig size x i r m in let l := (m + spintotal sig i)%Z in
    radial (S k) (polar :: sig) size u (0%nat :: i) r m = (RtoC (/ sqrt 2) * (e + RtoC (IZR l / r) * f))%C /\ radial (S k) (polar :: sig) size u (1%nat :: i) r m = (RtoC (/ sqrt 2) * (e - RtoC (IZR l / r) * f))%C).
  { intros m Hmm f e l. destruct (He m Hmm) as [H1 H2]. destruct (polar_gradient mass Hm g (size m) m k sig (x m) H1 Hp) as (u' & E & H). assert (u' = u m) by congruence. subst u'. destruct (H i Hi r Hr) as (e' & D & P0 & P1). assert (Ee : e = e') by exact (slope_derive k sig size x i r m e' D). rewrite Ee. clear Ee.
    cbn [spintotal]. change (spin_weight polar 0) with (-1)%Z. change (spin_weight polar 1) with 1%Z. replace (m + (-1 + spintotal sig i))%Z with (m + spintotal sig i - 1)%Z by ring. replace (m + (1 + spintotal sig i))%Z with (m + spintotal sig i + 1)%Z by ring. rewrite P0, P1. replace (1 / sqrt 2) with (/ sqrt 2) by (unfold Rdiv; ring). split; reflexivity. }
  split.
  - unfold radius_part, G, plane. rewrite csum_plus, csum_times. apply csum_ext. intros m Hmm. destruct (V m Hmm) as [-> ->]. set (f := function_of _ _ _ _). set (e := slope _ _ _ _ _ _ _). set (h := RtoC (/ sqrt 2)).
    transitivity (h * h * (RtoC 1 + RtoC 1) * (e * wave m phi))%C; [ring|unfold h; rewrite halves; ring].
  - unfold azimuth_part, G, T, plane. rewrite csum_minus, !csum_times, csum_plus. unfold Cdiv. rewrite (Cmult_comm (csum _ _) (/ RtoC r)%C), csum_times. apply csum_ext. intros m Hmm. destruct (V m Hmm) as [-> ->]. set (f := function_of _ _ _ _). set (e := slope _ _ _ _ _ _ _). set (h := RtoC (/ sqrt 2)).
    transitivity (h * h * (RtoC 1 + RtoC 1) * (Ci * RtoC (IZR (m + spintotal sig i) / r) * (f * wave m phi)))%C; [ring|unfold h; rewrite halves]. unfold Rdiv. rewrite RtoC_mult, RtoC_inv, plus_IZR, RtoC_plus by exact Nr. ring.
Qed.
Theorem plane_scalar_gradient k size ms x u phi r : fit g k -> each_order ms size (fun N m => pgradient g k N m []) x u -> 0 < r ->
  let f := field k [] size ms x [] in let G j := field (S k) [polar] size ms u j phi r in
  exists er ep, has_derivative (fun q => f phi q) r er /\ has_derivative (fun p => f p r) phi ep /\ (radius_part G [] = er /\ azimuth_part G [] = ep / RtoC r)%C.
Proof.
  intros Hp He Hr f G. destruct (plane_gradient k [] size ms x u [] phi r Hp He ltac:(constructor) Hr) as (er & ep & D1 & D2 & P1 & P2). exists er, ep. split; [exact D1|]. split; [exact D2|]. split; [exact P1|]. etransitivity; [exact P2|]. change (spintotal [] []) with 0%Z. unfold Cdiv. ring.
Qed.
Theorem plane_vector_gradient k size ms x u phi r : fit g k -> each_order ms size (fun N m => pgradient g k N m [polar]) x u -> 0 < r ->
  let T p q j := field k [polar] size ms x j p q in let ur p q := radius_part (T p q) [] in let up p q := azimuth_part (T p q) [] in let G j := field (S k) [polar; polar] size ms u j phi r in
  exists rr rp pr pp, has_derivative (fun q => ur phi q) r rr /\ has_derivative (fun p => ur p r) phi rp /\ has_derivative (fun q => up phi q) r pr /\ has_derivative (fun p => up p r) phi pp
  /\ (radius_part (radius_part G) [] = rr /\ azimuth_part (radius_part G) [] = pr
     /\ radius_part (azimuth_part G) [] = (rp - up phi r) / RtoC r /\ azimuth_part (azimuth_part G) [] = (pp + ur phi r) / RtoC r)%C.
Proof.
  intros Hp He Hr T ur up G.
  destruct (plane_gradient k [polar] size ms x u [1%nat] phi r Hp He ltac:(constructor; [cbn; lia|constructor]) Hr) as (a & b & A1 & A2 & A3 & A4).
  destruct (plane_gradient k [polar] size ms x u [0%nat] phi r Hp He ltac:(constructor; [cbn; lia|constructor]) Hr) as (c & d & B1 & B2 & B3 & B4). fold G in A3, A4, B3, B4.
  set (h := RtoC (/ sqrt 2)). exists (h * (a + c))%C, (h * (b + d))%C, (h * (- Ci * (a - c)))%C, (h * (- Ci * (b - d)))%C.
  split; [unfold ur, radius_part; apply derivative_times, (derivative_plus (fun q => T phi q [1%nat]) (fun q => T phi q [0%nat])); assumption|].
  split; [unfold ur, radius_part; apply derivative_times, (derivative_plus (fun q => T q r [1%nat]) (fun q => T q r [0%nat])); assumption|].
  split; [unfold up, azimuth_part; do 2 apply derivative_times; apply (derivative_minus (fun q => T phi q [1%nat]) (fun q => T phi q [0%nat])); assumption|].
  split; [unfold up, azimuth_part; do 2 apply derivative_times; apply (derivative_minus (fun q => T q r [1%nat]) (fun q => T q r [0%nat])); assumption|].
  change (radius_part (radius_part G) []) with (h * (radius_part G [1%nat] + radius_part G [0%nat]))%C. change (azimuth_part (radius_part G) []) with (h * (- Ci * (radius_part G [1%nat] - radius_part G [0%nat])))%C.
  change (radius_part (azimuth_part G) []) with (h * (azimuth_part G [1%nat] + azimuth_part G [0%nat]))%C. change (azimuth_part (azimuth_part G) []) with (h * (- Ci * (azimuth_part G [1%nat] - azimuth_part G [0%nat])))%C.
  rewrite A3, A4, B3, B4. change (spintotal [polar] [1%nat]) with 1%Z. change (spintotal [polar] [0%nat]) with (-1)%Z. replace (RtoC (IZR (-1))) with (- RtoC 1)%C by (apply injective_projections; cbn; ring).
  split; [reflexivity|]. split; [reflexivity|]. change (up phi r) with (h * (- Ci * (field k [polar] size ms x [1%nat] phi r - field k [polar] size ms x [0%nat] phi r)))%C. change (ur phi r) with (h * (field k [polar] size ms x [1%nat] phi r + field k [polar] size ms x [0%nat] phi r))%C.
  set (V1 := field k [polar] size ms x [1%nat] phi r). set (V0 := field k [polar] size ms x [0%nat] phi r). unfold Cdiv. split; [ring|].
  transitivity ((h * (- Ci * (b - d)) + - (Ci * Ci) * (h * (V1 + V0))) * / RtoC r)%C; [ring|rewrite ii; ring].
Qed.

(** ** Divergences *)
Theorem plane_divergence k sig size ms x u i phi r : fit g k -> each_order ms size (fun N m => pdivergence g k N m sig) x u -> component_of sig i -> 0 < r ->
  let T p q j := field k (polar :: sig) size ms x j p q in let ur p q := radius_part (T p q) i in let up p q := azimuth_part (T p q) i in
  exists er ep, has_derivative (fun q => ur phi q) r er /\ has_derivative (fun p => up p r) phi ep
  /\ field (S k) sig size ms u i phi r = (er + (ur phi r + ep + Ci * RtoC (IZR (spintotal sig i)) * up phi r) / RtoC r)%C.
Proof.
  intros Hp He Hi Hr T ur up. assert (Nr : r <> 0) by lra. assert (Hs : forall m, In m ms -> (1 <= size m)%nat) by (intros m Hmm; apply (He m Hmm)).
  assert (C1 : component_of (polar :: sig) (1%nat :: i)) by (constructor; [cbn; lia|exact Hi]). assert (C0 : component_of (polar :: sig) (0%nat :: i)) by (constructor; [cbn; lia|exact Hi]).
  set (h := RtoC (/ sqrt 2)). eexists. eexists.
  split; [unfold ur, radius_part; apply derivative_times, (derivative_plus (fun q => T phi q (1%nat :: i)) (fun q => T phi q (0%nat :: i))); apply radial_derive; assumption|].
  split; [unfold up, azimuth_part; do 2 apply derivative_times; apply (derivative_minus (fun q => T q r (1%nat :: i)) (fun q => T q r (0%nat :: i))); apply azimuth_derive|].
  fold h. change (up phi r) with (h * (- Ci * (field k (polar :: sig) size ms x (1%nat :: i) phi r - field k (polar :: sig) size ms x (0%nat :: i) phi r)))%C. change (ur phi r) with (h * (field k (polar :: sig) size ms x (1%nat :: i) phi r + field k (polar :: sig) size ms x (0%nat :: i) phi r))%C.
  unfold Cdiv. unfold plane. rewrite !csum_plus, !csum_minus, !csum_times, !csum_plus. rewrite (Cmult_comm (csum _ _) (/ RtoC r)%C), csum_times, csum_plus. apply csum_ext. intros m Hmm.
  destruct (He m Hmm) as [H1 H2]. destruct (polar_divergence mass Hm g (size m) m k sig (x m) H1 Hp) as (u' & E & H). assert (u' = u m) by congruence. subst u'. destruct (H i Hi r Hr) as (em & ep & Dm & Dp & P). rewrite P. clear P.
  assert (L0 : (m + spintotal (polar :: sig) (0%nat :: i) = m + spintotal sig i - 1)%Z) by (cbn [spintotal]; change (spin_weight polar 0) with (-1)%Z; ring). assert (L1 : (m + spintotal (polar :: sig) (1%nat :: i) = m + spintotal sig i + 1)%Z) by (cbn [spintotal]; change (spin_weight polar 1) with 1%Z; ring).
  rewrite (slope_derive k (polar :: sig) size x (0%nat :: i) r m em) by (rewrite L0; exact Dm). rewrite (slope_derive k (polar :: sig) size x (1%nat :: i) r m ep) by (rewrite L1; exact Dp). rewrite L0, L1.
  replace (1 / sqrt 2) with (/ sqrt 2) by (unfold Rdiv; ring). fold h. set (f0 := function_of _ _ _ _). set (f1 := function_of _ _ _ _). unfold Rdiv. rewrite !RtoC_mult, !RtoC_inv, RtoC_minus, !RtoC_plus, plus_IZR, RtoC_plus by exact Nr. set (l1 := RtoC (IZR m)). set (l2 := RtoC (IZR (spintotal sig i))).
  match goal with |- _ = (?A + ?B)%C => transitivity (h * (em + ep) * wave m phi + / RtoC r * (h * (f1 + f0) * wave m phi) + - (Ci * Ci) * (/ RtoC r * ((l1 + l2) * (h * (f1 - f0)) * wave m phi)))%C; [rewrite ii|]; ring end.
Qed.
Theorem plane_vector_divergence k size ms x u phi r : fit g k -> each_order ms size (fun N m => pdivergence g k N m []) x u -> 0 < r ->
  let T p q j := field k [polar] size ms x j p q in let ur p q := radius_part (T p q) [] in let up p q := azimuth_part (T p q) [] in
  exists er ep, has_derivative (fun q => ur phi q) r er /\ has_derivative (fun p => up p r) phi ep /\ field (S k) [] size ms u [] phi r = (er + (ur phi r + ep) / RtoC r)%C.
Proof.
  intros Hp He Hr T ur up. destruct (plane_divergence k [] size ms x u [] phi r Hp He ltac:(constructor) Hr) as (er & ep & D1 & D2 & P). exists er, ep. split; [exact D1|]. split; [exact D2|]. etransitivity; [exact P|]. change (spintotal [] []) with 0%Z. unfold ur, up, T, Cdiv. ring.
Qed.
(** Turning vectors by a right angle. *)
Theorem plane_skew k sig size ms x i phi r : let T j := field k (polar :: sig) size ms x j phi r in let V j := field k (polar :: sig) size ms (fun m => pskew (x m)) j phi r in
  radius_part V i = Copp (azimuth_part T i) /\ azimuth_part V i = radius_part T i.
Proof.
  assert (F : forall N (z : C) c phi' q, function_of N (fun n => z * c n)%C phi' q = (z * function_of N c phi' q)%C).
  { intros N [z1 z2] c phi' q. unfold function_of. apply injective_projections; cbn [Re Im fst snd Cmult].
    - unfold Rminus. rewrite Ropp_mult_distr_l. rewrite <- (series_linear N z1 (- z2)). apply series_ext. intros n _. unfold Re, Im, Cmult. cbn [fst snd]. ring.
    - rewrite <- (series_linear N z1 z2). apply series_ext. intros n _. unfold Re, Im, Cmult. cbn [fst snd]. ring. }
  intros T V.
  assert (V0 : V (0%nat :: i) = (- Ci * T (0%nat :: i))%C). { unfold V, T, plane. rewrite csum_times. apply csum_ext. intros m _. change (fun n => pskew (x m) (0%nat :: i) n) with (fun n => - Ci * x m (0%nat :: i) n)%C. etransitivity; [apply (f_equal (fun z => z * wave m phi)%C), (F (size m) (- Ci)%C (x m (0%nat :: i)))|]. ring. }
  assert (V1 : V (1%nat :: i) = (Ci * T (1%nat :: i))%C). { unfold V, T, plane. rewrite csum_times. apply csum_ext. intros m _. etransitivity; [apply (f_equal (fun z => z * wave m phi)%C), (F (size m) Ci (x m (1%nat :: i)))|]. ring. }
  unfold radius_part, azimuth_part. rewrite V0, V1. set (h := RtoC (/ sqrt 2)). split; [ring|].
  transitivity (- (Ci * Ci) * (h * (T (1%nat :: i) + T (0%nat :: i))))%C; [ring|rewrite ii; ring].
Qed.

(** ** Laplacians *)
Theorem plane_laplacian k sig size ms x u i phi r : fit g k -> each_order ms size (fun N m => plaplacian g k N m sig) x u -> component_of sig i -> 0 < r ->
  let T := field k sig size ms x i in let turn := (Ci * RtoC (IZR (spintotal sig i)))%C in
  exists r1 p1 er ep, (forall q, 0 < q -> has_derivative (fun q => T phi q) q (r1 q)) /\ (forall p, has_derivative (fun p => T p r) p (p1 p)) /\ has_derivative r1 r er /\ has_derivative p1 phi ep
  /\ field (S (S k)) sig size ms u i phi r = (er + r1 r / RtoC r + (ep + RtoC 2 * turn * p1 phi + turn * turn * T phi r) / RtoC (r * r))%C.
Proof.
  intros Hp He Hi Hr T turn. assert (Nr : r <> 0) by lra. assert (Hs : forall m, In m ms -> (1 <= size m)%nat) by (intros m Hmm; apply (He m Hmm)).
  set (curve := fun m => slope_of (fun q => slope k sig size x i q m) r).
  exists (fun q => csum ms (fun m => slope k sig size x i q m * wave m phi)%C), (fun p => csum ms (fun m => Ci * RtoC (IZR m) * (radial k sig size x i r m * wave m p))%C), (csum ms (fun m => curve m * wave m phi)%C), (csum ms (fun m => Ci * RtoC (IZR m) * (Ci * RtoC (IZR m) * (radial k sig size x i r m * wave m phi)))%C).
  split; [intros q Hq; apply radial_derive; assumption|]. split; [intros p; apply azimuth_derive|].
  assert (L : forall m, In m ms -> has_derivative (fun q => slope k sig size x i q m) r (curve m) /\ radial (S (S k)) sig size u i r m = (curve m + RtoC (1 / r) * slope k sig size x i r m + RtoC (- IZR (m + spintotal sig i) ^ 2 / r ^ 2) * radial k sig size x i r m)%C).
  { intros m Hmm. destruct (He m Hmm) as (H2 & H3). destruct (polar_laplacian mass Hm g (size m) m k sig (x m) H2 Hp) as (u' & E & Hx). assert (u' = u m) by congruence. subst u'. destruct (Hx i Hi) as (f1 & F1 & F2). destruct (F2 r Hr) as (e & F3 & F4).
    assert (same : forall q, 0 < q -> slope k sig size x i q m = f1 q) by (intros q Hq; exact (slope_derive k sig size x i q m (f1 q) (F1 q Hq))).
    assert (F5 : has_derivative (fun q => slope k sig size x i q m) r e). { apply (derivative_near f1); [|exact F3]. apply (filter_imp (fun q => 0 < q)); [intros q Hq; symmetry; apply same, Hq|]. exact (open_gt 0 r Hr). }
    assert (Ec : curve m = e) by exact (slope_unique _ _ _ F5). rewrite Ec. split; [exact F5|]. rewrite (same r Hr). exact F4. }
  split. { apply (csum_derive ms (fun q m => slope k sig size x i q m * wave m phi)%C (fun m => curve m * wave m phi)%C). intros m Hmm. apply (right_derive (fun q => slope k sig size x i q m)). apply (L m Hmm). }
  split. { apply (csum_derive ms (fun p m => Ci * RtoC (IZR m) * (radial k sig size x i r m * wave m p))%C). intros m _. apply derivative_times, wave_derive. }
  unfold T, plane, Cdiv. rewrite (Cmult_comm _ (/ RtoC r)%C). rewrite (Cmult_comm _ (/ RtoC (r * r))%C). rewrite !csum_times, !csum_plus, csum_times, csum_plus. apply csum_ext. intros m Hmm. destruct (L m Hmm) as [_ ->]. set (f := function_of _ _ _ _). set (e := slope _ _ _ _ _ _ _). set (cc := curve m).
  assert (Nrr : r * r <> 0) by (apply Rmult_integral_contrapositive_currified; assumption).
  replace (RtoC (- IZR (m + spintotal sig i) ^ 2 / r ^ 2)) with (Ci * Ci * ((RtoC (IZR m) + RtoC (IZR (spintotal sig i))) * (RtoC (IZR m) + RtoC (IZR (spintotal sig i)))) * / RtoC (r * r))%C.
  2: { rewrite ii, <- RtoC_inv, <- !RtoC_plus, <- plus_IZR, <- !RtoC_mult by exact Nrr. rewrite <- RtoC_opp, <- !RtoC_mult. f_equal. field. exact Nr. }
  replace (RtoC (1 / r)) with (/ RtoC r)%C by (rewrite <- RtoC_inv by exact Nr; f_equal; field; exact Nr). unfold turn. replace (RtoC 2) with (RtoC 1 + RtoC 1)%C by (apply injective_projections; cbn; ring). ring.
Qed.
Theorem plane_scalar_laplacian k size ms x u phi r : fit g k -> each_order ms size (fun N m => plaplacian g k N m []) x u -> 0 < r ->
  let f := field k [] size ms x [] in
  exists r1 p1 er ep, (forall q, 0 < q -> has_derivative (fun q => f phi q) q (r1 q)) /\ (forall p, has_derivative (fun p => f p r) p (p1 p)) /\ has_derivative r1 r er /\ has_derivative p1 phi ep
  /\ field (S (S k)) [] size ms u [] phi r = (er + r1 r / RtoC r + ep / RtoC (r * r))%C.
Proof.
  intros Hp He Hr f. destruct (plane_laplacian k [] size ms x u [] phi r Hp He ltac:(constructor) Hr) as (r1 & p1 & er & ep & D1 & D2 & D3 & D4 & P). exists r1, p1, er, ep. repeat (split; [assumption|]). etransitivity; [exact P|]. change (spintotal [] []) with 0%Z. unfold Cdiv. ring.
Qed.
(** The operators are defined on all coefficients. *)
Theorem plane_operators k sig size ms (x : Z -> vectors) : fit g k -> (forall m, In m ms -> (1 <= size m)%nat) ->
  (exists u, each_order ms size (fun N m => pgradient g k N m sig) x u) /\ (exists u, each_order ms size (fun N m => pdivergence g k N m sig) x u) /\ (exists u, each_order ms size (fun N m => plaplacian g k N m sig) x u).
Proof.
  intros Hp Hs.
  assert (K : forall op : nat -> Z -> vectors -> option vectors, (forall N m y, (1 <= N)%nat -> exists v, op N m y = Some v) -> exists u, each_order ms size op x u).
  { intros op H. exists (fun m => match op (size m) m (x m) with Some v => v | None => fun _ _ => RtoC 0 end). intros m Hmm. split; [apply Hs, Hmm|]. destruct (H (size m) m (x m) (Hs m Hmm)) as [v ->]. reflexivity. }
  split; [|split]; apply K; intros N m y HN.
  - destruct (polar_gradient mass Hm g N m k sig y HN Hp) as (v & E & _). exists v. exact E.
  - destruct (polar_divergence mass Hm g N m k sig y HN Hp) as (v & E & _). exists v. exact E.
  - destruct (polar_laplacian mass Hm g N m k sig y HN Hp) as (v & E & _). exists v. exact E.
Qed.
End Mass.
Print Assumptions polar_parts.
Print Assumptions polar_parts_tensor.
Print Assumptions plane_gradient.
Print Assumptions plane_scalar_gradient.
Print Assumptions plane_vector_gradient.
Print Assumptions plane_divergence.
Print Assumptions plane_vector_divergence.
Print Assumptions plane_skew.
Print Assumptions plane_laplacian.
Print Assumptions plane_scalar_laplacian.
Print Assumptions plane_operators.

(** On a disk of radius 2, a multiple of the coordinate [r cos phi], as the sum of the orders 1 and -1: its gradient is that multiple of the unit
    vector along the axis. *)
Example sample_line : exists K u, K <> 0 /\ (let x (_ : Z) (_ : index) (_ : nat) := RtoC 1 in let N (_ : Z) := 1%nat in
  each_order [1; -1]%Z N (fun N m => pgradient (Disk 2 0) 0 N m []) x u
  /\ forall phi r, 0 < r -> plane sample_mass (Disk 2 0) 0 [] N [1; -1]%Z x [] phi r = RtoC (K * r * cos phi)
     /\ (let G j := plane sample_mass (Disk 2 0) 1 [polar] N [1; -1]%Z u j phi r in radius_part G [] = RtoC (K * cos phi) /\ azimuth_part G [] = RtoC (- (K * sin phi)))).
Proof.
  set (c := sqrt (Rpower 2 (0 + 0 + 1 + INR 2 / 2 + 1)) * unit_polynomial sample_mass 0 (0 + 0) (1 + INR 2 / 2 - 1) 0).
  set (x := fun (_ : Z) (_ : index) (_ : nat) => RtoC 1). set (N := fun _ : Z => 1%nat). assert (Hp : fit (Disk 2 0) 0) by (cbn; lra).
  destruct (plane_operators sample_mass sample_rules (Disk 2 0) 0 [] N [1; -1]%Z x Hp) as [[u Hu] _]; [intros m _; unfold N; lia|].
  exists c, u. split.
  { unfold c, unit_polynomial. apply Rmult_integral_contrapositive_currified; [apply Rgt_not_eq, sqrt_lt_R0, exp_pos|]. unfold Rdiv. apply Rmult_integral_contrapositive_currified; [|apply Rinv_neq_0_compat, Rgt_not_eq, sqrt_lt_R0; unfold norm2; rewrite Rmult_1_r; apply sample_rules; cbn; lra].
    unfold classical, CSR_Spec.total, coefficient. cbn. lra. }
  split; [exact Hu|].
  assert (V : forall phi r, plane sample_mass (Disk 2 0) 0 [] N [1; -1]%Z x [] phi r = RtoC (c * r * cos phi)).
  { intros p r. unfold plane, csum. unfold function_of, Radial_Spec.series, CSR_Spec.total, x, N. cbn [map seq fold_right Nat.add spintotal]. unfold flat_modes, Radial_Spec.zernike. change (Z.abs_nat (1 + 0)) with 1%nat. change (Z.abs_nat (-1 + 0)) with 1%nat. cbn [pow].
    change (unit_polynomial sample_mass 0 (0 + INR 0) (INR 1 + INR 2 / 2 - 1) (2 * (r / 2 * (r / 2 * 1)) - 1)) with (unit_polynomial sample_mass 0 (0 + 0) (1 + INR 2 / 2 - 1) 0). change (INR 0) with 0. change (INR 1) with 1. unfold c. set (w := unit_polynomial _ _ _ _ _). set (q := sqrt _).
    replace (-1 * p) with (- p) by ring. rewrite cos_neg, sin_neg, (Rmult_1_l p). apply injective_projections; unfold Cplus, Cmult, RtoC, Re, Im; cbn [fst snd]; field. }
  intros phi r Hr. split; [apply V|]. destruct (plane_scalar_gradient sample_mass sample_rules (Disk 2 0) 0 N [1; -1]%Z x u phi r Hp Hu Hr) as (er & ep & D1 & D3 & P1 & P3). cbv zeta.
  assert (E1 : er = RtoC (c * cos phi)). { apply (derivative_unique _ _ _ _ D1). apply (derivative_ext (fun q => RtoC (c * q * cos phi))); [intros t; symmetry; apply V|]. split; cbn [Re Im RtoC fst snd]; auto_derive; trivial; ring. }
  assert (E3 : ep = RtoC (- (c * r * sin phi))). { apply (derivative_unique _ _ _ _ D3). apply (derivative_ext (fun p => RtoC (c * r * cos p))); [intros t; symmetry; apply V|]. split; cbn [Re Im RtoC fst snd]; auto_derive; trivial; ring. }
  split; [rewrite <- E1; exact P1|]. etransitivity; [exact P3|]. rewrite E3. unfold Cdiv. rewrite <- RtoC_inv, <- RtoC_mult by lra. f_equal. field. lra.
Qed.
