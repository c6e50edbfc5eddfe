(** Vector calculus in balls and shells is that of the functions that coefficients stand for (C85). *)
From Coq Require Import List ZArith Reals Bool Lia Lra.
From Coquelicot Require Import Coquelicot.
Import ListNotations.
From Verif Require Spin_Spec SphereOps_Model SphereOps_Spec.
From Verif Require Import JacobiCalc_Spec JacobiCalc_Proofs Intertwiner_Model SphericalVec_Model SphericalVec_Spec SphericalVec_Proofs SphericalVec_Props Harmonics_Spec Harmonics_Proofs Harmonics_Props.
From Verif Require Import SphereCalc_Spec SphereCalc_Proofs SphereCalc_Props SphericalCalc_Spec SphericalCalc_Proofs SphericalCalc_Fields.
Local Open Scope R_scope.

Section Mass.
Context (mass : R -> R -> R) (Hm : true_mass mass) (g : geometry).
Notation field := (volume mass g).
Notation sig n := (repeat 3%nat n).
Notation coefs k rank size x r := (fun j ml => spin_value rank (snd ml) (at_radius mass g k (size ml) (snd ml) (x ml) r) j).
Lemma Nz (y : R) : y <> 0 -> RtoC y <> 0. Proof. intros H E. apply H. injection E. trivial. Qed.
Lemma Cinv_r (r : R) (z : C) : r <> 0 -> (RtoC (/ r) * z = z / RtoC r)%C.
Proof. intros H. rewrite RtoC_inv by exact H. unfold Cdiv. ring. Qed.
Lemma none_coefs k rank size (ms : list (Z * Z)) (x : Z * Z -> vectors) r i ml : is_component rank i -> (forall ml, In ml ms -> 0 <= snd ml)%Z -> In ml ms -> SphereOps_Spec.exists_at (snd ml) (spin i) = false -> coefs k rank size x r i ml = RtoC 0.
Proof. intros Hi H Hml E. apply (spin_none rank (snd ml) _ i (H ml Hml) Hi E). Qed.

(** ** Gradients *)
Lemma gradient_first k rank size ms x u i phi theta r a : proper g k -> each_mode ms size (fun N => gradient g k N rank) x u -> is_component rank i -> 0 < r -> (a < 2)%nat ->
  field (S k) (S rank) size ms u (a :: i) phi theta r
  = (component mass ms (on_modes (fun l => SphereOps_Model.gradient (sig rank) l r) (coefs k rank size x r)) (a :: i) phi theta + RtoC (/ r) * tilt a (fun j => field k rank size ms x j phi theta r) i)%C.
Proof.
  intros Hp He Hi Hr Ha. rewrite (ladder_component mass ms rank r ltac:(lra) _ i a phi theta Hi Ha) by (intros ml Hml E; apply (none_coefs k rank size ms x r i ml Hi); [intros ml' H'; apply (He ml' H')|exact Hml|exact E]).
  assert (TT : (RtoC (/ r) * tilt a (fun j => field k rank size ms x j phi theta r) i)%C = component mass ms (fun _ ml => RtoC (/ r) * tilt a (fun j => coefs k rank size x r j ml) i)%C (a :: i) phi theta).
  { rewrite (component_scale mass ms (fun _ ml => tilt a (fun j => coefs k rank size x r j ml) i) (RtoC (/ r)) (a :: i)). apply f_equal. etransitivity; [exact (tilt_component mass ms a i (coefs k rank size x r) (fun j => j) 0 phi theta Ha (proj2 Hi) (fun j => eq_refl))|]. unfold component. apply csum_same. intros ml. rewrite spin_cons. do 3 f_equal. lia. }
  rewrite TT. unfold volume at 1. apply component_sum. intros ml Hml. destruct (He ml Hml) as (H1 & H2 & H3). cbv beta in H3 |- *.
  rewrite (proj2 (proj2 (gradient_spin mass (proj1 Hm) g k rank (size ml) H2 Hp (snd ml) H1 (x ml) (u ml) i r Hr Hi H3)) a Ha). apply Cmult_plus_distr_l.
Qed.
(** The part along the radius is the derivative; the others have the derivatives in colatitude and azimuth of the components, and the
    turning of the unit vectors.  Tensors of every rank. *)
Theorem volume_gradient k rank size ms x u i phi theta r : proper g k -> each_mode ms size (fun N => gradient g k N rank) x u -> is_component rank i -> 0 < theta < PI -> 0 < r ->
  let T := field k rank size ms x in let G j := field (S k) (S rank) size ms u j phi theta r in let turn := tilts (fun j => T j phi theta r) in
  exists er et ep, has_derivative (fun q => T i phi theta q) r er /\ has_derivative (fun t => T i phi t r) theta et /\ has_derivative (fun p => T i p theta r) phi ep
  /\ (G (2%nat :: i) = er /\ theta_part G i = (et + theta_part turn i) / RtoC r
     /\ phi_part G i = (ep + Ci * RtoC (IZR (spin i) * cos theta) * T i phi theta r) / RtoC (r * sin theta) + phi_part turn i / RtoC r)%C.
Proof.
  intros Hp He Hi Ht Hr T G turn. assert (Nr : r <> 0) by lra.
  destruct (sphere_gradient_calculus mass Hm ms (coefs k rank size x r) (sig rank) r i phi theta Nr (index_component rank i Hi) Ht) as (et & ep & D1 & D2 & P1 & P2). cbv zeta in P1, P2.
  exists (component mass ms (fun j ml => spin_value rank (snd ml) (radial_slope mass g k (size ml) (snd ml) (x ml) r) j) i phi theta), et, ep.
  split; [|split; [exact D1|split; [exact D2|]]].
  - unfold T, volume. apply (component_derive mass ms (fun r => coefs k rank size x r) (fun j ml => spin_value rank (snd ml) (radial_slope mass g k (size ml) (snd ml) (x ml) r) j)). intros ml Hml. destruct (He ml Hml) as (H1 & H2 & H3). apply (spin_slope mass (proj1 Hm) g k (size ml) H2 Hp (snd ml) H1 (x ml) rank i r Hr Hi).
  - split; [|split].
    + unfold G, volume. assert (E2 : spin (2%nat :: i) = spin i) by (rewrite spin_cons; reflexivity). unfold component. rewrite E2. apply csum_ext. intros ml Hml. destruct (He ml Hml) as (H1 & H2 & H3). rewrite (proj1 (proj2 (gradient_spin mass (proj1 Hm) g k rank (size ml) H2 Hp (snd ml) H1 (x ml) (u ml) i r Hr Hi H3))). reflexivity.
    + unfold G, theta_part in *. rewrite !(gradient_first k rank size ms x u i phi theta r) by (assumption || lia). rewrite <- !(Cinv_r r) in * by exact Nr. unfold turn, T. cbn [tilts]. rewrite (Cmult_plus_distr_l (RtoC (/ r)) et). rewrite <- P1. ring.
    + unfold G, phi_part in *. rewrite !(gradient_first k rank size ms x u i phi theta r) by (assumption || lia). rewrite <- (Cinv_r r _ Nr). unfold turn, T. cbn [tilts]. change (field k rank size ms x i phi theta r) with (component mass ms (coefs k rank size x r) i phi theta). rewrite <- P2. ring.
Qed.
Theorem volume_scalar_gradient k size ms x u phi theta r : proper g k -> each_mode ms size (fun N => gradient g k N 0) x u -> 0 < theta < PI -> 0 < r ->
  let f := field k 0 size ms x [] in let G j := field (S k) 1 size ms u j phi theta r in
  exists er et ep, has_derivative (fun q => f phi theta q) r er /\ has_derivative (fun t => f phi t r) theta et /\ has_derivative (fun p => f p theta r) phi ep
  /\ (G [2%nat] = er /\ theta_part G [] = et / RtoC r /\ phi_part G [] = ep / RtoC (r * sin theta))%C.
Proof.
  intros Hp He Ht Hr f G. destruct (volume_gradient k 0 size ms x u [] phi theta r Hp He ltac:(split; constructor) Ht Hr) as (er & et & ep & D1 & D2 & D3 & P1 & P2 & P3). exists er, et, ep. split; [exact D1|]. split; [exact D2|]. split; [exact D3|]. split; [exact P1|].
  fold G in P2, P3. rewrite P2, P3. unfold theta_part, phi_part. cbn [tilts tilt]. change (spin []) with 0%Z. rewrite Rmult_0_l. unfold Cdiv. split; ring.
Qed.
Theorem volume_vector_gradient k size ms x u phi theta r : proper g k -> each_mode ms size (fun N => gradient g k N 1) x u -> 0 < theta < PI -> 0 < r ->
  let T p t q j := field k 1 size ms x j p t q in let ur p t q := T p t q [2%nat] in let ut p t q := theta_part (T p t q) [] in let up p t q := phi_part (T p t q) [] in
  let G j := field (S k) 2 size ms u j phi theta r in
  exists rr rt rp tr tt tp pr pt pp,
  (has_derivative (fun q => ur phi theta q) r rr /\ has_derivative (fun t => ur phi t r) theta rt /\ has_derivative (fun p => ur p theta r) phi rp)
  /\ (has_derivative (fun q => ut phi theta q) r tr /\ has_derivative (fun t => ut phi t r) theta tt /\ has_derivative (fun p => ut p theta r) phi tp)
  /\ (has_derivative (fun q => up phi theta q) r pr /\ has_derivative (fun t => up phi t r) theta pt /\ has_derivative (fun p => up p theta r) phi pp)
  /\ (G [2%nat; 2%nat] = rr /\ theta_part (fun j => G (2%nat :: j)) [] = tr /\ phi_part (fun j => G (2%nat :: j)) [] = pr)
  /\ (theta_part G [2%nat] = (rt - ut phi theta r) / RtoC r /\ theta_part (theta_part G) [] = (tt + ur phi theta r) / RtoC r /\ phi_part (theta_part G) [] = pt / RtoC r)%C
  /\ (phi_part G [2%nat] = rp / RtoC (r * sin theta) - up phi theta r / RtoC r /\ theta_part (phi_part G) [] = (tp - RtoC (cos theta) * up phi theta r) / RtoC (r * sin theta)
     /\ phi_part (phi_part G) [] = (pp + RtoC (cos theta) * ut phi theta r) / RtoC (r * sin theta) + ur phi theta r / RtoC r)%C.
Proof.
  intros Hp He Ht Hr T ur ut up G.
  destruct (volume_gradient k 1 size ms x u [2%nat] phi theta r Hp He ltac:(split; [reflexivity|repeat constructor]) Ht Hr) as (r2 & t2 & p2 & A1 & A2 & A3 & A4 & A5 & A6).
  destruct (volume_gradient k 1 size ms x u [1%nat] phi theta r Hp He ltac:(split; [reflexivity|repeat constructor]) Ht Hr) as (r1 & t1 & p1 & B1 & B2 & B3 & B4 & B5 & B6).
  destruct (volume_gradient k 1 size ms x u [0%nat] phi theta r Hp He ltac:(split; [reflexivity|repeat constructor]) Ht Hr) as (r0 & t0 & p0 & C1 & C2 & C3 & C4 & C5 & C6). fold G in A4, A5, A6, B4, B5, B6, C4, C5, C6.
  set (h := RtoC (/ sqrt 2)).
  exists r2, t2, p2, (h * (r1 + r0))%C, (h * (t1 + t0))%C, (h * (p1 + p0))%C, (h * (- Ci * (r1 - r0)))%C, (h * (- Ci * (t1 - t0)))%C, (h * (- Ci * (p1 - p0)))%C.
  split; [split; [exact A1|split; [exact A2|exact A3]]|].
  split. { split; [|split]; unfold ut, theta_part; apply derivative_times; apply (derivative_plus (fun q => T _ _ _ [1%nat]) (fun q => T _ _ _ [0%nat])); assumption. }
  split. { split; [|split]; unfold up, phi_part; do 2 apply derivative_times; apply (derivative_minus (fun q => T _ _ _ [1%nat]) (fun q => T _ _ _ [0%nat])); assumption. }
  split. { split; [exact A4|]. unfold theta_part, phi_part. change (G [2%nat; 1%nat] = r1) in B4. change (G [2%nat; 0%nat] = r0) in C4. rewrite B4, C4. split; reflexivity. }
  assert (H2 : (h * h * (RtoC 1 + RtoC 1) = RtoC 1)%C). { unfold h. rewrite <- RtoC_plus, <- !RtoC_mult. f_equal. destruct root2 as [S2 R2]. transitivity (2 * / (sqrt 2 * sqrt 2)); [field; exact R2|rewrite S2; field]. }
  assert (I : (Ci * Ci = - RtoC 1)%C) by (apply injective_projections; cbn; ring).
  assert (N1 : RtoC r <> RtoC 0) by (apply Nz; lra). assert (N2 : RtoC (r * sin theta) <> RtoC 0) by (apply Nz, Rmult_integral_contrapositive_currified; [lra|exact (sin_pos theta Ht)]).
  change (theta_part (theta_part G) []) with (h * (theta_part G [1%nat] + theta_part G [0%nat]))%C. change (theta_part (phi_part G) []) with (h * (phi_part G [1%nat] + phi_part G [0%nat]))%C.
  change (phi_part (theta_part G) []) with (h * (- Ci * (theta_part G [1%nat] - theta_part G [0%nat])))%C. change (phi_part (phi_part G) []) with (h * (- Ci * (phi_part G [1%nat] - phi_part G [0%nat])))%C.
  rewrite A5, A6, B5, B6, C5, C6. change (spin [2%nat]) with 0%Z. change (spin [1%nat]) with 1%Z. change (spin [0%nat]) with (-1)%Z. unfold ut, up, ur, theta_part, phi_part. cbn [tilts tilt Nat.eqb Nat.sub]. fold h. unfold T.
  rewrite Rmult_1_l, Rmult_0_l. replace (RtoC (-1 * cos theta)) with (- RtoC (cos theta))%C by (rewrite RtoC_mult; apply injective_projections; cbn; ring).
  set (V2 := field k 1 size ms x [2%nat] phi theta r). set (V1 := field k 1 size ms x [1%nat] phi theta r). set (V0 := field k 1 size ms x [0%nat] phi theta r). set (w := RtoC (cos theta)). unfold Cdiv. generalize (/ RtoC r)%C. generalize (/ RtoC (r * sin theta))%C. intros q s.
  repeat split.
  - ring.
  - transitivity ((h * (t1 + t0) + h * h * (RtoC 1 + RtoC 1) * V2) * s)%C; [ring|rewrite H2; ring].
  - ring.
  - ring.
  - ring.
  - transitivity ((h * (- Ci * (p1 - p0)) + - (Ci * Ci) * w * (h * (V1 + V0))) * q + - (Ci * Ci) * (h * h * (RtoC 1 + RtoC 1)) * V2 * s)%C; [ring|rewrite H2, I; ring].
Qed.

(** ** Divergences *)
Notation slopes k rank size x r := (fun j ml => spin_value rank (snd ml) (radial_slope mass g k (size ml) (snd ml) (x ml) r) j).
Lemma radial_component k rank size ms x i phi theta r : proper g k -> (forall ml, In ml ms -> (0 <= snd ml)%Z /\ (1 <= size ml)%nat) -> is_component rank i -> 0 < r ->
  has_derivative (fun q => field k rank size ms x i phi theta q) r (component mass ms (slopes k rank size x r) i phi theta).
Proof.
  intros Hp He Hi Hr. unfold volume. apply (component_derive mass ms (fun r => coefs k rank size x r) (slopes k rank size x r)). intros ml Hml. destruct (He ml Hml) as (H1 & H2). apply (spin_slope mass (proj1 Hm) g k (size ml) H2 Hp (snd ml) H1 (x ml) rank i r Hr Hi).
Qed.
(** Sums over modes of what is turned: the components of degree [z] more in spin. *)
Lemma turned_component ms a i c (h : index -> index) z phi theta : (a < 2)%nat -> List.Forall (fun x => (x < 3)%nat) i -> (forall j, spin (h j) = z + spin j)%Z -> (z + value a = 0)%Z ->
  tilt a (fun j : index => component mass ms c (h j) phi theta) i = component mass ms (fun _ ml => tilt a (fun j : index => c (h j) ml) i) i phi theta.
Proof. intros Ha Hi Hh Hz. rewrite (tilt_component mass ms a i c h z phi theta Ha Hi Hh). unfold component. apply csum_same. intros ml. do 3 f_equal. lia. Qed.
Lemma spin_minus i : (spin (0%nat :: i) = -1 + spin i)%Z. Proof. rewrite spin_cons. reflexivity. Qed.
Lemma spin_plus i : (spin (1%nat :: i) = 1 + spin i)%Z. Proof. rewrite spin_cons. reflexivity. Qed.
Lemma spin_radial i : (spin (2%nat :: i) = spin i)%Z. Proof. rewrite spin_cons. reflexivity. Qed.
Lemma component_radial ms c i phi theta : component mass ms c (2%nat :: i) phi theta = component mass ms (fun _ ml => c (2%nat :: i) ml) i phi theta.
Proof. unfold component. rewrite spin_radial. reflexivity. Qed.
Theorem volume_divergence k rank size ms x u i phi theta r : proper g k -> each_mode ms size (fun N => divergence g k N rank) x u -> is_component rank i -> 0 < theta < PI -> 0 < r ->
  let T p t q j := field k (S rank) size ms x j p t q in let ut p t := theta_part (T p t r) i in let up p t := phi_part (T p t r) i in let here := T phi theta r in
  exists er et ep, has_derivative (fun q => T phi theta q (2%nat :: i)) r er /\ has_derivative (fun t => RtoC (sin t) * ut phi t)%C theta et /\ has_derivative (fun p => up p theta) phi ep
  /\ field (S k) rank size ms u i phi theta r = (er + RtoC (2 / r) * here (2%nat :: i) + (et + ep + Ci * RtoC (IZR (spin i) * cos theta) * up phi theta) / RtoC (r * sin theta)
       + (tilt 1 (fun j => here (0%nat :: j)) i + tilt 0 (fun j => here (1%nat :: j)) i) / RtoC r)%C.
Proof.
  intros Hp He Hi Ht Hr T ut up here. assert (Nr : r <> 0) by lra. assert (Hs : forall ml, In ml ms -> (0 <= snd ml)%Z /\ (1 <= size ml)%nat) by (intros ml Hml; destruct (He ml Hml) as (H1 & H2 & _); split; assumption).
  destruct (sphere_divergence_calculus mass Hm ms (coefs k (S rank) size x r) 3 (sig rank) r i phi theta Nr ltac:(lia) (index_component rank i Hi) Ht) as (et & ep & D1 & D2 & P).
  rewrite (back_component mass ms rank r Nr) in P by (first [exact Hi|intros a ml Ha Hml E; apply (none_coefs k (S rank) size ms x r (a :: i) ml); [apply cons_component; [lia|exact Hi]|intros ml' H'; apply (Hs ml' H')|exact Hml|exact E]]).
  exists (component mass ms (slopes k (S rank) size x r) (2%nat :: i) phi theta), et, ep. split; [apply (radial_component k (S rank) size ms x (2%nat :: i) phi theta r Hp Hs); [apply cons_component; [lia|exact Hi]|exact Hr]|]. split; [exact D1|]. split; [exact D2|].
  change (phi_part (fun j => component mass ms (coefs k (S rank) size x r) j phi theta) i) with (up phi theta) in P. rewrite <- P. unfold here, T, volume. rewrite <- (Cinv_r r _ Nr).
  rewrite (turned_component ms 1 i (coefs k (S rank) size x r) (cons 0%nat) (-1) phi theta ltac:(lia) (proj2 Hi) spin_minus ltac:(reflexivity)).
  rewrite (turned_component ms 0 i (coefs k (S rank) size x r) (cons 1%nat) 1 phi theta ltac:(lia) (proj2 Hi) spin_plus ltac:(reflexivity)).
  rewrite !component_radial. rewrite <- (component_sum mass ms (fun j ml => Cplus (tilt 1 (fun j => coefs k (S rank) size x r (0%nat :: j) ml) i) (tilt 0 (fun j => coefs k (S rank) size x r (1%nat :: j) ml) i))) by (intros; reflexivity).
  rewrite <- !component_scale. rewrite <- (component_sum mass ms (fun j ml => Cplus (slopes k (S rank) size x r (2%nat :: i) ml) (RtoC (2 / r) * coefs k (S rank) size x r (2%nat :: i) ml)%C)) by (intros; reflexivity).
  rewrite <- (component_sum mass ms (fun j ml => Cplus (slopes k (S rank) size x r (2%nat :: i) ml + RtoC (2 / r) * coefs k (S rank) size x r (2%nat :: i) ml)%C
     (RtoC (/ r) * (RtoC (ladder_back (snd ml) 0 (spin i)) * coefs k (S rank) size x r (0%nat :: i) ml + RtoC (ladder_back (snd ml) 1 (spin i)) * coefs k (S rank) size x r (1%nat :: i) ml))%C)) by (intros; reflexivity).
  apply component_sum. intros ml Hml. destruct (He ml Hml) as (H1 & H2 & H3). cbv beta in H3 |- *. rewrite (divergence_spin mass (proj1 Hm) g k rank (size ml) H2 Hp (snd ml) H1 (x ml) (u ml) i r Hr Hi H3). unfold inward. cbn [Nat.sub]. ring.
Qed.
Theorem volume_vector_divergence k size ms x u phi theta r : proper g k -> each_mode ms size (fun N => divergence g k N 0) x u -> 0 < theta < PI -> 0 < r ->
  let T p t q j := field k 1 size ms x j p t q in let ut p t := theta_part (T p t r) [] in let up p t := phi_part (T p t r) [] in
  exists er et ep, has_derivative (fun q => T phi theta q [2%nat]) r er /\ has_derivative (fun t => RtoC (sin t) * ut phi t)%C theta et /\ has_derivative (fun p => up p theta) phi ep
  /\ field (S k) 0 size ms u [] phi theta r = (er + RtoC (2 / r) * T phi theta r [2%nat] + et / RtoC (r * sin theta) + ep / RtoC (r * sin theta))%C.
Proof.
  intros Hp He Ht Hr T ut up. destruct (volume_divergence k 0 size ms x u [] phi theta r Hp He ltac:(split; constructor) Ht Hr) as (er & et & ep & D1 & D2 & D3 & P). exists er, et, ep. split; [exact D1|]. split; [exact D2|]. split; [exact D3|].
  rewrite P. cbn [tilt]. change (spin []) with 0%Z. rewrite Rmult_0_l. unfold Cdiv, T. ring.
Qed.

(** ** Curls *)
Definition flipped (c : index -> Z * Z -> C) (j : index) (ml : Z * Z) : C := match j with 1%nat :: _ => Copp (c j ml) | _ => c j ml end.
Lemma component_flip ms c i phi theta : component mass ms (flipped c) (1%nat :: i) phi theta = Copp (component mass ms c (1%nat :: i) phi theta).
Proof. transitivity (RtoC (-1) * component mass ms c (1%nat :: i) phi theta)%C; [|apply injective_projections; cbn; ring]. rewrite <- component_scale. apply component_same. intros ml _. cbn [flipped]. apply injective_projections; cbn; ring. Qed.
Lemma component_four ms (f1 f2 f3 f4 : index -> Z * Z -> C) z w i phi theta :
  component mass ms (fun j ml => z * (f1 j ml + w * f2 j ml - (f3 j ml + w * f4 j ml)))%C i phi theta
  = (z * (component mass ms f1 i phi theta + w * component mass ms f2 i phi theta - (component mass ms f3 i phi theta + w * component mass ms f4 i phi theta)))%C.
Proof. unfold component, csum. induction ms as [|ml ms IH]; cbn [fold_right map]; [ring|]. rewrite IH. ring. Qed.
Lemma component_three ms (f1 f2 f3 : index -> Z * Z -> C) z w i phi theta :
  component mass ms (fun j ml => z * f1 j ml + w * (z * (f2 j ml - f3 j ml)))%C i phi theta
  = (z * component mass ms f1 i phi theta + w * (z * (component mass ms f2 i phi theta - component mass ms f3 i phi theta)))%C.
Proof. unfold component, csum. induction ms as [|ml ms IH]; cbn [fold_right map]; [ring|]. rewrite IH. ring. Qed.
Theorem volume_curl k rank size ms x u i phi theta r : proper g k -> each_mode ms size (fun N => curl g k N rank) x u -> is_component rank i -> 0 < theta < PI -> 0 < r ->
  let T p t q j := field k (S rank) size ms x j p t q in let ur p t q := T p t q (2%nat :: i) in let ut p t q := theta_part (T p t q) i in let up p t q := phi_part (T p t q) i in
  let here := T phi theta r in let U j := field (S k) (S rank) size ms u j phi theta r in let turn := tilts (fun j => here (2%nat :: j)) in let w := (Ci * RtoC (IZR (spin i) * cos theta))%C in
  exists rt rp tr tp pr pt, has_derivative (fun t => ur phi t r) theta rt /\ has_derivative (fun p => ur p theta r) phi rp
  /\ has_derivative (fun q => ut phi theta q) r tr /\ has_derivative (fun p => ut p theta r) phi tp
  /\ has_derivative (fun q => up phi theta q) r pr /\ has_derivative (fun t => RtoC (sin t) * up phi t r)%C theta pt
  /\ (U (2%nat :: i) = (pt - tp - w * ut phi theta r) / RtoC (r * sin theta) + Ci * (tilt 1 (fun j => here (0%nat :: j)) i - tilt 0 (fun j => here (1%nat :: j)) i) / RtoC r
     /\ theta_part U i = (rp + w * ur phi theta r) / RtoC (r * sin theta) + phi_part turn i / RtoC r - (pr + up phi theta r / RtoC r)
     /\ phi_part U i = (tr + ut phi theta r / RtoC r) - (rt + theta_part turn i) / RtoC r)%C.
Proof.
  intros Hp He Hi Ht Hr T ur ut up here U turn w. assert (Nr : r <> 0) by lra. assert (Hs : forall ml, In ml ms -> (0 <= snd ml)%Z /\ (1 <= size ml)%nat) by (intros ml Hml; destruct (He ml Hml) as (H1 & H2 & _); split; assumption).
  assert (I : (Ci * Ci = - RtoC 1)%C) by (apply injective_projections; cbn; ring).
  set (c := coefs k (S rank) size x r).
  assert (Hn : forall a ml, (a < 3)%nat -> In ml ms -> SphereOps_Spec.exists_at (snd ml) (spin (a :: i)) = false -> c (a :: i) ml = RtoC 0) by (intros a ml Ha Hml E; apply (none_coefs k (S rank) size ms x r (a :: i) ml); [apply cons_component; [exact Ha|exact Hi]|intros ml' H'; apply (Hs ml' H')|exact Hml|exact E]).
  destruct (sphere_divergence_calculus mass Hm ms (flipped c) 3 (sig rank) r i phi theta Nr ltac:(lia) (index_component rank i Hi) Ht) as (et & ep & D1 & D2 & P).
  rewrite (back_component mass ms rank r Nr) in P by (first [exact Hi|intros [|[|a]] ml Ha Hml E; [|cbn [flipped]; rewrite (Hn _ ml (Nat.lt_lt_succ_r _ _ Ha) Hml E); ring|lia]; exact (Hn _ ml (Nat.lt_lt_succ_r _ _ Ha) Hml E)]).
  destruct (sphere_gradient_calculus mass Hm ms (fun j => c (2%nat :: j)) (sig rank) r i phi theta Nr (index_component rank i Hi) Ht) as (rt & rp & E1 & E2 & Q1 & Q2). cbv zeta in Q1, Q2.
  pose proof (radial_component k (S rank) size ms x (1%nat :: i) phi theta r Hp Hs ltac:(apply cons_component; [lia|exact Hi]) Hr) as R1. pose proof (radial_component k (S rank) size ms x (0%nat :: i) phi theta r Hp Hs ltac:(apply cons_component; [lia|exact Hi]) Hr) as R0.
  set (s1 := component mass ms (slopes k (S rank) size x r) (1%nat :: i) phi theta) in R1. set (s0 := component mass ms (slopes k (S rank) size x r) (0%nat :: i) phi theta) in R0. set (h := RtoC (/ sqrt 2)).
  exists rt, rp, (h * (s1 + s0))%C, (- Ci * ep)%C, (h * (- Ci * (s1 - s0)))%C, (Ci * et)%C.
  split. { apply (derivative_ext (fun t => component mass ms (fun j => c (2%nat :: j)) i phi t)); [intros t; unfold ur, T, volume; rewrite component_radial; reflexivity|exact E1]. }
  split. { apply (derivative_ext (fun p => component mass ms (fun j => c (2%nat :: j)) i p theta)); [intros t; unfold ur, T, volume; rewrite component_radial; reflexivity|exact E2]. }
  split. { unfold ut, theta_part. apply derivative_times, (derivative_plus (fun q => T phi theta q (1%nat :: i)) (fun q => T phi theta q (0%nat :: i))); assumption. }
  split. { apply (derivative_ext (fun p => - Ci * phi_part (fun j => component mass ms (flipped c) j p theta) i)%C); [|apply derivative_times; exact D2]. intros p. unfold phi_part. rewrite component_flip. change (component mass ms (flipped c) (0%nat :: i) p theta) with (component mass ms c (0%nat :: i) p theta). change (ut p theta r) with (h * (component mass ms c (1%nat :: i) p theta + component mass ms c (0%nat :: i) p theta))%C. transitivity (- (Ci * Ci) * (h * (component mass ms c (1%nat :: i) p theta + component mass ms c (0%nat :: i) p theta)))%C; [unfold h; ring|rewrite I; unfold h; ring]. }
  split. { unfold up, phi_part. do 2 apply derivative_times. apply (derivative_minus (fun q => T phi theta q (1%nat :: i)) (fun q => T phi theta q (0%nat :: i))); assumption. }
  split. { apply (derivative_ext (fun t => Ci * (RtoC (sin t) * theta_part (fun j => component mass ms (flipped c) j phi t) i))%C); [|apply derivative_times; exact D1]. intros t. unfold theta_part. rewrite component_flip. change (component mass ms (flipped c) (0%nat :: i) phi t) with (component mass ms c (0%nat :: i) phi t). change (up phi t r) with (h * (- Ci * (component mass ms c (1%nat :: i) phi t - component mass ms c (0%nat :: i) phi t)))%C. unfold h. ring. }
  (* the parts *)
  assert (first : forall a, (a < 2)%nat -> U (a :: i) = (Ci * RtoC (IZR (value a)) * (component mass ms (slopes k (S rank) size x r) (a :: i) phi theta + RtoC (/ r) * here (a :: i)
      - (component mass ms (on_modes (fun l => SphereOps_Model.gradient (sig rank) l r) (fun j => c (2%nat :: j))) (a :: i) phi theta + RtoC (/ r) * tilts (fun j => here (2%nat :: j)) (a :: i))))%C).
  { intros a Ha. pose proof (ladder_component mass ms rank r Nr (fun j => c (2%nat :: j)) i a phi theta Hi Ha) as LC. cbv beta in LC. specialize (LC ltac:(intros ml Hml E; rewrite <- spin_radial in E; exact (Hn 2%nat ml ltac:(lia) Hml E))).
    match type of LC with ?A = _ => match goal with |- context [component mass ms (on_modes ?o ?d) (a :: i) phi theta] => change (component mass ms (on_modes o d) (a :: i) phi theta) with A end end. rewrite LC. clear LC.
    assert (TT : tilts (fun j => here (2%nat :: j)) (a :: i) = component mass ms (fun _ ml => tilt a (fun j => c (2%nat :: j) ml) i) (a :: i) phi theta).
    { cbn [tilts]. unfold here, T, volume. fold c. etransitivity; [exact (tilt_component mass ms a i c (cons 2%nat) 0 phi theta Ha (proj2 Hi) spin_radial)|]. unfold component. apply csum_same. intros ml. rewrite spin_cons. do 3 f_equal. lia. }
    rewrite TT. change (here (a :: i)) with (component mass ms c (a :: i) phi theta). rewrite <- component_four. unfold U, volume. apply component_same. intros ml Hml. destruct (He ml Hml) as (H1 & H2 & H3). cbv beta in H3 |- *. rewrite (proj2 (curl_spin mass (proj1 Hm) g k rank (size ml) H2 Hp (snd ml) H1 (x ml) (u ml) i r Hr Hi H3) a Ha). unfold c. ring. }
  split; [|split].
  - assert (EE : (et + ep + Ci * RtoC (IZR (spin i) * cos theta) * phi_part (fun j => component mass ms (flipped c) j phi theta) i = - Ci * (Ci * et - - Ci * ep - w * ut phi theta r))%C).
    { unfold phi_part. rewrite component_flip. change (component mass ms (flipped c) (0%nat :: i) phi theta) with (component mass ms c (0%nat :: i) phi theta). change (ut phi theta r) with (h * (component mass ms c (1%nat :: i) phi theta + component mass ms c (0%nat :: i) phi theta))%C. fold w. fold h. set (a1 := component mass ms c (1%nat :: i) phi theta). set (a0 := component mass ms c (0%nat :: i) phi theta).
      transitivity (- (Ci * Ci) * (et + ep) + Ci * w * (h * (a1 + a0)))%C; [rewrite I|]; ring. }
    rewrite EE in P. unfold Cdiv in P |- *.
    transitivity (Ci * (component mass ms (fun _ ml => RtoC (/ r) * (RtoC (ladder_back (snd ml) 0 (spin i)) * flipped c (0%nat :: i) ml + RtoC (ladder_back (snd ml) 1 (spin i)) * flipped c (1%nat :: i) ml)) i phi theta) + Ci * (tilt 1 (fun j => here (0%nat :: j)) i - tilt 0 (fun j => here (1%nat :: j)) i) / RtoC r)%C.
    2: { rewrite P. unfold Cdiv. transitivity (- (Ci * Ci) * ((Ci * et - - Ci * ep - w * ut phi theta r) * / RtoC (r * sin theta)) + Ci * (tilt 1 (fun j => here (0%nat :: j)) i - tilt 0 (fun j => here (1%nat :: j)) i) * / RtoC r)%C; [ring|rewrite I; ring]. }
    rewrite <- (Cinv_r r _ Nr). change (tilt 1 (fun j => here (0%nat :: j)) i) with (tilt 1 (fun j : index => component mass ms c (0%nat :: j) phi theta) i). change (tilt 0 (fun j => here (1%nat :: j)) i) with (tilt 0 (fun j : index => component mass ms c (1%nat :: j) phi theta) i).
    rewrite (turned_component ms 1 i c (cons 0%nat) (-1) phi theta ltac:(lia) (proj2 Hi) spin_minus ltac:(reflexivity)). rewrite (turned_component ms 0 i c (cons 1%nat) 1 phi theta ltac:(lia) (proj2 Hi) spin_plus ltac:(reflexivity)).
    unfold U, volume. rewrite component_radial.
    rewrite <- component_three. apply component_same. intros ml Hml. destruct (He ml Hml) as (H1 & H2 & H3). cbv beta in H3 |- *. rewrite (proj1 (curl_spin mass (proj1 Hm) g k rank (size ml) H2 Hp (snd ml) H1 (x ml) (u ml) i r Hr Hi H3)). unfold inward. cbn [flipped Nat.sub]. unfold c. ring.
  - change (ur phi theta r) with (component mass ms (fun j => c (2%nat :: j)) i phi theta). unfold w. rewrite <- Q2. unfold theta_part, phi_part, up, turn. rewrite !first by lia. cbn [value]. fold s1 s0. rewrite <- !(Cinv_r r _ Nr). fold h. unfold here. replace (RtoC (IZR (-1))) with (- RtoC 1)%C by (apply injective_projections; cbn; ring). unfold phi_part. fold h. ring.
  - unfold Cdiv. rewrite Cmult_plus_distr_r. fold (Cdiv rt (RtoC r)). rewrite <- Q1. unfold theta_part, phi_part, ut, turn. rewrite !first by lia. cbn [value]. fold s1 s0. rewrite <- (RtoC_inv r Nr). fold h. unfold here, theta_part. fold h. replace (RtoC (IZR (-1))) with (- RtoC 1)%C by (apply injective_projections; cbn; ring).
    match goal with |- (h * (- Ci * (Ci * _ * ?A - Ci * _ * ?B)))%C = _ => transitivity (- (Ci * Ci) * (h * (A + B)))%C; [ring|rewrite I; ring] end.
Qed.
Theorem volume_vector_curl k size ms x u phi theta r : proper g k -> each_mode ms size (fun N => curl g k N 0) x u -> 0 < theta < PI -> 0 < r ->
  let T p t q j := field k 1 size ms x j p t q in let ur p t q := T p t q [2%nat] in let ut p t q := theta_part (T p t q) [] in let up p t q := phi_part (T p t q) [] in
  let U j := field (S k) 1 size ms u j phi theta r in
  exists rt rp tr tp pr pt, has_derivative (fun t => ur phi t r) theta rt /\ has_derivative (fun p => ur p theta r) phi rp
  /\ has_derivative (fun q => ut phi theta q) r tr /\ has_derivative (fun p => ut p theta r) phi tp
  /\ has_derivative (fun q => up phi theta q) r pr /\ has_derivative (fun t => RtoC (sin t) * up phi t r)%C theta pt
  /\ (U [2%nat] = (pt - tp) / RtoC (r * sin theta) /\ theta_part U [] = rp / RtoC (r * sin theta) - (pr + up phi theta r / RtoC r) /\ phi_part U [] = (tr + ut phi theta r / RtoC r) - rt / RtoC r)%C.
Proof.
  intros Hp He Ht Hr T ur ut up U. destruct (volume_curl k 0 size ms x u [] phi theta r Hp He ltac:(split; constructor) Ht Hr) as (rt & rp & tr & tp & pr & pt & D1 & D2 & D3 & D4 & D5 & D6 & P1 & P2 & P3). exists rt, rp, tr, tp, pr, pt. repeat (split; [assumption|]).
  cbn [tilt] in P1. change (spin []) with 0%Z in *. rewrite Rmult_0_l in *. fold U in P2, P3. split; [|split].
  - etransitivity; [exact P1|]. unfold Cdiv. ring.
  - etransitivity; [exact P2|]. unfold Cdiv. unfold phi_part at 1. cbn [tilts tilt]. unfold ur, up, T. ring.
  - etransitivity; [exact P3|]. unfold Cdiv. unfold theta_part at 2. cbn [tilts tilt]. unfold ut, T. ring.
Qed.

(** ** Laplacians *)
Lemma scalar_value l f : spin_value 0 l f [] = f [].
Proof. unfold spin_value, csum. cbn [indices map fold_right]. change (Q l [] []) with 1. ring. Qed.
Theorem volume_scalar_laplacian k size ms x u phi theta r : proper g k -> each_mode ms size (fun N => laplacian g k N 0) x u -> 0 < theta < PI -> 0 < r ->
  let f := field k 0 size ms x [] in
  exists r1 t1 p1 er et ep, (forall q, 0 < q -> has_derivative (fun q => f phi theta q) q (r1 q)) /\ (forall t, 0 < t < PI -> has_derivative (fun t => f phi t r) t (t1 t)) /\ (forall p, has_derivative (fun p => f p theta r) p (p1 p))
  /\ has_derivative r1 r er /\ has_derivative (fun t => RtoC (sin t) * t1 t)%C theta et /\ has_derivative p1 phi ep
  /\ field (S (S k)) 0 size ms u [] phi theta r = (er + RtoC (2 / r) * r1 r + et / RtoC (r * r * sin theta) + ep / RtoC (r * r * (sin theta * sin theta)))%C.
Proof.
  intros Hp He Ht Hr f. assert (Nr : r <> 0) by lra. assert (Hs : forall ml, In ml ms -> (0 <= snd ml)%Z /\ (1 <= size ml)%nat) by (intros ml Hml; destruct (He ml Hml) as (H1 & H2 & _); split; assumption).
  destruct (sphere_scalar_laplacian mass Hm ms (coefs k 0 size x r) r phi theta Nr Ht) as (t1 & p1 & et & ep & D1 & D2 & D3 & D4 & P).
  set (curve := fun (_ : index) (ml : Z * Z) => slope_of (fun q => radial_slope mass g k (size ml) (snd ml) (x ml) q []) r).
  exists (fun q => component mass ms (slopes k 0 size x q) [] phi theta), t1, p1, (component mass ms curve [] phi theta), et, ep.
  assert (Hc : is_component 0 []) by (split; constructor).
  split; [intros q Hq; apply (radial_component k 0 size ms x [] phi theta q Hp Hs Hc Hq)|]. split; [exact D1|]. split; [exact D2|].
  assert (L : forall ml, In ml ms -> has_derivative (fun q => radial_slope mass g k (size ml) (snd ml) (x ml) q []) r (curve [] ml)
    /\ at_radius mass g (S (S k)) (size ml) (snd ml) (u ml) r [] = (curve [] ml + RtoC (2 / r) * radial_slope mass g k (size ml) (snd ml) (x ml) r [] + RtoC (- (IZR (snd ml) * (IZR (snd ml) + 1)) / r ^ 2) * at_radius mass g k (size ml) (snd ml) (x ml) r [])%C).
  { intros ml Hml. destruct (He ml Hml) as (H1 & H2 & H3). destruct (spherical_laplacian mass (proj1 Hm) g (size ml) (snd ml) k 0 (x ml) H2 H1 Hp) as (u' & E & Hx & _). cbv beta in H3. assert (u' = u ml) by congruence. subst u'.
    assert (Pr : present (snd ml) []) by (apply (allowed_present 0 (snd ml) []); [exact H1|exact Hc|reflexivity]).
    destruct (Hx [] Hc Pr) as (f1 & F1 & F2). destruct (F2 r Hr) as (e & F3 & F4).
    assert (D0 : degree (snd ml) [] = snd ml) by (unfold degree; cbn; lia).
    assert (same : forall q, 0 < q -> radial_slope mass g k (size ml) (snd ml) (x ml) q [] = f1 q) by (intros q Hq; exact (slope_at mass g k (size ml) (snd ml) (x ml) [] _ q (f1 q) eq_refl (F1 q Hq))).
    assert (F5 : has_derivative (fun q => radial_slope mass g k (size ml) (snd ml) (x ml) q []) r e).
    { apply (derivative_near f1); [|exact F3]. apply (filter_imp (fun q => 0 < q)); [intros q Hq; symmetry; apply same, Hq|]. exact (open_gt 0 r Hr). }
    assert (Ec : curve [] ml = e) by exact (slope_unique _ _ _ F5). rewrite Ec. split; [exact F5|]. rewrite (same r Hr). unfold at_radius. rewrite F4. rewrite D0. reflexivity. }
  split. { apply (component_derive mass ms (fun q => slopes k 0 size x q) curve). intros ml Hml. apply (derivative_ext (fun q => radial_slope mass g k (size ml) (snd ml) (x ml) q [])); [intros q; rewrite scalar_value; reflexivity|apply (L ml Hml)]. }
  split; [exact D3|]. split; [exact D4|].
  transitivity (component mass ms curve [] phi theta + RtoC (2 / r) * component mass ms (slopes k 0 size x r) [] phi theta + component mass ms (on_modes (fun l => SphereOps_Model.laplacian [] l r) (coefs k 0 size x r)) [] phi theta)%C; [|rewrite P; ring].
  rewrite <- component_scale. rewrite <- (component_sum mass ms (fun j ml => curve j ml + RtoC (2 / r) * slopes k 0 size x r j ml)%C) by (intros; reflexivity).
  unfold volume. apply component_sum. intros ml Hml. destruct (L ml Hml) as [_ E]. rewrite !scalar_value. rewrite E. apply f_equal. unfold on_modes.
  destruct (Hs ml Hml) as [H1 _]. rewrite !(SphereOps_Props.sphere_laplacian [] (snd ml) r _ [] Nr ltac:(constructor)). cbv zeta. change (spin []) with 0%Z. assert (X : SphereOps_Spec.exists_at (snd ml) 0 = true) by (apply Z.leb_le; cbn; lia). rewrite X. rewrite scalar_value. set (z := at_radius _ _ _ _ _ _ _ _). destruct z as [z1 z2].
  assert (K : - IZR (snd ml * (snd ml + 1) - 0 * 0) / (r * r) = - (IZR (snd ml) * (IZR (snd ml) + 1)) / r ^ 2) by (replace (snd ml * (snd ml + 1) - 0 * 0)%Z with (snd ml * (snd ml + 1))%Z by ring; rewrite mult_IZR, plus_IZR; field; exact Nr). rewrite K.
  apply injective_projections; unfold Cmult, RtoC, Re, Im; cbn [fst snd]; ring.
Qed.

(** ** Identities, of fields *)
Lemma volume_agree k rank size ms v w i phi theta r : (forall ml, In ml ms -> agree rank (size ml) (v ml) (w ml)) -> field k rank size ms v i phi theta r = field k rank size ms w i phi theta r.
Proof.
  intros H. unfold volume. apply component_same. intros ml Hml. unfold spin_value. apply csum_ext. intros b Hb. apply indices_in in Hb. f_equal. unfold at_radius. apply function_ext. intros n Hn. exact (H ml Hml b Hb n Hn).
Qed.
Lemma volume_zero k rank size ms i phi theta r : field k rank size ms (fun _ _ _ => RtoC 0) i phi theta r = RtoC 0.
Proof.
  unfold volume. transitivity (component mass ms (fun _ _ => RtoC 0 * RtoC 0)%C i phi theta); [|rewrite (component_scale mass ms (fun _ _ => RtoC 0) (RtoC 0)); ring]. apply component_same. intros ml _.
  unfold spin_value. transitivity (csum (indices rank) (fun _ => RtoC 0)).
  - apply csum_ext. intros b _. unfold at_radius. rewrite function_zero by reflexivity. ring.
  - unfold csum. induction (indices rank) as [|b l IH]; cbn [map fold_right]; [ring|]. rewrite IH. ring.
Qed.
(** The Laplacian is the divergence of the gradient. *)
Theorem volume_div_grad k rank size ms x u v w i phi theta r : proper g k -> each_mode ms size (fun N => gradient g k N rank) x u -> each_mode ms size (fun N => divergence g (S k) N rank) u v -> each_mode ms size (fun N => laplacian g k N rank) x w ->
  field (S (S k)) rank size ms v i phi theta r = field (S (S k)) rank size ms w i phi theta r.
Proof.
  intros Hp H1 H2 H3. apply volume_agree. intros ml Hml. destruct (H1 ml Hml) as (A1 & A2 & A3). destruct (H2 ml Hml) as (_ & _ & B3). destruct (H3 ml Hml) as (_ & _ & C3). cbv beta in *.
  destruct (spherical_div_grad mass (proj1 Hm) g (size ml) (snd ml) k rank (x ml) A2 A1 Hp) as (u' & v' & w' & E1 & E2 & E3 & E4). assert (u' = u ml) by congruence. subst u'. assert (v' = v ml) by congruence. assert (w' = w ml) by congruence. subst v' w'. exact E4.
Qed.
Theorem volume_curl_grad k rank size ms x u v i phi theta r : proper g k -> each_mode ms size (fun N => gradient g k N rank) x u -> each_mode ms size (fun N => curl g (S k) N rank) u v ->
  field (S (S k)) (S rank) size ms v i phi theta r = RtoC 0.
Proof.
  intros Hp H1 H2. rewrite <- (volume_zero (S (S k)) (S rank) size ms i phi theta r). apply volume_agree. intros ml Hml. destruct (H1 ml Hml) as (A1 & A2 & A3). destruct (H2 ml Hml) as (_ & _ & B3). cbv beta in *.
  destruct (spherical_curl_grad mass (proj1 Hm) g (size ml) (snd ml) k rank (x ml) A2 A1 Hp) as (u' & v' & E1 & E2 & E4). assert (u' = u ml) by congruence. subst u'. assert (v' = v ml) by congruence. subst v'. exact E4.
Qed.
Theorem volume_div_curl k rank size ms x u v i phi theta r : proper g k -> each_mode ms size (fun N => curl g k N rank) x u -> each_mode ms size (fun N => divergence g (S k) N rank) u v ->
  field (S (S k)) rank size ms v i phi theta r = RtoC 0.
Proof.
  intros Hp H1 H2. rewrite <- (volume_zero (S (S k)) rank size ms i phi theta r). apply volume_agree. intros ml Hml. destruct (H1 ml Hml) as (A1 & A2 & A3). destruct (H2 ml Hml) as (_ & _ & B3). cbv beta in *.
  destruct (spherical_div_curl mass (proj1 Hm) g (size ml) (snd ml) k rank (x ml) A2 A1 Hp) as (u' & v' & E1 & E2 & E4). assert (u' = u ml) by congruence. subst u'. assert (v' = v ml) by congruence. subst v'. exact E4.
Qed.
(** The operators are defined on all coefficients. *)
Theorem volume_operators k rank size ms (x : Z * Z -> vectors) : proper g k -> (forall ml, In ml ms -> (0 <= snd ml)%Z /\ (1 <= size ml)%nat) ->
  (exists u, each_mode ms size (fun N => gradient g k N rank) x u) /\ (exists u, each_mode ms size (fun N => divergence g k N rank) x u)
  /\ (exists u, each_mode ms size (fun N => curl g k N rank) x u) /\ (exists u, each_mode ms size (fun N => laplacian g k N rank) x u).
Proof.
  intros Hp Hs.
  assert (K : forall op : nat -> Z -> vectors -> option vectors, (forall N l y, (1 <= N)%nat -> (0 <= l)%Z -> exists v, op N l y = Some v) -> exists u, each_mode ms size op x u).
  { intros op H. exists (fun ml => match op (size ml) (snd ml) (x ml) with Some v => v | None => fun _ _ => RtoC 0 end). intros ml Hml. destruct (Hs ml Hml) as [H1 H2]. split; [exact H1|]. split; [exact H2|]. destruct (H (size ml) (snd ml) (x ml) H2 H1) as [v ->]. reflexivity. }
  split; [|split; [|split]]; apply K; intros N l y HN Hl.
  - destruct (spherical_gradient mass (proj1 Hm) g N l k rank y HN Hl Hp) as (v & E & _). exists v. exact E.
  - destruct (spherical_divergence mass (proj1 Hm) g N l k rank y HN Hl Hp) as (v & E & _). exists v. exact E.
  - destruct (spherical_curl mass (proj1 Hm) g N l k rank y HN Hl Hp) as (v & E & _). exists v. exact E.
  - destruct (spherical_laplacian mass (proj1 Hm) g N l k rank y HN Hl Hp) as (v & E & _). exists v. exact E.
Qed.
End Mass.
Print Assumptions volume_gradient.
Print Assumptions volume_scalar_gradient.
Print Assumptions volume_vector_gradient.
Print Assumptions volume_divergence.
Print Assumptions volume_vector_divergence.
Print Assumptions volume_curl.
Print Assumptions volume_vector_curl.
Print Assumptions volume_scalar_laplacian.
Print Assumptions volume_div_grad.
Print Assumptions volume_curl_grad.
Print Assumptions volume_div_curl.
Print Assumptions volume_operators.

(** In a ball of radius 2, a multiple of [r cos theta], of order 0 and degree 1: its gradient is that multiple of the unit vector along
    the axis. *)
Example sample_axis : exists K u, K <> 0 /\ (let x (_ : Z * Z) (_ : index) (_ : nat) := RtoC 1 in let N (_ : Z * Z) := 1%nat in
  each_mode [(0, 1)%Z] N (fun N => gradient (Ball 2 0) 0 N 0) x u
  /\ forall phi theta r, 0 < theta < PI -> 0 < r -> volume sample_mass (Ball 2 0) 0 0 N [(0, 1)%Z] x [] phi theta r = RtoC (K * r * cos theta)
     /\ (let G j := volume sample_mass (Ball 2 0) 1 1 N [(0, 1)%Z] u j phi theta r in G [2%nat] = RtoC (K * cos theta) /\ theta_part G [] = RtoC (- (K * sin theta)) /\ phi_part G [] = RtoC 0)).
Proof.
  set (c := sqrt (Rpower 2 (0 + 0 + 1 + INR 3 / 2 + 1)) * / 2 * unit_polynomial sample_mass 0 (0 + 0) (1 + INR 3 / 2 - 1) 0).
  set (x := fun (_ : Z * Z) (_ : index) (_ : nat) => RtoC 1). set (N := fun _ : Z * Z => 1%nat).
  assert (Hp : proper (Ball 2 0) 0) by (cbn; lra).
  destruct (volume_operators sample_mass sample_true (Ball 2 0) 0 0 N [(0, 1)%Z] x Hp) as [[u Hu] _]; [intros ml [<-|[]]; unfold N; cbn [snd]; lia|].
  exists (sqrt (3 / 2) * c), u. split.
  { apply Rmult_integral_contrapositive_currified; [apply Rgt_not_eq, sqrt_lt_R0; lra|]. unfold c, unit_polynomial. apply Rmult_integral_contrapositive_currified; [apply Rmult_integral_contrapositive_currified; [apply Rgt_not_eq, sqrt_lt_R0, exp_pos|lra]|]. 
    unfold Rdiv. apply Rmult_integral_contrapositive_currified; [|apply Rinv_neq_0_compat, Rgt_not_eq, sqrt_lt_R0; unfold norm2; rewrite Rmult_1_r; apply (proj1 sample_true); cbn; lra].
    unfold classical, CSR_Spec.total, coefficient. cbn. lra. }
  split; [exact Hu|].
  assert (V : forall phi theta r, volume sample_mass (Ball 2 0) 0 0 N [(0, 1)%Z] x [] phi theta r = RtoC (sqrt (3 / 2) * c * r * cos theta)).
  { intros p t r. unfold volume. rewrite (component_same sample_mass [(0, 1)%Z] _ (fun _ _ => RtoC (c * r) * RtoC 1)%C).
    - rewrite (component_scale sample_mass [(0, 1)%Z] (fun _ _ => RtoC 1)). pose proof (sample_harmonic (cos t) (COS_bound t)) as E. rewrite (harmonics_values sample_mass sample_true) in E by (pose proof (COS_bound t); lra). change (Z.to_nat (1 + 1 - lowest 0 0)) with 2%nat in E. cbn [seq map] in E. injection E as _ E. change (lowest 0 0 + Z.of_nat 1)%Z with 1%Z in E.
      unfold component, csum. cbn [map fold_right fst snd]. unfold shape. change (spin []) with 0%Z. change (lowest 0 0 <=? 1)%Z with true. cbv iota. rewrite E. rewrite Rmult_0_l, cos_0, sin_0. apply injective_projections; unfold Cmult, Cplus, RtoC; cbn [fst snd]; ring.
    - intros ml [<-|[]]. cbn [snd]. rewrite scalar_value. unfold at_radius, function_of, Radial_Spec.series, CSR_Spec.total, x, N. cbn [seq fold_right SphericalVec_Spec.modes Nat.add]. change (Z.to_nat (degree 1 [])) with 1%nat. unfold Radial_Spec.zernike. cbn [pow].
      change (unit_polynomial sample_mass 0 (0 + INR 0) (INR 1 + INR 3 / 2 - 1) (2 * (r / 2 * (r / 2 * 1)) - 1)) with (unit_polynomial sample_mass 0 (0 + 0) (1 + INR 3 / 2 - 1) 0). change (INR 0) with 0. change (INR 1) with 1. unfold c. set (w := unit_polynomial _ _ _ _ _). set (q := sqrt _).
      apply injective_projections; unfold Cmult, RtoC, Re, Im; cbn [fst snd]; field. }
  intros phi theta r Ht Hr. split; [apply V|]. destruct (volume_scalar_gradient sample_mass sample_true (Ball 2 0) 0 N [(0, 1)%Z] x u phi theta r Hp Hu Ht Hr) as (er & et & ep & D1 & D2 & D3 & P1 & P2 & P3). cbv zeta. set (K := sqrt (3 / 2) * c) in *.
  assert (E1 : er = RtoC (K * cos theta)). { apply (derivative_unique _ _ _ _ D1). apply (derivative_ext (fun q => RtoC (K * q * cos theta))); [intros t; symmetry; apply V|]. split; cbn [Re Im RtoC fst snd]; auto_derive; trivial; ring. }
  assert (E2 : et = RtoC (- (K * r * sin theta))). { apply (derivative_unique _ _ _ _ D2). apply (derivative_ext (fun t => RtoC (K * r * cos t))); [intros t; symmetry; apply V|]. split; cbn [Re Im RtoC fst snd]; auto_derive; trivial; ring. }
  assert (E3 : ep = RtoC 0). { apply (derivative_unique _ _ _ _ D3). apply (derivative_ext (fun p => RtoC (K * r * cos theta))); [intros t; symmetry; apply V|]. split; cbn [Re Im RtoC fst snd]; auto_derive; trivial; ring. }
  split; [rewrite <- E1; exact P1|]. split.
  - etransitivity; [exact P2|]. rewrite E2. unfold Cdiv. rewrite <- RtoC_inv, <- RtoC_mult by lra. f_equal. field. lra.
  - etransitivity; [exact P3|]. rewrite E3. unfold Cdiv. ring.
Qed.
