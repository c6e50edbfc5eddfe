(** Gradients, divergences and Laplacians on the sphere are those of the functions that coefficients stand for (C84). *)
From Coq Require Import List ZArith Reals Bool Lia Lra.
From Coquelicot Require Import Coquelicot.
Import ListNotations.
From Verif Require Spin_Spec.
From Verif Require Import Integrals_Proofs JacobiCalc_Proofs SphereOps_Model SphereOps_Spec SphereOps_Proofs SphereOps_Props SphericalVec_Spec SphericalVec_Proofs Harmonics_Spec Harmonics_Proofs Harmonics_Props SphereCalc_Spec SphereCalc_Proofs.
Local Open Scope R_scope.

Lemma derivative_plus f g t a b : has_derivative f t a -> has_derivative g t b -> has_derivative (fun x => f x + g x)%C t (a + b)%C.
Proof.
  intros [F1 F2] [G1 G2]. split.
  - apply (is_derive_ext (fun x => plus (Re (f x)) (Re (g x)))); [intros u; reflexivity|]. exact (is_derive_plus _ _ t _ _ F1 G1).
  - apply (is_derive_ext (fun x => plus (Im (f x)) (Im (g x)))); [intros u; reflexivity|]. exact (is_derive_plus _ _ t _ _ F2 G2).
Qed.
Lemma derivative_times k f t a : has_derivative f t a -> has_derivative (fun x => k * f x)%C t (k * a)%C.
Proof.
  intros [F1 F2]. destruct k as [x y]. split.
  - apply (is_derive_ext (fun u => minus (scal x (Re (f u))) (scal y (Im (f u))))); [intros u; reflexivity|]. exact (is_derive_minus _ _ t _ _ (is_derive_scal _ t x _ F1) (is_derive_scal _ t y _ F2)).
  - apply (is_derive_ext (fun u => plus (scal x (Im (f u))) (scal y (Re (f u))))); [intros u; reflexivity|]. exact (is_derive_plus _ _ t _ _ (is_derive_scal _ t x _ F2) (is_derive_scal _ t y _ F1)).
Qed.
Lemma derivative_near f g t a : locally t (fun x => f x = g x) -> has_derivative f t a -> has_derivative g t a.
Proof.
  intros H [F1 F2]. split; [apply (is_derive_ext_loc (fun x => Re (f x)))|apply (is_derive_ext_loc (fun x => Im (f x)))]; try assumption; (eapply filter_imp; [|exact H]); intros x E; cbv beta in E; rewrite E; reflexivity.
Qed.
Lemma derivative_ext f g t a : (forall x, f x = g x) -> has_derivative f t a -> has_derivative g t a.
Proof. intros H. apply derivative_near. exists (mkposreal 1 Rlt_0_1). intros x _. apply H. Qed.
Lemma derivative_sine f t a : has_derivative f t a -> has_derivative (fun x => RtoC (sin x) * f x)%C t (RtoC (sin t) * a + RtoC (cos t) * f t)%C.
Proof.
  intros [F1 F2]. assert (S : is_derive sin t (cos t)) by (auto_derive; [trivial|ring]). split.
  - apply (is_derive_ext (fun x => sin x * Re (f x))); [intros x; unfold Re, Cmult, RtoC; cbn [fst snd]; on_R; ring|]. eapply eq_ind; [exact (is_derive_mult _ _ t _ _ S F1 Rmult_comm)|]. unfold plus, mult, Re, Cmult, Cplus, RtoC; cbn. on_R. ring.
  - apply (is_derive_ext (fun x => sin x * Im (f x))); [intros x; unfold Im, Cmult, RtoC; cbn [fst snd]; on_R; ring|]. eapply eq_ind; [exact (is_derive_mult _ _ t _ _ S F2 Rmult_comm)|]. unfold plus, mult, Im, Cmult, Cplus, RtoC; cbn. on_R. ring.
Qed.
Lemma interior t : 0 < t < PI -> locally t (fun x => 0 < x < PI).
Proof. intros H. apply (open_and (fun x => 0 < x) (fun x => x < PI)); [apply open_gt|apply open_lt|exact H]. Qed.

Lemma derivative_minus f g t a b : has_derivative f t a -> has_derivative g t b -> has_derivative (fun x => f x - g x)%C t (a - b)%C.
Proof. intros F G. replace (a - b)%C with (a + - (1) * b)%C by ring. apply (derivative_ext (fun x => f x + - (1) * g x)%C); [intros x; ring|]. apply derivative_plus; [exact F|]. apply derivative_times. exact G. Qed.

(** The parts are the components that the library gives in coordinates, of which the azimuth is the first (C54): for vectors and for
    tensors of rank 2. *)
Theorem parts_components u : Spin_Spec.coordinate_components [Some 0%nat] [2%nat] u [1%nat] = theta_part u [] /\ Spin_Spec.coordinate_components [Some 0%nat] [2%nat] u [0%nat] = phi_part u [].
Proof.
  pose proof (proj2 root2) as R2. assert (N2 : RtoC (sqrt 2) <> 0) by (intros E; apply R2; injection E; trivial).
  unfold Spin_Spec.coordinate_components, Spin_Spec.transformed, CSR_Spec.total, theta_part, phi_part. cbn [seq fold_right Spin_Spec.spin_entry Nat.eqb Nat.add]. unfold Cdiv. rewrite <- !RtoC_inv by exact R2. destruct (u [1%nat]) as [a b], (u [0%nat]) as [a' b'].
  split; apply injective_projections; unfold Cconj, Cminus, Cmult, Cplus, Copp, RtoC, Ci; cbn [fst snd]; ring.
Qed.
Theorem parts_components_tensor u : let x := Spin_Spec.coordinate_components [Some 0%nat; Some 0%nat] [2%nat; 2%nat] u in
  x [1%nat; 1%nat] = theta_part (theta_part u) [] /\ x [1%nat; 0%nat] = phi_part (theta_part u) [] /\ x [0%nat; 1%nat] = theta_part (phi_part u) [] /\ x [0%nat; 0%nat] = phi_part (phi_part u) [].
Proof.
  pose proof (proj2 root2) as R2. intros x. unfold x, Spin_Spec.coordinate_components, Spin_Spec.transformed, CSR_Spec.total, theta_part, phi_part. cbn [seq fold_right Spin_Spec.spin_entry Nat.eqb Nat.add]. unfold Cdiv. rewrite <- !RtoC_inv by exact R2.
  destruct (u [1%nat; 1%nat]) as [a b], (u [1%nat; 0%nat]) as [a' b'], (u [0%nat; 1%nat]) as [c d], (u [0%nat; 0%nat]) as [c' d'].
  repeat split; apply injective_projections; unfold Cconj, Cminus, Cmult, Cplus, Copp, RtoC, Ci; cbn [fst snd]; ring.
Qed.
Section Mass.
Context (mass : R -> R -> R) (Hm : true_mass mass).
Notation field := (component mass).
Notation grad sig r := (on_modes (fun l => gradient sig l r)).

(** ** Gradients *)
(** The part along colatitude is the derivative over the radius; that along azimuth has the derivative and the rotation of the
    components, over the radius of the circle of latitude.  Tensors of every rank, components of every spin. *)
Theorem sphere_gradient_calculus modes c sig r i phi theta : r <> 0 -> is_index sig i -> 0 < theta < PI ->
  exists et ep, has_derivative (field modes c i phi) theta et /\ has_derivative (fun p => field modes c i p theta) phi ep
  /\ (let g j := field modes (grad sig r c) j phi theta in
     theta_part g i = et / RtoC r /\ phi_part g i = (ep + Ci * RtoC (IZR (spin i) * cos theta) * field modes c i phi theta) / RtoC (r * sin theta))%C.
Proof.
  intros Hr Hi Ht. exists (theta_slope mass modes c i phi theta), (phi_slope mass modes c i phi theta). split; [apply (theta_derive mass Hm); exact Ht|]. split; [apply phi_derive|]. cbv zeta. unfold theta_part, phi_part.
  rewrite (gradient_up mass) by assumption. rewrite (gradient_down mass Hm) by assumption. pose proof (sin_pos theta Ht) as Hs. destruct root2 as [S2 R2]. set (F := component _ _ _ _ _ _). set (T := theta_slope _ _ _ _ _ _). set (P := phi_slope _ _ _ _ _ _). destruct F as [f1 f2], T as [t1 t2], P as [p1 p2].
  unfold Cdiv. rewrite <- !RtoC_inv by (try exact Hr; apply Rmult_integral_contrapositive_currified; assumption). assert (I2 : / sqrt 2 * / sqrt 2 = 1 / 2) by (rewrite <- Rinv_mult, S2; field). set (k := / sqrt 2) in *.
  split; apply injective_projections; unfold Cminus, Cmult, Cplus, Copp, RtoC, Ci, Re, Im; cbn [fst snd].
  - transitivity (2 * (k * k) * t1 / r); [field; split; assumption|rewrite I2; field; assumption].
  - transitivity (2 * (k * k) * t2 / r); [field; split; assumption|rewrite I2; field; assumption].
  - transitivity (2 * (k * k) * ((p1 - IZR (spin i) * cos theta * f2) / (r * sin theta))); [field; split; assumption|rewrite I2; field; split; assumption].
  - transitivity (2 * (k * k) * ((p2 + IZR (spin i) * cos theta * f1) / (r * sin theta))); [field; split; assumption|rewrite I2; field; split; assumption].
Qed.
(** So for scalars. *)
Theorem sphere_scalar_gradient modes c r phi theta : r <> 0 -> 0 < theta < PI ->
  exists et ep, has_derivative (field modes c [] phi) theta et /\ has_derivative (fun p => field modes c [] p theta) phi ep
  /\ (let g j := field modes (grad [] r c) j phi theta in theta_part g [] = et / RtoC r /\ phi_part g [] = ep / RtoC (r * sin theta))%C.
Proof.
  intros Hr Ht. destruct (sphere_gradient_calculus modes c [] r [] phi theta Hr ltac:(constructor) Ht) as (et & ep & H1 & H2 & H3 & H4). exists et, ep. split; [exact H1|]. split; [exact H2|]. split; [exact H3|]. cbv zeta in H4 |- *. rewrite H4. change (spin []) with 0%Z. unfold Cdiv. f_equal. rewrite Rmult_0_l. ring.
Qed.
(** And for vectors, in coordinates, where the second index is that of the vector. *)
Theorem sphere_vector_gradient modes c r phi theta : r <> 0 -> 0 < theta < PI ->
  let ut p t := theta_part (fun j => field modes c j p t) [] in let up p t := phi_part (fun j => field modes c j p t) [] in
  exists utt utp upt upp, has_derivative (ut phi) theta utt /\ has_derivative (fun p => ut p theta) phi utp /\ has_derivative (up phi) theta upt /\ has_derivative (fun p => up p theta) phi upp
  /\ (let g j := field modes (grad [2%nat] r c) j phi theta in
     theta_part (theta_part g) [] = utt / RtoC r /\ phi_part (theta_part g) [] = upt / RtoC r
     /\ theta_part (phi_part g) [] = (utp - RtoC (cos theta) * up phi theta) / RtoC (r * sin theta) /\ phi_part (phi_part g) [] = (upp + RtoC (cos theta) * ut phi theta) / RtoC (r * sin theta))%C.
Proof.
  intros Hr Ht. cbv zeta. destruct (sphere_gradient_calculus modes c [2%nat] r [1%nat] phi theta Hr ltac:(constructor; [lia|constructor]) Ht) as (at_ & ap & A1 & A2 & A3 & A4). destruct (sphere_gradient_calculus modes c [2%nat] r [0%nat] phi theta Hr ltac:(constructor; [lia|constructor]) Ht) as (bt & bp & B1 & B2 & B3 & B4).
  cbv zeta in A3, A4, B3, B4. pose proof (sin_pos theta Ht) as Hs. destruct root2 as [S2 R2].
  exists (RtoC (/ sqrt 2) * (at_ + bt))%C, (RtoC (/ sqrt 2) * (ap + bp))%C, (RtoC (/ sqrt 2) * (- Ci * (at_ - bt)))%C, (RtoC (/ sqrt 2) * (- Ci * (ap - bp)))%C.
  split; [unfold theta_part; apply derivative_times, derivative_plus; assumption|]. split; [unfold theta_part; apply derivative_times; apply (derivative_plus (fun p => field modes c [1%nat] p theta) (fun p => field modes c [0%nat] p theta)); assumption|].
  split; [unfold phi_part; do 2 apply derivative_times; apply derivative_minus; assumption|]. split; [unfold phi_part; do 2 apply derivative_times; apply (derivative_minus (fun p => field modes c [1%nat] p theta) (fun p => field modes c [0%nat] p theta)); assumption|].
  set (g := fun j => field modes (grad [2%nat] r c) j phi theta) in *.
  change (theta_part (theta_part g) []) with (RtoC (/ sqrt 2) * (theta_part g [1%nat] + theta_part g [0%nat]))%C. change (theta_part (phi_part g) []) with (RtoC (/ sqrt 2) * (phi_part g [1%nat] + phi_part g [0%nat]))%C.
  change (phi_part (theta_part g) []) with (RtoC (/ sqrt 2) * (- Ci * (theta_part g [1%nat] - theta_part g [0%nat])))%C. change (phi_part (phi_part g) []) with (RtoC (/ sqrt 2) * (- Ci * (phi_part g [1%nat] - phi_part g [0%nat])))%C. rewrite A3, A4, B3, B4. change (spin [1%nat]) with 1%Z. change (spin [0%nat]) with (-1)%Z. unfold theta_part, phi_part.
  set (V1 := field modes c [1%nat] phi theta). set (V0 := field modes c [0%nat] phi theta). assert (N1 : RtoC r <> 0) by (intros E; apply Hr; injection E; trivial).
  set (k := RtoC (/ sqrt 2)). set (q := RtoC (r * sin theta)). unfold Cdiv. generalize (/ RtoC r)%C. generalize (/ q)%C. intros Q R. rewrite Rmult_1_l. replace (RtoC (-1 * cos theta)) with (- RtoC (cos theta))%C by (rewrite RtoC_mult; apply injective_projections; cbn; ring). set (w := RtoC (cos theta)).
  split; [ring|]. split; [ring|]. assert (I : (Ci * Ci = - (1))%C) by (apply injective_projections; cbn; ring). split.
  - transitivity (k * ((ap + bp) + Ci * w * (V1 - V0)) * Q)%C; [ring|]. ring.
  - transitivity (k * (- Ci * (ap - bp) + - (Ci * Ci) * w * (V1 + V0)) * Q)%C; [ring|]. rewrite I. ring.
Qed.

(** ** Divergences *)
Theorem sphere_divergence_calculus modes c n sig r i phi theta : r <> 0 -> (2 <= n)%nat -> is_index sig i -> 0 < theta < PI ->
  let ut p t := theta_part (fun j => field modes c j p t) i in let up p t := phi_part (fun j => field modes c j p t) i in
  exists et ep, has_derivative (fun t => RtoC (sin t) * ut phi t)%C theta et /\ has_derivative (fun p => up p theta) phi ep
  /\ field modes (on_modes (fun l => divergence (n :: sig) l r) c) i phi theta = ((et + ep + Ci * RtoC (IZR (spin i) * cos theta) * up phi theta) / RtoC (r * sin theta))%C.
Proof.
  intros Hr Hn Hi Ht. cbv zeta. pose proof (theta_derive mass Hm modes c (1%nat :: i) phi theta Ht) as A1. pose proof (theta_derive mass Hm modes c (0%nat :: i) phi theta Ht) as B1. pose proof (phi_derive mass modes c (1%nat :: i) phi theta) as A2. pose proof (phi_derive mass modes c (0%nat :: i) phi theta) as B2.
  pose proof (sin_pos theta Ht) as Hs. destruct root2 as [S2 R2]. rewrite (divergence_sum mass Hm) by assumption.
  set (a := theta_slope mass modes c (1%nat :: i) phi theta) in *. set (b := theta_slope mass modes c (0%nat :: i) phi theta) in *. set (p := phi_slope mass modes c (1%nat :: i) phi theta) in *. set (q := phi_slope mass modes c (0%nat :: i) phi theta) in *.
  eexists. eexists. split; [apply derivative_sine; unfold theta_part; apply derivative_times, derivative_plus; [exact A1|exact B1]|]. split.
  - unfold phi_part. do 2 apply derivative_times. apply (derivative_minus (fun p => field modes c (1%nat :: i) p theta) (fun p => field modes c (0%nat :: i) p theta)); [exact A2|exact B2].
  - cbv beta. unfold theta_part, phi_part. set (V1 := field modes c (1%nat :: i) phi theta). set (V0 := field modes c (0%nat :: i) phi theta). unfold Cdiv. rewrite <- RtoC_inv by (apply Rmult_integral_contrapositive_currified; assumption). set (k := / sqrt 2) in *.
    destruct V1 as [v1 v2], V0 as [w1 w2], a as [a1 a2], b as [b1 b2], p as [p1 p2], q as [q1 q2].
    apply injective_projections; unfold Cminus, Cmult, Cplus, Copp, RtoC, Ci, Re, Im; cbn [fst snd]; field; split; assumption.
Qed.
Theorem sphere_vector_divergence modes c r phi theta : r <> 0 -> 0 < theta < PI ->
  let ut p t := theta_part (fun j => field modes c j p t) [] in let up p t := phi_part (fun j => field modes c j p t) [] in
  exists et ep, has_derivative (fun t => RtoC (sin t) * ut phi t)%C theta et /\ has_derivative (fun p => up p theta) phi ep
  /\ field modes (on_modes (fun l => divergence [2%nat] l r) c) [] phi theta = ((et + ep) / RtoC (r * sin theta))%C.
Proof.
  intros Hr Ht. cbv zeta. destruct (sphere_divergence_calculus modes c 2 [] r [] phi theta Hr ltac:(lia) ltac:(constructor) Ht) as (et & ep & H1 & H2 & H3). exists et, ep. split; [exact H1|]. split; [exact H2|]. rewrite H3. change (spin []) with 0%Z. unfold Cdiv. f_equal. rewrite Rmult_0_l. ring.
Qed.

(** ** Laplacians *)
Theorem sphere_laplacian_calculus modes c sig r i phi theta : r <> 0 -> is_index sig i -> 0 < theta < PI ->
  let turn := (Ci * RtoC (IZR (spin i) * cos theta))%C in
  exists f1 p1 et ep, (forall t, 0 < t < PI -> has_derivative (field modes c i phi) t (f1 t)) /\ (forall p, has_derivative (fun p => field modes c i p theta) p (p1 p))
  /\ has_derivative (fun t => RtoC (sin t) * f1 t)%C theta et /\ has_derivative p1 phi ep
  /\ field modes (on_modes (fun l => laplacian sig l r) c) i phi theta
     = (et / RtoC (r * r * sin theta) + (ep + RtoC 2 * turn * p1 phi + turn * turn * field modes c i phi theta) / RtoC (r * r * (sin theta * sin theta)))%C.
Proof.
  intros Hr Hi Ht. cbv zeta. set (turn := (Ci * RtoC (IZR (spin i) * cos theta))%C). exists (fun t => theta_slope mass modes c i phi t), (fun p => phi_slope mass modes c i p theta).
  pose proof (sin_pos theta Ht) as Hs. assert (Hrs : r * sin theta <> 0) by (apply Rmult_integral_contrapositive_currified; assumption).
  assert (Nz : forall x : R, x <> 0 -> RtoC x <> 0) by (intros x Hx E; apply Hx; injection E; trivial).
  destruct (sphere_divergence_calculus modes (grad sig r c) 2 sig r i phi theta Hr ltac:(lia) Hi Ht) as (et & ep & H1 & H2 & H3). cbv beta in H1, H2, H3.
  assert (GT : forall t, 0 < t < PI -> theta_part (fun j => field modes (grad sig r c) j phi t) i = (theta_slope mass modes c i phi t / RtoC r)%C).
  { intros t Hti. destruct (sphere_gradient_calculus modes c sig r i phi t Hr Hi Hti) as (et' & ep' & D1 & _ & D3 & _). rewrite (derivative_unique _ _ _ _ (theta_derive mass Hm modes c i phi t Hti) D1). exact D3. }
  assert (GP : forall p, phi_part (fun j => field modes (grad sig r c) j p theta) i = ((phi_slope mass modes c i p theta + turn * field modes c i p theta) / RtoC (r * sin theta))%C).
  { intros p. destruct (sphere_gradient_calculus modes c sig r i p theta Hr Hi Ht) as (et' & ep' & _ & D2 & _ & D4). rewrite (derivative_unique _ _ _ _ (phi_derive mass modes c i p theta) D2). exact D4. }
  exists (RtoC r * et)%C, (RtoC (r * sin theta) * ep - turn * phi_slope mass modes c i phi theta)%C.
  split; [intros t Hti; apply (theta_derive mass Hm); exact Hti|]. split; [intros p; apply phi_derive|]. split; [|split].
  - apply (derivative_near (fun t => RtoC r * (RtoC (sin t) * theta_part (fun j => field modes (grad sig r c) j phi t) i))%C); [|apply derivative_times; exact H1].
    eapply filter_imp; [|exact (interior theta Ht)]. intros t Hti. cbv beta. rewrite GT by exact Hti. field. apply Nz, Hr.
  - apply (derivative_ext (fun p => RtoC (r * sin theta) * phi_part (fun j => field modes (grad sig r c) j p theta) i - turn * field modes c i p theta)%C); [intros p; rewrite GP; field; apply Nz, Hrs|].
    apply (derivative_minus (fun p => RtoC (r * sin theta) * phi_part (fun j => field modes (grad sig r c) j p theta) i)%C (fun p => turn * field modes c i p theta)%C); [apply derivative_times; exact H2|apply derivative_times, phi_derive].
  - rewrite GP in H3. transitivity (field modes (on_modes (fun l => divergence (2%nat :: sig) l r) (grad sig r c)) i phi theta).
    + unfold component. apply csum_same. intros [m l]. do 2 f_equal. unfold on_modes. cbn [fst snd]. unfold Re, Im. cbn [fst snd]. rewrite <- !(sphere_divergence_gradient sig l r _ i Hr Hi). reflexivity.
    + rewrite H3. fold turn. rewrite !RtoC_mult. replace (RtoC 2) with (RtoC 1 + RtoC 1)%C by (apply injective_projections; cbn; ring). field. split; apply Nz; assumption.
Qed.
Theorem sphere_scalar_laplacian modes c r phi theta : r <> 0 -> 0 < theta < PI ->
  exists f1 p1 et ep, (forall t, 0 < t < PI -> has_derivative (field modes c [] phi) t (f1 t)) /\ (forall p, has_derivative (fun p => field modes c [] p theta) p (p1 p))
  /\ has_derivative (fun t => RtoC (sin t) * f1 t)%C theta et /\ has_derivative p1 phi ep
  /\ field modes (on_modes (fun l => laplacian [] l r) c) [] phi theta = (et / RtoC (r * r * sin theta) + ep / RtoC (r * r * (sin theta * sin theta)))%C.
Proof.
  intros Hr Ht. destruct (sphere_laplacian_calculus modes c [] r [] phi theta Hr ltac:(constructor) Ht) as (f1 & p1 & et & ep & H1 & H2 & H3 & H4 & H5). exists f1, p1, et, ep. repeat (split; [assumption|]). rewrite H5. change (spin []) with 0%Z. unfold Cdiv. f_equal. f_equal. rewrite Rmult_0_l. ring.
Qed.
End Mass.
Print Assumptions parts_components.
Print Assumptions parts_components_tensor.
Print Assumptions sphere_gradient_calculus.
Print Assumptions sphere_scalar_gradient.
Print Assumptions sphere_vector_gradient.
Print Assumptions sphere_divergence_calculus.
Print Assumptions sphere_vector_divergence.
Print Assumptions sphere_laplacian_calculus.
Print Assumptions sphere_scalar_laplacian.

(** The field [sqrt (3/2) cos theta] on a sphere of radius 2: order 0 and degree 1. *)
Example sample_field theta phi : 0 < theta < PI -> let c (_ : index) (_ : Z * Z) := RtoC 1 in
  component sample_mass [(0, 1)%Z] c [] phi theta = RtoC (sqrt (3 / 2) * cos theta)
  /\ theta_part (fun j => component sample_mass [(0, 1)%Z] (on_modes (fun l => gradient [] l 2) c) j phi theta) [] = RtoC (- (sqrt (3 / 2) * sin theta) / 2)
  /\ phi_part (fun j => component sample_mass [(0, 1)%Z] (on_modes (fun l => gradient [] l 2) c) j phi theta) [] = RtoC 0.
Proof.
  intros Ht c. assert (V : forall t p, component sample_mass [(0, 1)%Z] c [] p t = RtoC (sqrt (3 / 2) * cos t)).
  { intros t p. pose proof (sample_harmonic (cos t) (COS_bound t)) as E. rewrite (harmonics_values sample_mass sample_true) in E by (pose proof (COS_bound t); lra). change (Z.to_nat (1 + 1 - lowest 0 0)) with 2%nat in E. cbn [seq map] in E. injection E as _ E. change (lowest 0 0 + Z.of_nat 1)%Z with 1%Z in E.
    unfold component, csum. cbn [map fold_right fst snd]. unfold shape. change (spin []) with 0%Z. change (lowest 0 0 <=? 1)%Z with true. cbv iota. rewrite E. rewrite Rmult_0_l, cos_0, sin_0. apply injective_projections; unfold c, Cmult, Cplus, RtoC; cbn [fst snd]; ring. }
  split; [apply V|]. destruct (sphere_scalar_gradient sample_mass sample_true [(0, 1)%Z] c 2 phi theta ltac:(lra) Ht) as (et & ep & H1 & H2 & H3 & H4). cbv zeta in H3, H4. rewrite H3, H4.
  assert (E1 : et = RtoC (- (sqrt (3 / 2) * sin theta))).
  { apply (derivative_unique _ _ _ _ H1). apply (derivative_ext (fun t => RtoC (sqrt (3 / 2) * cos t))); [intros t; symmetry; apply V|]. split; cbn [Re Im RtoC fst snd]; auto_derive; trivial; ring. }
  assert (E2 : ep = RtoC 0).
  { apply (derivative_unique _ _ _ _ H2). apply (derivative_ext (fun p => RtoC (sqrt (3 / 2) * cos theta))); [intros p; symmetry; apply V|]. split; cbn [Re Im RtoC fst snd]; auto_derive; trivial; ring. }
  rewrite E1, E2. split.
  - unfold Cdiv. rewrite <- RtoC_inv, <- RtoC_mult by lra. reflexivity.
  - unfold Cdiv. ring.
Qed.
