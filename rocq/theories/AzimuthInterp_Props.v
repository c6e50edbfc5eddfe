(** C93: interpolation in azimuth. *)
From Coq Require Import Reals ZArith Lia Lra String.
From stdpp Require Import list.
From Verif Require FourierCalc_Props Fourier_Props Sphere_Spec.
From Verif Require Import AffineCOV_Model FourierCalc_Model FourierCalc_Proofs Sphere_Model Fourier_Model Fourier_Spec Sums Fourier_Proofs RealFourier_Proofs AzimuthInterp_Model AzimuthInterp_Spec AzimuthInterp_Proofs.
Local Open Scope R_scope.
Notation length := List.length.
Notation good := Sphere_Spec.good_resolution.
Notation point := FourierCalc_Props.point.
(** The change of variables of azimuthal bases, whose bounds are 0 and 2 pi. *)
Notation azimuth_cov c := (affine_cov fourier_bounds (0, 2 * PI) = Some c).

Lemma grid_size_pos num den M : (0 < num)%nat -> (0 < den)%nat -> (0 < M)%nat -> (0 < grid_size num den M)%nat.
Proof. intros Hn Hd HM. unfold grid_size. destruct (Nat.eqb_spec M 1); [lia|]. apply Nat.div_str_pos. nia. Qed.

(** The number of points is the least integer not below the scale times the resolution, and one for a constant. *)
Theorem azimuth_grid : forall num den M, (0 < den)%nat -> grid_size num den 1 = 1%nat /\
  (M <> 1%nat -> forall n, (grid_size num den M <= n <-> num * M <= den * n)%nat).
Proof.
  intros num den M Hd. split; [done|]. intros HM n. unfold grid_size. destruct (Nat.eqb_spec M 1); [done|].
  pose proof (Nat.div_mod (num * M + den - 1) den ltac:(lia)). pose proof (Nat.mod_upper_bound (num * M + den - 1) den ltac:(lia)). nia.
Qed.
Print Assumptions azimuth_grid.

(** Interpolation of any data gives the value at the point of the polynomial whose coefficients are those of the data. *)
Theorem complex_azimuth : forall c num den M p phi data, good Complex128 M -> (0 < num)%nat -> (0 < den)%nat -> azimuth_cov c -> point 0 (2 * PI) p phi ->
  let N := grid_size num den M in length data = N ->
  interpolate_complex c num den M p data = Some (complex_polynomial (resolved N M) (complex_coefficient N data) phi).
Proof. intros c num den M p phi data Hg Hn Hd Hc Hp N HL. apply complex_value; try done. apply grid_size_pos; try done. apply Hg. Qed.
Print Assumptions complex_azimuth.
Theorem real_azimuth : forall c num den M p phi data, good Float64 M -> (0 < num)%nat -> (0 < den)%nat -> azimuth_cov c -> point 0 (2 * PI) p phi ->
  let N := grid_size num den M in length data = N ->
  interpolate_real c num den M p data = Some (real_polynomial (resolved N M) (fun k => real_coefficient N data (2 * k)) (fun k => real_coefficient N data (2 * k + 1)) phi).
Proof. intros c num den M p phi data Hg Hn Hd Hc Hp N HL. apply real_value; try done. apply grid_size_pos; try done. apply Hg. Qed.
Print Assumptions real_azimuth.

(** Interpolation of the grid values of a resolved polynomial gives its value at the point. *)
Lemma complex_samples N M F : (0 < N)%nat -> (0 < M)%nat -> exists cs,
  map (fun x => complex_polynomial (resolved N M) F (azimuth N x)) (seq 0 N) = map (complex_series N M (resolved N M) cs) (seq 0 N) /\ forall k, (Z.abs k <= Z.of_nat (resolved N M))%Z -> cat cs (slot M k) = F k.
Proof.
  intros HN HM. destruct (Fourier_Props.resolved_bounds N M HN HM) as [B1 B2]. pose (cs := map (fun j => F (wavenumber M j)) (seq 0 M)).
  assert (Hcs : forall k, (Z.abs k <= Z.of_nat (resolved N M))%Z -> cat cs (slot M k) = F k).
  { intros k Hk. unfold cat, cs. rewrite lookup_seq_map by (apply slot_lt; lia). cbn [default from_option]. by rewrite slot_wavenumber by (unfold resolved in *; lia). }
  exists cs. split; [|done]. apply map_ext. intros x. unfold complex_polynomial, complex_series. apply csum_ext. intros i Hi. cbv zeta. rewrite Hcs by lia. f_equal. f_equal. unfold angle, azimuth. field. pose proof (lt_0_INR N HN). lra.
Qed.
Theorem complex_azimuth_exact : forall c num den M p phi F, good Complex128 M -> (0 < num)%nat -> (0 < den)%nat -> azimuth_cov c -> point 0 (2 * PI) p phi ->
  let N := grid_size num den M in let K := resolved N M in
  interpolate_complex c num den M p (map (fun x => complex_polynomial K F (azimuth N x)) (seq 0 N)) = Some (complex_polynomial K F phi).
Proof.
  intros c num den M p phi F Hg Hn Hd Hc Hp N K. assert (HM : (0 < M)%nat) by apply Hg. assert (HN : (0 < N)%nat) by (by apply grid_size_pos).
  rewrite (complex_azimuth c num den M p phi) by (done || by rewrite map_length, seq_length). fold N. f_equal. destruct (complex_samples N M F HN HM) as (cs & E & Hcs). unfold K. rewrite E. destruct (Fourier_Props.resolved_bounds N M HN HM) as [B1 B2].
  unfold complex_polynomial. apply csum_ext. intros i Hi. cbv zeta. rewrite coefficient_of_series by (done || lia). by rewrite Hcs by lia.
Qed.
Print Assumptions complex_azimuth_exact.
Lemma real_samples N K a b : (0 < N)%nat -> exists cs,
  map (fun x => real_polynomial K a b (azimuth N x)) (seq 0 N) = map (real_series N K cs) (seq 0 N) /\ forall k, (k <= K)%nat -> rat cs (2 * k) = a k /\ rat cs (2 * k + 1) = b k.
Proof.
  intros HN. pose (cs := map (fun j => if Nat.even j then a (j / 2)%nat else b (j / 2)%nat) (seq 0 (2 * K + 2))).
  assert (Hcs : forall k, (k <= K)%nat -> rat cs (2 * k) = a k /\ rat cs (2 * k + 1) = b k).
  { intros k Hk. unfold rat, cs. rewrite !lookup_seq_map by lia. cbn [default from_option].
    assert (Nat.even (2 * k) = true) as -> by (apply Nat.even_spec; exists k; lia).
    assert (Nat.even (2 * k + 1) = false) as -> by (rewrite <- Nat.negb_odd; apply negb_false_iff, Nat.odd_spec; exists k; lia).
    replace (2 * k / 2)%nat with k by (rewrite Nat.mul_comm, Nat.div_mul; lia). replace ((2 * k + 1) / 2)%nat with k by (apply (Nat.div_unique _ _ _ 1); lia). done. }
  exists cs. split; [|done]. apply map_ext. intros x. unfold real_polynomial, real_series. apply rsum_ext. intros k Hk. destruct (Hcs k ltac:(lia)) as [-> ->].
  replace (INR k * azimuth N x) with (angle N (Z.of_nat k) x); [done|]. unfold angle, azimuth. rewrite <- INR_IZR_INZ. field. pose proof (lt_0_INR N HN). lra.
Qed.
Theorem real_azimuth_exact : forall c num den M p phi a b, good Float64 M -> (0 < num)%nat -> (0 < den)%nat -> azimuth_cov c -> point 0 (2 * PI) p phi ->
  let N := grid_size num den M in let K := resolved N M in
  interpolate_real c num den M p (map (fun x => real_polynomial K a b (azimuth N x)) (seq 0 N)) = Some (real_polynomial K a b phi).
Proof.
  intros c num den M p phi a b Hg Hn Hd Hc Hp N K. assert (HM : (0 < M)%nat) by apply Hg. assert (HN : (0 < N)%nat) by (by apply grid_size_pos).
  rewrite (real_azimuth c num den M p phi) by (done || by rewrite map_length, seq_length). fold N. fold K. f_equal. destruct (real_samples N K a b HN) as (cs & E & Hcs). rewrite E. destruct (Fourier_Props.resolved_bounds N M HN HM) as [B1 B2]. fold K in B1, B2.
  unfold real_polynomial. apply rsum_ext. intros k Hk. destruct (Hcs k ltac:(lia)) as [Ea Eb].
  assert (k2 : (2 * k / 2 = k)%nat) by (rewrite Nat.mul_comm, Nat.div_mul; lia). assert (k21 : ((2 * k + 1) / 2 = k)%nat) by (symmetry; apply (Nat.div_unique _ _ _ 1); lia).
  rewrite !real_round_trip by (done || rewrite ?k2, ?k21; lia). rewrite decide_False by lia. rewrite Ea. destruct (decide (2 * k + 1 = 1)%nat) as [E0|E0].
  - replace k with 0%nat by lia. cbn [INR]. rewrite Rmult_0_l, sin_0. ring.
  - by rewrite Eb.
Qed.
Print Assumptions real_azimuth_exact.

(** Data on another number of points raises. *)
Theorem azimuth_other_grid : forall c num den M p (data : list C) (data' : list R), length data <> grid_size num den M -> length data' <> grid_size num den M ->
  interpolate_complex c num den M p data = None /\ interpolate_real c num den M p data' = None.
Proof.
  intros c num den M p data data' H H'. unfold interpolate_complex, interpolate_real. split; [destruct (complex_vector _ _ _ _); [|done]|destruct (real_vector _ _ _ _); [|done]]; cbn [mbind option_bind]; by rewrite decide_False.
Qed.
Print Assumptions azimuth_other_grid.
(** With an odd number of points larger than one, interpolation of real data raises. *)
Theorem real_azimuth_odd_refuted : forall c num den M p data, (3 <= M)%nat -> Nat.odd M = true -> interpolate_real c num den M p data = None.
Proof.
  intros c num den M p data HM HO. unfold interpolate_real, real_vector. rewrite rmmt_shapes, bool_decide_false; [done|]. intros [?|HE]; [lia|]. rewrite <- Nat.negb_odd, HO in HE. done.
Qed.
Print Assumptions real_azimuth_odd_refuted.

(** 8 modes on 12 points: [3 - sin (3 phi)] at the middle, where the sine is 0, and at pi / 2, where [sin (3 phi)] is -1. *)
Example azimuth_ex c : azimuth_cov c -> grid_size 3 2 8 = 12%nat /\
  let data := map (fun x => real_polynomial 3 (fun k => if (k =? 0)%nat then 3 else 0) (fun k => if (k =? 3)%nat then 1 else 0) (azimuth 12 x)) (seq 0 12) in
  interpolate_real c 3 2 8 (Named "center"%string) data = Some 3 /\ interpolate_real c 3 2 8 (At (PI / 2)) data = Some 4.
Proof.
  intros Hc. split; [reflexivity|]. cbv zeta.
  assert (V : forall p phi, point 0 (2 * PI) p phi -> interpolate_real c 3 2 8 p (map (fun x => real_polynomial 3 (fun k => if (k =? 0)%nat then 3 else 0) (fun k => if (k =? 3)%nat then 1 else 0) (azimuth 12 x)) (seq 0 12)) =
    Some (3 - sin (3 * phi))).
  { intros p phi Hp. etransitivity; [apply (real_azimuth_exact c 3 2 8 p phi (fun k => if (k =? 0)%nat then 3 else 0) (fun k => if (k =? 3)%nat then 1 else 0)); [split; [lia|right; reflexivity]|lia|lia|done|done]|].
    f_equal. change (resolved (grid_size 3 2 8) 8) with 3%nat. unfold real_polynomial. cbn. rewrite Rmult_0_l, cos_0. replace (1 + 1 + 1) with 3 by ring. ring. }
  split.
  - rewrite (V _ ((0 + 2 * PI) / 2)) by (constructor; by left). f_equal. replace (3 * ((0 + 2 * PI) / 2)) with (PI + 2 * INR 1 * PI) by (cbn; field). rewrite sin_period, sin_PI. ring.
  - rewrite (V _ (PI / 2)) by constructor. f_equal. replace (3 * (PI / 2)) with (PI / 2 + PI) by field. rewrite neg_sin, sin_PI2. ring.
Qed.
