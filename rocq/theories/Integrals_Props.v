(** Integrals and averages over disks, annuli, balls and shells: theorems. *)
From Coq Require Import List Arith Bool ZArith Reals Lia Lra.
From Coquelicot Require Import Coquelicot.
Import ListNotations.
From Verif Require Import MatSolvers_Model CSR_Spec Codomain_Model Codomain_Proofs JacobiCalc_Model JacobiCalc_Spec JacobiCalc_Proofs JacobiCalc_Ops Radial_Model Radial_Spec Radial_Proofs GaussTransforms_Model GaussTransforms_Spec GaussTransforms_Proofs GaussTransforms_Props.
From Verif Require Import Sphere_Model Sphere_Spec Sphere_Proofs Polar_Model Polar_Spec Polar_Proofs Polar_Props SphereEll_Model Integrals_Model Integrals_Spec Integrals_Proofs.
Local Open Scope R_scope.

Section Props.
Context (mass : R -> R -> R) (Hm : mass_rules mass) (quadrature : nat -> R -> R -> list (R * R)).

(** ** Disks *)
Section Disk.
Context (Nr : nat) (radius alpha : R) (k : nat) (HR : 0 < radius) (Ha : -1 < alpha) (Hq : gauss_rule (fun _ => 1) Nr (quadrature Nr 0 0)).
Notation radial := (fun m : Z => zernike mass 2 radius (alpha + INR k) (Z.abs_nat m)).
Lemma half_two : INR 2 / 2 - 1 = 0. Proof. cbn. lra. Qed.
Lemma disk_row : exists A, zernike_row mass quadrature 2 Nr alpha k 0 Nr = Some A /\ nc A = Nr
  /\ forall c, is_RInt (fun r => series Nr c (radial 0%Z) r * r) 0 radius (radius ^ 2 * image A c 0).
Proof.
  destruct Hq as [Hin He]. destruct (zernike_row_value mass Hm quadrature 2 Nr alpha k Nr ltac:(lia) Ha) as (A & E & _ & Ec & Ev); [rewrite half_two; exact Hin|]. exists A. split; [exact E|]. split; [exact Ec|]. intros c. rewrite Ev, half_two.
  set (p := profile mass 2 Nr (alpha + INR k) c). assert (Pp : polynomial (2 * Nr) p) by (apply (polynomial_more Nr); [lia|apply profile_polynomial]). rewrite (He p Pp).
  pose proof (disk_substitution p radius HR (fun z => polynomial_continuous _ p z Pp)) as H.
  replace (radius ^ 2 * (/ Rpower 2 (INR 2 / 2 + 1) * RInt (fun z => 1 * p z) (-1) 1)) with (radius ^ 2 / 4 * RInt p (-1) 1).
  - revert H. apply is_RInt_ext. intros r _. f_equal. symmetry. apply profile_series.
  - replace (INR 2 / 2 + 1) with (INR 2) by (cbn; lra). rewrite Rpower_pow by lra. rewrite (RInt_ext (fun z => 1 * p z) p) by (intros z _; on_R; ring). cbn [pow]. field.
Qed.
(** The matrices of order zero give the integral of the function over the disk, and its average. *)
Theorem disk_integral_value : exists A B, disk_integral mass quadrature Nr radius alpha k 0 = Some A /\ disk_average mass quadrature Nr alpha k 0 = Some B /\ nc A = Nr /\ nc B = Nr
  /\ forall c, image A c 0 = 2 * PI * RInt (fun r => series Nr c (zernike mass 2 radius (alpha + INR k) 0) r * r) 0 radius /\ image B c 0 = image A c 0 / (PI * radius ^ 2).
Proof.
  destruct disk_row as (A & E & Ec & Ev). unfold disk_integral, disk_average, n_size. cbn [Z.eqb nmin]. change (Z.abs 0) with 0%Z. change (0 / 2)%Z with 0%Z. change (Z.to_nat 0) with 0%nat. rewrite Nat.sub_0_r, E. cbn [obind].
  eexists. eexists. split; [reflexivity|]. split; [reflexivity|]. split; [exact Ec|]. split; [exact Ec|]. intros c. rewrite !image_times. assert (E' : RInt (fun r => series Nr c (zernike mass 2 radius (alpha + INR k) 0) r * r) 0 radius = radius ^ 2 * image A c 0) by exact (is_value _ _ _ _ (Ev c)). rewrite E'. split; [ring|]. pose proof PI_RGT_0. field. lra.
Qed.
(** On every process: the process with order zero gets the integral of the field over the disk, others nothing. *)
Theorem disk_field_integral Nphi Ng c0 n C : good_resolution Float64 Nphi -> Nphi <> 2%nat -> (0 < Ng)%nat -> (c0 + n <= orders Float64 Nphi)%nat ->
  (forall a, (a < 2 * n)%nat -> (first_degree Disk (order_in Float64 Nphi c0 a) < Nr)%nat) ->
  let local := fun a j => C (2 * c0 + a)%nat j in let f := polar_field Disk Nphi Nr radial C in
  exists maps, polar_maps Disk Float64 Nphi Nr Ng c0 n = Some maps
  /\ polar_operate (disk_integral mass quadrature Nr radius alpha k) maps local = Some (if ((c0 =? 0) && (0 <? n))%nat then area_integral f 0 radius else 0)
  /\ polar_operate (disk_average mass quadrature Nr alpha k) maps local = Some (if ((c0 =? 0) && (0 <? n))%nat then area_integral f 0 radius / (PI * radius ^ 2) else 0).
Proof.
  intros Hg H2 HNg Hn Hf local f. destruct disk_integral_value as (A & B & EA & EB & NA & NB & Ev). pose proof (resolved_orders Disk Float64 Nphi Nr Hg H2 Ng c0 n HNg Hn Hf) as Hq'.
  destruct (polar_loop Disk Float64 Nphi Nr Ng c0 n (disk_integral mass quadrature Nr radius alpha k) A local Hg H2 HNg Hn Hq' EA NA) as (maps & Em & E1).
  destruct (polar_loop Disk Float64 Nphi Nr Ng c0 n (disk_average mass quadrature Nr alpha k) B local Hg H2 HNg Hn Hq' EB NB) as (maps' & Em' & E2). rewrite Em in Em'. injection Em' as <-.
  exists maps. split; [exact Em|]. rewrite E1, E2. destruct (Nat.eqb_spec c0 0) as [Hc|Hc]; [|split; reflexivity]. destruct (0 <? n)%nat; [|split; reflexivity]. cbn [andb].
  assert (EI : area_integral f 0 radius = image A (local 0%nat) 0).
  { destruct disk_row as (A' & _ & _ & Er). unfold f. rewrite (area_of_field Disk Nphi Nr Hg H2 radial C 0 radius (RInt (fun r => series Nr (C 0%nat) (radial 0%Z) r * r) 0 radius)).
    - rewrite (proj1 (Ev (local 0%nat))). unfold local. rewrite Hc. reflexivity.
    - intros i Hi m. pose proof (zernike_integrable mass 2 radius (alpha + INR k) (Z.abs_nat m) (Nr - first_degree Disk m) (fun n => C i (first_degree Disk m + n)%nat) 1 HR) as H. revert H. apply ex_RInt_ext. intros r _. rewrite pow_1. reflexivity.
    - apply (RInt_correct (V := R_CompleteNormedModule)). eexists. apply (Er (C 0%nat)). }
  rewrite EI. split; [reflexivity|]. f_equal. rewrite (proj2 (Ev (local 0%nat))). reflexivity.
Qed.
End Disk.

(** ** Annuli and shells *)
Section Shell.
Context (Nr : nat) (inner outer a b : R) (k : nat) (H0 : 0 < inner) (H1 : inner < outer) (Ha : -1 < a) (Hb : -1 < b) (HN : (1 <= Nr)%nat) (Hq : gauss_rule (fun _ => 1) (2 * Nr) (quadrature (2 * Nr) 0 0)).
Notation radial := (shell_function mass inner outer a b k).
Lemma annulus_row power : (k <= power)%nat -> (power <= 2)%nat -> exists A, shell_row mass quadrature power Nr inner outer a b k Nr = Some A /\ nc A = Nr /\ forall c, is_RInt (fun r => series Nr c radial r * r ^ power) inner outer (image A c 0).
Proof.
  intros Hk Hp. destruct (shell_row_value mass Hm quadrature inner outer a b H0 H1 Ha Hb k power Nr Nr (proj1 Hq)) as (A & E & _ & Ec & Ev). exists A. split; [exact E|]. split; [exact Ec|]. intros c. rewrite Ev. apply shell_exact; try assumption. lia.
Qed.
(** Over annuli and shells, if the functions are divided by no larger powers of the radius than the area or volume has. *)
Theorem annulus_integral_value : (k <= 1)%nat -> exists A B, annulus_integral mass quadrature Nr inner outer a b k 0 = Some A /\ annulus_average mass quadrature Nr inner outer a b k 0 = Some B /\ nc A = Nr /\ nc B = Nr
  /\ forall c, image A c 0 = 2 * PI * RInt (fun r => series Nr c radial r * r) inner outer /\ image B c 0 = image A c 0 / (PI * (outer ^ 2 - inner ^ 2)).
Proof.
  intros Hk. destruct (annulus_row 1 Hk ltac:(lia)) as (A & E & Ec & Ev). unfold annulus_integral, annulus_average, n_size. cbn [Z.eqb nmin]. change (0 * 0)%Z with 0%Z. change (Z.to_nat 0) with 0%nat. rewrite Nat.sub_0_r, E. cbn [obind].
  eexists. eexists. split; [reflexivity|]. split; [reflexivity|]. split; [exact Ec|]. split; [exact Ec|]. intros c. rewrite !image_times. rewrite (RInt_ext _ (fun r => series Nr c radial r * r ^ 1)) by (intros r _; rewrite pow_1; reflexivity). rewrite (is_value _ _ _ _ (Ev c)). split; [ring|]. unfold Rdiv. ring.
Qed.
Theorem shell_integral_value : (k <= 2)%nat -> exists A, shell_integral mass quadrature Nr inner outer a b k 0 = Some A /\ nc A = Nr
  /\ forall c, image A c 0 = 4 * PI / sqrt 2 * RInt (fun r => series Nr c radial r * r ^ 2) inner outer.
Proof.
  intros Hk. destruct (annulus_row 2 Hk ltac:(lia)) as (A & E & Ec & Ev). unfold shell_integral, n_size. cbn [Z.eqb]. change (0 * 0)%Z with 0%Z. change (Z.to_nat 0) with 0%nat. rewrite Nat.sub_0_r, E. cbn [obind].
  eexists. split; [reflexivity|]. split; [exact Ec|]. intros c. rewrite image_times, (is_value _ _ _ _ (Ev c)). ring.
Qed.
Theorem annulus_field_integral Nphi Ng c0 n C : (k <= 1)%nat -> good_resolution Float64 Nphi -> Nphi <> 2%nat -> (0 < Ng)%nat -> (c0 + n <= orders Float64 Nphi)%nat ->
  let local := fun a j => C (2 * c0 + a)%nat j in let f := polar_field Annulus Nphi Nr (fun _ => radial) C in
  exists maps, polar_maps Annulus Float64 Nphi Nr Ng c0 n = Some maps
  /\ polar_operate (annulus_integral mass quadrature Nr inner outer a b k) maps local = Some (if ((c0 =? 0) && (0 <? n))%nat then area_integral f inner outer else 0)
  /\ polar_operate (annulus_average mass quadrature Nr inner outer a b k) maps local = Some (if ((c0 =? 0) && (0 <? n))%nat then area_integral f inner outer / (PI * (outer ^ 2 - inner ^ 2)) else 0).
Proof.
  intros Hk Hg H2 HNg Hn local f. destruct (annulus_integral_value Hk) as (A & B & EA & EB & NA & NB & Ev). assert (Hq' : forall q, (c0 <= q < c0 + n)%nat -> (first_degree Annulus (gorder Float64 Nphi q) < Nr)%nat) by (intros q _; cbn; lia).
  destruct (polar_loop Annulus Float64 Nphi Nr Ng c0 n (annulus_integral mass quadrature Nr inner outer a b k) A local Hg H2 HNg Hn Hq' EA NA) as (maps & Em & E1).
  destruct (polar_loop Annulus Float64 Nphi Nr Ng c0 n (annulus_average mass quadrature Nr inner outer a b k) B local Hg H2 HNg Hn Hq' EB NB) as (maps' & Em' & E2). rewrite Em in Em'. injection Em' as <-.
  exists maps. split; [exact Em|]. rewrite E1, E2. destruct (Nat.eqb_spec c0 0) as [Hc|Hc]; [|split; reflexivity]. destruct (0 <? n)%nat; [|split; reflexivity]. cbn [andb].
  assert (Hex : forall n c, ex_RInt (fun r => series n c radial r * r) inner outer).
  { intros n' c. pose proof (shell_integrable mass inner outer a b H0 H1 k n' c 1) as H. revert H. apply ex_RInt_ext. intros r _. rewrite pow_1. reflexivity. }
  assert (EI : area_integral f inner outer = image A (local 0%nat) 0).
  { unfold f. rewrite (area_of_field Annulus Nphi Nr Hg H2 (fun _ => radial) C inner outer (RInt (fun r => series Nr (C 0%nat) radial r * r) inner outer)).
    - rewrite (proj1 (Ev (local 0%nat))). unfold local. rewrite Hc. reflexivity.
    - intros i Hi m. apply Hex.
    - apply (RInt_correct (V := R_CompleteNormedModule)). apply Hex. }
  rewrite EI. split; [reflexivity|]. f_equal. rewrite (proj2 (Ev (local 0%nat))). reflexivity.
Qed.
Theorem shell_field_integral Nphi Ntheta c0 n j0 nc Y C : (k <= 2)%nat -> good_resolution Float64 Nphi -> (0 < Ntheta)%nat -> (Nphi <= 2 * Ntheta)%nat -> (c0 + n <= pieces Float64 Nphi)%nat -> (j0 + nc <= columns Float64 Nphi Ntheta)%nat -> angular Y ->
  let local := fun a b j => C (2 * c0 + a)%nat (j0 + b)%nat j in let f := spherical_field Nphi Ntheta Nr (fun _ => 0%nat) Y (fun _ => radial) C in
  spherical_operate (shell_integral mass quadrature Nr inner outer a b k) (fun _ => 0%nat) Nr (ell_maps Float64 Nphi Ntheta c0 n j0 nc) local
    = Some (if ((c0 =? 0) && (j0 =? 0) && (0 <? n) && (0 <? nc))%nat then volume_integral f inner outer else 0).
Proof.
  intros Hk Hg Ht Hp Hn Hc HY local f. destruct (shell_integral_value Hk) as (A & EA & NA & Ev). rewrite (spherical_loop Float64 Nphi Ntheta Hg Ht Hp c0 n j0 nc Hn Hc _ _ Nr A local EA eq_refl NA).
  destruct (Nat.eqb_spec c0 0) as [E1|E1]; [|reflexivity]. destruct (Nat.eqb_spec j0 0) as [E2|E2]; [|reflexivity]. destruct (0 <? n)%nat; [|reflexivity]. destruct (0 <? nc)%nat; [|reflexivity]. cbn [andb]. f_equal. rewrite Ev. unfold f.
  rewrite (volume_of_field Nphi Ntheta Nr Hg Ht Hp (fun _ => 0%nat) Y HY eq_refl (fun _ => radial) C inner outer (RInt (fun r => series Nr (C 0%nat 0%nat) radial r * r ^ 2) inner outer)).
  - unfold local. rewrite E1, E2. reflexivity.
  - intros ell n' c. apply shell_integrable; assumption.
  - apply (RInt_correct (V := R_CompleteNormedModule)). apply shell_integrable; assumption.
Qed.
End Shell.

(** ** Balls *)
Section Ball.
Context (Nr : nat) (radius alpha : R) (k : nat) (HR : 0 < radius) (Ha : -1 < alpha) (Hq : gauss_rule (fun z => sqrt (1 + z)) Nr (quadrature Nr 0 (1 / 2))).
Notation radial := (fun ell : Z => zernike mass 3 radius (alpha + INR k) (Z.to_nat ell)).
Lemma half_three : INR 3 / 2 - 1 = 1 / 2. Proof. cbn. lra. Qed.
Theorem ball_integral_value : exists A, ball_integral mass quadrature Nr radius alpha k 0 = Some A /\ nc A = Nr
  /\ forall c, image A c 0 = 4 * PI / sqrt 2 * RInt (fun r => series Nr c (zernike mass 3 radius (alpha + INR k) 0) r * r ^ 2) 0 radius.
Proof.
  destruct Hq as [Hin He]. destruct (zernike_row_value mass Hm quadrature 3 Nr alpha k Nr ltac:(lia) Ha) as (A & E & _ & Ec & Ev); [rewrite half_three; exact Hin|].
  unfold ball_integral, n_size. cbn [Z.eqb]. change (0 / 2)%Z with 0%Z. change (Z.to_nat 0) with 0%nat. rewrite Nat.sub_0_r, E. cbn [obind]. eexists. split; [reflexivity|]. split; [exact Ec|]. intros c. rewrite !image_times, Ev, half_three.
  set (p := profile mass 3 Nr (alpha + INR k) c). assert (Pp : polynomial (2 * Nr) p) by (apply (polynomial_more Nr); [lia|apply profile_polynomial]). rewrite (He p Pp).
  pose proof (ball_substitution p radius HR (fun z => polynomial_continuous _ p z Pp)) as H. rewrite (RInt_ext (fun r => series Nr c (zernike mass 3 radius (alpha + INR k) 0) r * r ^ 2) (fun r => p (2 * (r / radius) ^ 2 - 1) * r ^ 2)) by (intros r _; f_equal; apply profile_series). rewrite (is_value _ _ _ _ H).
  replace (INR 3 / 2 + 1) with (2 + / 2) by (cbn; lra). rewrite Rpower_plus, Rpower_sqrt by lra. replace (Rpower 2 2) with 4 by (replace 2 with (INR 2) at 2 by reflexivity; rewrite Rpower_pow by lra; ring). field. apply sqrt2_neq_0.
Qed.
Theorem ball_field_integral Nphi Ntheta c0 n j0 nc Y C : good_resolution Float64 Nphi -> (0 < Ntheta)%nat -> (Nphi <= 2 * Ntheta)%nat -> (c0 + n <= pieces Float64 Nphi)%nat -> (j0 + nc <= columns Float64 Nphi Ntheta)%nat -> angular Y ->
  let local := fun a b j => C (2 * c0 + a)%nat (j0 + b)%nat j in let first := fun ell => Z.to_nat (ell / 2) in let f := spherical_field Nphi Ntheta Nr first Y radial C in
  spherical_operate (ball_integral mass quadrature Nr radius alpha k) first Nr (ell_maps Float64 Nphi Ntheta c0 n j0 nc) local
    = Some (if ((c0 =? 0) && (j0 =? 0) && (0 <? n) && (0 <? nc))%nat then volume_integral f 0 radius else 0).
Proof.
  intros Hg Ht Hp Hn Hc HY local first f. destruct ball_integral_value as (A & EA & NA & Ev). rewrite (spherical_loop Float64 Nphi Ntheta Hg Ht Hp c0 n j0 nc Hn Hc _ _ Nr A local EA eq_refl NA).
  destruct (Nat.eqb_spec c0 0) as [E1|E1]; [|reflexivity]. destruct (Nat.eqb_spec j0 0) as [E2|E2]; [|reflexivity]. destruct (0 <? n)%nat; [|reflexivity]. destruct (0 <? nc)%nat; [|reflexivity]. cbn [andb]. f_equal. rewrite Ev. unfold f.
  rewrite (volume_of_field Nphi Ntheta Nr Hg Ht Hp first Y HY eq_refl radial C 0 radius (RInt (fun r => series Nr (C 0%nat 0%nat) (radial 0%Z) r * r ^ 2) 0 radius)).
  - unfold local. rewrite E1, E2. reflexivity.
  - intros ell n' c. apply zernike_integrable. exact HR.
  - apply (RInt_correct (V := R_CompleteNormedModule)). apply zernike_integrable. exact HR.
Qed.
End Ball.
(** For real and complex data alike, the result depends only on the first row of coefficients of the process with order zero, or on the
    first row and column for degree zero. *)
Theorem polar_first_row p d Nphi Nr Ng c0 n matrix A c : good_resolution d Nphi -> Nphi <> 2%nat -> (0 < Ng)%nat -> (c0 + n <= orders d Nphi)%nat -> (forall a, (a < parts d * n)%nat -> (first_degree p (order_in d Nphi c0 a) < Nr)%nat) ->
  matrix 0%Z = Some A -> nc A = Nr ->
  exists maps, polar_maps p d Nphi Nr Ng c0 n = Some maps /\ polar_operate matrix maps c = Some (if ((c0 =? 0) && (0 <? n))%nat then image A (c 0%nat) 0 else 0).
Proof. intros Hg H2 HNg Hn Hf. apply polar_loop; try assumption. exact (resolved_orders p d Nphi Nr Hg H2 Ng c0 n HNg Hn Hf). Qed.
Theorem spherical_first_row d Nphi Ntheta c0 n j0 nc matrix first Nr A c : good_resolution d Nphi -> (0 < Ntheta)%nat -> (Nphi <= 2 * Ntheta)%nat -> (c0 + n <= pieces d Nphi)%nat -> (j0 + nc <= columns d Nphi Ntheta)%nat ->
  matrix 0%Z = Some A -> first 0%Z = 0%nat -> MatSolvers_Model.nc A = Nr ->
  spherical_operate matrix first Nr (ell_maps d Nphi Ntheta c0 n j0 nc) c = Some (if ((c0 =? 0) && (j0 =? 0) && (0 <? n) && (0 <? nc))%nat then image A (c 0%nat 0%nat) 0 else 0).
Proof. intros. apply spherical_loop; assumption. Qed.
End Props.

(** ** Larger powers of the radius *)
Lemma third : sqrt (1 / 3) * sqrt (1 / 3) = 1 / 3. Proof. apply sqrt_sqrt. lra. Qed.
Lemma third_range : 0 < sqrt (1 / 3) < 1. Proof. pose proof third. split; [apply sqrt_lt_R0; lra|]. assert (0 < sqrt (1 / 3)) by (apply sqrt_lt_R0; lra). nra. Qed.
Lemma power_integral k : is_RInt (fun z => z ^ k) (-1) 1 (1 ^ S k / INR (S k) - (-1) ^ S k / INR (S k)).
Proof.
  apply (is_RInt_derive (fun z => z ^ S k / INR (S k)) (fun z => z ^ k)).
  - intros z _. assert (Hk : INR (S k) <> 0) by (apply not_0_INR; lia). remember (INR (S k)) as x eqn:Ex. auto_derive; [exact I|]. on_R. change (match k with O => 1 | S _ => INR k + 1 end) with (INR (S k)). rewrite <- Ex. field. exact Hk.
  - intros z _. apply smooth. auto_derive. exact I.
Qed.
Lemma two_points_rule : gauss_rule (fun _ => 1) 2 two_points.
Proof.
  pose proof third as T. pose proof third_range as Tr. split.
  - intros z w [E|[E|[]]]; injection E as <- _; lra.
  - intros p (c & Hp). transitivity (RInt p (-1) 1); [|apply RInt_ext; intros z _; on_R; ring].
    assert (H : is_RInt p (-1) 1 (total (2 * 2) (fun k => c k * (1 ^ S k / INR (S k) - (-1) ^ S k / INR (S k))))).
    { apply is_RInt_ext with (fun z => total (2 * 2) (fun k => c k * z ^ k)); [intros z _; symmetry; apply Hp|]. apply (total_integral (2 * 2) (fun k z => c k * z ^ k) (fun k => c k * (1 ^ S k / INR (S k) - (-1) ^ S k / INR (S k)))). intros k _. apply scaled_is, power_integral. }
    rewrite (is_value _ _ _ _ H). unfold weighted_sum, two_points. cbn [map fold_right fst snd]. rewrite !Hp. set (s := sqrt (1 / 3)) in *. change (2 * 2)%nat with 4%nat. rewrite !Rtotal_S. change (CSR_Spec.total 0 Rplus 0 (fun k : nat => c k * s ^ k)) with 0. change (CSR_Spec.total 0 Rplus 0 (fun k : nat => c k * (- s) ^ k)) with 0.
    replace ((- s) ^ 2) with (1 / 3) by (rewrite <- T; ring). replace ((- s) ^ 3) with (- s * (1 / 3)) by (rewrite <- T; ring). replace (s ^ 2) with (1 / 3) by (rewrite <- T; ring). replace (s ^ 3) with (s * (1 / 3)) by (rewrite <- T; ring).
    cbn. field.
Qed.
Lemma ln_81 : 4 <= ln 81.
Proof.
  replace 81 with (3 ^ 4) by ring. rewrite ln_pow by lra. assert (1 <= ln 3); [|cbn; lra]. rewrite <- (ln_exp 1). destruct (Rle_lt_or_eq_dec _ _ exp_le_3) as [H|H]; [left; apply ln_increasing; [apply exp_pos|exact H]|rewrite H; right; reflexivity].
Qed.
Lemma inverse_integral : is_RInt (fun r => / r) 1 81 (ln 81).
Proof.
  replace (ln 81) with (ln 81 - ln 1) by (rewrite ln_1; ring). apply (is_RInt_derive ln (fun r => / r)).
  - intros r Hr. rewrite Rmin_left in Hr by lra. auto_derive; [lra|]. on_R. field. lra.
  - intros r Hr. rewrite Rmin_left in Hr by lra. apply smooth. auto_derive. lra.
Qed.
Lemma wide_shell power (mass := sample_mass) : exists A, shell_row mass (fun _ _ _ => two_points) power 1 1 81 0 0 (S power) 1 = Some A
  /\ image A (fun _ => 1) 0 <> RInt (fun r => series 1 (fun _ => 1) (shell_function mass 1 81 0 0 (S power)) r * r ^ power) 1 81.
Proof.
  pose proof third as T. pose proof third_range as Tr. destruct (shell_row_value mass sample_rules (fun _ _ _ => two_points) 1 81 0 0 ltac:(lra) ltac:(lra) ltac:(lra) ltac:(lra) (S power) power 1 1 (proj1 two_points_rule)) as (A & E & _ & _ & Ev). exists A. split; [exact E|]. rewrite Ev.
  assert (Hpar : -1 < 0 + INR (S power)) by (pose proof (pos_INR (S power)); lra). destruct (sample_rules _ _ Hpar Hpar) as (Hpos & _). set (u := 1 / sqrt (mass (0 + INR (S power)) (0 + INR (S power)))). assert (Hu : 0 < u) by (unfold u; apply Rdiv_lt_0_compat; [lra|apply sqrt_lt_R0; exact Hpos]).
  assert (Es : forall r, 0 < r -> series 1 (fun _ => 1) (shell_function mass 1 81 0 0 (S power)) r * r ^ power = 80 ^ S power * u * / r).
  { intros r Hr. unfold series, shell_function. cbn [CSR_Spec.total]. unfold CSR_Spec.total. cbn [seq map fold_left fold_right]. rewrite unit_0. fold u. replace (81 - 1) with 80 by ring. unfold Rdiv. rewrite Rpow_mult_distr, pow_inv. cbn [pow]. assert (r ^ power <> 0) by (apply pow_nonzero; lra). field. repeat split; first [assumption | lra | apply pow_nonzero; lra]. }
  assert (ER : RInt (fun r => series 1 (fun _ => 1) (shell_function mass 1 81 0 0 (S power)) r * r ^ power) 1 81 = 80 ^ S power * u * ln 81).
  { apply is_value. pose proof (scaled_is _ (80 ^ S power * u) _ _ _ inverse_integral) as H. revert H. apply is_RInt_ext. intros r Hr. rewrite Rmin_left in Hr by lra. symmetry. apply Es. lra. }
  rewrite ER. unfold weighted_sum, two_points. cbn [map fold_right fst snd]. set (s := sqrt (1 / 3)) in *.
  assert (R1 : shell_radius 1 81 (- s) = 41 - 40 * s) by (unfold shell_radius; field). assert (R2 : shell_radius 1 81 s = 41 + 40 * s) by (unfold shell_radius; field).
  rewrite R1, R2, !Es by nra. set (K := 80 ^ S power * u). assert (HK : 0 < K) by (apply Rmult_lt_0_compat; [apply pow_lt; lra|exact Hu]).
  intros X. assert (X' : K * ((81 - 1) / 2 * (/ (41 - 40 * s) + / (41 + 40 * s))) = K * ln 81) by (rewrite <- X; ring). apply Rmult_eq_reg_l in X'; [|lra]. pose proof ln_81 as L.
  assert (F : (81 - 1) / 2 * (/ (41 - 40 * s) + / (41 + 40 * s)) = 9840 / 3443). { replace (/ (41 - 40 * s) + / (41 + 40 * s)) with (82 / (1681 - 1600 * (s * s))) by (field; split; [nra|split; nra]). rewrite T. field. }
  rewrite F in X'. lra.
Qed.
(** With larger powers the matrices are not exact, even for one coefficient. *)
Theorem annulus_large_power_refuted : exists quadrature A, gauss_rule (fun _ => 1) 2 (quadrature 2%nat 0 0) /\ annulus_integral sample_mass quadrature 1 1 81 0 0 2 0 = Some A
  /\ image A (fun _ => 1) 0 <> 2 * PI * RInt (fun r => series 1 (fun _ => 1) (shell_function sample_mass 1 81 0 0 2) r * r) 1 81.
Proof.
  exists (fun _ _ _ => two_points). destruct (wide_shell 1) as (A & E & H). unfold annulus_integral, n_size. cbn [Z.eqb nmin]. change (0 * 0)%Z with 0%Z. change (1 - Z.to_nat 0)%nat with 1%nat. rewrite E. cbn [obind]. eexists. split; [exact two_points_rule|]. split; [reflexivity|].
  rewrite image_times. intros X. apply H. rewrite (Rmult_comm _ (2 * PI)) in X. apply Rmult_eq_reg_l in X; [|pose proof PI_RGT_0; lra]. rewrite X. apply RInt_ext. intros r _. rewrite pow_1. reflexivity.
Qed.
Theorem shell_large_power_refuted : exists quadrature A, gauss_rule (fun _ => 1) 2 (quadrature 2%nat 0 0) /\ shell_integral sample_mass quadrature 1 1 81 0 0 3 0 = Some A
  /\ image A (fun _ => 1) 0 <> 4 * PI / sqrt 2 * RInt (fun r => series 1 (fun _ => 1) (shell_function sample_mass 1 81 0 0 3) r * r ^ 2) 1 81.
Proof.
  exists (fun _ _ _ => two_points). destruct (wide_shell 2) as (A & E & H). unfold shell_integral, n_size. cbn [Z.eqb]. change (0 * 0)%Z with 0%Z. change (1 - Z.to_nat 0)%nat with 1%nat. rewrite E. cbn [obind]. eexists. split; [exact two_points_rule|]. split; [reflexivity|].
  rewrite image_times. intros X. apply H. rewrite (Rmult_comm _ (4 * PI / sqrt 2)) in X. apply Rmult_eq_reg_l in X; [exact X|]. apply Rgt_not_eq. apply Rdiv_lt_0_compat; [pose proof PI_RGT_0; lra|]. apply sqrt_lt_R0. lra.
Qed.

(** ** Examples *)
Lemma root_integral : is_RInt (fun z => sqrt (1 + z)) (-1) 1 (4 / 3 * sqrt 2) /\ is_RInt (fun z => sqrt (1 + z) * z) (-1) 1 (4 / 15 * sqrt 2).
Proof.
  assert (C : forall z, continuous (fun z => sqrt (1 + z)) z) by (intros z; apply (continuous_comp (fun z => 1 + z) sqrt); [apply smooth; auto_derive; exact I|apply continuous_sqrt]).
  pose proof sqrt2_neq_0 as N2. assert (S2 : sqrt 2 * sqrt 2 = 2) by (apply sqrt_sqrt; lra).
  assert (Q : forall u, 0 < u -> sqrt u * sqrt u = u) by (intros u Hu; apply sqrt_sqrt; lra).
  assert (W : forall (f : R -> R) v, (forall z, continuous f z) -> is_RInt (fun x => 2 * x * f (x ^ 2 - 1)) 0 (sqrt 2) v -> is_RInt f (-1) 1 v).
  { intros f v Hf Hv. pose proof (substituted f (fun x => x ^ 2 - 1) (fun x => 2 * x) 0 (sqrt 2) Hf) as H. assert (H' : is_RInt (fun x => 2 * x * f (x ^ 2 - 1)) 0 (sqrt 2) (RInt f (0 ^ 2 - 1) (sqrt 2 ^ 2 - 1))) by (apply H; intros x; [auto_derive; [exact I|on_R; ring]|apply smooth; auto_derive; exact I]).
    replace (0 ^ 2 - 1) with (-1) in H' by ring. replace (sqrt 2 ^ 2 - 1) with 1 in H' by (cbn; lra). pose proof (is_value _ _ _ _ Hv) as E1. pose proof (is_value _ _ _ _ H') as E2. assert (E : v = RInt f (-1) 1) by (rewrite <- E1; exact E2). rewrite E. apply (RInt_correct (V := R_CompleteNormedModule)). apply (ex_RInt_continuous (V := R_CompleteNormedModule)). intros z _. apply Hf. }
  assert (D : forall (F f : R -> R), (forall x, is_derive F x (f x)) -> (forall x, continuous f x) -> is_RInt f 0 (sqrt 2) (F (sqrt 2) - F 0)) by (intros F f H1 H2; apply (is_RInt_derive F f); intros x _; [apply H1|apply H2]).
  assert (P2 : 0 < sqrt 2) by (apply sqrt_lt_R0; lra).
  split; apply W; try exact C.
  - replace (4 / 3 * sqrt 2) with (2 / 3 * sqrt 2 ^ 3 - 2 / 3 * 0 ^ 3) by (cbn [pow]; rewrite Rmult_1_r, S2; field). apply is_RInt_ext with (fun x => 2 * x ^ 2).
    + intros x Hx. rewrite Rmin_left in Hx by lra. replace (1 + (x ^ 2 - 1)) with (x * x) by ring. rewrite sqrt_square by lra. on_R. ring.
    + apply (D (fun x => 2 / 3 * x ^ 3) (fun x => 2 * x ^ 2)); intros x; [auto_derive; [exact I|on_R; field]|apply smooth; auto_derive; exact I].
  - intros z. apply (continuous_product (fun z => sqrt (1 + z)) (fun z => z)); [apply C|apply smooth; auto_derive; exact I].
  - replace (4 / 15 * sqrt 2) with (2 / 5 * sqrt 2 ^ 5 - 2 / 3 * sqrt 2 ^ 3 - (2 / 5 * 0 ^ 5 - 2 / 3 * 0 ^ 3)) by (replace (sqrt 2 ^ 5) with (sqrt 2 * (sqrt 2 * sqrt 2) * (sqrt 2 * sqrt 2)) by ring; replace (sqrt 2 ^ 3) with (sqrt 2 * (sqrt 2 * sqrt 2)) by ring; rewrite S2; field).
    apply is_RInt_ext with (fun x => 2 * x ^ 4 - 2 * x ^ 2).
    + intros x Hx. rewrite Rmin_left in Hx by lra. replace (1 + (x ^ 2 - 1)) with (x * x) by ring. rewrite sqrt_square by lra. on_R. ring.
    + apply (D (fun x => 2 / 5 * x ^ 5 - 2 / 3 * x ^ 3) (fun x => 2 * x ^ 4 - 2 * x ^ 2)); intros x; [auto_derive; [exact I|on_R; field]|apply smooth; auto_derive; exact I].
Qed.
Definition one_point : list (R * R) := [(1 / 5, 4 / 3 * sqrt 2)].
Lemma one_point_rule : gauss_rule (fun z => sqrt (1 + z)) 1 one_point.
Proof.
  destruct root_integral as [I0 I1]. split; [intros z w [E|[]]; injection E as <- _; lra|]. intros p (c & Hp).
  assert (H : is_RInt (fun z => sqrt (1 + z) * p z) (-1) 1 (c 0%nat * (4 / 3 * sqrt 2) + c 1%nat * (4 / 15 * sqrt 2))).
  { apply is_RInt_ext with (fun z => plus (c 0%nat * sqrt (1 + z)) (c 1%nat * (sqrt (1 + z) * z))).
    - intros z _. rewrite Hp. unfold plus. cbn. on_R. ring.
    - apply (is_RInt_plus (fun z => c 0%nat * sqrt (1 + z)) (fun z => c 1%nat * (sqrt (1 + z) * z)) (-1) 1 (c 0%nat * (4 / 3 * sqrt 2)) (c 1%nat * (4 / 15 * sqrt 2))); apply scaled_is; assumption. }
  rewrite (is_value _ _ _ _ H). unfold weighted_sum, one_point. cbn [map fold_right fst snd]. rewrite Hp. cbn. field.
Qed.
Definition sample_angular (m ell : Z) (x : R) : R := if (ell =? 0)%Z then / sqrt 2 else sqrt (3 / 2) * x.
Lemma sample_angular_ok : angular sample_angular.
Proof.
  split; [|split].
  - intros m ell. apply (ex_RInt_continuous (V := R_CompleteNormedModule)). intros x _. unfold sample_angular. destruct (ell =? 0)%Z; apply smooth; auto_derive; exact I.
  - reflexivity.
  - intros ell H. apply is_value. pose proof (scaled_is _ (sqrt (3 / 2)) _ _ _ (power_integral 1)) as X. replace 0 with (sqrt (3 / 2) * (1 ^ 2 / INR 2 - (-1) ^ 2 / INR 2)) by (cbn; field). revert X. apply is_RInt_ext. intros x _. unfold sample_angular. replace (ell =? 0)%Z with false by (symmetry; apply Z.eqb_neq; lia). rewrite pow_1. reflexivity.
Qed.
(** A disk of radius 3 with 8 azimuthal and 2 radial coefficients on two processes; an annulus, a shell and a ball. *)
Example disk_example C : exists maps, polar_maps Disk Float64 8 2 2 0 2 = Some maps
  /\ polar_operate (disk_integral sample_mass (fun _ _ _ => two_points) 2 3 0 1) maps C = Some (area_integral (polar_field Disk 8 2 (fun m => zernike sample_mass 2 3 (0 + INR 1) (Z.abs_nat m)) C) 0 3).
Proof.
  destruct (disk_field_integral sample_mass sample_rules (fun _ _ _ => two_points) 2 3 0 1 ltac:(lra) ltac:(lra) two_points_rule 8 2 0 2 C) as (maps & E1 & E2 & _).
  - split; [lia|right; reflexivity].
  - lia.
  - lia.
  - cbn. lia.
  - intros a Ha. do 4 (destruct a as [|a]; [vm_compute; lia|]). lia.
  - exists maps. split; [exact E1|]. exact E2.
Qed.
Example annulus_example : exists A B, annulus_integral sample_mass (fun _ _ _ => two_points) 1 1 2 0 0 1 0 = Some A /\ annulus_average sample_mass (fun _ _ _ => two_points) 1 1 2 0 0 1 0 = Some B /\ nc A = 1%nat /\ nc B = 1%nat
  /\ forall c, image A c 0 = 2 * PI * RInt (fun r => series 1 c (shell_function sample_mass 1 2 0 0 1) r * r) 1 2 /\ image B c 0 = image A c 0 / (PI * (2 ^ 2 - 1 ^ 2)).
Proof. apply (annulus_integral_value sample_mass sample_rules (fun _ _ _ => two_points) 1 1 2 0 0 1); try lra; try lia. exact two_points_rule. Qed.
Example shell_example C : spherical_operate (shell_integral sample_mass (fun _ _ _ => two_points) 1 1 2 0 0 2) (fun _ => 0%nat) 1 (ell_maps Float64 8 5 0 2 0 4) (fun a b j => C a b j)
  = Some (volume_integral (spherical_field 8 5 1 (fun _ => 0%nat) sample_angular (fun _ => shell_function sample_mass 1 2 0 0 2) C) 1 2).
Proof.
  apply (shell_field_integral sample_mass sample_rules (fun _ _ _ => two_points) 1 1 2 0 0 2) with (Nphi := 8%nat) (Ntheta := 5%nat) (c0 := 0%nat) (n := 2%nat) (j0 := 0%nat) (nc := 4%nat) (Y := sample_angular) (C := C); try lra; try lia; try exact two_points_rule; try exact sample_angular_ok.
  - split; [lia|right; reflexivity].
  - vm_compute. lia.
  - vm_compute. lia.
Qed.
Example ball_example C : spherical_operate (ball_integral sample_mass (fun _ _ _ => one_point) 1 2 0 1) (fun ell => Z.to_nat (ell / 2)) 1 (ell_maps Float64 8 5 0 2 0 4) (fun a b j => C a b j)
  = Some (volume_integral (spherical_field 8 5 1 (fun ell => Z.to_nat (ell / 2)) sample_angular (fun ell => zernike sample_mass 3 2 (0 + INR 1) (Z.to_nat ell)) C) 0 2).
Proof.
  apply (ball_field_integral sample_mass sample_rules (fun _ _ _ => one_point) 1 2 0 1) with (Nphi := 8%nat) (Ntheta := 5%nat) (c0 := 0%nat) (n := 2%nat) (j0 := 0%nat) (nc := 4%nat) (Y := sample_angular) (C := C); try lra; try lia; try exact one_point_rule; try exact sample_angular_ok.
  - split; [lia|right; reflexivity].
  - vm_compute. lia.
  - vm_compute. lia.
Qed.
Print Assumptions disk_integral_value.
Print Assumptions disk_field_integral.
Print Assumptions annulus_integral_value.
Print Assumptions shell_integral_value.
Print Assumptions annulus_field_integral.
Print Assumptions shell_field_integral.
Print Assumptions ball_integral_value.
Print Assumptions ball_field_integral.
Print Assumptions polar_first_row.
Print Assumptions spherical_first_row.
Print Assumptions annulus_large_power_refuted.
Print Assumptions shell_large_power_refuted.
