(** Proofs about integrals over disks, annuli, balls and shells. *)
From Coq Require Import List ZArith Reals Bool Lia Lra.
From Coquelicot Require Import Coquelicot.
Import ListNotations.
From Verif Require Import MatSolvers_Model CSR_Spec Codomain_Model Codomain_Proofs JacobiCalc_Model JacobiCalc_Spec JacobiCalc_Proofs JacobiCalc_Ops JacobiCalc_Props Radial_Model Radial_Spec Radial_Proofs
  GaussTransforms_Model GaussTransforms_Spec GaussTransforms_Proofs GaussTransforms_Props.
From Verif Require Import Sphere_Model Sphere_Spec Sphere_Proofs Sphere_Props Polar_Model Polar_Spec Polar_Proofs SphereEll_Model SphereEll_Spec SphereEll_Proofs Integrals_Model Integrals_Spec.
From Verif Require MatSolvers_Proofs Parallel_Proofs FourierCalc_Spec FourierCalc_Series.
Local Open Scope R_scope.
Notation Rtotal_swap := (MatSolvers_Proofs.total_swap 0 1 Rplus Rmult Rminus Rdiv Ropp Rinv Rf).

(** ** Integrals *)
Ltac on_R := match goal with |- ?u = ?v => change (@eq R u v) end.
Lemma total_integral n (f : nat -> R -> R) v l r : (forall j, (j < n)%nat -> is_RInt (f j) l r (v j)) -> is_RInt (fun t => total n (fun j => f j t)) l r (total n v).
Proof.
  induction n as [|n IH]; intros H.
  - apply is_RInt_ext with (fun _ => 0); [intros; reflexivity|]. replace (total 0 v) with (scal (r - l) 0) by (cbn; unfold mult; cbn; ring). apply (is_RInt_const l r 0).
  - rewrite Rtotal_S. apply is_RInt_ext with (fun t => total n (fun j => f j t) + f n t); [intros t _; rewrite Rtotal_S; reflexivity|].
    apply (is_RInt_plus (fun t => total n (fun j => f j t)) (f n) l r (total n v) (v n)); [apply IH; intros; apply H; lia|apply H; lia].
Qed.
Lemma scaled_is (f : R -> R) a v l r : is_RInt f l r v -> is_RInt (fun t => a * f t) l r (a * v).
Proof. intros H. apply (is_RInt_scal f l r a v H). Qed.
Lemma is_value (f : R -> R) l r v : is_RInt f l r v -> RInt f l r = v.
Proof. intros H. exact (is_RInt_unique (V := R_CompleteNormedModule) f l r v H). Qed.
Lemma smooth (f : R -> R) (x : R) : ex_derive f x -> continuous f x.
Proof. exact (ex_derive_continuous (V := R_NormedModule) f x). Qed.
Lemma polynomial_continuous d p z : polynomial d p -> continuous p z.
Proof.
  intros (c & H). apply (continuous_ext (fun z => total d (fun k => c k * z ^ k))); [intros x; symmetry; apply H|]. clear H p. induction d as [|d IH].
  - apply (continuous_const (V := R_UniformSpace) 0).
  - apply (continuous_ext (fun z => total d (fun k => c k * z ^ k) + c d * z ^ d)); [intros x; rewrite Rtotal_S; reflexivity|].
    apply (continuous_plus (V := R_NormedModule) (fun z => total d (fun k => c k * z ^ k)) (fun z => c d * z ^ d)); [exact IH|]. apply ex_derive_continuous. auto_derive. exact I.
Qed.
Lemma continuous_product (f g : R -> R) z : continuous f z -> continuous g z -> continuous (fun z => f z * g z) z.
Proof. intros Hf Hg. exact (continuous_mult f g z Hf Hg). Qed.
Lemma substituted (f g dg : R -> R) a b : (forall z, continuous f z) -> (forall x, is_derive g x (dg x)) -> (forall x, continuous dg x) -> is_RInt (fun x => dg x * f (g x)) a b (RInt f (g a) (g b)).
Proof. intros Hf Hg Hd. apply (is_RInt_comp (V := R_CompleteNormedModule) f g dg a b); intros x _; [apply Hf|split; [apply Hg|apply Hd]]. Qed.

(** ** Rows of weighted values *)
Lemma row_image q n f (phi : nat -> R -> R) : (forall z w, In (z, w) q -> f z = Some (map (fun i => phi i z) (seq 0 n))) ->
  exists Qk, values n f (map fst q) = Some Qk /\ nr Qk = n /\ forall w c, image (weighted_row w Qk) c 0 = total (length q) (fun t => nth t w 0 * total n (fun i => c i * phi i (point q t))).
Proof.
  intros H. destruct (values_some n f phi (map fst q)) as (Qk & E & Er & Ec & Ev).
  { intros z Hz. apply in_map_iff in Hz. destruct Hz as ([z' w] & <- & Hz). apply (H _ w). exact Hz. }
  exists Qk. split; [exact E|]. split; [exact Er|]. intros w c. rewrite map_length in *. unfold image, weighted_row. cbn [nc at_]. rewrite Er.
  rewrite (Rtotal_ext _ _ (fun i => total (length q) (fun t => nth t w 0 * (c i * phi i (point q t))))).
  - rewrite Rtotal_swap. apply Rtotal_ext. intros t Ht. rewrite <- Rtotal_scale. reflexivity.
  - intros i Hi. rewrite Ec. change (msum 0 Rplus) with total. rewrite Rmult_comm, <- Rtotal_scale. apply Rtotal_ext. intros t Ht. rewrite Ev by assumption. rewrite point_map. ring.
Qed.
Lemma image_times x A c i : image (times x A) c i = image A c i * x.
Proof. unfold image, times. cbn [nc at_]. rewrite (Rmult_comm _ x), <- Rtotal_scale. apply Rtotal_ext. intros. ring. Qed.

Section Mass.
Context (mass : R -> R -> R) (Hm : mass_rules mass) (quadrature : nat -> R -> R -> list (R * R)).
(** ** Disks and balls *)
Definition profile (d n : nat) (kk : R) (c : nat -> R) (z : R) : R := sqrt (Rpower 2 (kk + INR 0 + INR d / 2 + 1)) * total n (fun i => c i * unit_polynomial mass i kk (INR 0 + INR d / 2 - 1) z).
Lemma profile_polynomial d n kk c : polynomial n (profile d n kk c).
Proof.
  unfold profile. apply polynomial_scale. destruct (unit_in mass n kk (INR 0 + INR d / 2 - 1) c) as (e & E). apply (polynomial_ext n (ev n e)); [intros z; symmetry; apply E|apply polynomial_ev].
Qed.
Lemma profile_series d n R0 kk c r : series n c (zernike mass d R0 kk 0) r = profile d n kk c (2 * (r / R0) ^ 2 - 1).
Proof. unfold series, profile, zernike. rewrite <- Rtotal_scale. apply Rtotal_ext. intros i Hi. cbn [pow]. ring. Qed.
Lemma zernike_row_value d Nr alpha k n : (1 <= d)%nat -> -1 < alpha -> (forall z w, In (z, w) (quadrature Nr 0 (INR d / 2 - 1)) -> -1 < z < 1) ->
  exists A, zernike_row mass quadrature d Nr alpha k 0 n = Some A /\ nr A = 1%nat /\ nc A = n
  /\ forall c, image A c 0 = / Rpower 2 (INR d / 2 + 1) * weighted_sum (quadrature Nr 0 (INR d / 2 - 1)) (profile d n (alpha + INR k) c).
Proof.
  intros Hd Ha Hin. set (q := quadrature Nr 0 (INR d / 2 - 1)) in *. unfold zernike_row. set (q' := zernike_quadrature quadrature d Nr 0).
  assert (Eq : q' = map (fun zw => (fst zw, snd zw / Rpower 2 (0 + INR d / 2 + 1))) q) by reflexivity.
  destruct (row_image q' n (fun z => zernike_polynomials mass d n (alpha + INR k) (IZR 0) z) (fun i z => zernike mass d 1 (alpha + INR k) 0 i (sqrt ((1 + z) / 2)))) as (Qk & E & Er & Ev).
  { intros z w Hz. rewrite Eq in Hz. apply in_map_iff in Hz. destruct Hz as ([z' w'] & E' & Hz). injection E' as <- _. cbn [fst]. specialize (Hin _ _ Hz). change (IZR 0) with (INR 0).
    rewrite <- (zernike_values mass Hm d 1 Rlt_0_1 n (alpha + INR k) 0 (sqrt ((1 + z') / 2))); [|exact Hd|pose proof (pos_INR k); lra|apply sqrt_lt_R0; lra]. f_equal. unfold arg. unfold Rdiv at 1. rewrite Rinv_1, Rmult_1_r, pow2_sqrt by lra. field. }
  rewrite E. cbn [obind]. exists (weighted_row (map snd q') Qk). split; [reflexivity|]. split; [reflexivity|]. split; [exact Er|]. intros c. rewrite Ev, weighted_total, <- Rtotal_scale.
  assert (El : length q' = length q) by (rewrite Eq; apply map_length). rewrite El. apply Rtotal_ext. intros t Ht. rewrite weight_map.
  assert (Ep : point q' t = point q t /\ weight q' t = / Rpower 2 (INR d / 2 + 1) * weight q t).
  { unfold point, weight. rewrite Eq. rewrite (nth_indep _ (0, 0) ((fun zw => (fst zw, snd zw / Rpower 2 (0 + INR d / 2 + 1))) (0, 0))) by (rewrite map_length; exact Ht).
    rewrite (map_nth (fun zw : R * R => (fst zw, snd zw / Rpower 2 (0 + INR d / 2 + 1)))). cbn [fst snd]. rewrite Rplus_0_l. split; [reflexivity|]. unfold Rdiv. ring. }
  destruct Ep as [-> ->]. rewrite Rmult_assoc. do 2 f_equal. change (total n (fun i => c i * zernike mass d 1 (alpha + INR k) 0 i (sqrt ((1 + point q t) / 2)))) with (series n c (zernike mass d 1 (alpha + INR k) 0) (sqrt ((1 + point q t) / 2))).
  rewrite profile_series. f_equal. assert (H : -1 < point q t < 1) by (apply (Hin _ (weight q t)); unfold point, weight; rewrite <- surjective_pairing; apply nth_In; exact Ht).
  unfold Rdiv at 1. rewrite Rinv_1, Rmult_1_r, pow2_sqrt by lra. field.
Qed.
Lemma disk_substitution (p : R -> R) R0 : 0 < R0 -> (forall z, continuous p z) -> is_RInt (fun r => p (2 * (r / R0) ^ 2 - 1) * r) 0 R0 (R0 ^ 2 / 4 * RInt p (-1) 1).
Proof.
  intros HR Hp. pose proof (substituted p (fun r => 2 * (r / R0) ^ 2 - 1) (fun r => 4 / R0 ^ 2 * r) 0 R0 Hp) as H.
  assert (H' : is_RInt (fun r => 4 / R0 ^ 2 * r * p (2 * (r / R0) ^ 2 - 1)) 0 R0 (RInt p (2 * (0 / R0) ^ 2 - 1) (2 * (R0 / R0) ^ 2 - 1))).
  { apply H; intros x; [auto_derive; [lra|field; lra]|]. apply smooth. auto_derive. exact I. }
  replace (2 * (0 / R0) ^ 2 - 1) with (-1) in H' by (field; lra). replace (2 * (R0 / R0) ^ 2 - 1) with 1 in H' by (field; lra).
  apply (scaled_is _ (R0 ^ 2 / 4)) in H'. revert H'. apply is_RInt_ext. intros x _. on_R. field. lra.
Qed.
Lemma ball_substitution (p : R -> R) R0 : 0 < R0 -> (forall z, continuous p z) -> is_RInt (fun r => p (2 * (r / R0) ^ 2 - 1) * r ^ 2) 0 R0 (R0 ^ 3 / (4 * sqrt 2) * RInt (fun z => sqrt (1 + z) * p z) (-1) 1).
Proof.
  intros HR Hp. pose proof sqrt2_neq_0 as H2. pose proof (substituted (fun z => sqrt (1 + z) * p z) (fun r => 2 * (r / R0) ^ 2 - 1) (fun r => 4 / R0 ^ 2 * r) 0 R0) as H.
  assert (H' : is_RInt (fun r => 4 / R0 ^ 2 * r * (sqrt (1 + (2 * (r / R0) ^ 2 - 1)) * p (2 * (r / R0) ^ 2 - 1))) 0 R0 (RInt (fun z => sqrt (1 + z) * p z) (2 * (0 / R0) ^ 2 - 1) (2 * (R0 / R0) ^ 2 - 1))).
  { apply H; [intros z|intros x; auto_derive; [lra|field; lra]|intros x; apply smooth; auto_derive; exact I].
    apply (continuous_product (fun z => sqrt (1 + z)) p); [|apply Hp]. apply (continuous_comp (fun z => 1 + z) sqrt); [apply smooth; auto_derive; exact I|apply continuous_sqrt]. }
  replace (2 * (0 / R0) ^ 2 - 1) with (-1) in H' by (field; lra). replace (2 * (R0 / R0) ^ 2 - 1) with 1 in H' by (field; lra).
  apply (scaled_is _ (R0 ^ 3 / (4 * sqrt 2))) in H'. revert H'. apply is_RInt_ext. intros x Hx. rewrite Rmin_left in Hx by lra.
  replace (1 + (2 * (x / R0) ^ 2 - 1)) with (2 * ((x / R0) * (x / R0))) by ring. assert (0 <= x / R0) by (apply Rlt_le, Rdiv_lt_0_compat; lra). rewrite sqrt_mult_alt, sqrt_square by lra. on_R. field. split; [lra|exact H2].
Qed.

(** ** Annuli and shells *)
Section Shell.
Context (inner outer a b : R) (H0 : 0 < inner) (H1 : inner < outer) (Ha : -1 < a) (Hb : -1 < b) (k : nat).
Notation dR := (outer - inner).
Notation rho := (shell_radius inner outer).
Notation back r := ((2 * r - (outer + inner)) / (outer - inner)).
Lemma rho_value z : rho z = (outer - inner) / 2 * z + (outer + inner) / 2. Proof. unfold shell_radius. field. lra. Qed.
Lemma rho_pos z : -1 < z < 1 -> 0 < rho z. Proof. intros H. rewrite rho_value. nra. Qed.
Lemma back_rho z : back (rho z) = z. Proof. rewrite rho_value. field. lra. Qed.
Lemma rho_back r : rho (back r) = r. Proof. rewrite rho_value. field. lra. Qed.
Definition shell_profile (n : nat) (c : nat -> R) (z : R) : R := total n (fun i => c i * unit_polynomial mass i (a + INR k) (b + INR k) z).
Lemma shell_profile_polynomial n c : polynomial n (shell_profile n c).
Proof. destruct (unit_in mass n (a + INR k) (b + INR k) c) as (e & E). apply (polynomial_ext n (ev n e)); [intros z; symmetry; apply E|apply polynomial_ev]. Qed.
Lemma shell_profile_series n c r : series n c (shell_function mass inner outer a b k) r = (dR / r) ^ k * shell_profile n c (back r).
Proof. unfold series, shell_profile, shell_function. rewrite <- Rtotal_scale. apply Rtotal_ext. intros i Hi. ring. Qed.
Lemma shell_row_value power Nr n : (forall z w, In (z, w) (quadrature (2 * Nr) 0 0) -> -1 < z < 1) ->
  exists A, shell_row mass quadrature power Nr inner outer a b k n = Some A /\ nr A = 1%nat /\ nc A = n
  /\ forall c, image A c 0 = dR / 2 * weighted_sum (quadrature (2 * Nr) 0 0) (fun z => series n c (shell_function mass inner outer a b k) (rho z) * rho z ^ power).
Proof.
  intros Hin. unfold shell_row. set (q := quadrature (2 * Nr) 0 0) in *. pose proof (pos_INR k) as Hk.
  destruct (row_image q n (fun z => polynomials mass true None n (a + INR k) (b + INR k) z) (fun i => unit_polynomial mass i (a + INR k) (b + INR k))) as (Qk & E & Er & Ev).
  { intros z w _. apply polynomials_value; first [exact Hm | lra]. }
  rewrite E. cbn [obind]. eexists. split; [reflexivity|]. split; [reflexivity|]. split; [exact Er|]. intros c. rewrite image_times, Ev, weighted_total, Rmult_comm. f_equal. apply Rtotal_ext. intros t Ht.
  set (G := fun zw : R * R => _). rewrite (nth_indep _ 0 (G (0, 0))) by (rewrite map_length; exact Ht). rewrite (map_nth G). unfold G. fold (point q t). fold (weight q t).
  assert (H : -1 < point q t < 1) by (apply (Hin _ (weight q t)); unfold point, weight; rewrite <- surjective_pairing; apply nth_In; exact Ht). pose proof (rho_pos _ H) as Hr.
  rewrite shell_profile_series, back_rho. fold (shell_profile n c (point q t)). rewrite powerRZ_neg' by (apply Rgt_not_eq, Rdiv_lt_0_compat; lra). rewrite <- pow_powerRZ. replace (dR / rho (point q t)) with (/ (rho (point q t) / dR)) by (field; lra).
  rewrite pow_inv. ring.
Qed.
Lemma shell_substitution (p : R -> R) : (forall z, continuous p z) -> is_RInt (fun r => p (back r)) inner outer (dR / 2 * RInt p (-1) 1).
Proof.
  intros Hp. assert (H' : is_RInt (fun r => 2 / dR * p (back r)) inner outer (RInt p (back inner) (back outer))).
  { apply (substituted p (fun r => back r) (fun _ => 2 / dR)); [exact Hp|intros x; auto_derive; [lra|field; lra]|intros x; apply smooth; auto_derive; exact I]. }
  replace (back inner) with (-1) in H' by (field; lra). replace (back outer) with 1 in H' by (field; lra).
  apply (scaled_is _ (dR / 2)) in H'. revert H'. apply is_RInt_ext. intros x _. on_R. field. lra.
Qed.
Lemma rho_power j : polynomial (S j) (fun z => rho z ^ j).
Proof.
  assert (L : polynomial 2 rho).
  { exists (fun i => match i with O => (outer + inner) / 2 | _ => dR / 2 end). intros z. rewrite rho_value, !Rtotal_S. cbn [CSR_Spec.total]. cbn. ring. }
  induction j as [|j IH].
  - exists (fun _ => 1). intros z. cbn. ring.
  - apply (polynomial_ext _ (fun z => rho z ^ j * rho z)); [intros z; cbn [pow]; ring|]. replace (S (S j)) with (S j + 1)%nat by lia. apply polynomial_times; [exact IH|exact L].
Qed.
(** Exact if the powers of the radius cancel. *)
Lemma shell_exact power Nr n c : (k <= power)%nat -> (n + (power - k) <= 2 * (2 * Nr))%nat -> gauss_rule (fun _ => 1) (2 * Nr) (quadrature (2 * Nr) 0 0) ->
  is_RInt (fun r => series n c (shell_function mass inner outer a b k) r * r ^ power) inner outer
    (dR / 2 * weighted_sum (quadrature (2 * Nr) 0 0) (fun z => series n c (shell_function mass inner outer a b k) (rho z) * rho z ^ power)).
Proof.
  intros Hkp Hn [Hin Hq]. set (p := fun z => dR ^ k * (shell_profile n c z * rho z ^ (power - k))).
  assert (Pp : polynomial (2 * (2 * Nr)) p). { unfold p. apply polynomial_scale. apply (polynomial_more (n + (power - k))); [exact Hn|]. apply polynomial_times; [apply shell_profile_polynomial|apply rho_power]. }
  assert (Ep : forall r, 0 < r -> series n c (shell_function mass inner outer a b k) r * r ^ power = p (back r)).
  { intros r Hr. rewrite shell_profile_series. unfold p. rewrite rho_back. replace (r ^ power) with (r ^ k * r ^ (power - k)) by (rewrite <- pow_add; f_equal; lia).
    replace ((dR / r) ^ k * shell_profile n c (back r) * (r ^ k * r ^ (power - k))) with ((dR / r) ^ k * r ^ k * (shell_profile n c (back r) * r ^ (power - k))) by ring. f_equal. rewrite <- Rpow_mult_distr. f_equal. field. lra. }
  replace (weighted_sum (quadrature (2 * Nr) 0 0) (fun z => series n c (shell_function mass inner outer a b k) (rho z) * rho z ^ power)) with (RInt p (-1) 1).
  - pose proof (shell_substitution p (fun z => polynomial_continuous _ p z Pp)) as H. revert H. apply is_RInt_ext. intros r Hr. rewrite Rmin_left in Hr by lra. symmetry. apply Ep. lra.
  - transitivity (weighted_sum (quadrature (2 * Nr) 0 0) p).
    + rewrite (Hq p Pp). apply RInt_ext. intros z _. cbv beta. on_R. ring.
    + rewrite !weighted_total. apply Rtotal_ext. intros t Ht. set (q := quadrature (2 * Nr) 0 0) in *. assert (H : -1 < point q t < 1) by (apply (Hin _ (weight q t)); unfold point, weight; rewrite <- surjective_pairing; apply nth_In; exact Ht).
      f_equal. rewrite Ep by (apply rho_pos; exact H). rewrite back_rho. reflexivity.
Qed.
Lemma shell_integrable n c power : ex_RInt (fun r => series n c (shell_function mass inner outer a b k) r * r ^ power) inner outer.
Proof.
  apply (ex_RInt_continuous (V := R_CompleteNormedModule)). intros r Hr. rewrite Rmin_left in Hr by lra.
  apply (continuous_ext (fun r => ((dR / r) ^ k * shell_profile n c (back r)) * r ^ power)); [intros x; rewrite shell_profile_series; reflexivity|].
  apply continuous_product; [apply continuous_product|].
  - apply smooth. auto_derive. lra.
  - apply (continuous_comp (fun r => back r) (shell_profile n c)); [apply smooth; auto_derive; exact I|apply (polynomial_continuous n), shell_profile_polynomial].
  - apply smooth. auto_derive. exact I.
Qed.
End Shell.
Lemma zernike_integrable d R0 kk l n c power : 0 < R0 -> ex_RInt (fun r => series n c (zernike mass d R0 kk l) r * r ^ power) 0 R0.
Proof.
  intros HR. set (b := INR l + INR d / 2 - 1). set (p := fun z => total n (fun i => c i * unit_polynomial mass i kk b z)).
  assert (Pp : polynomial n p). { destruct (unit_in mass n kk b c) as (e & E). apply (polynomial_ext n (ev n e)); [intros z; symmetry; apply E|apply polynomial_ev]. }
  apply (ex_RInt_continuous (V := R_CompleteNormedModule)). intros r _.
  apply (continuous_ext (fun r => sqrt (Rpower 2 (kk + INR l + INR d / 2 + 1)) * (r / R0) ^ l * p (2 * (r / R0) ^ 2 - 1) * r ^ power)).
  { intros x. f_equal. unfold series, zernike, p. rewrite <- Rtotal_scale. apply Rtotal_ext. intros i _. unfold b. ring. }
  apply continuous_product; [apply continuous_product|].
  - apply smooth. auto_derive. exact I.
  - apply (continuous_comp (fun r => 2 * (r / R0) ^ 2 - 1) p); [apply smooth; auto_derive; exact I|apply (polynomial_continuous n), Pp].
  - apply smooth. auto_derive. exact I.
Qed.
End Mass.

(** ** Azimuthal integrals *)
Lemma full_turn : 0 <> 2 * PI. Proof. pose proof PI_RGT_0. lra. Qed.
Lemma turn_phase m phi : FourierCalc_Spec.phase 0 (2 * PI) m phi = IZR m * phi.
Proof. unfold FourierCalc_Spec.phase. pose proof PI_RGT_0. field. lra. Qed.
Lemma wave_integral m i : is_RInt (wave m i) 0 (2 * PI) (if (m =? 0)%Z && Nat.even i then 2 * PI else 0).
Proof.
  unfold wave. destruct (Nat.even i).
  - pose proof (FourierCalc_Series.cos_integral 0 (2 * PI) full_turn m) as H. rewrite andb_true_r. rewrite Rminus_0_r in H. revert H. apply is_RInt_ext. intros x _. rewrite turn_phase. reflexivity.
  - pose proof (FourierCalc_Series.sin_integral 0 (2 * PI) full_turn m) as H. rewrite andb_false_r. apply (scaled_is _ (-1)) in H. rewrite Rmult_0_r in H. revert H. apply is_RInt_ext. intros x _. rewrite turn_phase. on_R. ring.
Qed.

(** ** Fields on disks and annuli *)
Section PolarField.
Context (p : polar) (Nphi Nr : nat) (Hg : good_resolution Float64 Nphi) (H2 : Nphi <> 2%nat).
Lemma order_zero d N : gorder d N 0 = 0%Z. Proof. unfold gorder. cbn. unfold half_order. cbn. reflexivity. Qed.
Lemma row_zero i : (i < polar_rows Float64 Nphi)%nat -> order_in Float64 Nphi 0 i = 0%Z -> Nat.even i = true -> i = 0%nat.
Proof.
  intros Hi E Ev. rewrite orders_rows in Hi by assumption. cbn [parts] in Hi. unfold order_in in E. rewrite Nat.mul_0_r, Nat.add_0_l in E.
  apply Nat.even_spec in Ev. destruct Ev as (q & ->). replace (2 * q)%nat with (parts Float64 * q + 0)%nat in E by (cbn; lia).
  rewrite group_of_row in E; [|exact Hg|lia|cbn; lia]. cbn [fst] in E. rewrite <- (order_zero Float64 Nphi) in E. apply gorder_inj in E; [lia|exact Hg|lia|lia].
Qed.
Lemma orders_pos d N : good_resolution d N -> (0 < orders d N)%nat.
Proof. intros [G1 _]. unfold orders. destruct (Nat.leb_spec N 2); [lia|]. destruct d; [lia|]. apply Nat.div_str_pos. lia. Qed.
Lemma order_in_zero : order_in Float64 Nphi 0 0 = 0%Z.
Proof. unfold order_in. change (parts Float64 * 0 + 0)%nat with (parts Float64 * 0 + 0)%nat. rewrite group_of_row; [apply order_zero|exact Hg|apply orders_pos; exact Hg|cbn; lia]. Qed.
Lemma area_of_field radial C inner outer v : (forall i, (i < polar_rows Float64 Nphi)%nat -> let m := order_in Float64 Nphi 0 i in
    ex_RInt (fun r => series (Nr - first_degree p m) (fun n => C i (first_degree p m + n)%nat) (radial m) r * r) inner outer) ->
  is_RInt (fun r => series Nr (C 0%nat) (radial 0%Z) r * r) inner outer v -> area_integral (polar_field p Nphi Nr radial C) inner outer = 2 * PI * v.
Proof.
  intros Hex Hv. set (N := polar_rows Float64 Nphi) in *. set (m i := order_in Float64 Nphi 0 i) in *. set (S i r := series (Nr - first_degree p (m i)) (fun n => C i (first_degree p (m i) + n)%nat) (radial (m i)) r).
  set (I i := RInt (fun r => S i r * r) inner outer). assert (HI : forall i, (i < N)%nat -> is_RInt (fun r => S i r * r) inner outer (I i)) by (intros i Hi; apply (RInt_correct (V := R_CompleteNormedModule)); apply Hex; exact Hi).
  assert (H1 : forall phi, is_RInt (fun r => polar_field p Nphi Nr radial C phi r * r) inner outer (total N (fun i => wave (m i) i phi * I i))).
  { intros phi. apply is_RInt_ext with (fun r => total N (fun i => wave (m i) i phi * (S i r * r))).
    - intros r _. unfold polar_field. fold N. rewrite (Rmult_comm _ r), <- Rtotal_scale. apply Rtotal_ext. intros i Hi. unfold S. fold (m i). on_R. ring.
    - apply (total_integral N (fun i r => wave (m i) i phi * (S i r * r)) (fun i => wave (m i) i phi * I i)). intros i Hi. apply scaled_is, HI. exact Hi. }
  unfold area_integral. rewrite (RInt_ext _ (fun phi => total N (fun i => wave (m i) i phi * I i))) by (intros phi _; apply is_value, H1).
  apply is_value. assert (HN : (0 < N)%nat). { unfold N. rewrite orders_rows by assumption. cbn [parts]. pose proof (orders_pos _ _ Hg). lia. }
  replace (2 * PI * v) with (total N (fun i => I i * (if (m i =? 0)%Z && Nat.even i then 2 * PI else 0))).
  - apply is_RInt_ext with (fun phi => total N (fun i => I i * wave (m i) i phi)); [intros phi _; apply Rtotal_ext; intros; ring|].
    apply (total_integral N (fun i phi => I i * wave (m i) i phi) (fun i => I i * (if (m i =? 0)%Z && Nat.even i then 2 * PI else 0))). intros i Hi. apply scaled_is, wave_integral.
  - rewrite (Rtotal_single N 0) by first [exact HN | intros i Hi Hne; destruct (Z.eqb_spec (m i) 0) as [E|E]; [|cbn [andb]; ring]; destruct (Nat.even i) eqn:Ev; [|cbn [andb]; ring]; exfalso; apply Hne, row_zero; assumption].
    unfold m. rewrite order_in_zero. cbn [Z.eqb Nat.even andb]. rewrite Rmult_comm. f_equal. unfold I. apply is_value. revert Hv. apply is_RInt_ext. intros r _. unfold S, m. rewrite order_in_zero.
    assert (E0 : first_degree p 0 = 0%nat) by (destruct p; reflexivity). rewrite E0, Nat.sub_0_r. reflexivity.
Qed.
End PolarField.
(** The loop over orders. *)
Lemma fold_obind_skip {E} (f : option R -> E -> option R) l s : (forall e s, In e l -> f (Some s) e = Some s) -> fold_left f l (Some s) = Some s.
Proof. induction l as [|e l IH]; intros H; [reflexivity|]. cbn [fold_left]. rewrite H by (left; reflexivity). apply IH. intros e' s' He. apply H. right. exact He. Qed.
Lemma polar_loop p d Nphi Nr Ng c0 n matrix A c : good_resolution d Nphi -> Nphi <> 2%nat -> (0 < Ng)%nat -> (c0 + n <= orders d Nphi)%nat -> (forall q, (c0 <= q < c0 + n)%nat -> (first_degree p (gorder d Nphi q) < Nr)%nat) ->
  matrix 0%Z = Some A -> nc A = Nr ->
  exists maps, polar_maps p d Nphi Nr Ng c0 n = Some maps /\ polar_operate matrix maps c = Some (if ((c0 =? 0) && (0 <? n))%nat then image A (c 0%nat) 0 else 0).
Proof.
  intros Hg H2 HNg Hn Hf EA EN. exists (map (polar_entry p d Nphi Nr c0) (seq c0 n)). split; [apply polar_maps_entries; assumption|]. unfold polar_operate.
  assert (Hz : forall q, (c0 <= q < c0 + n)%nat -> q <> 0%nat -> gorder d Nphi q <> 0%Z).
  { intros q Hq Hq0 E. rewrite <- (order_zero d Nphi) in E. apply gorder_inj in E; [contradiction|exact Hg|lia|lia]. }
  destruct (Nat.eqb_spec c0 0) as [->|Hc]; [destruct (Nat.ltb_spec 0 n) as [Hn0|Hn0]|]; cbn [andb].
  - destruct n as [|n]; [lia|]. cbn [seq map fold_left]. unfold polar_entry at 2. rewrite order_zero. cbn [Z.eqb obind]. rewrite EA. cbn [obind]. unfold add_product. cbn [fst snd].
    assert (E0 : first_degree p 0 = 0%nat) by (destruct p; reflexivity). rewrite E0, Nat.sub_0_r, EN, Nat.eqb_refl. rewrite fold_obind_skip.
    + f_equal. rewrite Rplus_0_l. unfold image. rewrite EN. change (msum 0 Rplus) with total. apply Rtotal_ext. intros j Hj. rewrite Nat.mul_0_r. reflexivity.
    + intros e s He. apply in_map_iff in He. destruct He as (q & <- & Hq). apply in_seq in Hq. cbn [obind]. unfold polar_entry. destruct (Z.eqb_spec (gorder d Nphi q) 0) as [E|E]; [|reflexivity]. exfalso. revert E. apply Hz; lia.
  - replace n with 0%nat by lia. reflexivity.
  - apply fold_obind_skip. intros e s He. apply in_map_iff in He. destruct He as (q & <- & Hq). apply in_seq in Hq. cbn [obind]. unfold polar_entry. destruct (Z.eqb_spec (gorder d Nphi q) 0) as [E|E]; [|reflexivity]. exfalso. revert E. apply Hz; lia.
Qed.

(** ** Fields in balls and shells *)
Lemma filter_whole {A} (f : A -> bool) l : (forall x, In x l -> f x = true) -> filter f l = l.
Proof. induction l as [|x l IH]; intros H; [reflexivity|]. cbn [filter]. rewrite (H x) by (left; reflexivity). f_equal. apply IH. intros y Hy. apply H. right. exact Hy. Qed.
Section Degrees.
Context (d : dtype) (Nphi Ntheta : nat) (Hg : good_resolution d Nphi) (Ht : (0 < Ntheta)%nat) (HN : (Nphi <= 2 * Ntheta)%nat).
Lemma canon_zero : canon d Nphi Ntheta 0 0 = (0%Z, 0%Z). Proof. unfold canon. cbn. destruct (Lmax d Ntheta); reflexivity. Qed.
Lemma zero_degree c j : (c < pieces d Nphi)%nat -> (j < columns d Nphi Ntheta)%nat -> snd (canon d Nphi Ntheta c j) = 0%Z -> c = 0%nat /\ j = 0%nat.
Proof.
  intros Hc Hj E. pose proof (parts_pos d) as HP. assert (Hi : (parts d * c < fst (coeff_shape d Nphi Ntheta))%nat) by (rewrite coeff_shape_rows by exact Hg; nia).
  pose proof (sphere_packed d Nphi Ntheta (parts d * c) j Hg Ht HN Hi Hj) as H. rewrite coeff_group_canon in H; [|exact Hg|rewrite coeff_shape_rows in Hi by exact Hg; exact Hi|exact Hj].
  rewrite (Nat.mul_comm (parts d)), Nat.div_mul in H by lia. destruct (canon d Nphi Ntheta c j) as [m ell] eqn:Ec. cbn [snd] in E. subst ell. destruct H as [_ H]. assert (m = 0%Z) by lia. subst m.
  rewrite <- canon_zero in Ec. apply (canon_inj d Nphi Ntheta c j 0 0) in Ec; try assumption; lia.
Qed.
Lemma zero_place i j : (i < fst (coeff_shape d Nphi Ntheta))%nat -> (j < columns d Nphi Ntheta)%nat -> snd (coeff_group d Nphi Ntheta i j) = 0%Z <-> (i < parts d)%nat /\ j = 0%nat.
Proof.
  intros Hi Hj. rewrite coeff_shape_rows in Hi by exact Hg. pose proof (parts_pos d) as HP. rewrite coeff_group_canon by assumption. split.
  - intros E. apply zero_degree in E; [|apply Nat.div_lt_upper_bound; lia|exact Hj]. destruct E as [E ->]. split; [|reflexivity]. apply Nat.div_small_iff in E; lia.
  - intros [H ->]. rewrite Nat.div_small by exact H. rewrite canon_zero. reflexivity.
Qed.
Context (c0 n j0 nc : nat) (Hn : (c0 + n <= pieces d Nphi)%nat) (Hc : (j0 + nc <= columns d Nphi Ntheta)%nat).
Lemma local_zero a b : (a < coeff_chunk d * n)%nat -> (b < nc)%nat -> degree d Nphi Ntheta c0 j0 a b = 0%Z <-> c0 = 0%nat /\ j0 = 0%nat /\ (a < parts d)%nat /\ b = 0%nat.
Proof.
  intros Ha Hb. pose proof (parts_pos d) as HP. unfold degree. rewrite coeff_chunk_parts in *. rewrite zero_place; [|rewrite coeff_shape_rows by exact Hg; nia|lia]. nia.
Qed.
Notation G := (fun a b => coeff_group d Nphi Ntheta (coeff_chunk d * c0 + a) (j0 + b)).
Notation rows := (coeff_chunk d * n)%nat.
Lemma zero_entries : filter (fun e : ell_map => (fst (fst e) =? 0)%Z) (ell_maps d Nphi Ntheta c0 n j0 nc) =
  if ((c0 =? 0) && (j0 =? 0) && (0 <? n) && (0 <? nc))%nat then [(0%Z, (0%nat, parts d), (0, 1)%nat)] else [].
Proof.
  pose proof (parts_pos d) as HP. pose proof (coeff_chunk_parts d) as EP. set (sel b := fun a => (0 =? degree d Nphi Ntheta c0 j0 a b)%Z). unfold ell_maps. rewrite filter_flat_map.
  assert (Hs : forall x, x <> 0%Z -> filter (fun e : ell_map => (fst (fst e) =? 0)%Z) (map (fun s => (x, fst s, snd s)) (groupset_slices (group_rows d, 1%nat) G rows nc (None, Some x))) = []).
  { intros x Hx. apply filter_nil. intros e He. apply in_map_iff in He. destruct He as (s & <- & _). cbn [fst]. apply Z.eqb_neq. exact Hx. }
  destruct ((c0 =? 0) && (j0 =? 0) && (0 <? n) && (0 <? nc))%nat eqn:E.
  - rewrite !andb_true_iff, !Nat.eqb_eq, !Nat.ltb_lt in E. destruct E as (((E1 & E2) & Hn0) & Hc0). assert (HR : (0 < rows)%nat) by nia.
    assert (E00 : degree d Nphi Ntheta c0 j0 0 0 = 0%Z) by (apply local_zero; [exact HR|exact Hc0|lia]).
    rewrite (flat_map_single _ _ 0%Z); [|apply ordered_set_nodup|rewrite <- E00; apply (degree_listed d Nphi Ntheta c0 n j0 nc 0 0); assumption|intros x _ Hx; apply Hs; exact Hx].
    rewrite ell_slices. rewrite filter_whole by (intros e He; apply in_map_iff in He; destruct He as (s & <- & _); reflexivity).
    rewrite (flat_map_single _ _ 0%nat); [|apply seq_NoDup|apply in_seq; lia|].
    + change (fun a => (0 =? snd (coeff_group d Nphi Ntheta (coeff_chunk d * c0 + a) (j0 + 0)))%Z) with (sel 0%nat).
      assert (S0 : sel 0%nat 0%nat = true) by (unfold sel; rewrite E00; reflexivity). replace (existsb (sel 0%nat) (seq 0 rows)) with true by (symmetry; apply existsb_exists; exists 0%nat; split; [apply in_seq; lia|exact S0]).
      assert (Hsel : forall a, (a < rows)%nat -> sel 0%nat a = true <-> (a < parts d)%nat) by (intros a Ha'; unfold sel; rewrite Z.eqb_eq; split; [intros X; symmetry in X; apply local_zero in X; lia|intros X; symmetry; apply local_zero; lia]).
      assert (HPR : (parts d - 1 < rows)%nat) by nia. destruct (extent_ends (sel 0%nat) rows 0%nat HR S0) as (X1 & X2 & X3 & X4). pose proof (extent_inside (sel 0%nat) rows (parts d - 1)%nat HPR ltac:(apply Hsel; lia)) as X5. apply inside_iff in X5.
      pose proof (extent_inside (sel 0%nat) rows 0%nat HR S0) as X6. apply inside_iff in X6. apply Hsel in X2; [|lia]. destruct (extent (sel 0%nat) rows) as [lo hi]. cbn [fst snd] in *. cbn [map fst snd]. repeat f_equal; lia.
    + intros b Hb Hne. apply in_seq in Hb. destruct (existsb _ (seq 0 rows)) eqn:X; [|reflexivity]. exfalso. apply existsb_exists in X. destruct X as (a & Ha & X). apply in_seq in Ha. apply Z.eqb_eq in X. symmetry in X. apply local_zero in X; lia.
  - apply Parallel_Proofs.flat_map_nil. intros x Hx. destruct (Z.eq_dec x 0) as [->|Hx0]; [|apply Hs; exact Hx0]. exfalso. unfold local_groupsets in Hx. apply (proj1 (ordered_set_in _ _)) in Hx. apply in_flat_map in Hx. destruct Hx as (a & Ha & Hx). apply in_map_iff in Hx. destruct Hx as (b & X & Hb). apply in_seq in Ha, Hb.
    apply (local_zero a b) in X; [|lia|lia]. destruct X as (X1 & X2 & X3 & X4). rewrite X1, X2 in E. cbn [Nat.eqb andb] in E. replace (0 <? n)%nat with true in E by (symmetry; apply Nat.ltb_lt; nia). replace (0 <? nc)%nat with true in E by (symmetry; apply Nat.ltb_lt; lia). discriminate.
Qed.
Lemma spherical_loop matrix nmin Nr A c : matrix 0%Z = Some A -> nmin 0%Z = 0%nat -> MatSolvers_Model.nc A = Nr ->
  spherical_operate matrix nmin Nr (ell_maps d Nphi Ntheta c0 n j0 nc) c = Some (if ((c0 =? 0) && (j0 =? 0) && (0 <? n) && (0 <? nc))%nat then image A (c 0%nat 0%nat) 0 else 0).
Proof.
  intros EA E0 EN. pose proof zero_entries as EF. unfold spherical_operate.
  assert (Hf : forall l s, fold_left (fun s (e : ell_map) => obind s (fun s => let '(ell, ms, es) := e in
      if (ell =? 0)%Z then obind (matrix ell) (fun A => add_product A (Nr - nmin ell) (fun j => c (fst ms) (fst es) (nmin ell + j)%nat) s) else Some s)) l (Some s)
    = fold_left (fun s (e : ell_map) => obind s (fun s => let '(ell, ms, es) := e in
      if (ell =? 0)%Z then obind (matrix ell) (fun A => add_product A (Nr - nmin ell) (fun j => c (fst ms) (fst es) (nmin ell + j)%nat) s) else Some s)) (filter (fun e : ell_map => (fst (fst e) =? 0)%Z) l) (Some s)).
  { induction l as [|[[ell ms'] es'] l IH]; intros s; [reflexivity|]. cbn [filter fst fold_left obind]. destruct (Z.eqb_spec ell 0) as [->|He]; [|apply IH]. cbn [fold_left obind Z.eqb]. rewrite EA. cbn [obind]. unfold add_product. rewrite E0, Nat.sub_0_r, EN, Nat.eqb_refl. apply IH. }
  rewrite Hf, EF. destruct ((c0 =? 0) && (j0 =? 0) && (0 <? n) && (0 <? nc))%nat; [|reflexivity]. cbn [fold_left obind Z.eqb]. rewrite EA. cbn [obind]. unfold add_product. rewrite E0, Nat.sub_0_r, EN, Nat.eqb_refl. f_equal. rewrite Rplus_0_l. unfold image. rewrite EN. reflexivity.
Qed.
End Degrees.
Section SphericalField.
Context (Nphi Ntheta Nr : nat) (Hg : good_resolution Float64 Nphi) (Ht : (0 < Ntheta)%nat) (HN : (Nphi <= 2 * Ntheta)%nat) (first : Z -> nat) (Y : Z -> Z -> R -> R) (HY : angular Y) (F0 : first 0%Z = 0%nat).
Lemma volume_of_field radial C inner outer v : (forall ell n c, ex_RInt (fun r => series n c (radial ell) r * r ^ 2) inner outer) ->
  is_RInt (fun r => series Nr (C 0%nat 0%nat) (radial 0%Z) r * r ^ 2) inner outer v -> volume_integral (spherical_field Nphi Ntheta Nr first Y radial C) inner outer = 4 * PI / sqrt 2 * v.
Proof.
  intros Hex Hv. destruct HY as (Y1 & Y2 & Y3). set (P := fst (coeff_shape Float64 Nphi Ntheta)). set (Q := snd (coeff_shape Float64 Nphi Ntheta)).
  set (m i j := fst (coeff_group Float64 Nphi Ntheta i j)). set (l i j := snd (coeff_group Float64 Nphi Ntheta i j)).
  set (S i j r := series (Nr - first (l i j)) (fun n => C i j (first (l i j) + n)%nat) (radial (l i j)) r). set (I i j := RInt (fun r => S i j r * r ^ 2) inner outer). set (K i j := RInt (Y (m i j) (l i j)) (-1) 1).
  assert (HI : forall i j, is_RInt (fun r => S i j r * r ^ 2) inner outer (I i j)) by (intros i j; apply (RInt_correct (V := R_CompleteNormedModule)); apply Hex).
  assert (HK : forall i j, is_RInt (Y (m i j) (l i j)) (-1) 1 (K i j)) by (intros i j; apply (RInt_correct (V := R_CompleteNormedModule)); apply Y1).
  assert (H1 : forall phi x, is_RInt (fun r => spherical_field Nphi Ntheta Nr first Y radial C phi x r * r ^ 2) inner outer (total P (fun i => total Q (fun j => wave (m i j) i phi * Y (m i j) (l i j) x * I i j)))).
  { intros phi x. apply is_RInt_ext with (fun r => total P (fun i => total Q (fun j => wave (m i j) i phi * Y (m i j) (l i j) x * (S i j r * r ^ 2)))).
    - intros r _. unfold spherical_field. fold P Q. on_R. rewrite (Rmult_comm _ (r ^ 2)), <- Rtotal_scale. apply Rtotal_ext. intros i Hi. rewrite <- Rtotal_scale. apply Rtotal_ext. intros j Hj. unfold S, m, l. destruct (coeff_group Float64 Nphi Ntheta i j) as [mm ll]. cbn [fst snd]. ring.
    - apply (total_integral P (fun i r => total Q (fun j => wave (m i j) i phi * Y (m i j) (l i j) x * (S i j r * r ^ 2))) (fun i => total Q (fun j => wave (m i j) i phi * Y (m i j) (l i j) x * I i j))). intros i Hi.
      apply (total_integral Q (fun j r => wave (m i j) i phi * Y (m i j) (l i j) x * (S i j r * r ^ 2)) (fun j => wave (m i j) i phi * Y (m i j) (l i j) x * I i j)). intros j Hj. apply scaled_is, HI. }
  assert (H2 : forall phi, is_RInt (fun x => RInt (fun r => spherical_field Nphi Ntheta Nr first Y radial C phi x r * r ^ 2) inner outer) (-1) 1 (total P (fun i => total Q (fun j => wave (m i j) i phi * I i j * K i j)))).
  { intros phi. apply is_RInt_ext with (fun x => total P (fun i => total Q (fun j => wave (m i j) i phi * I i j * Y (m i j) (l i j) x))).
    - intros x _. rewrite (is_value _ _ _ _ (H1 phi x)). apply Rtotal_ext. intros i Hi. apply Rtotal_ext. intros j Hj. ring.
    - apply (total_integral P (fun i x => total Q (fun j => wave (m i j) i phi * I i j * Y (m i j) (l i j) x)) (fun i => total Q (fun j => wave (m i j) i phi * I i j * K i j))). intros i Hi.
      apply (total_integral Q (fun j x => wave (m i j) i phi * I i j * Y (m i j) (l i j) x) (fun j => wave (m i j) i phi * I i j * K i j)). intros j Hj. apply scaled_is, HK. }
  unfold volume_integral. rewrite (RInt_ext _ (fun phi => total P (fun i => total Q (fun j => wave (m i j) i phi * I i j * K i j)))) by (intros phi _; apply is_value, H2).
  apply is_value. set (W i j := if (m i j =? 0)%Z && Nat.even i then 2 * PI else 0).
  replace (4 * PI / sqrt 2 * v) with (total P (fun i => total Q (fun j => I i j * K i j * W i j))).
  - apply is_RInt_ext with (fun phi => total P (fun i => total Q (fun j => I i j * K i j * wave (m i j) i phi))); [intros phi _; apply Rtotal_ext; intros i Hi; apply Rtotal_ext; intros j Hj; ring|].
    apply (total_integral P (fun i phi => total Q (fun j => I i j * K i j * wave (m i j) i phi)) (fun i => total Q (fun j => I i j * K i j * W i j))). intros i Hi.
    apply (total_integral Q (fun j phi => I i j * K i j * wave (m i j) i phi) (fun j => I i j * K i j * W i j)). intros j Hj. apply scaled_is, wave_integral.
  - assert (HP : (0 < P)%nat) by (unfold P; rewrite coeff_shape_rows by exact Hg; unfold pieces; destruct Hg as [G1 G2]; destruct (Nat.leb_spec Nphi 2); cbn [parts]; [lia|]; destruct G2 as [G2|G2]; [lia|]; assert (0 < Nphi / 4)%nat by (apply Nat.div_str_pos; split; [lia|]; apply Nat.mod_divide in G2; [|lia]; destruct G2 as (z & ->); lia); lia).
    assert (HQ : (0 < Q)%nat) by (unfold Q; fold (columns Float64 Nphi Ntheta); rewrite columns_offset; lia).
    assert (Z00 : coeff_group Float64 Nphi Ntheta 0 0 = (0%Z, 0%Z)) by (rewrite coeff_group_canon; [rewrite Nat.div_0_l by (cbn; lia); apply canon_zero|exact Hg|unfold P in HP; rewrite coeff_shape_rows in HP by exact Hg; exact HP|exact HQ]).
    assert (Hoff : forall i j, (i < P)%nat -> (j < Q)%nat -> ~ (i = 0%nat /\ j = 0%nat) -> I i j * K i j * W i j = 0).
    { intros i j Hi Hj Hne. unfold W. destruct (Z.eqb_spec (m i j) 0) as [Em|Em]; [|cbn [andb]; ring]. destruct (Nat.even i) eqn:Ev; [|cbn [andb]; ring]. assert (HK0 : K i j = 0); [|rewrite HK0; cbn [andb]; ring]. unfold K. rewrite Em. apply Y3.
      pose proof (sphere_packed Float64 Nphi Ntheta i j Hg Ht HN Hi Hj) as Hmo. unfold m, l in *. pose proof (zero_place Float64 Nphi Ntheta Hg Ht HN i j Hi Hj) as Hz. destruct (coeff_group Float64 Nphi Ntheta i j) as [mm ll]. cbn [fst snd] in *. destruct Hmo as [_ Hmo].
      assert (ll <> 0%Z); [|lia]. intros E. apply Hz in E. cbn [parts] in E. destruct E as [E ->]. apply Hne. split; [|reflexivity]. destruct i as [|[|i]]; [reflexivity|discriminate|lia]. }
    rewrite (Rtotal_single P 0); [rewrite (Rtotal_single Q 0)|exact HP|intros i Hi Hne; apply Rtotal_zero; intros j Hj; apply Hoff; [exact Hi|exact Hj|lia]]; [|exact HQ|intros j Hj Hne; apply Hoff; [exact HP|exact Hj|lia]].
    assert (EI : I 0%nat 0%nat = v). { unfold I. apply is_value. revert Hv. apply is_RInt_ext. intros r _. unfold S, l. rewrite Z00. cbn [snd]. rewrite F0, Nat.sub_0_r. reflexivity. }
    assert (EK : K 0%nat 0%nat = 2 / sqrt 2). { unfold K, m, l. rewrite Z00. cbn [fst snd]. apply is_value. apply is_RInt_ext with (fun _ => / sqrt 2); [intros x _; symmetry; apply Y2|]. replace (2 / sqrt 2) with (scal (1 - -1) (/ sqrt 2)) by (unfold scal; cbn; unfold mult; cbn; field; apply sqrt2_neq_0). apply (is_RInt_const (-1) 1 (/ sqrt 2)). }
    rewrite EI, EK. unfold W, m. rewrite Z00. cbn [fst Z.eqb Nat.even andb]. field. apply sqrt2_neq_0.
Qed.
End SphericalField.
