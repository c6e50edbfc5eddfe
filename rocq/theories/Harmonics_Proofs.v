(** Proofs about spin-weighted spherical harmonics. *)
From Coq Require Import List ZArith Reals Bool Lia Lra Factorial.
Import ListNotations.
From Coquelicot Require Import Coquelicot.
From Verif Require Import CSR_Spec MatSolvers_Proofs Codomain_Proofs JacobiCalc_Model JacobiCalc_Spec JacobiCalc_Proofs JacobiCalc_Ops JacobiCalc_Props Radial_Model GaussTransforms_Spec GaussTransforms_Proofs Integrals_Proofs SphereOps_Spec Harmonics_Model Harmonics_Spec.
Local Open Scope R_scope.
Notation total := (CSR_Spec.total 0 Rplus).
Notation jw := weight_function.

(** ** Jacobi polynomials are orthogonal *)
Lemma polynomial_const c : polynomial 1 (fun _ => c). Proof. exists (fun _ => c). intros z. cbn. ring. Qed.
Lemma polynomial_one_minus l : polynomial (S l) (fun z => (1 - z) ^ l).
Proof.
  induction l as [|l IH]; [apply (polynomial_ext _ (fun _ => 1)); [reflexivity|apply polynomial_const]|]. apply (polynomial_ext _ (fun z => (1 - z) * (1 - z) ^ l)); [reflexivity|]. apply (polynomial_times 2 l); [|exact IH]. exists (fun k => match k with O => 1 | _ => -1 end). intros z. cbn. ring.
Qed.
Lemma polynomial_weight a b : polynomial (S (a + b)) (jw a b).
Proof. apply (polynomial_times (S a) b); [apply polynomial_one_minus|apply polynomial_one_plus]. Qed.
Lemma polynomial_classical n a b : polynomial (S n) (classical n a b).
Proof. apply (polynomial_ext _ (ev (S n) (coefficient n a b))); [intros z; apply ev_classical; lia|apply polynomial_ev]. Qed.
Lemma polynomial_derive d p : polynomial d p -> exists p', (forall z, is_derive p z (p' z)) /\ polynomial (pred d) p'.
Proof.
  intros (c & Hc). exists (fun z => total (pred d) (fun k => INR (S k) * c (S k) * z ^ k)). split; [|exists (fun k => INR (S k) * c (S k)); reflexivity].
  intros z. apply (is_derive_ext (fun z => total d (fun k => c k * z ^ k))); [intros x; symmetry; apply Hc|]. clear Hc p.
  assert (G : forall d, is_derive (fun z => total (S d) (fun k => c k * z ^ k)) z (total d (fun k => INR (S k) * c (S k) * z ^ k))).
  { clear d. induction d as [|d IH].
    - cbn. apply (is_derive_ext (fun _ => c 0%nat)); [intros x; cbn; ring|]. apply (is_derive_const (V := R_NormedModule)).
    - apply (is_derive_ext (fun z => total (S d) (fun k => c k * z ^ k) + c (S d) * z ^ S d)); [intros x; rewrite (Rtotal_S (S d)); reflexivity|]. rewrite (Rtotal_S d).
      apply (is_derive_plus (V := R_NormedModule)); [exact IH|]. auto_derive; [exact I|]. cbn [pred]. rewrite S_INR. destruct d; [cbn; ring|]. rewrite S_INR. ring. }
  destruct d as [|d]; [cbn; apply (is_derive_const (V := R_NormedModule))|apply G].
Qed.
Lemma polynomial_integrable d p : polynomial d p -> ex_RInt p (-1) 1.
Proof. intros H. apply (ex_RInt_continuous (V := R_CompleteNormedModule)). intros z _. apply (polynomial_continuous d), H. Qed.
(** The derivative of the weighted polynomial (Rodrigues' formula, one step at a time). *)
Lemma rodrigues n a b z : is_derive (fun z => jw (S a) (S b) z * classical n (INR a + 1) (INR b + 1) z) z (- (2 * (INR n + 1)) * (jw a b z * classical (S n) (INR a) (INR b) z)).
Proof.
  pose proof (classical_derive n (INR a + 1) (INR b + 1) z) as D. pose proof (poly_D_down n (INR a) (INR b) z) as E. set (P := classical n (INR a + 1) (INR b + 1)) in *. set (P' := slope n (INR a + 1) (INR b + 1) z) in *.
  replace (- (2 * (INR n + 1)) * (jw a b z * classical (S n) (INR a) (INR b) z)) with (- (jw a b z * (2 * (INR n + 1) * classical (S n) (INR a) (INR b) z))) by ring. rewrite <- E.
  assert (W : is_derive (jw (S a) (S b)) z (jw a b z * ((INR b + 1) * (1 - z) - (INR a + 1) * (1 + z)))).
  { unfold jw. auto_derive; [exact I|]. change (match a with 0%nat => 1 | S _ => INR a + 1 end) with (INR (S a)). change (match b with 0%nat => 1 | S _ => INR b + 1 end) with (INR (S b)). rewrite !S_INR. cbn [pow]. replace (1 + - z) with (1 - z) by ring. generalize ((1 - z) ^ a) ((1 + z) ^ b). intros. ring. }
  pose proof (is_derive_mult (jw (S a) (S b)) P z _ _ W D Rmult_comm) as M. eapply eq_ind; [exact M|]. unfold plus, mult. cbn -[pow INR weight_function]. unfold jw. cbn [pow]. generalize ((1 - z) ^ a) ((1 + z) ^ b). intros. ring.
Qed.
Lemma ends a b : jw (S a) (S b) (-1) = 0 /\ jw (S a) (S b) 1 = 0.
Proof. unfold jw. split; cbn [pow]; ring. Qed.
(** The integral of the derivative of a function that vanishes at the ends. *)
Lemma integral_zero d (f f' : R -> R) : (forall z : R, is_derive f z (f' z)) -> polynomial d f' -> f (-1) = 0 -> f 1 = 0 -> RInt f' (-1) 1 = 0.
Proof.
  intros D P E1 E2. apply (is_RInt_unique (V := R_CompleteNormedModule)). replace 0 with (minus (f 1) (f (-1))) by (unfold minus, plus, opp; cbn; rewrite E1, E2; ring).
  apply (is_RInt_derive (V := R_CompleteNormedModule)); intros z _; [apply D|apply (polynomial_continuous d), P].
Qed.
Lemma Rint_plus d p e q : polynomial d p -> polynomial e q -> RInt (fun z => p z + q z) (-1) 1 = RInt p (-1) 1 + RInt q (-1) 1.
Proof. intros H1 H2. exact (RInt_plus (V := R_CompleteNormedModule) p q (-1) 1 (polynomial_integrable d p H1) (polynomial_integrable e q H2)). Qed.
Lemma Rint_scal d c p : polynomial d p -> RInt (fun z => c * p z) (-1) 1 = c * RInt p (-1) 1.
Proof. intros H. exact (RInt_scal (V := R_CompleteNormedModule) p (-1) 1 c (polynomial_integrable d p H)). Qed.
Lemma Rint_ext (p q : R -> R) : (forall z, p z = q z) -> RInt p (-1) 1 = RInt q (-1) 1.
Proof. intros H. apply (RInt_ext (V := R_CompleteNormedModule)). intros z _. apply H. Qed.
Lemma times_polynomial d e p q : polynomial d p -> polynomial e q -> polynomial (d + e) (fun z => p z * q z).
Proof. intros H1 H2. apply (polynomial_more (d + e)); [lia|]. apply polynomial_times; [exact H1|]. apply (polynomial_more e); [lia|exact H2]. Qed.
Lemma by_parts n a b d (Q Q' : R -> R) : (forall z : R, is_derive Q z (Q' z)) -> polynomial d Q -> polynomial d Q' ->
  2 * (INR n + 1) * RInt (fun z => jw a b z * classical (S n) (INR a) (INR b) z * Q z) (-1) 1 = RInt (fun z => jw (S a) (S b) z * classical n (INR a + 1) (INR b + 1) z * Q' z) (-1) 1.
Proof.
  intros D HQ HQ'. set (F := fun z => jw (S a) (S b) z * classical n (INR a + 1) (INR b + 1) z).
  assert (HF : polynomial (S (S a + S b) + S n) F) by (apply times_polynomial; [apply polynomial_weight|apply polynomial_classical]).
  assert (HG : polynomial (S (a + b) + S (S n)) (fun z => jw a b z * classical (S n) (INR a) (INR b) z)) by (apply times_polynomial; [apply polynomial_weight|apply polynomial_classical]).
  pose proof (times_polynomial _ _ _ _ HG HQ) as HGQ. pose proof (times_polynomial _ _ _ _ HF HQ') as HFQ. cbv beta in HGQ.
  set (I1 := RInt (fun z => jw a b z * classical (S n) (INR a) (INR b) z * Q z) (-1) 1). set (I2 := RInt (fun z => jw (S a) (S b) z * classical n (INR a + 1) (INR b + 1) z * Q' z) (-1) 1).
  assert (E : - (2 * (INR n + 1)) * I1 + I2 = 0); [|lra].
  unfold I1, I2. rewrite <- (Rint_scal _ _ _ HGQ). rewrite <- (Rint_plus _ _ _ _ (polynomial_scale _ _ _ HGQ) HFQ).
  apply (integral_zero (S (a + b) + S (S n) + d + (S (S a + S b) + S n + d)) (fun z => F z * Q z)).
  - intros z. pose proof (is_derive_mult F Q z _ _ (rodrigues n a b z) (D z) Rmult_comm) as M. eapply eq_ind; [exact M|]. unfold plus, mult, F. cbn -[pow INR weight_function classical]. ring.
  - apply polynomial_add; [apply (polynomial_more (S (a + b) + S (S n) + d)); [lia|]; apply polynomial_scale; exact HGQ|apply (polynomial_more (S (S a + S b) + S n + d)); [lia|exact HFQ]].
  - unfold F. rewrite (proj1 (ends a b)). ring.
  - unfold F. rewrite (proj2 (ends a b)). ring.
Qed.
Lemma orthogonal n : forall a b d Q, (d <= n)%nat -> polynomial d Q -> RInt (fun z => jw a b z * classical n (INR a) (INR b) z * Q z) (-1) 1 = 0.
Proof.
  induction n as [|n IH]; intros a b d Q Hd HQ.
  - assert (d = 0)%nat as -> by lia. destruct HQ as (c & Hc). rewrite (Rint_ext _ (fun _ => 0)) by (intros z; rewrite Hc; cbn; ring). rewrite (RInt_const (V := R_CompleteNormedModule)). exact (Rmult_0_r _).
  - destruct (polynomial_derive d Q HQ) as (Q' & D & HQ'). pose proof (by_parts n a b d Q Q' D HQ (polynomial_more (pred d) d Q' (Nat.le_pred_l d) HQ')) as E. rewrite <- !S_INR in E. rewrite (IH (S a) (S b) (pred d) Q' ltac:(lia) HQ') in E.
    pose proof (lt_0_INR (S n) ltac:(lia)) as P. apply (Rmult_eq_reg_l (2 * INR (S n))); [|lra]. rewrite Rmult_0_r. exact E.
Qed.

(** ** Their norms *)
Section Mass.
Context (mass : R -> R -> R) (Hm : true_mass mass).
Notation unit := (unit_polynomial mass).
Lemma nat_parameter a : -1 < INR a. Proof. pose proof (pos_INR a). lra. Qed.
Lemma weight_mass : forall a b, RInt (jw a b) (-1) 1 = mass (INR a) (INR b).
Proof.
  destruct Hm as [Hr H0].
  assert (X : forall a b, RInt (jw (S a) b) (-1) 1 = 2 * (INR a + 1) / (INR a + INR b + 2) * RInt (jw a b) (-1) 1 /\ RInt (jw a (S b)) (-1) 1 = 2 * (INR b + 1) / (INR a + INR b + 2) * RInt (jw a b) (-1) 1).
  { intros a b. pose proof (nat_parameter a). pose proof (nat_parameter b).
    assert (E1 : RInt (jw (S a) b) (-1) 1 + RInt (jw a (S b)) (-1) 1 = 2 * RInt (jw a b) (-1) 1).
    { rewrite <- (Rint_plus _ _ _ _ (polynomial_weight (S a) b) (polynomial_weight a (S b))), <- (Rint_scal _ _ _ (polynomial_weight a b)). apply Rint_ext. intros z. unfold jw. cbn [pow]. ring. }
    assert (E2 : (INR b + 1) * RInt (jw (S a) b) (-1) 1 + - (INR a + 1) * RInt (jw a (S b)) (-1) 1 = 0).
    { rewrite <- (Rint_scal _ _ _ (polynomial_weight (S a) b)), <- (Rint_scal _ _ _ (polynomial_weight a (S b))), <- (Rint_plus _ _ _ _ (polynomial_scale _ _ _ (polynomial_weight (S a) b)) (polynomial_scale _ _ _ (polynomial_weight a (S b)))).
      apply (integral_zero (S (S a + S b)) (jw (S a) (S b))); [| |apply ends|apply ends].
      - intros z. pose proof (rodrigues 0 a b z) as D. pose proof (poly_D_down 0 (INR a) (INR b) z) as E. rewrite poly_0, slope_0 in E. cbn [INR] in D. replace (- (2 * (0 + 1)) * (jw a b z * classical 1 (INR a) (INR b) z)) with (- (jw a b z * (2 * (INR 0 + 1) * classical 1 (INR a) (INR b) z))) in D by (cbn [INR]; ring). rewrite <- E in D.
        apply (is_derive_ext (fun z => jw (S a) (S b) z * classical 0 (INR a + 1) (INR b + 1) z)); [intros x; rewrite poly_0; on_R; ring|]. eapply eq_ind; [exact D|]. unfold jw. cbn [pow]. generalize ((1 - z) ^ a) ((1 + z) ^ b). intros u v. change (- (u * v * (((INR a + 1) * (1 + z) - (INR b + 1) * (1 - z)) * 1 - (1 - z * (z * 1)) * 0)) = (INR b + 1) * ((1 - z) * u * v) + - (INR a + 1) * (u * ((1 + z) * v))). ring.
      - apply polynomial_add; [apply polynomial_scale, (polynomial_more (S (S a + b)))|apply polynomial_scale, (polynomial_more (S (a + S b)))]; try lia; apply polynomial_weight. }
    set (x := RInt (jw (S a) b) (-1) 1) in *. set (y := RInt (jw a (S b)) (-1) 1) in *. set (i := RInt (jw a b) (-1) 1) in *.
    split; apply (Rmult_eq_reg_l (INR a + INR b + 2)); try lra; field_simplify; try lra; nra. }
  assert (B : forall b, RInt (jw 0 b) (-1) 1 = mass 0 (INR b)).
  { induction b as [|b IH].
    - cbn [INR]. rewrite H0. rewrite (Rint_ext _ (fun _ => 1)) by (intros z; unfold jw; cbn; ring). rewrite (RInt_const (V := R_CompleteNormedModule)). change ((1 - -1) * 1 = 2). ring.
    - rewrite (proj2 (X 0%nat b)), IH, S_INR. destruct (Hr 0 (INR b) ltac:(lra) (nat_parameter b)) as (_ & _ & ->). reflexivity. }
  induction a as [|a IH]; intros b; [apply B|]. rewrite (proj1 (X a b)), IH, S_INR. destruct (Hr (INR a) (INR b) (nat_parameter a) (nat_parameter b)) as (_ & -> & _). reflexivity.
Qed.
Lemma norm2_step n a b : -1 < a -> -1 < b -> norm2 mass (S n) a b = (INR n + a + b + 2) / (4 * (INR n + 1)) * norm2 mass n (a + 1) (b + 1).
Proof.
  intros Ha Hb. destruct Hm as [Hr _]. unfold norm2. pose proof (fact_pos n) as F. pose proof (pos_INR n) as Pn. rewrite fact_S_R.
  assert (M : mass (a + 1) (b + 1) = 4 * (a + 1) * (b + 1) / ((a + b + 2) * (a + b + 3)) * mass a b).
  { destruct (Hr a (b + 1) Ha ltac:(lra)) as (_ & -> & _). destruct (Hr a b Ha Hb) as (_ & _ & ->). field. lra. }
  rewrite M. rewrite !(rising_shift (a + 1)), !(rising_shift (b + 1)), S_INR. destruct n as [|m]; [cbn [rising fact INR]; cbn; field; lra|].
  pose proof (rising_pos (a + b + 2) (S m) ltac:(lra)) as R1. pose proof (rising_pos (a + 1 + (b + 1) + 2) m ltac:(lra)) as R2.
  assert (E : rising (a + b + 2) (S m) * (a + b + 2 + INR (S m)) = (a + b + 2) * ((a + b + 3) * rising (a + 1 + (b + 1) + 2) m)).
  { change (rising (a + b + 2) (S m) * (a + b + 2 + INR (S m))) with (rising (a + b + 2) (S (S m))). rewrite !rising_shift. replace (a + b + 2 + 1) with (a + b + 3) by ring. replace (a + b + 3 + 1) with (a + 1 + (b + 1) + 2) by ring. ring. }
  replace (a + 1 + 1) with (a + 2) in * by ring. replace (b + 1 + 1) with (b + 2) in * by ring. set (A := rising (a + 2) (S m)). set (B := rising (b + 2) (S m)). set (r1 := rising (a + b + 2) (S m)) in *. set (r2 := rising (a + 1 + (b + 1) + 2) m) in *. set (k := INR (S m)) in *.
  assert (r1 = (a + b + 2) * ((a + b + 3) * r2) / (a + b + 2 + k)) as -> by (rewrite <- E; field; lra). field. repeat split; try lra. all: try (apply Rgt_not_eq; nra).
Qed.
Lemma square_norm n : forall a b, RInt (fun z => jw a b z * classical n (INR a) (INR b) z * classical n (INR a) (INR b) z) (-1) 1 = norm2 mass n (INR a) (INR b).
Proof.
  induction n as [|n IH]; intros a b.
  - rewrite (Rint_ext _ (jw a b)) by (intros z; rewrite poly_0; ring). rewrite weight_mass. unfold norm2. on_R. ring.
  - assert (HS : polynomial (S (S n)) (slope (S n) (INR a) (INR b))).
    { apply (polynomial_ext _ (fun z => (INR (S n) + INR a + INR b + 1) / 2 * classical n (INR a + 1) (INR b + 1) z)); [intros z; symmetry; apply poly_D_up|]. apply polynomial_scale, (polynomial_more (S n)); [lia|]. apply polynomial_classical. }
    pose proof (by_parts n a b (S (S n)) _ _ (fun z => classical_derive (S n) (INR a) (INR b) z) (polynomial_classical _ _ _) HS) as E.
    rewrite (Rint_ext (fun z => jw (S a) (S b) z * classical n (INR a + 1) (INR b + 1) z * slope (S n) (INR a) (INR b) z) (fun z => (INR (S n) + INR a + INR b + 1) / 2 * (jw (S a) (S b) z * classical n (INR a + 1) (INR b + 1) z * classical n (INR a + 1) (INR b + 1) z))) in E by (intros z; rewrite poly_D_up; ring).
    rewrite (Rint_scal (S (S a + S b) + S n + S n)) in E by (repeat apply times_polynomial; try apply polynomial_weight; apply polynomial_classical).
    rewrite <- (S_INR a), <- (S_INR b), (IH (S a) (S b)) in E. rewrite (norm2_step n _ _ (nat_parameter a) (nat_parameter b)), <- (S_INR a), <- (S_INR b). pose proof (pos_INR n). rewrite S_INR in E.
    apply (Rmult_eq_reg_l (2 * (INR n + 1))); [|lra]. rewrite E. field. lra.
Qed.
Lemma unit_orthonormal a b i j : RInt (fun z => jw a b z * unit i (INR a) (INR b) z * unit j (INR a) (INR b) z) (-1) 1 = delta i j.
Proof.
  assert (G : forall i j, (j <= i)%nat -> RInt (fun z => jw a b z * unit i (INR a) (INR b) z * unit j (INR a) (INR b) z) (-1) 1 = delta i j).
  { clear i j. intros i j Hij. pose proof (norm2_pos mass (proj1 Hm) i _ _ (nat_parameter a) (nat_parameter b)) as Pi. pose proof (norm2_pos mass (proj1 Hm) j _ _ (nat_parameter a) (nat_parameter b)) as Pj. pose proof (sqrt_lt_R0 _ Pi) as Qi. pose proof (sqrt_lt_R0 _ Pj) as Qj.
    rewrite (Rint_ext _ (fun z => / (sqrt (norm2 mass i (INR a) (INR b)) * sqrt (norm2 mass j (INR a) (INR b))) * (jw a b z * classical i (INR a) (INR b) z * classical j (INR a) (INR b) z))) by (intros z; unfold unit_polynomial; field; lra).
    rewrite (Rint_scal (S (a + b) + S i + S j)) by (repeat apply times_polynomial; try apply polynomial_weight; apply polynomial_classical). unfold delta. destruct (Nat.eqb_spec i j) as [<-|N].
    - rewrite square_norm, sqrt_sqrt by lra. on_R. field. lra.
    - rewrite (orthogonal i a b (S j)) by (try lia; apply polynomial_classical). on_R. ring. }
  destruct (Nat.le_ge_cases j i) as [H|H]; [apply G, H|]. rewrite (Rint_ext _ (fun z => jw a b z * unit j (INR a) (INR b) z * unit i (INR a) (INR b) z)) by (intros; ring). rewrite (G j i H). unfold delta. rewrite Nat.eqb_sym. reflexivity.
Qed.

(** ** Harmonics *)
Definition sgn (k : Z) : R := if Z.even k then 1 else -1.
Lemma sgn_succ k : sgn (Z.succ k) = - sgn k.
Proof. unfold sgn. rewrite Z.even_succ, <- Z.negb_even. destruct (Z.even k); cbn [negb]; lra. Qed.
Lemma sgn_square k : sgn k * sgn k = 1. Proof. unfold sgn. destruct (Z.even k); lra. Qed.
Lemma sign_power k : powerRZ (-1) k = sgn k.
Proof.
  assert (U : forall k, powerRZ (-1) (Z.succ k) = - powerRZ (-1) k) by (intros x; unfold Z.succ; rewrite powerRZ_add, powerRZ_1 by lra; ring).
  induction k as [|k IH|k IH] using Z.peano_ind; [reflexivity| |].
  - rewrite U, sgn_succ, IH. reflexivity.
  - pose proof (U (Z.pred k)) as E. pose proof (sgn_succ (Z.pred k)) as F. rewrite Z.succ_pred in E, F. lra.
Qed.
Lemma weight_pos a b z : -1 < z < 1 -> 0 < jw a b z.
Proof. intros Hz. unfold jw. apply Rmult_lt_0_compat; apply pow_lt; lra. Qed.
Lemma weight_nonneg a b z : -1 <= z <= 1 -> 0 <= jw a b z.
Proof. intros Hz. unfold jw. apply Rmult_le_pos; apply pow_le; lra. Qed.
Lemma mass_pos a b : 0 < mass (INR a) (INR b).
Proof. exact (proj1 (proj1 Hm _ _ (nat_parameter a) (nat_parameter b))). Qed.
Lemma exp_half x : exp (1 / 2 * x) = sqrt (exp x).
Proof. rewrite <- (sqrt_square (exp (1 / 2 * x))) by (apply Rlt_le, exp_pos). rewrite <- exp_plus. do 2 f_equal. field. Qed.
Lemma exp_power n x : 0 < x -> exp (INR n * ln x) = x ^ n.
Proof. intros H. rewrite <- (Rpower_pow n x H). reflexivity. Qed.
Lemma measure_value a b z : -1 <= z <= 1 -> xexp (xscale (1 / 2) (measure_log mass (Z.of_nat a) (Z.of_nat b) z)) = sqrt (jw a b z) / sqrt (mass (INR a) (INR b)).
Proof.
  intros Hz. unfold measure_log. rewrite <- !INR_IZR_INZ. pose proof (mass_pos a b) as PM. rewrite <- sqrt_div_alt by exact PM.
  assert (X : forall u, exp (u + - ln (mass (INR a) (INR b))) = exp u / mass (INR a) (INR b)) by (intros u; rewrite exp_plus, exp_Ropp, exp_ln by exact PM; reflexivity).
  assert (A0 : a <> 0%nat -> 1 - z = 0 -> jw a b z = 0) by (intros Na E; unfold jw; rewrite E, pow_i by lia; ring). assert (B0 : b <> 0%nat -> 1 + z = 0 -> jw a b z = 0) by (intros Nb E; unfold jw; rewrite E, (pow_i b) by lia; ring).
  assert (Z0 : jw a b z = 0 -> 0 = sqrt (jw a b z / mass (INR a) (INR b))) by (intros ->; unfold Rdiv; rewrite Rmult_0_l, sqrt_0; reflexivity).
  destruct (Z.eqb_spec (Z.of_nat a) 0) as [Ea|Ea], (Z.eqb_spec (Z.of_nat b) 0) as [Eb|Eb]; unfold xlog.
  - assert (a = 0%nat) as -> by lia. assert (b = 0%nat) as -> by lia. cbn [xadd xscale xexp]. rewrite exp_half, X. f_equal. f_equal. rewrite exp_0. unfold jw. cbn. ring.
  - assert (a = 0%nat) as -> by lia. destruct (Req_EM_T (1 + z) 0) as [E|E]; cbn [xadd xscale xexp]; [apply Z0, B0; [lia|exact E]|]. rewrite exp_half, X. f_equal. f_equal. rewrite exp_plus, exp_0, exp_power by lra. unfold jw. cbn [pow]. ring.
  - assert (b = 0%nat) as -> by lia. destruct (Req_EM_T (1 - z) 0) as [E|E]; cbn [xadd xscale xexp]; [apply Z0, A0; [lia|exact E]|]. rewrite exp_half, X. f_equal. f_equal. rewrite exp_plus, exp_0, exp_power by lra. unfold jw. cbn [pow]. ring.
  - destruct (Req_EM_T (1 - z) 0) as [E|E]; [destruct (Req_EM_T (1 + z) 0); cbn [xadd xscale xexp]; apply Z0, A0; [lia|exact E|lia|exact E]|]. destruct (Req_EM_T (1 + z) 0) as [F|F]; cbn [xadd xscale xexp]; [apply Z0, B0; [lia|exact F]|].
    rewrite exp_half, X. f_equal. f_equal. rewrite !exp_plus, exp_0, !exp_power by lra. unfold jw. ring.
Qed.
Lemma harmonics_some Lmax m s z : -1 <= z <= 1 -> harmonics mass Lmax m s z = Some (map (fun k => harmonic mass m s (lowest m s + Z.of_nat k) z) (seq 0 (Z.to_nat (Lmax + 1 - lowest m s)))).
Proof.
  intros Hz. unfold harmonics, spin2Jacobi. fold (lowest m s). rewrite <- (Zabs2Nat.id_abs (m + s)), <- (Zabs2Nat.id_abs (m - s)). set (a := Z.abs_nat (m + s)). set (b := Z.abs_nat (m - s)). rewrite measure_value by exact Hz. rewrite <- !INR_IZR_INZ.
  replace (sqrt (jw a b z) / sqrt (mass (INR a) (INR b)) * powerRZ (-1) (Z.max m (- s))) with (sgn (Z.max m (- s)) * sqrt (jw a b z) / sqrt (mass (INR a) (INR b))) by (rewrite sign_power; unfold Rdiv; ring).
  rewrite (polynomials_scaled mass (proj1 Hm)) by apply nat_parameter. f_equal. apply map_ext. intros k. unfold harmonic. fold a b. replace (Z.to_nat (lowest m s + Z.of_nat k - lowest m s)) with k by lia. reflexivity.
Qed.
Lemma harmonic_product m s l l' z : -1 <= z <= 1 -> harmonic mass m s l z * harmonic mass m s l' z
  = jw (Z.abs_nat (m + s)) (Z.abs_nat (m - s)) z * unit (Z.to_nat (l - lowest m s)) (INR (Z.abs_nat (m + s))) (INR (Z.abs_nat (m - s))) z * unit (Z.to_nat (l' - lowest m s)) (INR (Z.abs_nat (m + s))) (INR (Z.abs_nat (m - s))) z.
Proof.
  intros Hz. unfold harmonic. change (if Z.even (Z.max m (- s)) then 1 else -1) with (sgn (Z.max m (- s))). set (a := Z.abs_nat (m + s)). set (b := Z.abs_nat (m - s)). pose proof (sqrt_sqrt _ (weight_nonneg a b z Hz)) as E. pose proof (sgn_square (Z.max m (- s))) as F. set (r := sqrt (jw a b z)) in *. rewrite <- E. set (g := sgn _) in *. set (u := unit _ _ _ z). set (v := unit _ _ _ z).
  transitivity (g * g * (r * r * u * v)); [ring|]. rewrite F. ring.
Qed.
Lemma lowest_sum m s : (Z.of_nat (Z.abs_nat (m + s)) + Z.of_nat (Z.abs_nat (m - s)) = 2 * lowest m s)%Z.
Proof. unfold lowest. lia. Qed.
Lemma degree_delta m s l l' : (lowest m s <= l)%Z -> (lowest m s <= l')%Z -> delta (Z.to_nat (l - lowest m s)) (Z.to_nat (l' - lowest m s)) = if (l =? l')%Z then 1 else 0.
Proof. intros H H'. unfold delta. destruct (Nat.eqb_spec (Z.to_nat (l - lowest m s)) (Z.to_nat (l' - lowest m s))), (Z.eqb_spec l l'); try reflexivity; lia. Qed.
Lemma harmonic_integral m s l l' : (lowest m s <= l)%Z -> (lowest m s <= l')%Z -> RInt (fun z => harmonic mass m s l z * harmonic mass m s l' z) (-1) 1 = if (l =? l')%Z then 1 else 0.
Proof.
  intros H H'. etransitivity; [|exact (degree_delta m s l l' H H')]. rewrite <- (unit_orthonormal (Z.abs_nat (m + s)) (Z.abs_nat (m - s))). apply (RInt_ext (V := R_CompleteNormedModule)). intros z Hz. rewrite Rmin_left, Rmax_right in Hz by lra. apply harmonic_product. lra.
Qed.
Lemma weighted_sum_ext q p p' : (forall z w, In (z, w) q -> p z = p' z) -> weighted_sum q p = weighted_sum q p'.
Proof.
  induction q as [|[z w] q IH]; intros H; [reflexivity|]. change (w * p z + weighted_sum q p = w * p' z + weighted_sum q p'). rewrite (H z w (or_introl eq_refl)), IH by (intros; eapply H; right; eassumption). reflexivity.
Qed.
Lemma harmonic_points N q m s l l' : gauss_legendre N q -> (lowest m s <= l < Z.of_nat N)%Z -> (lowest m s <= l' < Z.of_nat N)%Z -> weighted_sum q (fun z => harmonic mass m s l z * harmonic mass m s l' z) = if (l =? l')%Z then 1 else 0.
Proof.
  intros (_ & Hin & Hex) H H'. rewrite <- (degree_delta m s l l') by lia. rewrite <- (unit_orthonormal (Z.abs_nat (m + s)) (Z.abs_nat (m - s))).
  rewrite (weighted_sum_ext q _ (fun z => jw (Z.abs_nat (m + s)) (Z.abs_nat (m - s)) z * unit (Z.to_nat (l - lowest m s)) (INR (Z.abs_nat (m + s))) (INR (Z.abs_nat (m - s))) z * unit (Z.to_nat (l' - lowest m s)) (INR (Z.abs_nat (m + s))) (INR (Z.abs_nat (m - s))) z)) by (intros z w Hzw; apply harmonic_product; specialize (Hin z w Hzw); lra).
  apply Hex. pose proof (lowest_sum m s).
  apply (polynomial_more (S (Z.abs_nat (m + s) + Z.abs_nat (m - s)) + Z.to_nat (l - lowest m s) + Z.to_nat (l' - lowest m s))); [lia|].
  apply polynomial_times; [|apply polynomial_unit]. apply polynomial_times; [apply polynomial_weight|apply polynomial_unit].
Qed.

(** ** Raising and lowering of spins *)
Definition uslope n a b z : R := slope n a b z / sqrt (norm2 mass n a b).
Lemma unit_slope n a b z : is_derive (unit n a b) z (uslope n a b z).
Proof. pose proof (fam_derive mass true 0 a b n z) as H. exact H. Qed.
Lemma sqrt_ratio x y p q : 0 < p -> 0 < q -> 0 <= x -> x * x * q = y * p -> x * (sqrt q / sqrt p) = sqrt y.
Proof.
  intros Hp Hq Hx E. assert (Hy : y = x * x * (q / p)) by (apply (Rmult_eq_reg_r p); [rewrite <- E; field; lra|lra]). rewrite Hy, sqrt_mult_alt by (apply Rle_0_sqr). rewrite sqrt_square by exact Hx. rewrite sqrt_div_alt by exact Hp. reflexivity.
Qed.
Section Steps.
Context (n : nat) (a b : R) (Ha : -1 < a) (Hb : -1 < b).
Let Hr := proj1 Hm.
Lemma norm_C : (INR n + b + 1) * norm2 mass n (a + 1) b = (INR n + a + 1) * norm2 mass n a (b + 1).
Proof.
  rewrite (norm2_a mass Hr n a b Ha Hb), (norm2_b mass Hr n a b Ha Hb). unfold ab_step. rewrite <- !INR_IZR_INZ. assert (T : tricky (Z.of_nat n) b a = tricky (Z.of_nat n) a b) by (destruct n as [|k]; [rewrite !tricky_0 by assumption; reflexivity|rewrite !tricky_S by assumption; pose proof (pos_INR k); rewrite S_INR; field; lra]). rewrite T. pose proof (pos_INR n). field. lra.
Qed.
Lemma positive_up : 0 < norm2 mass n (a + 1) b /\ 0 < norm2 mass n a (b + 1) /\ 0 < norm2 mass (S n) a b /\ 0 < norm2 mass n (a + 1) (b + 1).
Proof. repeat split; apply (norm2_pos mass Hr); lra. Qed.
Lemma step_C_up z : (b + 1) * unit n a (b + 1) z + (1 + z) * uslope n a (b + 1) z = sqrt ((INR n + b + 1) * (INR n + a + 1)) * unit n (a + 1) b z.
Proof.
  destruct positive_up as (P1 & P2 & _). pose proof (sqrt_lt_R0 _ P1) as Q1. pose proof (sqrt_lt_R0 _ P2) as Q2. pose proof (pos_INR n) as Pn. pose proof norm_C as E.
  rewrite <- (sqrt_ratio (INR n + b + 1) _ _ _ P2 P1) by nra. unfold uslope, unit_polynomial. replace ((b + 1) * (classical n a (b + 1) z / sqrt (norm2 mass n a (b + 1))) + (1 + z) * (slope n a (b + 1) z / sqrt (norm2 mass n a (b + 1)))) with (((b + 1) * classical n a (b + 1) z + (1 + z) * slope n a (b + 1) z) / sqrt (norm2 mass n a (b + 1))) by (field; lra).
  rewrite poly_C_up. field. lra.
Qed.
Lemma step_C_down z : (a + 1) * unit n (a + 1) b z - (1 - z) * uslope n (a + 1) b z = sqrt ((INR n + a + 1) * (INR n + b + 1)) * unit n a (b + 1) z.
Proof.
  destruct positive_up as (P1 & P2 & _). pose proof (sqrt_lt_R0 _ P1) as Q1. pose proof (sqrt_lt_R0 _ P2) as Q2. pose proof (pos_INR n) as Pn. pose proof norm_C as E.
  rewrite <- (sqrt_ratio (INR n + a + 1) _ _ _ P1 P2) by nra. unfold uslope, unit_polynomial. replace ((a + 1) * (classical n (a + 1) b z / sqrt (norm2 mass n (a + 1) b)) - (1 - z) * (slope n (a + 1) b z / sqrt (norm2 mass n (a + 1) b))) with (((a + 1) * classical n (a + 1) b z - (1 - z) * slope n (a + 1) b z) / sqrt (norm2 mass n (a + 1) b)) by (field; lra).
  rewrite poly_C_down. field. lra.
Qed.
Lemma step_D_up z : uslope (S n) a b z = sqrt ((INR n + 1) * (INR n + a + b + 2)) * unit n (a + 1) (b + 1) z.
Proof.
  destruct positive_up as (_ & _ & P1 & P2). pose proof (sqrt_lt_R0 _ P1) as Q1. pose proof (sqrt_lt_R0 _ P2) as Q2. pose proof (pos_INR n) as Pn. pose proof (norm2_step n a b Ha Hb) as E.
  rewrite <- (sqrt_ratio ((INR n + a + b + 2) / 2) ((INR n + 1) * (INR n + a + b + 2)) _ _ P1 P2) by (try lra; rewrite E; field; lra). unfold uslope, unit_polynomial. rewrite poly_D_up, S_INR. field. lra.
Qed.
Lemma step_D_down z : ((a + 1) * (1 + z) - (b + 1) * (1 - z)) * unit n (a + 1) (b + 1) z - (1 - z ^ 2) * uslope n (a + 1) (b + 1) z = sqrt ((INR n + 1) * (INR n + a + b + 2)) * unit (S n) a b z.
Proof.
  destruct positive_up as (_ & _ & P1 & P2). pose proof (sqrt_lt_R0 _ P1) as Q1. pose proof (sqrt_lt_R0 _ P2) as Q2. pose proof (pos_INR n) as Pn. pose proof (norm2_step n a b Ha Hb) as E.
  rewrite <- (sqrt_ratio (2 * (INR n + 1)) ((INR n + 1) * (INR n + a + b + 2)) _ _ P2 P1) by (try lra; rewrite E; field; lra). unfold uslope, unit_polynomial.
  transitivity ((((a + 1) * (1 + z) - (b + 1) * (1 - z)) * classical n (a + 1) (b + 1) z - (1 - z ^ 2) * slope n (a + 1) (b + 1) z) / sqrt (norm2 mass n (a + 1) (b + 1))); [field; lra|]. rewrite poly_D_down. field. lra.
Qed.
End Steps.
(** The square root of the weight. *)
Lemma root_times X Y k : 0 <= Y -> 0 <= k -> X = Y * k ^ 2 -> sqrt X = sqrt Y * k.
Proof. intros HY Hk ->. rewrite sqrt_mult_alt by exact HY. rewrite sqrt_pow2 by exact Hk. reflexivity. Qed.
Lemma power_slope x n : x <> 0 -> INR n * x ^ pred n = INR n * x ^ n / x.
Proof. intros Hx. destruct n as [|n]; [cbn; field; exact Hx|]. cbn [pred pow]. field. exact Hx. Qed.
Section Angle.
Context (th : R) (Hth : 0 < th < PI).
Notation z := (cos th).
Notation y := (sin th).
Lemma sin_positive : 0 < y. Proof. apply sin_gt_0; lra. Qed.
Lemma cos_inside : -1 < z < 1.
Proof. pose proof sin_positive as P. pose proof (sin2_cos2 th) as E. unfold Rsqr in E. nra. Qed.
Lemma sin_square : y ^ 2 = (1 - z) * (1 + z). Proof. pose proof (sin2_cos2 th) as E. unfold Rsqr in E. cbn [pow]. lra. Qed.
Lemma root_derive a b : is_derive (fun t => sqrt (jw a b (cos t))) th (sqrt (jw a b z) * ((INR a - INR b + (INR a + INR b) * z) / (2 * y))).
Proof.
  pose proof cos_inside as Hz. pose proof sin_positive as Hy. pose proof (weight_pos a b z Hz) as HW. pose proof sin_square as Hs.
  assert (D : is_derive (fun t => jw a b (cos t)) th (jw a b z * ((INR a - INR b + (INR a + INR b) * z) / y))).
  { unfold jw at 1. auto_derive; [exact I|]. replace (1 + - z) with (1 - z) by ring.
    transitivity (y * (INR a * (1 - z) ^ pred a) * (1 + z) ^ b - y * ((1 - z) ^ a * (INR b * (1 + z) ^ pred b))); [ring|]. rewrite !power_slope by lra. unfold jw. set (u := (1 - z) ^ a). set (v := (1 + z) ^ b).
    replace (y * (INR a * u / (1 - z)) * v - y * (u * (INR b * v / (1 + z)))) with (u * v * (y ^ 2 * (INR a * (1 + z) - INR b * (1 - z))) / ((1 - z) * (1 + z) * y)) by (field; lra). rewrite Hs. field. lra. }
  pose proof (is_derive_sqrt _ _ _ D HW) as S. eapply eq_ind; [exact S|]. pose proof (sqrt_lt_R0 _ HW) as Q. on_R. rewrite <- (sqrt_sqrt (jw a b z)) at 1 by lra. field. lra.
Qed.
Lemma harmonic_derive_raw g n a b : is_derive (fun t => g * sqrt (jw a b (cos t)) * unit n (INR a) (INR b) (cos t)) th
  (g * (sqrt (jw a b z) * ((INR a - INR b + (INR a + INR b) * z) / (2 * y) * unit n (INR a) (INR b) z - y * uslope n (INR a) (INR b) z))).
Proof.
  assert (C : is_derive cos th (- y)) by (apply is_derive_Reals, derivable_pt_lim_cos).
  pose proof (is_derive_comp (unit n (INR a) (INR b)) cos th _ _ (unit_slope n (INR a) (INR b) z) C) as D1. pose proof (is_derive_mult _ _ th _ _ (root_derive a b) D1 Rmult_comm) as D2. pose proof (is_derive_scal _ th g _ D2) as D3.
  apply (is_derive_ext (fun t => g * mult (sqrt (jw a b (cos t))) (unit n (INR a) (INR b) (cos t)))); [intros t; unfold mult; cbn; on_R; ring|]. eapply eq_ind; [exact D3|]. unfold plus, mult, scal. cbn -[sqrt weight_function INR]. unfold mult. cbn -[sqrt weight_function INR]. on_R. field. pose proof sin_positive. lra.
Qed.
(** The derivative of a harmonic less [(m + s cos) / sin] times it. *)
Lemma raised m s l : (lowest m s <= l)%Z -> is_derive (fun t => harmonic mass m s l (cos t)) th
  ((IZR m + IZR s * z) / y * harmonic mass m s l z + sqrt 2 * raising l s * harmonic mass m (s + 1) l z).
Proof.
  intros Hl. pose proof sin_positive as Hy. pose proof cos_inside as Hz. pose proof sin_square as Hs. set (a := Z.abs_nat (m + s)). set (b := Z.abs_nat (m - s)). set (n := Z.to_nat (l - lowest m s)).
  pose proof (harmonic_derive_raw (sgn (Z.max m (- s))) n a b) as D. unfold harmonic at 1. fold a b n. eapply eq_ind; [exact D|]. clear D. unfold harmonic. fold a b n. change (if Z.even (Z.max m (- s)) then 1 else -1) with (sgn (Z.max m (- s))). change (if Z.even (Z.max m (- (s + 1))) then 1 else -1) with (sgn (Z.max m (- (s + 1)))). set (g := sgn (Z.max m (- s))). unfold raising.
  assert (R2 : forall k, (0 <= k)%Z -> sqrt 2 * - sqrt (IZR k / 2) = - sqrt (IZR k)).
  { intros k Hk. rewrite <- (Ropp_mult_distr_r (sqrt 2)). f_equal. rewrite <- sqrt_mult_alt by lra. f_equal. field. }
  assert (HP : (0 <= (l - s) * (l + s + 1))%Z) by (unfold lowest in Hl; nia). rewrite R2 by exact HP. clear R2. rewrite mult_IZR, plus_IZR, plus_IZR, minus_IZR. on_R.
  set (W := sqrt (jw a b z)). set (U := unit n (INR a) (INR b) z). set (U' := uslope n (INR a) (INR b) z).
  destruct (Z.le_gt_cases 0 (m + s)) as [H1|H1], (Z.le_gt_cases (m - s) 0) as [H2|H2].
  - (* both parameters up *)
    assert (Eg : sgn (Z.max m (- (s + 1))) = g) by (unfold g; f_equal; lia). rewrite Eg. assert (Ea : Z.abs_nat (m + (s + 1)) = S a) by lia. assert (Eb : Z.abs_nat (m - (s + 1)) = S b) by lia. rewrite Ea, Eb.
    assert (EW : sqrt (jw (S a) (S b) z) = W * y) by (apply root_times; [apply weight_nonneg; lra|lra|]; rewrite Hs; unfold jw; cbn [pow]; ring). rewrite EW, !S_INR.
    assert (Ra : INR a = IZR m + IZR s) by (rewrite INR_IZR_INZ, <- plus_IZR; f_equal; lia). assert (Rb : INR b = IZR s - IZR m) by (rewrite INR_IZR_INZ, <- minus_IZR; f_equal; lia).
    assert (EL : (IZR l - IZR s) = INR n) by (rewrite INR_IZR_INZ, <- minus_IZR; f_equal; unfold n, lowest in *; lia). assert (EL' : IZR l + IZR s + 1 = INR n + INR a + INR b + 1) by (rewrite Ra, Rb; lra). rewrite EL, EL'.
    destruct n as [|k] eqn:En.
    + unfold U', uslope. rewrite slope_0. cbn [INR]. rewrite Rmult_0_l, sqrt_0. rewrite Ra, Rb. field. pose proof (sqrt_lt_R0 _ (norm2_pos mass (proj1 Hm) 0 _ _ (nat_parameter a) (nat_parameter b))) as Q. rewrite Ra, Rb in Q. lra.
    + unfold U'. rewrite (step_D_up k _ _ (nat_parameter a) (nat_parameter b)). replace (Z.to_nat (l - lowest m (s + 1))) with k by (unfold n, lowest in *; lia). replace (sqrt (INR (S k) * (INR (S k) + INR a + INR b + 1))) with (sqrt ((INR k + 1) * (INR k + INR a + INR b + 2))) by (f_equal; rewrite S_INR; ring). set (q := sqrt ((INR k + 1) * _)). set (V := unit k _ _ z). rewrite Ra, Rb. field. lra.
  - (* one up, one down *)
    assert (Eg : sgn (Z.max m (- (s + 1))) = g) by (unfold g; f_equal; lia). rewrite Eg. assert (exists b0, b = S b0) as (b0 & E0) by (exists (pred b); unfold b; lia). assert (Ea : Z.abs_nat (m + (s + 1)) = S a) by lia. assert (Eb : Z.abs_nat (m - (s + 1)) = b0) by lia. rewrite Ea, Eb.
    assert (EW : sqrt (jw (S a) b0 z) = W * (y / (1 + z))).
    { apply root_times; [apply weight_nonneg; lra|apply Rlt_le, Rdiv_lt_0_compat; lra|]. unfold Rdiv. rewrite Rpow_mult_distr, Hs, E0. unfold jw. cbn [pow]. field. lra. }
    rewrite EW, S_INR. replace (Z.to_nat (l - lowest m (s + 1))) with n by (unfold n, lowest in *; lia).
    assert (Ra : INR a = IZR m + IZR s) by (rewrite INR_IZR_INZ, <- plus_IZR; f_equal; lia). assert (Rb : INR b = IZR m - IZR s) by (rewrite INR_IZR_INZ, <- minus_IZR; f_equal; lia).
    pose proof (step_C_up n _ _ (nat_parameter a) (nat_parameter b0) z) as E. rewrite <- (S_INR b0), <- E0 in E. fold U U' in E.
    assert (El : IZR l = INR n + IZR m) by (rewrite INR_IZR_INZ, <- plus_IZR; f_equal; unfold n, lowest in *; lia).
    replace (sqrt ((IZR l - IZR s) * (IZR l + IZR s + 1))) with (sqrt ((INR n + INR b0 + 1) * (INR n + INR a + 1))) by (f_equal; rewrite El, Ra; assert (INR b0 + 1 = IZR m - IZR s) by (rewrite <- S_INR, <- E0; exact Rb); nra).
    transitivity (g * (W * ((IZR m + IZR s * z) / y * U)) + - (g * (W * (y / (1 + z) * (INR b * U + (1 + z) * U'))))); [|rewrite E; set (q := sqrt _); ring].
    rewrite Ra, Rb. replace (y / (1 + z)) with ((1 - z) / y) by (apply (Rmult_eq_reg_r (y * (1 + z))); [|nra]; field_simplify; [rewrite Hs; ring|lra|lra]).
    replace ((1 - z) / y * ((IZR m - IZR s) * U + (1 + z) * U')) with ((1 - z) / y * ((IZR m - IZR s) * U) + y ^ 2 / y * U') by (rewrite Hs; field; lra). field. lra.
  - (* one down, one up *)
    assert (Eg : sgn (Z.max m (- (s + 1))) = - g) by (unfold g; replace (Z.max m (- s)) with (Z.succ (Z.max m (- (s + 1)))) by lia; rewrite sgn_succ; ring). rewrite Eg. assert (exists a0, a = S a0) as (a0 & E0) by (exists (pred a); unfold a; lia). assert (Ea : Z.abs_nat (m + (s + 1)) = a0) by lia. assert (Eb : Z.abs_nat (m - (s + 1)) = S b) by lia. rewrite Ea, Eb.
    assert (EW : sqrt (jw a0 (S b) z) = W * (y / (1 - z))).
    { apply root_times; [apply weight_nonneg; lra|apply Rlt_le, Rdiv_lt_0_compat; lra|]. unfold Rdiv. rewrite Rpow_mult_distr, Hs, E0. unfold jw. cbn [pow]. field. lra. }
    rewrite EW, S_INR. replace (Z.to_nat (l - lowest m (s + 1))) with n by (unfold n, lowest in *; lia).
    assert (Ra : INR a = - IZR m - IZR s) by (rewrite INR_IZR_INZ, <- opp_IZR, <- minus_IZR; f_equal; lia). assert (Rb : INR b = IZR s - IZR m) by (rewrite INR_IZR_INZ, <- minus_IZR; f_equal; lia).
    pose proof (step_C_down n _ _ (nat_parameter a0) (nat_parameter b) z) as E. rewrite <- (S_INR a0), <- E0 in E. fold U U' in E.
    assert (El : IZR l = INR n - IZR m) by (rewrite INR_IZR_INZ, <- minus_IZR; f_equal; unfold n, lowest in *; lia).
    replace (sqrt ((IZR l - IZR s) * (IZR l + IZR s + 1))) with (sqrt ((INR n + INR a0 + 1) * (INR n + INR b + 1))) by (f_equal; rewrite El, Rb; assert (INR a0 + 1 = - IZR m - IZR s) by (rewrite <- S_INR, <- E0; exact Ra); nra).
    transitivity (g * (W * ((IZR m + IZR s * z) / y * U)) + (g * (W * (y / (1 - z) * (INR a * U - (1 - z) * U'))))); [|rewrite E; set (q := sqrt _); ring].
    rewrite Ra, Rb. replace (y / (1 - z)) with ((1 + z) / y) by (apply (Rmult_eq_reg_r (y * (1 - z))); [|nra]; field_simplify; [rewrite Hs; ring|lra|lra]).
    replace ((1 + z) / y * ((- IZR m - IZR s) * U - (1 - z) * U')) with ((1 + z) / y * ((- IZR m - IZR s) * U) - y ^ 2 / y * U') by (rewrite Hs; field; lra). field. lra.
  - (* both down *)
    assert (Eg : sgn (Z.max m (- (s + 1))) = - g) by (unfold g; replace (Z.max m (- s)) with (Z.succ (Z.max m (- (s + 1)))) by lia; rewrite sgn_succ; ring). rewrite Eg.
    assert (exists a0, a = S a0) as (a0 & E0) by (exists (pred a); unfold a; lia). assert (exists b0, b = S b0) as (b0 & E1) by (exists (pred b); unfold b; lia). assert (Ea : Z.abs_nat (m + (s + 1)) = a0) by lia. assert (Eb : Z.abs_nat (m - (s + 1)) = b0) by lia. rewrite Ea, Eb.
    assert (EW : sqrt (jw a0 b0 z) = W * (1 / y)).
    { apply root_times; [apply weight_nonneg; lra|apply Rlt_le, Rdiv_lt_0_compat; lra|]. unfold Rdiv. rewrite Rpow_mult_distr, pow1, pow_inv, Hs, E0, E1. unfold jw. cbn [pow]. field. lra. }
    rewrite EW. replace (Z.to_nat (l - lowest m (s + 1))) with (S n) by (unfold n, lowest in *; lia).
    assert (Ra : INR a = - IZR m - IZR s) by (rewrite INR_IZR_INZ, <- opp_IZR, <- minus_IZR; f_equal; lia). assert (Rb : INR b = IZR m - IZR s) by (rewrite INR_IZR_INZ, <- minus_IZR; f_equal; lia).
    pose proof (step_D_down n _ _ (nat_parameter a0) (nat_parameter b0) z) as E. rewrite <- (S_INR a0), <- (S_INR b0), <- E0, <- E1 in E. fold U U' in E.
    assert (El : IZR l = INR n - IZR s) by (rewrite INR_IZR_INZ, <- minus_IZR; f_equal; unfold n, lowest in *; lia).
    replace (sqrt ((IZR l - IZR s) * (IZR l + IZR s + 1))) with (sqrt ((INR n + 1) * (INR n + INR a0 + INR b0 + 2))).
    2:{ f_equal. rewrite El. assert (INR a0 + 1 = - IZR m - IZR s) by (rewrite <- S_INR, <- E0; exact Ra). assert (INR b0 + 1 = IZR m - IZR s) by (rewrite <- S_INR, <- E1; exact Rb). replace (INR n + INR a0 + INR b0 + 2) with (INR n + (INR a0 + 1) + (INR b0 + 1)) by ring. rewrite H, H0. ring. }
    transitivity (g * (W * ((IZR m + IZR s * z) / y * U)) + (g * (W * (1 / y) * ((INR a * (1 + z) - INR b * (1 - z)) * U - (1 - z ^ 2) * U')))); [|rewrite E; set (q := sqrt _); ring].
    rewrite Ra, Rb. replace (1 - z ^ 2) with (y ^ 2) by (rewrite Hs; ring). field. lra.
Qed.
End Angle.
Lemma conjugate m s l z : harmonic mass (- m) (- s) l z = sgn (m + s) * harmonic mass m s l z.
Proof.
  unfold harmonic. replace (Z.abs_nat (- m + - s)) with (Z.abs_nat (m + s)) by lia. replace (Z.abs_nat (- m - - s)) with (Z.abs_nat (m - s)) by lia. replace (lowest (- m) (- s)) with (lowest m s) by (unfold lowest; lia).
  change (if Z.even (Z.max (- m) (- - s)) then 1 else -1) with (sgn (Z.max (- m) (- - s))). change (if Z.even (Z.max m (- s)) then 1 else -1) with (sgn (Z.max m (- s))).
  assert (M : forall i j, sgn (i + j) = sgn i * sgn j) by (intros i j; unfold sgn; rewrite Z.even_add; destruct (Z.even i), (Z.even j); cbn; lra). assert (O : forall i, sgn (- i) = sgn i) by (intros i; unfold sgn; rewrite Z.even_opp; reflexivity).
  assert (E : sgn (Z.max (- m) (- - s)) = sgn (m + s) * sgn (Z.max m (- s))); [|rewrite E; ring].
  destruct (Z.le_gt_cases 0 (m + s)); [rewrite (Z.max_r (- m)), (Z.max_l m) by lia|rewrite (Z.max_l (- m)), (Z.max_r m) by lia]; rewrite ?Z.opp_involutive, M, ?O; [rewrite Rmult_comm, <- Rmult_assoc|rewrite Rmult_assoc]; rewrite sgn_square; ring.
Qed.
End Mass.
