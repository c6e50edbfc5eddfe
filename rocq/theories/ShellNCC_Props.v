(** Property C96: matrices of multiplication by radial functions on annuli and shells. *)
From Coq Require Import List ZArith Reals Bool Lia Lra.
From Coquelicot Require Import Coquelicot.
Import ListNotations.
From Verif Require Import CSR_Spec MatSolvers_Model MatSolvers_Spec MatSolvers_Proofs Clenshaw_Model Clenshaw_Spec Clenshaw_Props Codomain_Proofs JacobiCalc_Model JacobiCalc_Spec JacobiCalc_Proofs JacobiCalc_Ops JacobiOps_Model JacobiOps_Proofs JacobiNCC_Model JacobiNCC_Spec JacobiNCC_Proofs Radial_Model Radial_Spec Radial_Proofs Radial_Props ShellNCC_Model ShellNCC_Spec ShellNCC_Proofs.
Local Open Scope R_scope.
Notation series := Radial_Spec.series.
Notation image := Radial_Spec.image.
Notation real_annulus mass := (annulus_ncc 0 1 Rplus Rmult Rminus Rdiv Ropp (fun x => x) Rabs mass).
Notation real_shell mass := (shell_ncc 0 1 Rplus Rmult Rminus Rdiv Ropp (fun x => x) Rabs mass).
Notation complex_annulus mass := (annulus_ncc (RtoC 0) (RtoC 1) Cplus Cmult Cminus Cdiv Copp RtoC Cmod mass).
Notation complex_shell mass := (shell_ncc (RtoC 0) (RtoC 1) Cplus Cmult Cminus Cdiv Copp RtoC Cmod mass).
Notation ctotal := (CSR_Spec.total (RtoC 0) Cplus).

Section Props.
Context (mass : R -> R -> R) (Hm : mass_rules mass) (inner outer a b : R) (Hin : 0 < inner) (Hout : inner < outer) (Ha : -1 < a) (Hb : -1 < b).
Notation basis k := (shell_function mass inner outer a b k).
(** A function has one vector of coefficients. *)
Theorem shell_unique k N c d : (forall r, 0 < r -> series N c (basis k) r = series N d (basis k) r) -> forall i, (i < N)%nat -> c i = d i.
Proof.
  intros H. pose proof (pos_INR k). enough (X : forall i, (i < N)%nat -> c i - d i = 0) by (intros i Hi; specialize (X i Hi); lra).
  assert (Hs : - ((outer + inner) / (outer - inner)) < 1) by (assert (0 < (outer + inner) / (outer - inner)) by (apply Rdiv_lt_0_compat; lra); lra).
  apply (unit_independent_above mass Hm _ N (a + INR k) (b + INR k) _ Hs ltac:(lra) ltac:(lra)). intros z Hz.
  set (r := (outer - inner) / 2 * (z + (outer + inner) / (outer - inner))). assert (Hr0 : 0 < r) by (apply Rmult_lt_0_compat; lra).
  assert (Ez : (2 * r - (outer + inner)) / (outer - inner) = z) by (unfold r; field; lra).
  specialize (H r Hr0). unfold series, shell_function in H. rewrite Ez in H.
  apply (Rmult_eq_reg_l (((outer - inner) / r) ^ k)); [|apply pow_nonzero, Rgt_not_eq, Rdiv_lt_0_compat; lra]. rewrite Rmult_0_r, <- Rtotal_scale.
  rewrite (Rtotal_ext N _ (fun n => c n * (((outer - inner) / r) ^ k * unit_polynomial mass n (a + INR k) (b + INR k) z) + -1 * (d n * (((outer - inner) / r) ^ k * unit_polynomial mass n (a + INR k) (b + INR k) z)))) by (intros; ring).
  rewrite Rtotal_add, Rtotal_scale, H. ring.
Qed.
Lemma combine n N D kn ka (c u : nat -> R) r : (forall h j r, (h < n)%nat -> (j < N)%nat -> 0 < r -> basis kn h r * basis ka j r = series (N + n) (fun i => D h i j) (basis (ka + kn)) r) -> 0 < r ->
  series n c (basis kn) r * series N u (basis ka) r = series (N + n) (fun i => CSR_Spec.total 0 Rplus N (fun j => CSR_Spec.total 0 Rplus n (fun h => c h * D h i j) * u j)) (basis (ka + kn)) r.
Proof.
  intros HD Hr. unfold series at 1 2. rewrite Rmult_comm, <- Rtotal_scale_r.
  transitivity (CSR_Spec.total 0 Rplus N (fun j => CSR_Spec.total 0 Rplus n (fun h => CSR_Spec.total 0 Rplus (N + n) (fun i => c h * D h i j * u j * basis (ka + kn) i r)))).
  - apply Rtotal_ext. intros j Hj. rewrite <- Rtotal_scale. apply Rtotal_ext. intros h Hh. transitivity (c h * u j * (basis kn h r * basis ka j r)); [ring|]. rewrite HD by assumption. unfold series. rewrite <- Rtotal_scale. apply Rtotal_ext. intros. ring.
  - unfold series. rewrite (Rtotal_ext N _ (fun j => CSR_Spec.total 0 Rplus (N + n) (fun i => CSR_Spec.total 0 Rplus n (fun h => c h * D h i j * u j * basis (ka + kn) i r)))) by (intros; apply Rtotal_swap).
    rewrite Rtotal_swap. apply Rtotal_ext. intros i Hi. rewrite <- Rtotal_scale_r. apply Rtotal_ext. intros j Hj. rewrite <- !Rtotal_scale_r. reflexivity.
Qed.
(** Real coefficients: the matrix gives all retained coefficients of the product, for all operands. *)
Theorem shell_ncc_product kn ka N regtotal n c cutoff : (1 <= N)%nat -> (n <= N)%nat ->
  exists M, real_shell mass inner outer a b kn N ka regtotal n c cutoff = Some M
  /\ retains N (N + n) M (series n (fun h => significant cutoff (c h)) (basis kn)) (basis ka) (basis (ka + kn)).
Proof.
  intros HN Hn. destruct (tables mass Hm inner outer a b Hin Hout Ha Hb ka kn N n HN Hn) as (D & HD & HM).
  destruct (HM R 0 1 Rplus Rmult Rminus Rdiv Ropp Rinv (fun x => x) Rabs c cutoff regtotal 0%Z Rf eq_refl eq_refl (fun _ _ => eq_refl) (fun _ _ => eq_refl) (fun _ H => H)) as (M & ES & _ & Mr & Mc & HE).
  exists M. split; [exact ES|]. split; [exact Mr|]. split; [exact Mc|]. intros u. eexists. split; [intros r Hr; apply (combine n N D kn ka _ u r HD Hr)|].
  intros i Hi. unfold image. rewrite Mc. apply Rtotal_ext. intros j Hj. rewrite HE by assumption. reflexivity.
Qed.
(** The annulus: coefficients beyond the size of the basis are not used. *)
Theorem annulus_ncc_product kn ka N m spintotal n c cutoff : (1 <= N)%nat ->
  exists M, real_annulus mass inner outer a b kn N ka m spintotal n c cutoff = Some M
  /\ retains N (N + Nat.min n N) M (series (Nat.min n N) (fun h => significant cutoff (c h)) (basis kn)) (basis ka) (basis (ka + kn)).
Proof.
  intros HN. destruct (tables mass Hm inner outer a b Hin Hout Ha Hb ka kn N (Nat.min n N) HN (Nat.le_min_r n N)) as (D & HD & HM).
  destruct (HM R 0 1 Rplus Rmult Rminus Rdiv Ropp Rinv (fun x => x) Rabs c cutoff spintotal m Rf eq_refl eq_refl (fun _ _ => eq_refl) (fun _ _ => eq_refl) (fun _ H => H)) as (M & _ & EA & Mr & Mc & HE).
  exists M. split; [unfold annulus_ncc in *; rewrite <- EA, <- Nat.min_assoc, Nat.min_id; reflexivity|]. split; [exact Mr|]. split; [exact Mc|]. intros u. eexists. split; [intros r Hr; apply (combine _ N D kn ka _ u r HD Hr)|].
  intros i Hi. unfold image. rewrite Mc. apply Rtotal_ext. intros j Hj. rewrite HE by assumption. reflexivity.
Qed.
(** ** Complex numbers by pairs of real ones *)
Lemma pairs n N D kn ka cutoff (c s : nat -> R) Mc Ms : (forall h j r, (h < n)%nat -> (j < N)%nat -> 0 < r -> basis kn h r * basis ka j r = series (N + n) (fun i => D h i j) (basis (ka + kn)) r) ->
  nr Mc = N -> nc Mc = N -> nr Ms = N -> nc Ms = N ->
  (forall i j, (i < N)%nat -> (j < N)%nat -> at_ Mc i j = CSR_Spec.total 0 Rplus n (fun h => kept 0 (Rabs (c h)) cutoff (c h) * D h i j)) ->
  (forall i j, (i < N)%nat -> (j < N)%nat -> at_ Ms i j = CSR_Spec.total 0 Rplus n (fun h => kept 0 (Rabs (s h)) cutoff (s h) * D h i j)) ->
  pair_retains N (N + n) (bmat Mc Ms) (fun r => (series n (fun h => significant cutoff (c h)) (basis kn) r, series n (fun h => significant cutoff (s h)) (basis kn) r)) (basis ka) (basis (ka + kn)).
Proof.
  intros HD Cr Cc Sr Sc HC HS. unfold bmat. rewrite Cr, Sr, Cc, Sc. split; [reflexivity|]. split; [reflexivity|]. intros u v.
  set (T := fun (c u : nat -> R) i => CSR_Spec.total 0 Rplus N (fun j => CSR_Spec.total 0 Rplus n (fun h => significant cutoff (c h) * D h i j) * u j)).
  exists (fun i => T c u i + -1 * T s v i), (fun i => T s u i + T c v i). split.
  - intros r Hr. unfold Cmult. cbn [fst snd]. rewrite !(combine n N D kn ka) by assumption. unfold series. f_equal.
    + match goal with |- ?x - ?y = _ => replace (x - y) with (x + -1 * y) by ring end. rewrite <- Rtotal_scale, <- Rtotal_add. apply Rtotal_ext. intros i Hi. unfold T. ring.
    + rewrite Rplus_comm, <- Rtotal_add. apply Rtotal_ext. intros i Hi. unfold T. ring.
  - assert (Hsplit : forall f, CSR_Spec.total 0 Rplus (N + N) f = CSR_Spec.total 0 Rplus N f + CSR_Spec.total 0 Rplus N (fun j => f (N + j)%nat)).
    { intros f. generalize N at 2 4. intros q. induction q as [|q IH]; [rewrite Nat.add_0_r; change (CSR_Spec.total 0 Rplus 0 _) with 0; ring|]. rewrite Nat.add_succ_r, !Rtotal_S, IH. ring. }
    intros i Hi. unfold image. cbn [nc at_]. rewrite !Hsplit. unfold stacked, T. rewrite <- Rtotal_scale. split; f_equal; apply Rtotal_ext; intros j Hj.
    + rewrite (proj2 (Nat.ltb_lt i N) Hi), (proj2 (Nat.ltb_lt j N) Hj), HC by assumption. reflexivity.
    + rewrite (proj2 (Nat.ltb_lt i N) Hi), (proj2 (Nat.ltb_ge (N + j) N) ltac:(lia)). replace (N + j - N)%nat with j by lia. rewrite HS by assumption. unfold kept, significant. ring.
    + rewrite (proj2 (Nat.ltb_ge (N + i) N) ltac:(lia)), (proj2 (Nat.ltb_lt j N) Hj). replace (N + i - N)%nat with i by lia. rewrite HS by assumption. reflexivity.
    + rewrite !(proj2 (Nat.ltb_ge (N + _) N) ltac:(lia)). replace (N + i - N)%nat with i by lia. replace (N + j - N)%nat with j by lia. rewrite HC by assumption. reflexivity.
Qed.
Theorem shell_real_product kn ka N regtotal n c s cutoff : (1 <= N)%nat -> (n <= N)%nat ->
  exists M, shell_real mass inner outer a b kn N ka regtotal n c s cutoff = Some M
  /\ pair_retains N (N + n) M (fun r => (series n (fun h => significant cutoff (c h)) (basis kn) r, series n (fun h => significant cutoff (s h)) (basis kn) r)) (basis ka) (basis (ka + kn)).
Proof.
  intros HN Hn. destruct (tables mass Hm inner outer a b Hin Hout Ha Hb ka kn N n HN Hn) as (D & HD & HM).
  pose proof (fun c => HM R 0 1 Rplus Rmult Rminus Rdiv Ropp Rinv (fun x => x) Rabs c cutoff regtotal 0%Z Rf eq_refl eq_refl (fun _ _ => eq_refl) (fun _ _ => eq_refl) (fun _ H => H)) as X.
  destruct (X c) as (M & EM & _ & Mr & Mc & HE). destruct (X s) as (M' & EM' & _ & Mr' & Mc' & HE'). exists (bmat M M'). split; [unfold shell_real; rewrite EM, EM'; reflexivity|].
  apply (pairs n N D kn ka cutoff c s); assumption.
Qed.
Theorem annulus_real_product kn ka N m spintotal n c s cutoff : (1 <= N)%nat ->
  exists M, annulus_real mass inner outer a b kn N ka m spintotal n c s cutoff = Some M
  /\ pair_retains N (N + Nat.min n N) M (fun r => (series (Nat.min n N) (fun h => significant cutoff (c h)) (basis kn) r, series (Nat.min n N) (fun h => significant cutoff (s h)) (basis kn) r)) (basis ka) (basis (ka + kn)).
Proof.
  intros HN. destruct (tables mass Hm inner outer a b Hin Hout Ha Hb ka kn N (Nat.min n N) HN (Nat.le_min_r n N)) as (D & HD & HM).
  pose proof (fun c => HM R 0 1 Rplus Rmult Rminus Rdiv Ropp Rinv (fun x => x) Rabs c cutoff spintotal m Rf eq_refl eq_refl (fun _ _ => eq_refl) (fun _ _ => eq_refl) (fun _ H => H)) as X.
  destruct (X c) as (M & _ & EM & Mr & Mc & HE). destruct (X s) as (M' & _ & EM' & Mr' & Mc' & HE'). unfold annulus_ncc in EM, EM'; rewrite <- Nat.min_assoc, Nat.min_id in EM, EM'. exists (bmat M M'). split; [unfold annulus_real, annulus_ncc; rewrite EM, EM'; reflexivity|].
  apply (pairs (Nat.min n N) N D kn ka cutoff c s); assumption.
Qed.
(** ** Complex coefficients *)
Let C_ext := total_ext (RtoC 0) (RtoC 1) Cplus Cmult Cminus Cdiv Copp Cinv C_field_theory.
Let C_scale := total_mul_l (RtoC 0) (RtoC 1) Cplus Cmult Cminus Cdiv Copp Cinv C_field_theory.
Let C_scale_r := total_mul_r (RtoC 0) (RtoC 1) Cplus Cmult Cminus Cdiv Copp Cinv C_field_theory.
Let C_swap := total_swap (RtoC 0) (RtoC 1) Cplus Cmult Cminus Cdiv Copp Cinv C_field_theory.
Lemma C_real n f : RtoC (CSR_Spec.total 0 Rplus n f) = ctotal n (fun i => RtoC (f i)).
Proof. apply (inj_total (RtoC 0) (RtoC 1) Cplus Cmult Cminus Cdiv Copp Cinv RtoC C_field_theory eq_refl RtoC_plus). Qed.
Lemma combine_complex n N D kn ka (c u : nat -> C) r : (forall h j r, (h < n)%nat -> (j < N)%nat -> 0 < r -> basis kn h r * basis ka j r = series (N + n) (fun i => D h i j) (basis (ka + kn)) r) -> 0 < r ->
  Cmult (complex_series n c (basis kn) r) (complex_series N u (basis ka) r) = complex_series (N + n) (fun i => ctotal N (fun j => Cmult (ctotal n (fun h => Cmult (c h) (RtoC (D h i j)))) (u j))) (basis (ka + kn)) r.
Proof.
  intros HD Hr. unfold complex_series at 1 2. rewrite <- C_scale.
  transitivity (ctotal N (fun j => ctotal n (fun h => ctotal (N + n) (fun i => Cmult (Cmult (Cmult (c h) (RtoC (D h i j))) (u j)) (RtoC (basis (ka + kn) i r)))))).
  - apply C_ext. intros j Hj. rewrite <- C_scale_r. apply C_ext. intros h Hh. transitivity (Cmult (Cmult (c h) (u j)) (Cmult (RtoC (basis kn h r)) (RtoC (basis ka j r)))); [ring|]. rewrite <- RtoC_mult, HD by assumption. unfold series. rewrite C_real, <- C_scale. apply C_ext. intros. rewrite RtoC_mult. ring.
  - unfold complex_series. rewrite (C_ext N _ (fun j => ctotal (N + n) (fun i => ctotal n (fun h => Cmult (Cmult (Cmult (c h) (RtoC (D h i j))) (u j)) (RtoC (basis (ka + kn) i r)))))) by (intros; apply C_swap).
    rewrite C_swap. apply C_ext. intros i Hi. rewrite <- C_scale_r. apply C_ext. intros j Hj. rewrite <- !C_scale_r. reflexivity.
Qed.
Theorem shell_complex_product kn ka N regtotal n c cutoff : (1 <= N)%nat -> (n <= N)%nat ->
  exists M, complex_shell mass inner outer a b kn N ka regtotal n c cutoff = Some M
  /\ complex_retains N (N + n) M (complex_series n (fun h => sizeable cutoff (c h)) (basis kn)) (basis ka) (basis (ka + kn)).
Proof.
  intros HN Hn. destruct (tables mass Hm inner outer a b Hin Hout Ha Hb ka kn N n HN Hn) as (D & HD & HM).
  destruct (HM C (RtoC 0) (RtoC 1) Cplus Cmult Cminus Cdiv Copp Cinv RtoC Cmod c cutoff regtotal 0%Z C_field_theory eq_refl eq_refl RtoC_plus RtoC_mult (fun x H => f_equal fst H)) as (M & ES & _ & Mr & Mc & HE).
  exists M. split; [exact ES|]. split; [exact Mr|]. split; [exact Mc|]. intros u. eexists. split; [intros r Hr; apply (combine_complex n N D kn ka _ u r HD Hr)|].
  intros i Hi. unfold complex_image. rewrite Mc. apply C_ext. intros j Hj. rewrite HE by assumption. reflexivity.
Qed.
Theorem annulus_complex_product kn ka N m spintotal n c cutoff : (1 <= N)%nat ->
  exists M, complex_annulus mass inner outer a b kn N ka m spintotal n c cutoff = Some M
  /\ complex_retains N (N + Nat.min n N) M (complex_series (Nat.min n N) (fun h => sizeable cutoff (c h)) (basis kn)) (basis ka) (basis (ka + kn)).
Proof.
  intros HN. destruct (tables mass Hm inner outer a b Hin Hout Ha Hb ka kn N (Nat.min n N) HN (Nat.le_min_r n N)) as (D & HD & HM).
  destruct (HM C (RtoC 0) (RtoC 1) Cplus Cmult Cminus Cdiv Copp Cinv RtoC Cmod c cutoff spintotal m C_field_theory eq_refl eq_refl RtoC_plus RtoC_mult (fun x H => f_equal fst H)) as (M & _ & EA & Mr & Mc & HE).
  exists M. split; [unfold annulus_ncc in *; rewrite <- EA, <- Nat.min_assoc, Nat.min_id; reflexivity|]. split; [exact Mr|]. split; [exact Mc|]. intros u. eexists. split; [intros r Hr; apply (combine_complex _ N D kn ka _ u r HD Hr)|].
  intros i Hi. unfold complex_image. rewrite Mc. apply C_ext. intros j Hj. rewrite HE by assumption. reflexivity.
Qed.
(** On a shell, more coefficients than the padded size are an error. *)
Theorem shell_ncc_excess kn ka N regtotal n c cutoff : (padding N kn < n)%nat -> real_shell mass inner outer a b kn N ka regtotal n c cutoff = None.
Proof.
  intros Hn. unfold shell_ncc, recursion_matrix. destruct (shell_operator_matrix _ _ _ _ _ _ _ _ _) as [J|]; [|reflexivity]. destruct (jacobi_matrix _ _ _) as [JA|]; [|reflexivity]. destruct (polynomials _ _ _ _ _ _ _) as [p|]; [|reflexivity].
  pose proof (clenshaw_jacobi_excess 0 1 Rplus Rmult Rminus Rdiv Ropp Rabs (padding N kn) (fun i j => at_ JA i j) (lift (fun x => x) J) (mscale Rmult (nth 0 p 0) (identity 0 1 (padding N kn))) n c cutoff Hn) as X.
  destruct (jacobi_recursion _ _ _ _ _ _ _ _ _) as [A B]. rewrite X. reflexivity.
Qed.
(** An operand with twice the radial size of the function: the matrix has the size of the function, and is repeated
    along the diagonal to fill the block.  The product of the function's second mode and the operand's mode [N - 1] has
    a coefficient for mode [N], which the block omits. *)
Theorem shell_ncc_size_refuted ka N m spintotal : (2 <= N)%nat ->
  exists M B, real_annulus mass inner outer a b 0 N ka m spintotal N (fun h => if (h =? 1)%nat then 1 else 0) 0 = Some M /\ block_of (N + N) (N + N) M = Some B /\ nr B = (N + N)%nat /\ nc B = (N + N)%nat
  /\ exists d, (forall r, 0 < r -> basis 0 1 r * basis ka (N - 1) r = series (N + N) d (basis ka) r) /\ image B (fun j => if (j =? N - 1)%nat then 1 else 0) N = 0 /\ 0 < d N.
Proof.
  intros HN. destruct (annulus_ncc_product 0 ka N m spintotal N (fun h => if (h =? 1)%nat then 1 else 0) 0 ltac:(lia)) as (M & EM & Mr & Mc & _).
  exists M. unfold block_of. rewrite Mr, Mc. destruct (Nat.eqb_spec N (N + N)) as [|_]; [lia|]. cbn [andb].
  assert (E2 : ((N + N) / N = 2)%nat) by (replace (N + N)%nat with (2 * N)%nat by lia; apply Nat.div_mul; lia). rewrite E2. cbn [skron nr nc eye]. rewrite Mr, Mc. replace (2 * N)%nat with (N + N)%nat by lia. rewrite Nat.eqb_refl. cbn [andb]. eexists. split; [exact EM|]. split; [reflexivity|]. cbn [skron nr nc eye]. rewrite Mr, Mc. split; [lia|]. split; [lia|].
  pose proof (pos_INR ka). set (an := INR ka + a). set (bn := INR ka + b). assert (-1 < an) by (unfold an; lra). assert (-1 < bn) by (unfold bn; lra).
  exists (fun i => pf mass a b (whole an bn) 1 i (N - 1)). split; [|split].
  - intros r Hr. unfold series, shell_function. cbn [pow INR]. rewrite !Rplus_0_r, Rmult_1_l. set (z := (2 * r - (outer + inner)) / (outer - inner)).
    rewrite (Rtotal_ext (N + N) _ (fun i => ((outer - inner) / r) ^ ka * (pf mass a b (whole an bn) 1 i (N - 1) * unit_polynomial mass i an bn z))) by (intros i _; unfold an, bn; rewrite !(Rplus_comm (INR ka)); ring).
    rewrite Rtotal_scale, <- (product_expansion mass Hm an bn a b) by (assumption || lia). unfold an, bn. rewrite !(Rplus_comm (INR ka)). ring.
  - unfold image. cbn [skron eye nr nc at_]. rewrite Mr, Mc. replace (2 * N)%nat with (N + N)%nat by lia. rewrite (Rtotal_single (N + N) (N - 1)) by (lia || (intros j _ Hne; destruct (Nat.eqb_spec j (N - 1)); [contradiction|ring])). rewrite Nat.eqb_refl, Rmult_1_r.
    rewrite Nat.div_same by lia. rewrite (Nat.div_small (N - 1) N) by lia. cbn [Nat.eqb]. ring.
  - assert (Hz : 0 < mass a b) by (apply (Hm a b Ha Hb)). rewrite (pf_S mass a b). apply Rdiv_lt_0_compat; [|apply (Zn_pos mass Hm); assumption].
    unfold whole. rewrite (Rtotal_single (S (S N)) (N - 1)) by (lia || (intros j _ Hne; cbn [pf]; destruct (Nat.eqb_spec j (N - 1)); [contradiction|ring])).
    cbn [pf]. rewrite Nat.eqb_refl. destruct (Nat.eqb_spec N (N - 1)); [lia|]. pose proof (Z_entry_pos mass Hm an bn (N - 1)) as HZ. replace (S (N - 1)) with N in HZ by lia.
    assert (0 < 1 / sqrt (mass a b)) by (apply Rdiv_lt_0_compat; [lra|apply sqrt_lt_R0; exact Hz]). assert (0 < Z_entry true an bn N (N - 1) * (1 / sqrt (mass a b))) by (apply Rmult_lt_0_compat; [apply HZ; assumption|assumption]). lra.
Qed.
End Props.

Print Assumptions shell_unique.
Print Assumptions shell_ncc_product.
Print Assumptions annulus_ncc_product.
Print Assumptions shell_real_product.
Print Assumptions annulus_real_product.
Print Assumptions shell_complex_product.
Print Assumptions annulus_complex_product.
Print Assumptions shell_ncc_excess.
Print Assumptions shell_ncc_size_refuted.

(** ** Examples *)
(** A shell between the radii 1 and 2 with Chebyshev polynomials: a vector's component with power one and four
    coefficients, times a function with power two and three coefficients. *)
Example shell_example c s : exists M, shell_real sample_mass 1 2 (-1 / 2) (-1 / 2) 2 4 1 1 3 c s 0 = Some M /\ nr M = 8%nat
  /\ forall u v, exists d e, forall r, 0 < r ->
     Cmult (series 3 (fun h => significant 0 (c h)) (shell_function sample_mass 1 2 (-1 / 2) (-1 / 2) 2) r, series 3 (fun h => significant 0 (s h)) (shell_function sample_mass 1 2 (-1 / 2) (-1 / 2) 2) r)
       (series 4 u (shell_function sample_mass 1 2 (-1 / 2) (-1 / 2) 1) r, series 4 v (shell_function sample_mass 1 2 (-1 / 2) (-1 / 2) 1) r)
     = (series 7 d (shell_function sample_mass 1 2 (-1 / 2) (-1 / 2) 3) r, series 7 e (shell_function sample_mass 1 2 (-1 / 2) (-1 / 2) 3) r)
     /\ forall i, (i < 4)%nat -> image M (stacked 4 u v) i = d i.
Proof.
  destruct (shell_real_product sample_mass sample_rules 1 2 (-1 / 2) (-1 / 2) ltac:(lra) ltac:(lra) ltac:(lra) ltac:(lra) 2 1 4 1 3 c s 0 ltac:(lia) ltac:(lia)) as (M & E & Hr & _ & H).
  exists M. split; [exact E|]. split; [exact Hr|]. intros u v. destruct (H u v) as (d & e & H1 & H2). exists d, e. intros r Hr0. split; [apply H1, Hr0|]. intros i Hi. apply H2, Hi.
Qed.
Example padding_examples : padding 4 0 = 6%nat /\ padding 4 2 = 8%nat /\ padding 5 1 = 10%nat.
Proof. repeat split. Qed.
Example size_example : (2 <= 4)%nat /\ 0 < 1 < 2 /\ -1 < -1 / 2 /\ mass_rules sample_mass. Proof. split; [lia|]. split; [lra|]. split; [lra|]. exact sample_rules. Qed.
