(** Proofs about [ShellNCC_Model]. *)
From Coq Require Import List ZArith Reals Bool Lia Lra.
From Coquelicot Require Import Coquelicot.
Import ListNotations.
From Verif Require Import CSR_Spec MatSolvers_Model MatSolvers_Spec MatSolvers_Proofs Clenshaw_Model Clenshaw_Spec Clenshaw_Props Codomain_Model Codomain_Proofs JacobiCalc_Model JacobiCalc_Spec JacobiCalc_Proofs JacobiCalc_Ops JacobiCalc_Props JacobiOps_Model JacobiOps_Proofs JacobiNCC_Model JacobiNCC_Proofs Radial_Model Radial_Spec Radial_Proofs Radial_Props ShellNCC_Model ShellNCC_Spec.
Local Open Scope R_scope.
Notation total := (CSR_Spec.total 0 Rplus).

Lemma padding_bounds N k : (1 <= N)%nat -> let P := padding N k in (N <= P)%nat /\
  forall r j n i, (r < N)%nat -> (j < N)%nat -> (n < N)%nat -> (i <= j + n)%nat -> ((i < P)%nat -> (i <= r + k + k)%nat -> (i + j + n < 2 * P)%nat) /\ ((P <= i)%nat -> (r + k + k < i)%nat).
Proof.
  intros HN P. unfold P, padding. clear P. pose proof (Nat.div_mod (N + 1) 2 ltac:(discriminate)) as Hd. pose proof (Nat.mod_upper_bound (N + 1) 2 ltac:(discriminate)) as Hu. set (h := ((N + 1) / 2)%nat) in *. set (q := ((N + 1) mod 2)%nat) in *. split; [lia|]. intros r j n i Hr Hj Hn Hi. split; intros H; [intros H'|]; lia.
Qed.

Section Mass.
Context (mass : R -> R -> R) (Hm : mass_rules mass).
Notation unit := (unit_polynomial mass).
(** Rows of the padded product that are right. *)
Lemma padded_row N k a b an bn (C : nat -> nat -> R) r j n L : (r < N)%nat -> (j < N)%nat -> (n < N)%nat -> (j + n < L)%nat ->
  (forall i j, (i + k + k < j)%nat -> C i j = 0) -> let P := padding N k in
  total P (fun i => C r i * pf mass an bn (cut a b P) n i j) = total L (fun i => C r i * pf mass an bn (whole a b) n i j).
Proof.
  intros Hr Hj Hn HL HC P. destruct (padding_bounds N k ltac:(lia)) as [HP HB]. fold P in HP, HB.
  transitivity (total (P + L) (fun i => C r i * (if (i <? P)%nat then pf mass an bn (cut a b P) n i j else 0))).
  - rewrite (Rtotal_more P (P + L)) by (lia || (intros i Hi; destruct (Nat.ltb_spec i P); [lia|ring])). apply Rtotal_ext. intros i Hi. destruct (Nat.ltb_spec i P); [reflexivity|lia].
  - symmetry. rewrite <- (Rtotal_more L (P + L) (fun i => C r i * pf mass an bn (whole a b) n i j)) by (lia || (intros i Hi; rewrite (pf_band mass a b an bn (whole a b) (whole_local a b)) by lia; ring)). apply Rtotal_ext. intros i Hi.
    destruct (le_lt_dec i (j + n)) as [Hb'|Hb'].
    + destruct (HB r j n i Hr Hj Hn Hb') as [H1 H2]. destruct (Nat.ltb_spec i P) as [Hp|Hp].
      * destruct (le_lt_dec i (r + k + k)) as [Hc|Hc]; [rewrite truncation; [reflexivity|lia..|specialize (H1 Hp Hc); lia]|rewrite HC by exact Hc; ring].
      * rewrite HC by (apply H2, Hp). ring.
    + rewrite (pf_band mass a b an bn (whole a b) (whole_local a b)) by lia. destruct (Nat.ltb_spec i P); [rewrite (pf_band mass a b an bn (cut a b P) (cut_local a b P)) by lia; ring|ring].
Qed.
(** The product of two polynomials in the polynomials converted to. *)
Lemma converted_product a b an bn a2 b2 (C : nat -> nat -> R) n j L z : -1 < a -> -1 < b -> -1 < an -> -1 < bn -> (j + n < L)%nat ->
  (forall n j z, (j < n)%nat -> unit j a b z = total n (fun i => C i j * unit i a2 b2 z)) ->
  unit n an bn z * unit j a b z = total L (fun r => total L (fun i => C r i * pf mass an bn (whole a b) n i j) * unit r a2 b2 z).
Proof.
  intros Ha Hb Han Hbn HL C3. rewrite (product_expansion mass Hm a b an bn Ha Hb Han Hbn n L j z HL).
  transitivity (total L (fun i => total L (fun r0 => C r0 i * pf mass an bn (whole a b) n i j * unit r0 a2 b2 z))).
  - apply Rtotal_ext. intros i Hi. rewrite (C3 L i z Hi), <- Rtotal_scale. apply Rtotal_ext. intros. ring.
  - rewrite Rtotal_swap. apply Rtotal_ext. intros r0 _. rewrite <- Rtotal_scale_r. reflexivity.
Qed.

Section Numbers.
Context {K : Type} (k0 k1 : K) (kadd kmul ksub kdiv : K -> K -> K) (kopp kinv : K -> K) (inj : R -> K) (mag : K -> R).
Context (Hf : field_theory k0 k1 kadd kmul ksub kopp kdiv kinv eq).
Context (I0 : inj 0 = k0) (I1 : inj 1 = k1) (Iadd : forall x y, inj (x + y) = kadd (inj x) (inj y)) (Imul : forall x y, inj (x * y) = kmul (inj x) (inj y)) (Iinj : forall x, inj x = k0 -> x = 0).
Notation ktotal := (CSR_Spec.total k0 kadd).
Add Field KF : Hf.
Lemma inj_total n f : inj (total n f) = ktotal n (fun i => inj (f i)).
Proof. clear Iinj. induction n as [|n IH]; [exact I0|]. rewrite Rtotal_S, (total_S k0 k1 kadd kmul ksub kdiv kopp kinv Hf), Iadd, IH. reflexivity. Qed.
Lemma recursion_exact a b an bn k N n c cutoff oJ J opre pre (C : nat -> nat -> R) : (1 <= N)%nat -> (n <= N)%nat -> -1 < a -> -1 < b -> -1 < an -> -1 < bn -> let P := padding N k in
  oJ = Some J -> nr J = P -> nc J = P -> (forall i j, (i < P)%nat -> (j < P)%nat -> at_ J i j = Z_entry true a b i j) ->
  opre = Some pre -> nr pre = P -> nc pre = P -> (forall i j, (i < P)%nat -> (j < P)%nat -> at_ pre i j = C i j) -> (forall i j, (i + k + k < j)%nat -> C i j = 0) ->
  exists M, recursion_matrix k0 k1 kadd kmul ksub kdiv kopp inj mag mass an bn P N oJ opre n c cutoff = Some M /\ nr M = N /\ nc M = N /\
    forall r j, (r < N)%nat -> (j < N)%nat -> at_ M r j = ktotal n (fun h => kmul (kept k0 (mag (c h)) cutoff (c h)) (inj (total (N + n) (fun i => C r i * pf mass an bn (whole a b) h i j)))).
Proof.
  intros HN Hn Ha Hb Han Hbn P -> Jr Jc HJ -> Cr Cc HC C1. destruct (padding_bounds N k HN) as [HP _]. fold P in HP.
  unfold recursion_matrix. destruct (jacobi_entries P an bn ltac:(lia) Han Hbn) as (JA & EA & Ar & Ac & HA). rewrite EA, (polynomials_value mass Hm) by assumption. cbn [seq map nth].
  set (f := fun n i j => inj (pf mass an bn (cut a b P) n i j)). set (f0 := mscale kmul (inj (unit 0 an bn 1)) (identity k0 k1 P)).
  assert (Hpos : forall n, (n + 1 < P)%nat -> 0 < at_ JA n (n + 1)).
  { intros h Hh. rewrite HA by lia. rewrite Nat.add_1_r. apply (Zn_pos mass Hm); assumption. }
  pose proof (clenshaw_jacobi k0 k1 kadd kmul ksub kdiv kopp kinv mag Hf P (fun i j => inj (at_ JA i j)) P (lift inj J) f0 n c cutoff f ltac:(lia)) as CJ.
  destruct (jacobi_recursion k0 k1 kmul ksub kdiv kopp P (fun i j => inj (at_ JA i j)) (lift inj J)) as [A B]. destruct CJ as (T & ET & [Tr Tc] & HT).
  - split; assumption.
  - split; reflexivity.
  - intros i j Hi Hj. unfold applied. rewrite (total_single k0 k1 kadd kmul ksub kdiv kopp kinv Hf P j) by (exact Hj || (intros h Hh Hne; cbn [f0 mscale identity at_]; destruct (Nat.eqb_spec h j); [congruence|ring])).
    rewrite (total_single k0 k1 kadd kmul ksub kdiv kopp kinv Hf P i) by (exact Hi || (intros h Hh Hne; cbn [f0 mscale identity at_]; destruct (Nat.eqb_spec i h); [congruence|ring])).
    cbn [f0 mscale identity at_]. rewrite !Nat.eqb_refl. ring.
  - intros h Hh H0. specialize (Hpos h Hh). apply Iinj in H0. lra.
  - intros h i j Hh Hi Hj. specialize (Hpos h Hh). unfold f.
    assert (E : cut a b P (fun q => pf mass an bn (cut a b P) h q j) i = match h with O => 0 | S m => at_ JA h m * pf mass an bn (cut a b P) m i j end + at_ JA h h * pf mass an bn (cut a b P) h i j + at_ JA h (h + 1) * pf mass an bn (cut a b P) (h + 1) i j).
    { rewrite Nat.add_1_r in *. rewrite (pf_S mass an bn). rewrite <- !HA by lia. destruct h as [|m]; [field; lra|]. rewrite <- HA by lia. field. lra. }
    transitivity (inj (cut a b P (fun q => pf mass an bn (cut a b P) h q j) i)).
    + unfold cut at 2. rewrite inj_total. apply (total_ext k0 k1 kadd kmul ksub kdiv kopp kinv Hf). intros q Hq. cbn [lift at_]. rewrite HJ, Imul by assumption. reflexivity.
    + rewrite E, !Iadd, !Imul. unfold below. destruct h as [|m]; [rewrite I0; reflexivity|rewrite Imul; reflexivity].
  - intros i j Hi Hj. cbn [f f0 pf mscale identity at_]. unfold f. cbn [pf]. rewrite unit_0. destruct (i =? j)%nat; [rewrite <- I1, <- Imul; f_equal; ring|rewrite I0; ring].
  - rewrite ET. eexists. split; [reflexivity|]. unfold get, bounds. cbn [fst snd nr nc mmul at_ Nat.max lift]. rewrite Cr, Tc, MatSolvers_Proofs.clip_pos by exact HP. rewrite !Nat.sub_0_r. split; [reflexivity|]. split; [reflexivity|].
    intros r j Hr Hj. cbn [plus]. rewrite Cc. change (msum k0 kadd) with (CSR_Spec.total k0 kadd).
    transitivity (ktotal P (fun i => ktotal n (fun h => kmul (kept k0 (mag (c h)) cutoff (c h)) (inj (C r i * pf mass an bn (cut a b P) h i j))))).
    + apply (total_ext k0 k1 kadd kmul ksub kdiv kopp kinv Hf). intros i Hi. rewrite !Nat.add_0_l. rewrite HC, HT by lia. rewrite <- (total_mul_l k0 k1 kadd kmul ksub kdiv kopp kinv Hf). apply (total_ext k0 k1 kadd kmul ksub kdiv kopp kinv Hf). intros h Hh. unfold f. rewrite Imul. ring.
    + rewrite (total_swap k0 k1 kadd kmul ksub kdiv kopp kinv Hf). apply (total_ext k0 k1 kadd kmul ksub kdiv kopp kinv Hf). intros h Hh. rewrite (total_mul_l k0 k1 kadd kmul ksub kdiv kopp kinv Hf), <- inj_total. do 2 f_equal. apply padded_row; try assumption; lia.
Qed.
End Numbers.

(** ** The matrices of annuli and shells *)
Section Shell.
Context (inner outer a b : R) (Hin : 0 < inner) (Hout : inner < outer) (Ha : -1 < a) (Hb : -1 < b).
Lemma native_entries ka P s t : (1 <= P)%nat -> exists J, shell_operator_matrix inner outer a b ka SZ s t P = Some J /\ nr J = P /\ nc J = P /\ forall i j, (i < P)%nat -> (j < P)%nat -> at_ J i j = Z_entry true (INR ka + a) (INR ka + b) i j.
Proof.
  intros HP. pose proof (pos_INR ka). destruct (jacobi_entries P (INR ka + a) (INR ka + b) HP ltac:(lra) ltac:(lra)) as (J & EJ & H1). exists J. split; [|exact H1]. rewrite <- EJ. unfold shell_operator_matrix, shell_plain, shell_Z, jacobi_matrix; cbv zeta. destruct (Z_op true) as [z|]; reflexivity.
Qed.
Lemma prefactor_entries ka kn : exists C : nat -> nat -> R, (forall i j, (i + kn + kn < j)%nat -> C i j = 0)
  /\ (forall n j z, (j < n)%nat -> unit j (INR ka + a) (INR ka + b) z = total n (fun i => C i j * unit i (a + INR (ka + kn)) (b + INR (ka + kn)) z))
  /\ (forall i j, (j < i)%nat -> C i j = 0)
  /\ forall P, (1 <= P)%nat -> exists M, shell_jacobi_conversion a b ka kn P = Some M /\ nr M = P /\ nc M = P /\ forall i j, (i < P)%nat -> (j < P)%nat -> at_ M i j = C i j.
Proof.
  pose proof (pos_INR ka). pose proof (pos_INR (ka + kn)). destruct (conversion_entries mass Hm kn kn (INR ka + a) (INR ka + b) ltac:(lra) ltac:(lra)) as (C & C1 & C2 & C3 & _). exists C.
  assert (E : forall x, INR ka + x + INR kn = x + INR (ka + kn)) by (intros; rewrite plus_INR; ring). rewrite !E in C3.
  split; [exact C1|]. split; [exact C3|]. split; [exact C2|]. intros P HP. destruct (shell_jacobi mass Hm inner outer a b Hin Hout Ha Hb ka P HP kn) as (M & EM & Hr & Hc & HM). exists M. split; [exact EM|]. split; [exact Hr|]. split; [exact Hc|].
  intros i j Hi Hj. enough (X : forall i, (i < P)%nat -> at_ M i j - C i j = 0) by (specialize (X i Hi); lra). clear i Hi.
  assert (Hs : - ((outer + inner) / (outer - inner)) < 1) by (assert (0 < (outer + inner) / (outer - inner)) by (apply Rdiv_lt_0_compat; lra); lra).
  apply (unit_independent_above mass Hm _ P (a + INR (ka + kn)) (b + INR (ka + kn)) _ Hs ltac:(lra) ltac:(lra)). intros z Hz.
  set (r := (outer - inner) / 2 * (z + (outer + inner) / (outer - inner))). assert (Hr0 : 0 < r) by (apply Rmult_lt_0_compat; lra).
  assert (Ez : (2 * r - (outer + inner)) / (outer - inner) = z) by (unfold r; field; lra).
  specialize (HM (fun q => if (q =? j)%nat then 1 else 0) ltac:(intros; lia) r Hr0). unfold series in HM. rewrite (Rtotal_single P j (fun n => _ * shell_function mass inner outer a b ka n r)) in HM by (exact Hj || (intros q _ Hne; destruct (Nat.eqb_spec q j); [contradiction|ring])). rewrite Nat.eqb_refl, Rmult_1_l in HM.
  rewrite (Rtotal_ext P (fun i => _ * unit i _ _ z) (fun i => at_ M i j * unit i (a + INR (ka + kn)) (b + INR (ka + kn)) z + -1 * (C i j * unit i (a + INR (ka + kn)) (b + INR (ka + kn)) z))) by (intros; ring).
  rewrite Rtotal_add, Rtotal_scale, <- (C3 P j z Hj).
  rewrite (Rtotal_ext P _ (fun i => ((outer - inner) / r) ^ (ka + kn) * (at_ M i j * unit i (a + INR (ka + kn)) (b + INR (ka + kn)) z))) in HM.
  - rewrite Rtotal_scale in HM. unfold shell_function in HM. rewrite Ez, <- Rmult_assoc, (Rmult_comm (_ ^ kn)), <- pow_add in HM. apply Rmult_eq_reg_l in HM; [rewrite HM, !(Rplus_comm (INR ka)); ring|]. apply pow_nonzero. apply Rgt_not_eq. apply Rdiv_lt_0_compat; lra.
  - intros i Hi. unfold image. rewrite Hc, (Rtotal_single P j) by (exact Hj || (intros q _ Hne; destruct (Nat.eqb_spec q j); [contradiction|ring])). rewrite Nat.eqb_refl. unfold shell_function. rewrite Ez. ring.
Qed.
(** Products of the functions: [D n i j] are the coefficients of the product of the functions [n] and [j]. *)
Lemma tables ka kn N n : (1 <= N)%nat -> (n <= N)%nat -> exists D : nat -> nat -> nat -> R,
  (forall h j r, (h < n)%nat -> (j < N)%nat -> 0 < r -> shell_function mass inner outer a b kn h r * shell_function mass inner outer a b ka j r = series (N + n) (fun i => D h i j) (shell_function mass inner outer a b (ka + kn)) r)
  /\ forall {K : Type} (k0 k1 : K) kadd kmul ksub kdiv kopp kinv (inj : R -> K) mag c cutoff s t, field_theory k0 k1 kadd kmul ksub kopp kdiv kinv eq -> inj 0 = k0 -> inj 1 = k1 -> (forall x y, inj (x + y) = kadd (inj x) (inj y)) -> (forall x y, inj (x * y) = kmul (inj x) (inj y)) -> (forall x, inj x = k0 -> x = 0) ->
     exists M, shell_ncc k0 k1 kadd kmul ksub kdiv kopp inj mag mass inner outer a b kn N ka s n c cutoff = Some M
     /\ annulus_ncc k0 k1 kadd kmul ksub kdiv kopp inj mag mass inner outer a b kn N ka t s n c cutoff = Some M
     /\ nr M = N /\ nc M = N
     /\ forall i j, (i < N)%nat -> (j < N)%nat -> at_ M i j = CSR_Spec.total k0 kadd n (fun h => kmul (kept k0 (mag (c h)) cutoff (c h)) (inj (D h i j))).
Proof.
  intros HN Hn. pose proof (pos_INR ka). pose proof (pos_INR kn). destruct (prefactor_entries ka kn) as (C & C1 & C3 & _ & C4). destruct (padding_bounds N kn HN) as [HP _].
  exists (fun h i j => total (N + n) (fun q => C i q * pf mass (INR kn + a) (INR kn + b) (whole (INR ka + a) (INR ka + b)) h q j)). split.
  - intros h j r Hh Hj Hr. unfold series, shell_function. set (z := (2 * r - (outer + inner)) / (outer - inner)).
    rewrite (Rtotal_ext (N + n) _ (fun i => ((outer - inner) / r) ^ (ka + kn) * (total (N + n) (fun q => C i q * pf mass (INR kn + a) (INR kn + b) (whole (INR ka + a) (INR ka + b)) h q j) * unit i (a + INR (ka + kn)) (b + INR (ka + kn)) z))) by (intros; ring).
    rewrite Rtotal_scale, <- (converted_product (INR ka + a) (INR ka + b) (INR kn + a) (INR kn + b) _ _ C h j (N + n) z) by (lra || lia || exact C3). rewrite pow_add, !(Rplus_comm (INR _)). ring.
  - intros K k0 k1 kadd kmul ksub kdiv kopp kinv inj mag c cutoff s t Hf I0 I1 Ia Im Ii. destruct (native_entries ka (padding N kn) 0 s ltac:(lia)) as (J & EJ & Jr & Jc & HJ). destruct (C4 (padding N kn) ltac:(lia)) as (pre & EP & Pr & Pc & HPE).
    destruct (recursion_exact k0 k1 kadd kmul ksub kdiv kopp kinv inj mag Hf I0 I1 Ia Im Ii (INR ka + a) (INR ka + b) (INR kn + a) (INR kn + b) kn N n c cutoff _ J _ pre C HN Hn ltac:(lra) ltac:(lra) ltac:(lra) ltac:(lra) EJ Jr Jc HJ EP Pr Pc HPE C1) as (M & EM & Mr & Mc & HM).
    exists M. split; [exact EM|]. split; [unfold annulus_ncc; rewrite Nat.min_l by exact Hn; exact EM|]. split; [exact Mr|]. split; [exact Mc|]. exact HM.
Qed.
End Shell.
End Mass.
