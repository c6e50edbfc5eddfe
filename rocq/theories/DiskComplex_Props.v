(** C100, for complex fields. *)
From Coq Require Import List Arith ZArith Reals Bool Lia Lra Field.
Import ListNotations.
From Coquelicot Require Import Complex.
From Verif Require Import MatSolvers_Model CSR_Spec MatSolvers_Spec MatSolvers_Proofs Clenshaw_Model Clenshaw_Spec Clenshaw_Proofs Clenshaw_Props ShellNCC_Spec DiskNCC_Model DiskNCC_Proofs DiskComplex_Model.
Local Open Scope R_scope.
Notation ctotal := (CSR_Spec.total (RtoC 0) Cplus).
Notation Cf := C_field_theory.

(** All orders and functions: the sum over the function's modes that the order has.  [f n] is the polynomial [n] of [J]. *)
Theorem disk_complex_product (J prefactor : mat C) (JA : nat -> nat -> C) (p0 : C) (cutoff : R) (N N0 : nat) (m spin_ncc spin_arg : Z) (f : nat -> nat -> nat -> C) coeffs :
  square N J -> square N prefactor -> (forall k, (k + 1 < N)%nat -> JA k (k + 1)%nat <> RtoC 0) ->
  jacobi_functions_matrix (RtoC 0) Cplus Cmult N N JA J f -> (forall i j, (i < N)%nat -> (j < N)%nat -> f 0%nat i j = if (i =? j)%nat then p0 else RtoC 0) ->
  N = (N0 - Z.to_nat (Z.abs m) / 2)%nat ->
  exists M, disk_complex J prefactor JA p0 cutoff N0 m spin_ncc spin_arg (spin_ncc + spin_arg) coeffs = Some M /\ square N M
    /\ forall i j, (i < N)%nat -> (j < N)%nat -> at_ M i j = ctotal N (fun k => Cmult (at_ prefactor i k) (ctotal N (fun n => Cmult (sizeable cutoff (coeffs n)) (f n k j)))).
Proof.
  intros HJ [Pr Pc] HA HF H0 EN. unfold disk_complex. rewrite spins_meet. change (n_size N0 m) with (N0 - Z.to_nat (Z.abs m) / 2)%nat. rewrite <- EN, Nat.min_r by lia.
  set (f0 := mscale Cmult p0 (identity (RtoC 0) (RtoC 1) N)).
  pose proof (clenshaw_jacobi (RtoC 0) (RtoC 1) Cplus Cmult Cminus Cdiv Copp Cinv Cmod Cf N JA N J f0 N coeffs cutoff f (le_n N) HJ) as CJ.
  destruct (jacobi_recursion (RtoC 0) (RtoC 1) Cmult Cminus Cdiv Copp N JA J) as [A B]. destruct CJ as (T & ET & [Tr Tc] & HT).
  - split; reflexivity.
  - intros i j Hi Hj. unfold applied. rewrite (total_single (RtoC 0) (RtoC 1) Cplus Cmult Cminus Cdiv Copp Cinv Cf N j) by (exact Hj || (intros h Hh Hne; cbn [f0 mscale identity at_]; destruct (Nat.eqb_spec h j); [congruence|ring])).
    rewrite (total_single (RtoC 0) (RtoC 1) Cplus Cmult Cminus Cdiv Copp Cinv Cf N i) by (exact Hi || (intros h Hh Hne; cbn [f0 mscale identity at_]; destruct (Nat.eqb_spec i h); [congruence|ring])).
    cbn [f0 mscale identity at_]. rewrite !Nat.eqb_refl. ring.
  - exact HA.
  - exact HF.
  - intros i j Hi Hj. rewrite H0 by assumption. cbn [f0 mscale identity at_]. destruct (i =? j)%nat; ring.
  - rewrite ET. eexists. split; [reflexivity|]. split; [split; assumption|]. intros i j Hi Hj. cbn [at_ mmul]. rewrite Pc. change (msum (RtoC 0) Cplus) with (CSR_Spec.total (RtoC 0) Cplus).
    apply (MatSolvers_Proofs.total_ext (RtoC 0) (RtoC 1) Cplus Cmult Cminus Cdiv Copp Cinv Cf). intros k Hk. rewrite HT by lia. reflexivity.
Qed.
(** So modes of the function that the order does not have are left out. *)
Theorem disk_complex_unresolved (J prefactor : mat C) (JA : nat -> nat -> C) (p0 : C) (cutoff : R) (N N0 : nat) (m spin_ncc spin_arg : Z) (f : nat -> nat -> nat -> C) coeffs coeffs' :
  square N J -> square N prefactor -> (forall k, (k + 1 < N)%nat -> JA k (k + 1)%nat <> RtoC 0) ->
  jacobi_functions_matrix (RtoC 0) Cplus Cmult N N JA J f -> (forall i j, (i < N)%nat -> (j < N)%nat -> f 0%nat i j = if (i =? j)%nat then p0 else RtoC 0) ->
  N = (N0 - Z.to_nat (Z.abs m) / 2)%nat -> (forall n, (n < N)%nat -> coeffs n = coeffs' n) ->
  exists M M', disk_complex J prefactor JA p0 cutoff N0 m spin_ncc spin_arg (spin_ncc + spin_arg) coeffs = Some M
    /\ disk_complex J prefactor JA p0 cutoff N0 m spin_ncc spin_arg (spin_ncc + spin_arg) coeffs' = Some M' /\ forall i j, (i < N)%nat -> (j < N)%nat -> at_ M i j = at_ M' i j.
Proof.
  intros HJ Hp HA HF H0 EN Hc.
  destruct (disk_complex_product J prefactor JA p0 cutoff N N0 m spin_ncc spin_arg f coeffs HJ Hp HA HF H0 EN) as (M & EM & _ & HM).
  destruct (disk_complex_product J prefactor JA p0 cutoff N N0 m spin_ncc spin_arg f coeffs' HJ Hp HA HF H0 EN) as (M' & EM' & _ & HM').
  exists M, M'. split; [exact EM|]. split; [exact EM'|]. intros i j Hi Hj. rewrite HM, HM' by assumption.
  apply (MatSolvers_Proofs.total_ext (RtoC 0) (RtoC 1) Cplus Cmult Cminus Cdiv Copp Cinv Cf). intros k Hk. f_equal.
  apply (MatSolvers_Proofs.total_ext (RtoC 0) (RtoC 1) Cplus Cmult Cminus Cdiv Copp Cinv Cf). intros n Hn. rewrite Hc by lia. reflexivity.
Qed.
Print Assumptions disk_complex_product.
Print Assumptions disk_complex_unresolved.

(** ** Example.  Two modes of the order 2 of three: the polynomials [i] and [i z] of a matrix, where [i] is the imaginary unit. *)
Definition JC : mat C := Mat 2 2 (fun i j => if (i =? j)%nat then RtoC 0 else RtoC 1).
Definition JAC (i j : nat) : C := if (i =? j)%nat then RtoC 0 else RtoC 1.
Definition fC (n i j : nat) : C := match n with 0%nat => if (i =? j)%nat then Ci else RtoC 0 | _ => if (i =? j)%nat then RtoC 0 else Ci end.
Example disk_complex_example : square 2 JC /\ (forall k, (k + 1 < 2)%nat -> JAC k (k + 1)%nat <> RtoC 0)
  /\ jacobi_functions_matrix (RtoC 0) Cplus Cmult 2 2 JAC JC fC /\ (forall i j, (i < 2)%nat -> (j < 2)%nat -> fC 0 i j = if (i =? j)%nat then Ci else RtoC 0)
  /\ 2%nat = (3 - Z.to_nat (Z.abs 2) / 2)%nat.
Proof.
  split; [split; reflexivity|]. split; [intros [|k] Hk; [cbn; intros E; injection E; lra|lia]|]. split; [|split; [intros; reflexivity|reflexivity]].
  intros [|n] [|[|i]] [|[|j]] Hn Hi Hj; try lia; cbn; ring.
Qed.
