(** C100: products with axisymmetric functions on disks. *)
From Coq Require Import List Arith ZArith Reals Bool Lia Lra.
Import ListNotations.
From Verif Require Import MatSolvers_Model CSR_Spec MatSolvers_Spec Clenshaw_Model Clenshaw_Spec JacobiNCC_Spec DiskNCC_Model DiskNCC_Spec DiskNCC_Proofs.
Local Open Scope R_scope.

Section Props.
(** [N] is the number of radial modes of the order [m], of [N0] for the order zero; [f n] is the polynomial [n] of the
    matrix [J], by the recursion of [JA] that starts with the constant [p0]. *)
Context (J prefactor : mat R) (JA : nat -> nat -> R) (p0 cutoff : R) (N N0 : nat) (m : Z) (f : nat -> nat -> nat -> R).
Context (HJ : square N J) (Hp : square N prefactor) (HA : forall k, (k + 1 < N)%nat -> JA k (k + 1)%nat <> 0).
Context (Hf : jacobi_functions_matrix 0 Rplus Rmult N N JA J f) (H0 : forall i j, (i < N)%nat -> (j < N)%nat -> f 0%nat i j = if (i =? j)%nat then p0 else 0).
Context (EN : N = (N0 - Z.to_nat (Z.abs m) / 2)%nat).
Notation disk := (disk_real J prefactor JA p0 cutoff N0 m).
Notation by_coefficients c := (multiplication (at_ prefactor) N cutoff c f).

(** Orders 0 and 1: all functions. *)
Theorem disk_low_orders spin_ncc spin_arg cos msin : (Z.abs m <= 1)%Z ->
  exists M, disk spin_ncc spin_arg (spin_ncc + spin_arg)%Z cos msin = Some M /\ multiplies N M (by_coefficients cos) (by_coefficients msin).
Proof.
  intros Hm. destruct (disk_real_entries J prefactor JA p0 cutoff N f HJ Hp HA Hf H0 N0 m spin_ncc spin_arg cos msin (eq_sym EN)) as (M & EM & Mr & Mc & HM).
  assert (E : N = N0) by (rewrite EN, (Nat.div_small (Z.to_nat (Z.abs m)) 2) by lia; lia).
  exists M. split; [exact EM|]. split; [exact Mr|]. split; [exact Mc|]. intros i j Hi Hj. specialize (HM i j Hi Hj).
  rewrite (multiplication_ext _ N cutoff _ cos) in HM by (intros k Hk; unfold ravel; rewrite (proj2 (Nat.ltb_lt k N0)) by lia; reflexivity).
  rewrite (multiplication_ext _ N cutoff (from N _) msin) in HM by (intros k Hk; unfold from, ravel; rewrite (proj2 (Nat.ltb_ge (N + k) N0)) by lia; f_equal; lia).
  exact HM.
Qed.
(** All orders: functions whose sine part vanishes, as those of real scalars do, and that are resolved by the modes of the
    order. *)
Theorem disk_resolved spin_ncc spin_arg cos msin : (forall k, (k < N0)%nat -> msin k = 0) -> (forall k, (N <= k < N0)%nat -> cos k = 0) ->
  exists M, disk spin_ncc spin_arg (spin_ncc + spin_arg)%Z cos msin = Some M /\ multiplies N M (by_coefficients cos) (fun _ _ => 0).
Proof.
  intros Hs Hc. destruct (disk_real_entries J prefactor JA p0 cutoff N f HJ Hp HA Hf H0 N0 m spin_ncc spin_arg cos msin (eq_sym EN)) as (M & EM & Mr & Mc & HM).
  exists M. split; [exact EM|]. split; [exact Mr|]. split; [exact Mc|]. intros i j Hi Hj. specialize (HM i j Hi Hj).
  rewrite (multiplication_ext _ N cutoff _ cos) in HM by (intros k Hk; unfold ravel; rewrite (proj2 (Nat.ltb_lt k N0)) by lia; reflexivity).
  rewrite (multiplication_ext _ N cutoff (from N _) (fun _ => 0)) in HM
    by (intros k Hk; unfold from, ravel; destruct (Nat.ltb_spec (N + k) N0); [apply Hc|apply Hs]; lia).
  rewrite multiplication_zero in HM. exact HM.
Qed.
(** All orders and functions: the sine part is taken from the coefficients of the cosine part above those of the order,
    followed by those of the sine part. *)
Theorem disk_shifted spin_ncc spin_arg cos msin :
  exists M, disk spin_ncc spin_arg (spin_ncc + spin_arg)%Z cos msin = Some M
    /\ multiplies N M (by_coefficients cos) (by_coefficients (fun k => if (N + k <? N0)%nat then cos (N + k)%nat else msin (N + k - N0)%nat)).
Proof.
  destruct (disk_real_entries J prefactor JA p0 cutoff N f HJ Hp HA Hf H0 N0 m spin_ncc spin_arg cos msin (eq_sym EN)) as (M & EM & Mr & Mc & HM).
  exists M. split; [exact EM|]. split; [exact Mr|]. split; [exact Mc|]. intros i j Hi Hj. specialize (HM i j Hi Hj).
  rewrite (multiplication_ext _ N cutoff _ cos) in HM by (intros k Hk; unfold ravel; rewrite (proj2 (Nat.ltb_lt k N0)) by lia; reflexivity).
  exact HM.
Qed.
(** Orders from 2 on: the real function of the first polynomial that the order does not have couples cosines and sines. *)
Theorem disk_unresolved_refuted spin_ncc spin_arg : (2 <= Z.abs m)%Z -> (1 <= N)%nat -> p0 <> 0 -> cutoff < 1 -> at_ prefactor 0%nat 0%nat <> 0 ->
  forall M, disk spin_ncc spin_arg (spin_ncc + spin_arg)%Z (mode N) (fun _ => 0) = Some M ->
  ~ multiplies N M (by_coefficients (mode N)) (by_coefficients (fun _ => 0)).
Proof.
  intros Hm HN Hp0 Hc Hq M EM (_ & _ & X). destruct (disk_shifted spin_ncc spin_arg (mode N) (fun _ => 0)) as (M' & EM' & _ & _ & Y).
  rewrite EM in EM'. injection EM' as <-. destruct (X 0%nat 0%nat ltac:(lia) ltac:(lia)) as (_ & _ & X3 & _). destruct (Y 0%nat 0%nat ltac:(lia) ltac:(lia)) as (_ & _ & Y3 & _).
  rewrite Y3, multiplication_zero in X3. revert X3.
  assert (1 <= Z.to_nat (Z.abs m) / 2)%nat by (apply Nat.div_le_lower_bound; lia).
  rewrite (multiplication_ext _ N cutoff _ (mode 0)).
  - rewrite (multiplication_first N HN p0 cutoff _ f H0 Hc). apply Rmult_integral_contrapositive_currified; assumption.
  - intros k Hk. unfold mode. destruct (Nat.ltb_spec (N + k) N0).
    + destruct (Nat.eqb_spec (N + k) N), (Nat.eqb_spec k 0); try reflexivity; lia.
    + destruct (Nat.eqb_spec k 0); [lia|reflexivity].
Qed.
(** Orders that have at most half of the modes: the sine part has no effect. *)
Theorem disk_sine_part_refuted spin_ncc spin_arg : (1 <= N)%nat -> (N + N <= N0)%nat -> p0 <> 0 -> cutoff < 1 -> at_ prefactor 0%nat 0%nat <> 0 ->
  forall M, disk spin_ncc spin_arg (spin_ncc + spin_arg)%Z (fun _ => 0) (mode 0) = Some M ->
  ~ multiplies N M (by_coefficients (fun _ => 0)) (by_coefficients (mode 0)).
Proof.
  intros HN H2 Hp0 Hc Hq M EM (_ & _ & X). destruct (disk_shifted spin_ncc spin_arg (fun _ => 0) (mode 0)) as (M' & EM' & _ & _ & Y).
  rewrite EM in EM'. injection EM' as <-. destruct (X 0%nat 0%nat ltac:(lia) ltac:(lia)) as (_ & _ & X3 & _). destruct (Y 0%nat 0%nat ltac:(lia) ltac:(lia)) as (_ & _ & Y3 & _).
  rewrite Y3, (multiplication_first N HN p0 cutoff _ f H0 Hc) in X3. revert X3.
  rewrite (multiplication_ext _ N cutoff _ (fun _ => 0)) by (intros k Hk; rewrite (proj2 (Nat.ltb_lt (N + k) N0)) by lia; reflexivity).
  rewrite multiplication_zero. intros E. symmetry in E. revert E. apply Rmult_integral_contrapositive_currified; assumption.
Qed.
End Props.
Print Assumptions disk_low_orders.
Print Assumptions disk_resolved.
Print Assumptions disk_shifted.
Print Assumptions disk_unresolved_refuted.
Print Assumptions disk_sine_part_refuted.

(** ** Example.  Two modes of the order 2 of three: the polynomials [1] and [z] of a matrix. *)
Definition J2 : mat R := Mat 2 2 (fun i j => if (i =? j)%nat then 1 / 3 else 1 / 5).
Definition JA2 (i j : nat) : R := if (i =? j)%nat then 1 / 7 else 1 / 2.
Definition f2 (n i j : nat) : R := match n with 0%nat => if (i =? j)%nat then 1 else 0 | _ => 2 * (at_ J2 i j - (if (i =? j)%nat then 1 / 7 else 0)) end.
Example disk_example : square 2 J2 /\ square 2 (identity 0 1 2) /\ (forall k, (k + 1 < 2)%nat -> JA2 k (k + 1)%nat <> 0)
  /\ jacobi_functions_matrix 0 Rplus Rmult 2 2 JA2 J2 f2 /\ (forall i j, (i < 2)%nat -> (j < 2)%nat -> f2 0 i j = if (i =? j)%nat then 1 else 0)
  /\ 2%nat = (3 - Z.to_nat (Z.abs 2) / 2)%nat
  /\ multiplication (at_ (identity 0 1 2)) 2 0 (mode 1) f2 0 1 = 2 / 5.
Proof.
  split; [split; reflexivity|]. split; [split; reflexivity|]. split; [intros [|k] Hk; [cbn; lra|lia]|]. split.
  - intros [|n] [|[|i]] [|[|j]] Hn Hi Hj; try lia; cbn; lra.
  - split; [intros; reflexivity|]. split; [reflexivity|]. cbn. unfold significant, mode. cbn.
    rewrite !Rabs_R1, !Rabs_R0. destruct (Rlt_dec 0 1), (Rlt_dec 0 0); lra.
Qed.
(** The orders 2 and 4 of a disk with three modes meet the hypotheses of the refutations, with the identity as prefactor. *)
Example disk_refuted_example : (2 <= Z.abs 2)%Z /\ (1 <= 2)%nat /\ at_ (identity 0 1 2) 0%nat 0%nat <> 0
  /\ 1%nat = (3 - Z.to_nat (Z.abs 4) / 2)%nat /\ (1 + 1 <= 3)%nat.
Proof. split; [cbn; lia|]. split; [lia|]. split; [cbn; lra|]. split; [reflexivity|lia]. Qed.
