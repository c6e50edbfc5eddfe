(** C47: Clenshaw summation evaluates the series. *)
From Coq Require Import List Arith Bool Reals Lra Lia Field Morphisms.
Import ListNotations.
From Verif Require Import MatSolvers_Model CSR_Spec MatSolvers_Spec MatSolvers_Proofs Clenshaw_Model Clenshaw_Spec Clenshaw_Proofs.
Local Open Scope nat_scope.

Section Props.
Context {K : Type} (k0 k1 : K) (kadd kmul ksub kdiv : K -> K -> K) (kopp kinv : K -> K) (mag : K -> R).
Context (Hf : field_theory k0 k1 kadd kmul ksub kopp kdiv kinv eq).
Notation total := (CSR_Spec.total k0 kadd).

(** Scalar argument. *)
Add Field Kf : Hf.
Theorem clenshaw_scalar n c (A B : sequence K) a b f0 f : long n A a -> long (S n) B b -> recursive kadd kmul a b f0 f ->
  scalar_clenshaw k0 kadd kmul n c A B f0 = Some (total n (fun k => kmul (c k) (f k))).
Proof.
  intros HA HB (E0 & E1 & Hr). rewrite <- E0. apply (scalar_series k0 k1 kadd kmul ksub kdiv kopp kinv Hf n c A B a b f).
  - intros k Hk. split; [apply HA|apply HB]; lia.
  - intros [|k] _; cbn [before]; [rewrite E1; ring|apply Hr].
Qed.
(** Matrix argument: the series of the terms whose coefficient is above the cutoff. *)
Theorem clenshaw_matrix m n c (A B : sequence (mat K)) a b f0 cutoff f : long n A a -> long (S n) B b ->
  commuting k0 kadd kmul m (S n) a b f0 -> recursive_matrix k0 kadd kmul m a b f0 f ->
  exists S, matrix_clenshaw k0 k1 kadd kmul mag n c A B f0 cutoff = Some S /\ square m S
    /\ forall i j, i < m -> j < m -> at_ S i j = total n (fun k => kmul (kept k0 (mag (c k)) cutoff (c k)) (f k i j)).
Proof.
  intros HA HB (Hs & Hc) Hr. apply (matrix_series k0 k1 kadd kmul ksub kdiv kopp kinv mag Hf m n cutoff c A B a b f0 f Hs).
  - intros k Hk. destruct (Hc k ltac:(lia)) as (S1 & _). destruct (Hc (k + 1) ltac:(lia)) as (_ & S2 & _). repeat split; try apply S1; try apply S2; [apply HA|apply HB]; lia.
  - intros i j Hi Hj. apply (Hr i j Hi Hj).
  - intros k Hk. apply (mat_comm_recursion k0 k1 kadd kmul ksub kdiv kopp kinv Hf m f (fun k => at_ (a k)) (fun k => at_ (b k)) (S n)); [..|lia].
    + intros l _ i j Hi Hj. destruct (Hr i j Hi Hj) as (_ & E1 & E2). destruct l as [|l]; cbn [before].
      * unfold plus. rewrite (times_zero k0 k1 kadd kmul ksub kdiv kopp kinv Hf m _ i j Hi Hj). unfold zero. rewrite E1. unfold times. ring.
      * rewrite E2. reflexivity.
    + intros p q Hp Hq. destruct (Hc p Hp) as (_ & _ & _ & _ & Hpq). destruct (Hpq q Hq) as (C1 & C2 & C3). repeat split; intros i j Hi Hj; [apply C1|apply C2|apply C3]; assumption.
    + intros p Hp. destruct (Hc p Hp) as (_ & _ & C1 & C2 & _).
      assert (E0 : meq m (f 0) (at_ f0)) by (intros i j Hi Hj; apply (Hr i j Hi Hj)).
      pose proof (@meq_equiv K m) as Heq. pose proof (times_proper k0 k1 kadd kmul ksub kdiv kopp kinv Hf m) as Htp.
      unfold comm. split; rewrite E0; intros i j Hi Hj; [apply C1|apply C2]; assumption.
Qed.
(** Matrix argument and matrix coefficients. *)
Theorem clenshaw_kronecker m0 m1 n val_c norm_c (A B : sequence (mat K)) a b f0 cutoff left f : long n A a -> long (S n) B b ->
  commuting k0 kadd kmul m0 (S n) a b f0 -> recursive_matrix k0 kadd kmul m0 a b f0 f -> 0 < n -> (forall k, k < n -> square m1 (val_c k)) ->
  exists S, kronecker_clenshaw k0 k1 kadd kmul n val_c norm_c A B f0 cutoff left = Some S /\ square (m0 * m1) S
    /\ forall p q p' q', p < m0 -> q < m1 -> p' < m0 -> q' < m1 ->
       at_ S (position left m0 m1 p q) (position left m0 m1 p' q') = total n (fun k => kmul (f k p p') (kept k0 (norm_c k) cutoff (at_ (val_c k) q q'))).
Proof.
  intros HA HB (Hs & Hc) Hr Hn Hv.
  apply (kronecker_series k0 k1 kadd kmul ksub kdiv kopp kinv Hf left m0 m1 n cutoff val_c norm_c A B a b f0 f Hs).
  - intros k [Hk| ->]; apply Hv; lia.
  - intros k Hk. destruct (Hc k ltac:(lia)) as (S1 & _). destruct (Hc (k + 1) ltac:(lia)) as (_ & S2 & _). repeat split; try apply S1; try apply S2; [apply HA|apply HB]; lia.
  - intros i j Hi Hj. apply (Hr i j Hi Hj).
  - intros k Hk. apply (mat_comm_recursion k0 k1 kadd kmul ksub kdiv kopp kinv Hf m0 f (fun k => at_ (a k)) (fun k => at_ (b k)) (S n)); [..|lia].
    + intros l _ i j Hi Hj. destruct (Hr i j Hi Hj) as (_ & E1 & E2). destruct l as [|l]; cbn [before].
      * unfold plus. rewrite (times_zero k0 k1 kadd kmul ksub kdiv kopp kinv Hf m0 _ i j Hi Hj). unfold zero. rewrite E1. unfold times. ring.
      * rewrite E2. reflexivity.
    + intros p q Hp Hq. destruct (Hc p Hp) as (_ & _ & _ & _ & Hpq). destruct (Hpq q Hq) as (C1 & C2 & C3). repeat split; intros i j Hi Hj; [apply C1|apply C2|apply C3]; assumption.
    + intros p Hp. destruct (Hc p Hp) as (_ & _ & C1 & C2 & _).
      assert (E0 : meq m0 (f 0) (at_ f0)) by (intros i j Hi Hj; apply (Hr i j Hi Hj)).
      pose proof (@meq_equiv K m0) as Heq. pose proof (times_proper k0 k1 kadd kmul ksub kdiv kopp kinv Hf m0) as Htp.
      unfold comm. split; rewrite E0; intros i j Hi Hj; [apply C1|apply C2]; assumption.
Qed.
(** With the recursion of a Jacobi matrix, the series of its polynomials, of a number and of a matrix. *)
Theorem clenshaw_jacobi_scalar N J x n c f : n <= N -> (forall k, k + 1 < N -> J k (k + 1) <> k0) -> jacobi_functions k0 kadd kmul N J x f ->
  let '(A, B) := jacobi_recursion_scalar k0 k1 kmul ksub kdiv kopp N J x in
  scalar_clenshaw k0 kadd kmul n c A B (f 0) = Some (total n (fun k => kmul (c k) (f k))).
Proof.
  intros Hn HJ Hf'. cbn. eapply (scalar_series k0 k1 kadd kmul ksub kdiv kopp kinv Hf n c).
  - intros k Hk. split; apply deferred_some; lia.
  - intros k Hk. apply (jacobi_scalar k0 k1 kadd kmul ksub kdiv kopp kinv Hf N J x f Hf' HJ). lia.
Qed.
Theorem clenshaw_jacobi N J m X f0 n c cutoff f : n <= N -> square m X -> square m f0 -> commute k0 kadd kmul m X f0 ->
  (forall k, k + 1 < N -> J k (k + 1) <> k0) -> jacobi_functions_matrix k0 kadd kmul N m J X f -> (forall i j, i < m -> j < m -> f 0 i j = at_ f0 i j) ->
  let '(A, B) := jacobi_recursion k0 k1 kmul ksub kdiv kopp N J X in
  exists S, matrix_clenshaw k0 k1 kadd kmul mag n c A B f0 cutoff = Some S /\ square m S
    /\ forall i j, i < m -> j < m -> at_ S i j = total n (fun k => kmul (kept k0 (mag (c k)) cutoff (c k)) (f k i j)).
Proof.
  intros Hn HX Hs Hc HJ Hf' H0. cbn. eapply (matrix_series k0 k1 kadd kmul ksub kdiv kopp kinv mag Hf m n cutoff c _ _ _ _ f0 f Hs).
  - intros k Hk. repeat split; try (apply deferred_some; lia).
    + unfold compute_A. destruct (_ <? _); cbn; apply HX.
    + unfold compute_A. destruct (_ <? _); cbn; apply HX.
    + unfold compute_B. destruct (_ && _); cbn; apply HX.
    + unfold compute_B. destruct (_ && _); cbn; apply HX.
  - exact H0.
  - intros k Hk. apply (jacobi_matrix_ok k0 k1 kadd kmul ksub kdiv kopp kinv Hf N m J X f0 f HX Hf' HJ H0 Hc). lia.
Qed.
(** More coefficients than the recursion has terms raise an exception, whatever their values and the cutoff. *)
Theorem clenshaw_jacobi_excess N J X f0 n c cutoff : N < n ->
  let '(A, B) := jacobi_recursion k0 k1 kmul ksub kdiv kopp N J X in matrix_clenshaw k0 k1 kadd kmul mag n c A B f0 cutoff = None.
Proof.
  intros Hn. cbn. unfold matrix_clenshaw. destruct n as [|n]; [lia|]. rewrite rev_seq_S, matrix_loop_fails; [reflexivity|].
  right. apply deferred_none. lia.
Qed.
End Props.
Print Assumptions clenshaw_scalar.
Print Assumptions clenshaw_matrix.
Print Assumptions clenshaw_kronecker.
Print Assumptions clenshaw_jacobi_scalar.
Print Assumptions clenshaw_jacobi.
Print Assumptions clenshaw_jacobi_excess.

(** ** Examples.  Chebyshev polynomials of a number and of a matrix; three terms. *)
Local Open Scope R_scope.
Definition T_J (i j : nat) : R := match i, j with 0%nat, 1%nat => 1 | _, _ => if ((S i =? j) || (S j =? i))%nat then 1 / 2 else 0 end.
Definition T (x : R) (n : nat) : R := match n with 0%nat => 1 | 1%nat => x | 2%nat => 2 * x * x - 1 | _ => 0 end.
Example T_functions x : jacobi_functions 0 Rplus Rmult 3 T_J x (T x) /\ forall k, (k + 1 < 3)%nat -> T_J k (k + 1) <> 0.
Proof. split; intros [|[|n]] H; try lia; cbn; lra. Qed.
Definition X2 : mat R := Mat 2 2 (fun i j => if ((i =? 0) && (j =? 1))%nat%bool then 3 else if (i =? j)%nat then INR (S i) else 0).
Definition T2 (n i j : nat) : R := match n with 0%nat => if (i =? j)%nat then 1 else 0 | 1%nat => at_ X2 i j
  | 2%nat => 2 * applied 0 Rplus Rmult 2 (at_ X2) (fun k => at_ X2 k j) i - (if (i =? j)%nat then 1 else 0) | _ => 0 end.
Example T2_functions : square 2 X2 /\ commute 0 Rplus Rmult 2 X2 (identity 0 1 2) /\ jacobi_functions_matrix 0 Rplus Rmult 3 2 T_J X2 T2
  /\ T2 2 0 1 = 18.
Proof.
  split; [split; reflexivity|]. split; [|split].
  - intros [|[|i]] [|[|j]] Hi Hj; try lia; cbn; lra.
  - intros [|[|n]] [|[|i]] [|[|j]] Hn Hi Hj; try lia; cbn; lra.
  - cbn. lra.
Qed.
(** A recursion of commuting matrices. *)
Example commuting_recursion : commuting 0 Rplus Rmult 2 4 (fun _ => X2) (fun _ => identity 0 1 2) (identity 0 1 2).
Proof.
  split; [split; reflexivity|]. intros k _. repeat split; try (intros [|[|i]] [|[|j]] Hi Hj; try lia; cbn; lra).
Qed.
(** A term below the cutoff, and one at the cutoff, are dropped. *)
Example kept_cutoff : kept 0 (Rabs (-1)) 1 (-1) = 0 /\ kept 0 (Rabs (-2)) 1 (-2) = -2.
Proof.
  unfold kept. rewrite !Rabs_left by lra. split; destruct (Rlt_dec _ _); lra.
Qed.
