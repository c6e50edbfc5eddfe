(** Series of functions with a recursion. *)
From Coq Require Import List Arith Reals.
Import ListNotations.
From Verif Require Import MatSolvers_Model CSR_Spec MatSolvers_Spec Clenshaw_Model.
Local Open Scope nat_scope.

Section Spec.
Context {K : Type} (k0 k1 : K) (kadd kmul ksub : K -> K -> K) (kopp : K -> K).
Notation total := (CSR_Spec.total k0 kadd).
Notation applied := (applied k0 kadd kmul).
(** The functions of the recursion [f(n+1) = A(n) f(n) + B(n) f(n-1)] that starts with [f0]. *)
Definition recursive (A B : nat -> K) (f0 : K) (f : nat -> K) : Prop :=
  f 0 = f0 /\ f 1 = kmul (A 0) (f 0) /\ forall n, f (S (S n)) = kadd (kmul (A (S n)) (f (S n))) (kmul (B (S n)) (f n)).
(** The same for matrices with [m] rows: the functions of a matrix. *)
Definition recursive_matrix (m : nat) (A B : nat -> mat K) (f0 : mat K) (f : nat -> nat -> nat -> K) : Prop := forall i j, i < m -> j < m ->
  f 0 i j = at_ f0 i j /\ f 1 i j = applied m (at_ (A 0)) (fun k => f 0 k j) i
  /\ forall n, f (S (S n)) i j = kadd (applied m (at_ (A (S n))) (fun k => f (S n) k j) i) (applied m (at_ (B (S n))) (fun k => f n k j) i).
Definition square (m : nat) (A : mat K) : Prop := nr A = m /\ nc A = m.
Definition commute (m : nat) (A B : mat K) : Prop := forall i j, i < m -> j < m ->
  applied m (at_ A) (fun k => at_ B k j) i = applied m (at_ B) (fun k => at_ A k j) i.
(** The polynomials of a Jacobi matrix [J], up to degree [N - 1]:
    [x f(n) = J(n,n-1) f(n-1) + J(n,n) f(n) + J(n,n+1) f(n+1)]. *)
Definition below (J : nat -> nat -> K) (f : nat -> K) (n : nat) : K := match n with 0 => k0 | S m => kmul (J n m) (f m) end.
Definition jacobi_functions (N : nat) (J : nat -> nat -> K) (x : K) (f : nat -> K) : Prop := forall n, n + 1 < N ->
  kmul x (f n) = kadd (kadd (below J f n) (kmul (J n n) (f n))) (kmul (J n (n + 1)) (f (n + 1))).
Definition jacobi_functions_matrix (N m : nat) (J : nat -> nat -> K) (X : mat K) (f : nat -> nat -> nat -> K) : Prop := forall n i j, n + 1 < N -> i < m -> j < m ->
  applied m (at_ X) (fun k => f n k j) i = kadd (kadd (below J (fun n => f n i j) n) (kmul (J n n) (f n i j))) (kmul (J n (n + 1)) (f (n + 1) i j)).
(** The coefficient of a term as far as it is above the cutoff. *)
Definition kept {A} (zero : A) (size cutoff : R) (a : A) : A := if Rlt_dec cutoff size then a else zero.
(** The position of row [p] of the argument and row [q] of the coefficient in a Kronecker product. *)
Definition position (coeffs_left : bool) (m0 m1 p q : nat) : nat := if coeffs_left then q * m0 + p else p * m1 + q.
(** Recursions of matrices with [m] rows that commute with one another and with the first function. *)
Definition commuting (m n : nat) (A B : nat -> mat K) (f0 : mat K) : Prop := square m f0 /\ forall k, k < n ->
  square m (A k) /\ square m (B k) /\ commute m (A k) f0 /\ commute m (B k) f0
  /\ forall l, l < n -> commute m (A k) (A l) /\ commute m (A k) (B l) /\ commute m (B k) (B l).
(** A sequence is long enough for a series of [n] terms. *)
Definition long {A} (n : nat) (s : sequence A) (a : nat -> A) : Prop := forall k, k < n -> s k = Some (a k).
End Spec.
