(** Jacobi polynomials, and the operators on functions that matrices of coefficients represent. *)
From Coq Require Import List ZArith Reals Factorial.
From Coquelicot Require Import Coquelicot.
From Verif Require Import MatSolvers_Model CSR_Spec Codomain_Model Codomain_Spec.
Local Open Scope R_scope.

(** Rising factorials [x (x+1) ... (x+k-1)]. *)
Fixpoint rising (x : R) (k : nat) : R := match k with O => 1 | S k => rising x k * (x + INR k) end.
(** Jacobi polynomials, by their expansion at 1 (DLMF 18.5.7). *)
Definition coefficient (n : nat) (a b : R) (k : nat) : R :=
  if (k <=? n)%nat then rising (INR n + a + b + 1) k * rising (a + INR k + 1) (n - k) / (INR (fact k) * INR (fact (n - k))) else 0.
Definition classical (n : nat) (a b z : R) : R := CSR_Spec.total 0 Rplus (S n) (fun k => coefficient n a b k * ((z - 1) / 2) ^ k).
(** The mass of the weight [(1-z)^a (1+z)^b], up to what determines its ratios. *)
Definition mass_rules (mass : R -> R -> R) : Prop := forall a b, -1 < a -> -1 < b ->
  0 < mass a b /\ mass (a + 1) b = 2 * (a + 1) / (a + b + 2) * mass a b /\ mass a (b + 1) = 2 * (b + 1) / (a + b + 2) * mass a b.
Section Mass.
Context (mass : R -> R -> R).
(** The squared norms of the polynomials for the weight (DLMF 18.3.1). *)
Definition norm2 (n : nat) (a b : R) : R := mass a b *
  match n with O => 1 | S m => rising (a + 1) n * rising (b + 1) n / (INR (fact n) * rising (a + b + 2) m * (2 * INR n + a + b + 1)) end.
Definition unit_polynomial (n : nat) (a b z : R) : R := classical n a b z / sqrt (norm2 n a b).
(** The two families of functions of a space [(n, a, b)]. *)
Definition unit_family (x : domain) (i : nat) (z : R) : R := let '(_, a, b) := x in unit_polynomial i a b z.
End Mass.
Definition classical_family (x : domain) (i : nat) (z : R) : R := let '(_, a, b) := x in classical i a b z.

Definition family (mass : R -> R -> R) (normalised : bool) : domain -> nat -> R -> R := if normalised then unit_family mass else classical_family.

(** Multiplication by a function, and first-order differential operators [g -> p g + q g']. *)
Definition multiplied (w : R -> R) (x : domain) (g h : R -> R) : Prop := forall z, h z = w z * g z.
Definition differential (p q : domain -> R -> R) (x : domain) (g h : R -> R) : Prop := forall z, exists d, is_derive g z d /\ h z = p x z * g z + q x z * d.

(** Polynomials of degree less than [d], and quadratures that integrate them. *)
Definition polynomial (d : nat) (p : R -> R) : Prop := exists c, forall z, p z = CSR_Spec.total 0 Rplus d (fun k => c k * z ^ k).
Definition weighted_sum (q : list (R * R)) (p : R -> R) : R := fold_right Rplus 0 (map (fun zw => snd zw * p (fst zw)) q).
Definition exact_quadrature (n : nat) (q : list (R * R)) : Prop := forall p, polynomial (2 * n) p -> weighted_sum q p = RInt p (-1) 1.
