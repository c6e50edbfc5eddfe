(** Gauss quadrature. *)
From Coq Require Import List Reals.
From Verif Require Import JacobiCalc_Spec.
Local Open Scope R_scope.

Definition delta (i j : nat) : R := if (i =? j)%nat then 1 else 0.
Section Mass.
Context (mass : R -> R -> R).
(** The unit polynomials for the weight [(1-z)^a (1+z)^(b+l)] are orthonormal for the weight [(1-z)^a (1+z)^b] times [(1+z)^l]. *)
Definition orthonormal (I : (R -> R) -> R) (a b : R) (l i j : nat) : Prop :=
  I (fun z => (1 + z) ^ l * unit_polynomial mass i a (b + INR l) z * unit_polynomial mass j a (b + INR l) z) = delta i j.
(** Points and weights that integrate those products for the weight [(1-z)^a (1+z)^b], up to degree [2 n - 1]. *)
Definition gauss (n : nat) (a b : R) (q : list (R * R)) : Prop :=
  length q = n /\ (forall z w, In (z, w) q -> -1 < z < 1) /\ forall l i j, (l + i + j < 2 * n)%nat -> orthonormal (weighted_sum q) a b l i j.
End Mass.
(** The points of a list. *)
Definition point (q : list (R * R)) (t : nat) : R := fst (nth t q (0, 0)).
