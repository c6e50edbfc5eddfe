(** Functions on an interval expanded in unit Jacobi polynomials. *)
From Coq Require Import List ZArith Reals.
From Verif Require Import CSR_Spec JacobiCalc_Spec.
Local Open Scope R_scope.

(** The point of [-1, 1] for the point [x] of the interval from [l] to [r]. *)
Definition scaled (l r x : R) : R := 2 * (x - l) / (r - l) - 1.
(** The function with coefficients [u]: [N] modes with parameters [a] and [b]. *)
Definition series (mass : R -> R -> R) (N : nat) (a b l r : R) (u : nat -> R) (x : R) : R :=
  CSR_Spec.total 0 Rplus N (fun n => u n * unit_polynomial mass n a b (scaled l r x)).
(** The matrix [M] applied to coefficients. *)
Definition image (n : nat) (M : nat -> nat -> R) (u : nat -> R) (i : nat) : R := CSR_Spec.total 0 Rplus n (fun j => M i j * u j).
