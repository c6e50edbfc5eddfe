(** Products with axisymmetric functions on a disk, for one order in azimuth. *)
From Coq Require Import Arith ZArith Reals.
From Verif Require Import MatSolvers_Model CSR_Spec JacobiNCC_Spec.
Local Open Scope R_scope.

(** The matrix of multiplication by the radial function with the coefficients [c], of which those above the cutoff and
    below [N] count: [f n] is the matrix of multiplication by the function's polynomial [n], and [p] that by its prefactor. *)
Definition multiplication (p : nat -> nat -> R) (N : nat) (cutoff : R) (c : nat -> R) (f : nat -> nat -> nat -> R) (i j : nat) : R :=
  CSR_Spec.total 0 Rplus N (fun k => p i k * CSR_Spec.total 0 Rplus N (fun n => significant cutoff (c n) * f n k j)).
(** Operands and products are [N] coefficients of cosines followed by [N] of sines.  Multiplication by the complex function
    with the real and imaginary parts [C] and [S]. *)
Definition multiplies (N : nat) (M : mat R) (C S : nat -> nat -> R) : Prop := nr M = (N + N)%nat /\ nc M = (N + N)%nat /\
  forall i j, (i < N)%nat -> (j < N)%nat ->
    at_ M i j = C i j /\ at_ M i (N + j) = - S i j /\ at_ M (N + i) j = S i j /\ at_ M (N + i) (N + j) = C i j.
(** The coefficients of the polynomial [n]. *)
Definition mode (n k : nat) : R := if (k =? n)%nat then 1 else 0.
