(** Products of series: the specification of Jacobi series is in [JacobiOps_Spec]. *)
From Coq Require Import Reals.
From Verif Require Import CSR_Spec JacobiCalc_Spec JacobiOps_Spec.
Local Open Scope R_scope.

(** The coefficient, unless its size is within the cutoff. *)
Definition significant (cutoff c : R) : R := if Rlt_dec cutoff (Rabs c) then c else 0.
(** [d] are the coefficients of the product of two functions on the interval from [l] to [r]: [K] coefficients [c] for
    the parameters [a'] and [b'], and [N] coefficients [u] for [a] and [b].  The product has [N + K] modes for the
    parameters [a''] and [b'']. *)
Definition product_coefficients (mass : R -> R -> R) (K : nat) (a' b' : R) (c : nat -> R) (N : nat) (a b : R) (u : nat -> R) (a'' b'' : R) (d : nat -> R) : Prop :=
  forall l r t, series mass K a' b' l r c t * series mass N a b l r u t = series mass (N + K) a'' b'' l r d t.
