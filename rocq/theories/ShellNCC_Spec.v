(** Complex radial functions; the real radial functions are in [Radial_Spec]. *)
From Coq Require Import Reals.
From Coquelicot Require Import Coquelicot.
From Verif Require Import MatSolvers_Model CSR_Spec Radial_Spec.
Local Open Scope R_scope.

(** The coefficient, unless its size is within the cutoff. *)
Definition sizeable (cutoff : R) (c : C) : C := if Rlt_dec cutoff (Cmod c) then c else RtoC 0.
(** Sums of real functions with complex coefficients, and products of complex matrices and vectors. *)
Definition complex_series (N : nat) (c : nat -> C) (phi : nat -> R -> R) (r : R) : C := CSR_Spec.total (RtoC 0) Cplus N (fun n => Cmult (c n) (RtoC (phi n r))).
Definition complex_image (M : mat C) (c : nat -> C) (i : nat) : C := CSR_Spec.total (RtoC 0) Cplus (nc M) (fun j => Cmult (at_ M i j) (c j)).

(** A matrix that maps the [N] coefficients of a function, for functions [phi], to the first [N] coefficients of its
    product with [f], which has [L] coefficients for functions [psi]. *)
Definition retains (N L : nat) (M : mat R) (f : R -> R) (phi psi : nat -> R -> R) : Prop :=
  nr M = N /\ nc M = N /\ forall u, exists d, (forall r, 0 < r -> f r * series N u phi r = series L d psi r) /\ forall i, (i < N)%nat -> image M u i = d i.
(** For complex functions. *)
Definition complex_retains (N L : nat) (M : mat C) (f : R -> C) (phi psi : nat -> R -> R) : Prop :=
  nr M = N /\ nc M = N /\ forall u, exists d, (forall r, 0 < r -> Cmult (f r) (complex_series N u phi r) = complex_series L d psi r) /\ forall i, (i < N)%nat -> complex_image M u i = d i.
(** For complex functions by the coefficients of their real parts, followed by those of their imaginary parts. *)
Definition stacked (N : nat) (u v : nat -> R) (j : nat) : R := if (j <? N)%nat then u j else v (j - N)%nat.
Definition pair_retains (N L : nat) (M : mat R) (f : R -> C) (phi psi : nat -> R -> R) : Prop :=
  nr M = (N + N)%nat /\ nc M = (N + N)%nat /\ forall u v, exists d e,
    (forall r, 0 < r -> Cmult (f r) (series N u phi r, series N v phi r) = (series L d psi r, series L e psi r))
    /\ forall i, (i < N)%nat -> image M (stacked N u v) i = d i /\ image M (stacked N u v) (N + i) = e i.
