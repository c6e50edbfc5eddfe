(** Vectors of complex radial functions; single functions are in [ShellNCC_Spec]. *)
From Coq Require Import Reals.
From Coquelicot Require Import Coquelicot.
From Verif Require Import MatSolvers_Model CSR_Spec ShellNCC_Spec.
Local Open Scope R_scope.

(** Part [p] of a vector made of parts of length [N]. *)
Definition part {A} (N : nat) (u : nat -> A) (p : nat) : nat -> A := fun i => u (p * N + i)%nat.
(** A matrix that maps the coefficients of [w'] functions, for functions [phi], to the first [N] coefficients of each of
    the [w] functions that the matrix of functions [f] makes of them, which have [L] coefficients for functions [psi]. *)
Definition matrix_retains (w w' N L : nat) (M : mat C) (f : nat -> nat -> R -> C) (phi psi : nat -> R -> R) : Prop :=
  nr M = (w * N)%nat /\ nc M = (w' * N)%nat /\ forall u, exists d : nat -> nat -> C,
    (forall p r, (p < w)%nat -> 0 < r -> CSR_Spec.total (RtoC 0) Cplus w' (fun q => Cmult (f p q r) (complex_series N (part N u q) phi r)) = complex_series L (d p) psi r)
    /\ forall p i, (p < w)%nat -> (i < N)%nat -> complex_image M u (p * N + i) = d p i.
(** The entries of the matrices whose norms are above the cutoff. *)
Definition kept_entry (cutoff : R) (norms : nat -> R) (vals : nat -> mat C) (p q k : nat) : C := if Rlt_dec cutoff (norms k) then at_ (vals k) p q else RtoC 0.
