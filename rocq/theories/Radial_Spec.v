(** Radial functions, and what matrices acting on their coefficients do to the functions. *)
From Coq Require Import ZArith Reals.
From Coquelicot Require Import Coquelicot.
From Verif Require Import MatSolvers_Model CSR_Spec JacobiCalc_Spec.
Local Open Scope R_scope.

Section Mass.
Context (mass : R -> R -> R).
(** Generalised Zernike functions on a ball of given radius in [d] dimensions: [(r/R)^l] times a polynomial in [(r/R)^2]. *)
Definition zernike (d : nat) (radius k : R) (l n : nat) (r : R) : R :=
  sqrt (Rpower 2 (k + INR l + INR d / 2 + 1)) * (r / radius) ^ l * unit_polynomial mass n k (INR l + INR d / 2 - 1) (2 * (r / radius) ^ 2 - 1).
(** Functions on a shell: polynomials, divided by the [k]-th power of the radius. *)
Definition shell_function (inner outer a b : R) (k n : nat) (r : R) : R :=
  ((outer - inner) / r) ^ k * unit_polynomial mass n (a + INR k) (b + INR k) ((2 * r - (outer + inner)) / (outer - inner)).
End Mass.
(** Sums of functions. *)
Definition series (N : nat) (c : nat -> R) (phi : nat -> R -> R) (r : R) : R := CSR_Spec.total 0 Rplus N (fun n => c n * phi n r).
Definition image (M : mat R) (c : nat -> R) (i : nat) : R := CSR_Spec.total 0 Rplus (nc M) (fun j => at_ M i j * c j).

(** A matrix that maps the coefficients of [f], for functions [phi], to those of [f' + p f], for functions [psi]. *)
Definition derives (N : nat) (M : option (mat R)) (phi psi : nat -> R -> R) (p : R -> R) : Prop :=
  exists A, M = Some A /\ nr A = N /\ nc A = N
  /\ forall c r, 0 < r -> exists d, is_derive (series N c phi) r d /\ series N (image A c) psi r = d + p r * series N c phi r.
(** To those of [f'' + p f' + q f]. *)
Definition derives_twice (N : nat) (M : option (mat R)) (phi psi : nat -> R -> R) (p q : R -> R) : Prop :=
  exists A, M = Some A /\ nr A = N /\ nc A = N
  /\ forall c, exists f1, (forall r, 0 < r -> is_derive (series N c phi) r (f1 r))
     /\ forall r, 0 < r -> exists d, is_derive f1 r d /\ series N (image A c) psi r = d + p r * f1 r + q r * series N c phi r.
(** To those of [w f], whenever the last [m] coefficients of [f] are zero. *)
Definition multiplies (N m : nat) (M : option (mat R)) (phi psi : nat -> R -> R) (w : R -> R) : Prop :=
  exists A, M = Some A /\ nr A = N /\ nc A = N
  /\ forall c, (forall j, (N - m <= j < N)%nat -> c j = 0) -> forall r, 0 < r -> series N (image A c) psi r = w r * series N c phi r.
