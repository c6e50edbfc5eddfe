(** What filters should do. *)
From Coq Require Import List Arith Bool Reals.
Import ListNotations.
From Verif Require Import Filters_Model.

Section Filters.
Context {V : Type} (zero : V) (coeffs : nat -> nat) (fwd bwd : nat -> nat -> list V -> list V).
(** [kept a n j]: [n] grid points resolve the mode in slot [j] of axis [a]. *)
Context (kept : nat -> nat -> nat -> bool).

(** Transforms along axis [a] with [n] points that lose exactly the modes not resolved. *)
Record truncates (a n : nat) : Prop := Truncates {
  bwd_size : forall v, length v = coeffs a -> length (bwd a n v) = n;
  round_trip : forall v, length v = coeffs a -> forall j, j < coeffs a -> nth j (fwd a n (bwd a n v)) zero = if kept a n j then nth j v zero else zero;
  fwd_kept : forall w, length w = n -> forall j, j < coeffs a -> kept a n j = false -> nth j (fwd a n w) zero = zero;
  fwd_zero : forall j, nth j (fwd a n (repeat zero n)) zero = zero
}.
(** A mode inside the shape, and one that is resolved along all of [dim] axes by grids of [n a] points. *)
Definition mode (dim : nat) (p : nat -> nat) : Prop := forall a, a < dim -> p a < coeffs a.
Definition passes (dim : nat) (n : nat -> nat) (p : nat -> nat) : bool := forallb (fun a => kept a (n a) (p a)) (seq 0 dim).
End Filters.

From Coq Require Import ZArith.
From Verif Require Import Fourier_Model.
(** Real axes: pairs of cosine and minus-sine amplitudes, Chebyshev polynomials, or nothing; the transforms are those of C09 and C11. *)
Inductive real_axis := Waves (M : nat) | Polynomials (M : nat) | Constant.
Definition no_list {A} (x : option (list A)) : list A := match x with Some l => l | None => [] end.
Definition real_coeffs (ax : nat -> real_axis) (a : nat) : nat := match ax a with Waves M | Polynomials M => M | Constant => 1 end.
Definition real_fwd (ax : nat -> real_axis) (a n : nat) (w : list R) : list R :=
  match ax a with Waves M => no_list (real_forward n M w (repeat 0%R M)) | Polynomials M => no_list (cheb_forward n M w (repeat 0%R M)) | Constant => w end.
Definition real_bwd (ax : nat -> real_axis) (a n : nat) (v : list R) : list R :=
  match ax a with
  | Waves M => no_list (real_backward_fftw n M v (repeat 0%R (n / 2 + 1)) (repeat 0%R (n / 2 + 1)))
  | Polynomials M => no_list (cheb_backward n M v (repeat 0%R n)) | Constant => v end.
(** Waves below the Nyquist wavenumbers of the coefficients and of [n] points, except the sine of wavenumber zero; polynomials of degree below [n]. *)
Definition real_kept (ax : nat -> real_axis) (a n j : nat) : bool :=
  match ax a with Waves M => (2 * (j / 2) <? M) && (2 * (j / 2) <? n) && negb (j =? 1) | Polynomials M => j <? n | Constant => true end.
(** Grids the transforms are meant for: real waves come in whole pairs, and Chebyshev transforms need two points. *)
Definition real_good (ax : nat -> real_axis) (a n : nat) : Prop :=
  match ax a with Waves M => 0 < M /\ Nat.even M = true /\ 0 < n | Polynomials M => 1 < M /\ 1 < n | Constant => n = 1 end.

(** Complex axes: Fourier modes in the order of the fast transform (C08), or nothing. *)
Inductive complex_axis := Modes (M : nat) | Single.
Definition complex_coeffs (ax : nat -> complex_axis) (a : nat) : nat := match ax a with Modes M => M | Single => 1 end.
Definition complex_fwd (ax : nat -> complex_axis) (a n : nat) (w : list C) : list C :=
  match ax a with Modes M => no_list (complex_forward n M w (repeat C0 M)) | Single => w end.
Definition complex_bwd (ax : nat -> complex_axis) (a n : nat) (v : list C) : list C :=
  match ax a with Modes M => no_list (complex_backward_fftw n M v (repeat C0 n)) | Single => v end.
(** Wavenumbers below the Nyquist wavenumbers of the coefficients and of [n] points. *)
Definition complex_kept (ax : nat -> complex_axis) (a n j : nat) : bool :=
  match ax a with Modes M => (2 * Z.abs (wavenumber M j) <? Z.of_nat M)%Z && (2 * Z.abs (wavenumber M j) <? Z.of_nat n)%Z | Single => true end.
Definition complex_good (ax : nat -> complex_axis) (a n : nat) : Prop := match ax a with Modes M => 0 < M /\ 0 < n | Single => n = 1 end.
