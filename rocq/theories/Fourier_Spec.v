(** What the transforms are documented to compute (dedalus/core/transforms.py:172-192 and
    347-368), independently of how they are implemented. *)
From Coq Require Import Reals ZArith.
From stdpp Require Import list.
From Verif Require Import Fourier_Model.
Local Open Scope R_scope.

(** Largest wavenumber strictly below the Nyquist mode of both the N-point grid and the M
    coefficients. *)
Definition resolved (N M : nat) : nat := Nat.min ((N - 1) / 2) ((M - 1) / 2).

(** F(k) = (1/N) sum_x f(x) exp(-2 pi i k x / N). *)
Definition complex_coefficient (N : nat) (g : list C) (k : Z) : C :=
  Cscale (/ INR N) (csum N (fun x => Cmul (cat g x) (cis (- angle N k x)))).

(** Slot of wavenumber [k] in FFT ordering with M slots. *)
Definition slot (M : nat) (k : Z) : nat := Z.to_nat (k mod Z.of_nat M).

(** f(x) = sum_{k=-K}^{K} F(k) exp(2 pi i k x / N). *)
Definition complex_series (N M K : nat) (c : list C) (x : nat) : C :=
  csum (2 * K + 1) (fun i => let k := (Z.of_nat i - Z.of_nat K)%Z in
                             Cmul (cat c (slot M k)) (cis (angle N k x))).

(** a(0) = mean, b(0) = 0; a(k) = (2/N) sum f cos, b(k) = -(2/N) sum f sin (the minus-sine
    amplitudes), interleaved as [a(0), b(0), a(1), b(1), ...]. *)
Definition real_coefficient (N : nat) (g : list R) (j : nat) : R :=
  let k := Z.of_nat (j / 2) in
  if decide (j = 0)%nat then / INR N * rsum N (fun x => rat g x)
  else if decide (j = 1)%nat then 0
  else if Nat.even j then 2 / INR N * rsum N (fun x => rat g x * cos (angle N k x))
  else - (2 / INR N) * rsum N (fun x => rat g x * sin (angle N k x)).

(** f(x) = sum_{k=0}^{K} a(k) cos(2 pi k x / N) - b(k) sin(2 pi k x / N). *)
Definition real_series (N K : nat) (c : list R) (x : nat) : R :=
  rsum (K + 1) (fun k => rat c (2 * k) * cos (angle N (Z.of_nat k) x)
                         - rat c (2 * k + 1) * sin (angle N (Z.of_nat k) x)).

(** Normalised Chebyshev polynomials (Jacobi a = b = -1/2) at the Gauss nodes
    z_x = -cos(pi (2x+1) / 2N): P_0 = 1/sqrt(pi), P_k(z) = sqrt(2/pi) T_k(z) with
    T_k(-cos t) = (-1)^k cos(k t). *)
Definition theta (N x : nat) : R := PI * (2 * INR x + 1) / (2 * INR N).
Definition cheb_poly (N k x : nat) : R :=
  if decide (k = 0)%nat then / R_sqrt.sqrt PI
  else / R_sqrt.sqrt (PI / 2) * ((-1) ^ k * cos (INR k * theta N x)).
(** Gauss-Chebyshev weights: pi / N. *)
Definition cheb_coefficient (N : nat) (g : list R) (k : nat) : R :=
  rsum N (fun x => PI / INR N * (rat g x * cheb_poly N k x)).
Definition cheb_series (N K : nat) (c : list R) (x : nat) : R :=
  rsum (K + 1) (fun k => rat c k * cheb_poly N k x).
