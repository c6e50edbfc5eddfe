(** Trigonometric polynomials in the azimuth. *)
From Coq Require Import Reals ZArith.
From stdpp Require Import list.
From Verif Require Import Fourier_Model.
Local Open Scope R_scope.

(** [sum_{k=-K}^{K} F(k) exp(i k phi)]. *)
Definition complex_polynomial (K : nat) (F : Z -> C) (phi : R) : C :=
  csum (2 * K + 1) (fun i => let k := (Z.of_nat i - Z.of_nat K)%Z in Cmul (F k) (cis (IZR k * phi))).
(** [sum_{k=0}^{K} a(k) cos(k phi) - b(k) sin(k phi)]. *)
Definition real_polynomial (K : nat) (a b : nat -> R) (phi : R) : R :=
  rsum (K + 1) (fun k => a k * cos (INR k * phi) - b k * sin (INR k * phi)).
(** The grid points. *)
Definition azimuth (N x : nat) : R := 2 * PI * INR x / INR N.
