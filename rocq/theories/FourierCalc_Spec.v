(** Fourier series on an interval, their derivatives and integrals. *)
From Coq Require Import List ZArith Reals.
Import ListNotations.
From Coquelicot Require Import Coquelicot.
From Verif Require CSR_Spec.
Local Open Scope R_scope.

(** The phase of wavenumber [k] at [x] on the interval from [l] to [r]. *)
Definition phase (l r : R) (k : Z) (x : R) : R := 2 * PI * IZR k * (x - l) / (r - l).
(** Complex modes [exp(i phase)]; the series with coefficients [u]. *)
Definition complex_mode (l r : R) (k : Z) (x : R) : C := (cos (phase l r k x), sin (phase l r k x)).
Definition complex_series (l r : R) (ks : list Z) (u : nat -> C) (x : R) : C :=
  CSR_Spec.total (RtoC 0) Cplus (length ks) (fun j => u j * complex_mode l r (nth j ks 0%Z) x)%C.
(** Real modes: cosines in the even places, negative sines in the odd ones. *)
Definition real_mode (l r : R) (k : Z) (j : nat) (x : R) : R := if Nat.even j then cos (phase l r k x) else - sin (phase l r k x).
Definition real_series (l r : R) (ks : list Z) (u : nat -> R) (x : R) : R :=
  CSR_Spec.total 0 Rplus (length ks) (fun j => u j * real_mode l r (nth j ks 0%Z) j x).
(** Derivatives and integrals of complex functions, by their parts. *)
Definition complex_derive (f : R -> C) (x : R) (d : C) : Prop := is_derive (fun t => fst (f t)) x (fst d) /\ is_derive (fun t => snd (f t)) x (snd d).
Definition complex_integral (f : R -> C) (l r : R) (v : C) : Prop := is_RInt (fun t => fst (f t)) l r (fst v) /\ is_RInt (fun t => snd (f t)) l r (snd v).
