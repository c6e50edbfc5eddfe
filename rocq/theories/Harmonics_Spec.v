(** Spin-weighted spherical harmonics. *)
From Coq Require Import List ZArith Reals.
From Coquelicot Require Import Coquelicot.
From Verif Require Import CSR_Spec JacobiCalc_Spec.
Local Open Scope R_scope.

(** The lowest degree of order [m] and spin [s]. *)
Definition lowest (m s : Z) : Z := Z.max (Z.abs m) (Z.abs s).
Definition weight_function (a b : nat) (z : R) : R := (1 - z) ^ a * (1 + z) ^ b.
Section Mass.
Context (mass : R -> R -> R).
(** The harmonic of order [m], spin [s] and degree [l] as a function of [z], the cosine of the colatitude, without its dependence on
    azimuth: a polynomial of degree [l - lowest m s], and the square root of its weight. *)
Definition harmonic (m s l : Z) (z : R) : R :=
  let a := Z.abs_nat (m + s) in let b := Z.abs_nat (m - s) in
  (if Z.even (Z.max m (- s)) then 1 else -1) * sqrt (weight_function a b z) * unit_polynomial mass (Z.to_nat (l - lowest m s)) (INR a) (INR b) z.
(** Sums of harmonics of degrees below [L]. *)
Definition harmonic_sum (m s : Z) (L : nat) (c : nat -> R) (z : R) : R :=
  total 0 Rplus L (fun l => if (lowest m s <=? Z.of_nat l)%Z then c l * harmonic m s (Z.of_nat l) z else 0).
End Mass.
(** The mass is that of the weights: their integrals, at least for the exponents zero, from which [mass_rules] gives the others. *)
Definition true_mass (mass : R -> R -> R) : Prop := mass_rules mass /\ mass 0 0 = 2.
(** Points and weights of Gauss quadrature on the sphere. *)
Definition gauss_legendre (n : nat) (q : list (R * R)) : Prop := length q = n /\ (forall z w, In (z, w) q -> -1 < z < 1) /\ exact_quadrature n q.
