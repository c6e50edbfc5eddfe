(** Products with the cosine of the colatitude. *)
From Coq Require Import List ZArith Reals.
From Verif Require Import CSR_Spec Sphere_Model Sphere_Spec Harmonics_Spec.
Local Open Scope R_scope.

(** [row] and [col] are the places of part [r] of the modes of order [m] on a process. *)
Definition places (d : dtype) (Nphi Ntheta c0 n : nat) (m : Z) (r : nat) (row col : nat -> nat) : Prop :=
  forall ell, (Z.abs m <= Z.of_nat ell)%Z -> (ell <= top_degree d Ntheta)%nat ->
  (row ell < coeff_chunk d * n)%nat /\ (col ell < columns d Nphi Ntheta)%nat /\ (row ell mod parts d = r)%nat
  /\ coeff_group d Nphi Ntheta (coeff_chunk d * c0 + row ell) (col ell) = (m, Z.of_nat ell).
(** [c'] are the coefficients of the product of [z] with the sum of the harmonics up to degree [L] with coefficients [c], without its part of
    degree [L + 1], which comes from the coefficient of degree [L]. *)
Definition truncated_product (mass : R -> R -> R) (m s : Z) (L : nat) (c c' : nat -> R) : Prop :=
  (forall ell, (Z.abs m <= Z.of_nat ell < Z.abs s)%Z -> (ell <= L)%nat -> c' ell = 0)
  /\ exists g, 0 < g /\ forall z, z * harmonic_sum mass m s (L + 1) c z = harmonic_sum mass m s (L + 1) c' z + g * c L * harmonic mass m s (Z.of_nat (L + 1)) z.
