(** Means over azimuth and over spheres, and fields on spheres as functions. *)
From Coq Require Import List Arith ZArith Reals.
From Coquelicot Require Import Coquelicot.
From Verif Require Import CSR_Spec Sphere_Model Sphere_Spec Integrals_Spec.
From Verif Require Blocks_Model.
Local Open Scope R_scope.

(** In the azimuth, and in the azimuth and the cosine of the colatitude. *)
Definition azimuthal_mean (f : R -> R) : R := RInt f 0 (2 * PI) / (2 * PI).
Definition spherical_mean (f : R -> R -> R) : R := RInt (fun phi => RInt (f phi) (-1) 1) 0 (2 * PI) / (4 * PI).
(** The function on the sphere with the coefficients [C i j] in row [i] and column [j], for real data. *)
Definition sphere_field (Nphi Ntheta : nat) (Y : Z -> Z -> R -> R) (C : nat -> nat -> R) (phi x : R) : R :=
  CSR_Spec.total 0 Rplus (fst (coeff_shape Float64 Nphi Ntheta)) (fun i => CSR_Spec.total 0 Rplus (snd (coeff_shape Float64 Nphi Ntheta)) (fun j =>
    let (m, ell) := coeff_group Float64 Nphi Ntheta i j in wave m i phi * Y m ell x * C i j)).
(** The part of a global array that starts at a row and a column. *)
Definition from (C : nat -> nat -> nat -> R) (i0 j0 : nat) : nat -> nat -> nat -> R := fun a b => C (i0 + a)%nat (j0 + b)%nat.
(** Two arrays agree up to a number of rows, columns and layers. *)
Definition agree (rows cols layers : nat) (x y : nat -> nat -> nat -> R) : Prop := forall a b k, (a < rows)%nat -> (b < cols)%nat -> (k < layers)%nat -> x a b k = y a b k.
(** The columns of coefficients and those of order zero are dealt out alike to [Q] processes. *)
Definition aligned (d : dtype) (Nphi Ntheta Q : nat) : Prop :=
  Q = 1%nat \/ top_degree d Ntheta = 0%nat \/ Blocks_Model.cdiv (columns d Nphi Ntheta) Q = Blocks_Model.cdiv (top_degree d Ntheta + 1) Q.
