(** Scalar fields on disks, annuli, balls and shells as functions, and their integrals. *)
From Coq Require Import List Arith ZArith Reals.
From Coquelicot Require Import Coquelicot.
From Verif Require Import CSR_Spec JacobiCalc_Spec Radial_Spec Sphere_Model Sphere_Spec Polar_Model Polar_Spec.
Local Open Scope R_scope.


(** Integrals over a disk or annulus, in polar coordinates, and over a ball or shell, in spherical coordinates with the cosine of the
    colatitude. *)
Definition area_integral (f : R -> R -> R) (inner outer : R) : R := RInt (fun phi => RInt (fun r => f phi r * r) inner outer) 0 (2 * PI).
Definition volume_integral (f : R -> R -> R -> R) (inner outer : R) : R :=
  RInt (fun phi => RInt (fun x => RInt (fun r => f phi x r * r ^ 2) inner outer) (-1) 1) 0 (2 * PI).

(** Real data: even rows are coefficients of cosines, odd ones of minus sines. *)
Definition wave (m : Z) (i : nat) (phi : R) : R := if Nat.even i then cos (IZR m * phi) else - sin (IZR m * phi).
(** The function with the coefficients [C i j] in row [i] and column [j], on a disk or annulus; the radial functions of order [m]. *)
Definition polar_field (p : polar) (Nphi Nr : nat) (radial : Z -> nat -> R -> R) (C : nat -> nat -> R) (phi r : R) : R :=
  CSR_Spec.total 0 Rplus (polar_rows Float64 Nphi) (fun i => let m := order_in Float64 Nphi 0 i in
    wave m i phi * series (Nr - first_degree p m) (fun n => C i (first_degree p m + n)%nat) (radial m) r).
(** In a ball or shell: the modes of row [i] and column [j], with an angular function [Y m ell] and the radial functions of degree [ell]. *)
Definition spherical_field (Nphi Ntheta Nr : nat) (first : Z -> nat) (Y : Z -> Z -> R -> R) (radial : Z -> nat -> R -> R) (C : nat -> nat -> nat -> R) (phi x r : R) : R :=
  CSR_Spec.total 0 Rplus (fst (coeff_shape Float64 Nphi Ntheta)) (fun i => CSR_Spec.total 0 Rplus (snd (coeff_shape Float64 Nphi Ntheta)) (fun j =>
    let (m, ell) := coeff_group Float64 Nphi Ntheta i j in
    wave m i phi * Y m ell x * series (Nr - first ell) (fun n => C i j (first ell + n)%nat) (radial ell) r)).
(** Angular functions: integrable, [1/sqrt 2] for degree zero, orthogonal to it for others of order zero. *)
Definition angular (Y : Z -> Z -> R -> R) : Prop :=
  (forall m ell, ex_RInt (Y m ell) (-1) 1) /\ (forall x, Y 0%Z 0%Z x = / sqrt 2) /\ forall ell, (0 < ell)%Z -> RInt (Y 0%Z ell) (-1) 1 = 0.
(** Points inside, exact with a weight up to degree [2 n - 1]. *)
Definition gauss_rule (w : R -> R) (n : nat) (q : list (R * R)) : Prop :=
  (forall z wt, In (z, wt) q -> -1 < z < 1) /\ forall p, polynomial (2 * n) p -> weighted_sum q p = RInt (fun z => w z * p z) (-1) 1.
