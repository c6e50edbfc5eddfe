(** Fields on circles and spheres as functions, components at a radius, and functions with one radial coefficient. *)
From Coq Require Import List Arith ZArith Reals.
From Verif Require Import CSR_Spec Intertwiner_Model Intertwiner_Spec Radial_Spec Sphere_Model Polar_Model Polar_Spec Integrals_Spec.
Local Open Scope R_scope.

(** The function on the circle with the coefficients [E i], for real data. *)
Definition circle_field (Nphi : nat) (E : nat -> R) (phi : R) : R :=
  CSR_Spec.total 0 Rplus (polar_rows Float64 Nphi) (fun i => wave (order_in Float64 Nphi 0 i) i phi * E i).
(** The spin component [s] of a tensor at degree [ell], of values [f] of its regularity components, with the entries of the orthogonal
    matrix of the degree. *)
Definition spin_component (order : nat) (ell : Z) (f : TupleTools_Model.tuple -> R) (s : TupleTools_Model.tuple) : R :=
  sumR (map (fun r => Q ell r s * f r) (components order)).
(** All coefficients are zero but the [i]th, which is [tau]. *)
Definition only (i : nat) (tau : R) (c : nat -> R) : Prop := forall j, c j = if (j =? i)%nat then tau else 0.
