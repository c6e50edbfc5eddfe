(** Tensor fields on disks and annuli, by their spin components as functions of azimuth and radius. *)
From Coq Require Import List ZArith Reals.
Import ListNotations.
From Coquelicot Require Import Coquelicot.
From Verif Require Import SphericalVec_Model SphericalVec_Spec PolarVec_Model PolarVec_Spec.
Local Open Scope R_scope.

(** The component [i] of the field with coefficients [x] of its orders, of which the order [m] has [size m] for every component. *)
Definition plane (mass : R -> R -> R) (g : flat) (k : nat) (sig : list slot) (size : Z -> nat) (orders : list Z) (x : Z -> vectors) (i : index) (phi r : R) : C :=
  csum orders (fun m => Cmult (function_of (size m) (x m i) (flat_modes mass g k (m + spintotal sig i)%Z) r) (cos (IZR m * phi), sin (IZR m * phi))).
(** The radius and azimuth parts of the first index, from the components - and +. *)
Definition radius_part (u : index -> C) (i : index) : C := (RtoC (/ sqrt 2) * (u (1%nat :: i) + u (0%nat :: i)))%C.
Definition azimuth_part (u : index -> C) (i : index) : C := (RtoC (/ sqrt 2) * (- Ci * (u (1%nat :: i) - u (0%nat :: i))))%C.
(** For each order the coefficients [u] are what an operator makes of [x]. *)
Definition each_order (orders : list Z) (size : Z -> nat) (op : nat -> Z -> vectors -> option vectors) (x u : Z -> vectors) : Prop :=
  forall m, In m orders -> (1 <= size m)%nat /\ op (size m) m (x m) = Some (u m).
