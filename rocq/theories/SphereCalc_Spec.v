(** Tensor fields on the sphere, by their spin components as functions of azimuth and colatitude. *)
From Coq Require Import List ZArith Reals.
Import ListNotations.
From Coquelicot Require Import Coquelicot.
From Verif Require Import SphereOps_Model SphereOps_Spec SphericalVec_Spec Harmonics_Spec.
Local Open Scope R_scope.

Section Mass.
Context (mass : R -> R -> R).
(** The function of colatitude of a mode of order [m] and degree [l] of a component of spin [s]; components have no modes of degrees
    below the lowest. *)
Definition shape (m s l : Z) (theta : R) : R := if (lowest m s <=? l)%Z then harmonic mass m s l (cos theta) else 0.
(** The component [i] of the field with the coefficients [c] of its modes (orders and degrees). *)
Definition component (modes : list (Z * Z)) (c : index -> Z * Z -> C) (i : index) (phi theta : R) : C :=
  csum modes (fun ml => Cmult (Cmult (c i ml) (cos (IZR (fst ml) * phi), sin (IZR (fst ml) * phi))) (RtoC (shape (fst ml) (spin i) (snd ml) theta))).
(** The colatitude and azimuth parts of the first index, from the components - and +. *)
Definition theta_part (u : index -> C) (i : index) : C := (RtoC (/ sqrt 2) * (u (1%nat :: i) + u (0%nat :: i)))%C.
Definition phi_part (u : index -> C) (i : index) : C := (RtoC (/ sqrt 2) * (- Ci * (u (1%nat :: i) - u (0%nat :: i))))%C.
End Mass.
(** What the library does to complex coefficients of a mode: the same to both parts. *)
Definition on_modes (op : Z -> (index -> R) -> index -> R) (c : index -> Z * Z -> C) (j : index) (ml : Z * Z) : C := (op (snd ml) (fun i => Re (c i ml)) j, op (snd ml) (fun i => Im (c i ml)) j).
