(** Tensor fields in balls and shells, by their spin components as functions of azimuth, colatitude and radius. *)
From Coq Require Import List ZArith Reals.
Import ListNotations.
From Coquelicot Require Import Coquelicot.
From Verif Require Import Intertwiner_Model SphericalVec_Model SphericalVec_Spec SphereCalc_Spec.
Local Open Scope R_scope.

(** The spin component [i], at degree [l], of the regularity components [f] (C55). *)
Definition spin_value (rank : nat) (l : Z) (f : index -> C) (i : index) : C := csum (indices rank) (fun b => Cmult (RtoC (Q l (map value b) (map value i))) (f b)).
Section Mass.
Context (mass : R -> R -> R) (g : geometry).
(** The values at a radius of the regularity components of degree [l] with coefficients [x], of which there are [N] for every component. *)
Definition at_radius (k N : nat) (l : Z) (x : vectors) (r : R) (b : index) : C := function_of N (x b) (SphericalVec_Spec.modes mass g k (degree l b)) r.
(** The spin component [i] of the field with the coefficients [x] of its modes (orders and degrees). *)
Definition volume (k rank : nat) (size : Z * Z -> nat) (modes : list (Z * Z)) (x : Z * Z -> vectors) (i : index) (phi theta r : R) : C :=
  component mass modes (fun j ml => spin_value rank (snd ml) (at_radius k (size ml) (snd ml) (x ml) r) j) i phi theta.
End Mass.
(** How unit vectors turn on the way in the direction [a] (0 for -, 1 for +), for each index in turn: the radial vector towards the
    direction, the opposite of the direction back to the radial vector. *)
Fixpoint tilt (a : nat) (T : index -> C) (i : index) : C :=
  match i with
  | [] => RtoC 0
  | x :: i => Cplus (Cminus (if (x =? 1 - a)%nat then T (2%nat :: i) else RtoC 0) (if (x =? 2)%nat then T (a :: i) else RtoC 0)) (tilt a (fun j => T (x :: j)) i)
  end.
(** Both directions, as a first index. *)
Definition tilts (T : index -> C) (i : index) : C := match i with a :: i => tilt a T i | [] => RtoC 0 end.
(** For each mode the coefficients [u] are what an operator makes of [x]. *)
Definition each_mode (modes : list (Z * Z)) (size : Z * Z -> nat) (op : nat -> Z -> vectors -> option vectors) (x u : Z * Z -> vectors) : Prop :=
  forall ml, In ml modes -> (0 <= snd ml)%Z /\ (1 <= size ml)%nat /\ op (size ml) (snd ml) (x ml) = Some (u ml).
