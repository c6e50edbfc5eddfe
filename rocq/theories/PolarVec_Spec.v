(** Tensor fields on disks and annuli, by their spin components. *)
From Coq Require Import List ZArith Reals.
From Coquelicot Require Import Coquelicot.
Import ListNotations.
From Verif Require Import Radial_Spec SphericalVec_Model SphericalVec_Spec PolarVec_Model.
Local Open Scope R_scope.

(** Bases with parameters in their ranges; their radial functions for components of order and spin [l] in all and parameter [k]. *)
Definition fit (g : flat) (k : nat) : Prop := match g with Disk radius alpha => 0 < radius /\ -1 < alpha + INR k | Annulus inner outer a b => 0 < inner /\ inner < outer /\ -1 < a /\ -1 < b end.
Definition flat_modes (mass : R -> R -> R) (g : flat) (k : nat) (l : Z) (n : nat) (r : R) : R :=
  match g with Disk radius alpha => zernike mass 2 radius (alpha + INR k) (Z.abs_nat l) n r | Annulus inner outer a b => shell_function mass inner outer a b k n r end.
(** Components of a signature. *)
Definition component_of (sig : list slot) (i : index) : Prop := Forall2 (fun s a => (a < dim s)%nat) sig i.
Definition alike (sig : list slot) (N : nat) (u v : vectors) : Prop := forall i, component_of sig i -> forall n, (n < N)%nat -> u i n = v i n.
(** All components at all elements, one after another. *)
Definition pstacked (sig : list slot) (ms N : nat) (x : index -> nat * nat -> C) : list C := flat_map (fun i => map (x i) (pelements ms N)) (components sig).
