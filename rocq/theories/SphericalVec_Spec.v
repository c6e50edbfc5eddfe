(** Tensor fields in balls and shells, by their regularity components. *)
From Coq Require Import List ZArith Reals.
From Coquelicot Require Import Coquelicot.
Import ListNotations.
From Verif Require Import Intertwiner_Spec Radial_Spec SphericalVec_Model.
Local Open Scope R_scope.

(** Bases with parameters in their ranges. *)
Definition proper (g : geometry) (k : nat) : Prop :=
  match g with Ball radius alpha => 0 < radius /\ -1 < alpha + INR k | Shell inner outer a b => 0 < inner /\ inner < outer /\ -1 < a /\ -1 < b end.
(** Their radial functions for components of degree [l] and parameter [k]. *)
Definition modes (mass : R -> R -> R) (g : geometry) (k : nat) (l : Z) (n : nat) (r : R) : R :=
  match g with Ball radius alpha => zernike mass 3 radius (alpha + INR k) (Z.to_nat l) n r | Shell inner outer a b => shell_function mass inner outer a b k n r end.
(** The values of components -, +, 0; components of a rank; their degree; those that exist. *)
Definition value (a : nat) : Z := match a with 0%nat => (-1)%Z | 1%nat => 1%Z | _ => 0%Z end.
Definition is_component (rank : nat) (i : index) : Prop := length i = rank /\ List.Forall (fun a => (a < 3)%nat) i.
Definition degree (ell : Z) (i : index) : Z := (ell + sumZ (map value i))%Z.
Definition present (ell : Z) (i : index) : Prop := regularity_exists ell (map value i).

(** Complex functions of the radius with given coefficients, and their derivatives. *)
Definition function_of (N : nat) (c : nat -> C) (phi : nat -> R -> R) (r : R) : C := (series N (fun n => Re (c n)) phi r, series N (fun n => Im (c n)) phi r).
Definition has_derivative (f : R -> C) (r : R) (e : C) : Prop := is_derive (fun t => Re (f t)) r (Re e) /\ is_derive (fun t => Im (f t)) r (Im e).
(** Equal components, of a rank. *)
Definition agree (rank N : nat) (u v : vectors) : Prop := forall i, is_component rank i -> forall n, (n < N)%nat -> u i n = v i n.

(** Vectors of all components, and products with matrices. *)
Definition csum {A} (l : list A) (f : A -> C) : C := fold_right Cplus (RtoC 0) (map f l).
Definition ctimes (M : list (list C)) (v : list C) : list C := map (fun row => csum (combine row v) (fun p => Cmult (fst p) (snd p))) M.

(** The factors of the components [-] and [+] of a gradient. *)
Definition lower (l : Z) : R := sqrt (IZR l / (2 * IZR l + 1)).
Definition upper (l : Z) : R := sqrt (IZR (l + 1) / (2 * IZR l + 1)).
Definition rsum {A} (l : list A) (f : A -> R) : R := fold_right Rplus 0 (map f l).
Definition rtimes (M : list (list R)) (v : list R) : list R := map (fun row => rsum (combine row v) (fun p => fst p * snd p)) M.
(** Pairs of real coefficients, as complex numbers. *)
Definition parts_of (x : vectors) (y : pairs) : Prop := forall i n, y i false n = Re (x i n) /\ y i true n = Im (x i n).
(** All components at all elements, one after another. *)
Definition stacked (rank ms : nat) (ells : list Z) (size : Z -> nat) (x : index -> element -> C) : list C := flat_map (fun i => map (x i) (elements ms ells size)) (indices rank).
Definition stacked_pairs (rank N : nat) (x : pairs) : list R := flat_map (fun i => map (x i false) (seq 0 N) ++ map (x i true) (seq 0 N)) (indices rank).
