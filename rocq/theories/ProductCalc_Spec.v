(** Products of Cartesian and polar coordinates as coordinates of Euclidean space. *)
From Coq Require Import List Arith Reals Bool.
From Coquelicot Require Import Coquelicot.
Import ListNotations.
From Verif Require Import ProductCalc_Model.
Local Open Scope R_scope.

(** The Cartesian coordinates of the point with coordinates [p]: azimuth and radius become abscissa and ordinate. *)
Definition fplace (c : factor) (s : nat) (p : point) : point :=
  match c with
  | Cartesian _ => p
  | Polar => upd (upd p s (p (s + 1)%nat * cos (p s))) (s + 1) (p (s + 1)%nat * sin (p s))
  end.
Fixpoint place (cs : list factor) (s : nat) (p : point) : point :=
  match cs with [] => p | c :: cs => place cs (s + dim c) (fplace c s p) end.

(** The unit vectors of the coordinates at [p], by their Cartesian components: row [i] is along the coordinate [i]. *)
Definition fframe (c : factor) (s : nat) (p : point) (i j : nat) : R :=
  match c, i, j with
  | Cartesian _, _, _ => if Nat.eqb i j then 1 else 0
  | Polar, O, O => - sin (p s)
  | Polar, O, _ => cos (p s)
  | Polar, _, O => cos (p s)
  | Polar, _, _ => sin (p s)
  end.
Fixpoint frame (cs : list factor) (s : nat) (p : point) (i j : nat) : R :=
  match cs with
  | [] => 0
  | c :: cs =>
      match Nat.ltb i (dim c), Nat.ltb j (dim c) with
      | true, true => fframe c s p i j
      | false, false => frame cs (s + dim c) p (i - dim c) (j - dim c)
      | _, _ => 0
      end
  end.

(** No radius vanishes at [p]. *)
Fixpoint off_axis (cs : list factor) (s : nat) (p : point) : Prop :=
  match cs with [] => True | c :: cs => match c with Polar => p (s + 1)%nat <> 0 | _ => True end /\ off_axis cs (s + dim c) p end.

(** A function of the Cartesian coordinates that is differentiable as a function of any two of them. *)
Definition differentiable (F : scalar) : Prop := forall (q : point) i j x y, i <> j ->
  exists lx ly, differentiable_pt_lim (fun x y => F (upd (upd q i x) j y)) x y lx ly.

(** The components along the coordinates of the vector with Cartesian components [V]. *)
Definition along (cs : list factor) (s : nat) (p : point) (V : nat -> R) (i : nat) : R := total (dims cs) (fun j => frame cs s p i j * V j).

(** The curl of Euclidean space, by Cartesian components in the order of the axes [s], [s+1], [s+2]. *)
Definition curl (s : nat) (U : nat -> scalar) (q : point) (i : nat) : R :=
  match i with
  | O => pd (s + 1) (U 2%nat) q - pd (s + 2) (U 1%nat) q
  | S O => pd (s + 2) (U 0%nat) q - pd s (U 2%nat) q
  | _ => pd s (U 1%nat) q - pd (s + 1) (U 0%nat) q
  end.
(** The orientation of three vectors. *)
Definition orientation (e : nat -> nat -> R) : R :=
  e 0%nat 0%nat * (e 1%nat 1%nat * e 2%nat 2%nat - e 1%nat 2%nat * e 2%nat 1%nat) -
  e 0%nat 1%nat * (e 1%nat 0%nat * e 2%nat 2%nat - e 1%nat 2%nat * e 2%nat 0%nat) +
  e 0%nat 2%nat * (e 1%nat 0%nat * e 2%nat 1%nat - e 1%nat 1%nat * e 2%nat 0%nat).
