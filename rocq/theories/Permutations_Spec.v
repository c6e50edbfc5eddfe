(** What an ordering of the degrees of freedom should be, independently of how it is computed. *)
From stdpp Require Import list list_numbers sorting.
From Verif Require Import Permutations_Model.

(** Number of degrees of freedom of an equation (or variable), and of a list of them. *)
Definition bsize (b : block) : nat := bcomps b * bmodes b.
Definition total (bs : list block) : nat := sum_list_with bsize bs.

(** A degree of freedom: mode [m] of component [c] of equation number [e]. *)
Record dof := Dof { de : nat; dc : nat; dm : nat }.
Definition is_dof (bs : list block) (x : dof) : Prop :=
  exists b, bs !! de x = Some b /\ dc x < bcomps b /\ dm x < bmodes b.

(** Its position in the input ordering Equations > Components > Modes. *)
Definition position (bs : list block) (x : dof) : nat :=
  match bs !! de x with
  | Some b => total (take (de x) bs) + dc x * bmodes b + dm x
  | None => 0
  end.

Definition dof_dim (bs : list block) (x : dof) : nat :=
  match bs !! de x with Some b => bdim b | None => 0 end.

(** The documented output ordering: dimension first (increasing if [first], else decreasing), then
    Modes > Components > Equations with interleaving, Modes > Equations > Components without. *)
Definition mode_before (interleave : bool) (x y : dof) : Prop :=
  dm x < dm y \/
  dm x = dm y /\
    if interleave then dc x < dc y \/ dc x = dc y /\ de x < de y
    else de x < de y \/ de x = de y /\ dc x < dc y.

Definition before (bs : list block) (first interleave : bool) (x y : dof) : Prop :=
  (if first then dof_dim bs x < dof_dim bs y else dof_dim bs y < dof_dim bs x) \/
  dof_dim bs x = dof_dim bs y /\ mode_before interleave x y.
