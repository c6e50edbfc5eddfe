(** What coordinates and domains should satisfy. *)
From stdpp Require Import gmap strings list.
From Verif Require Import Domains_Model.

Definition has_coord (b : basis) (c : coord) : Prop := c ∈ cs_coords (b_cs b).
(** The coordinates of the basis are consecutive ones of the distributor, and its dimension is their
    number. *)
Definition placed (coords : list coord) (b : basis) : Prop :=
  cs_coords (b_cs b) <> [] /\ b_dim b = length (cs_coords (b_cs b)) /\ exists l1 l2, coords = l1 ++ cs_coords (b_cs b) ++ l2.
(** No two bases share a coordinate. *)
Definition separate (l : list basis) : Prop := forall b b' c, b ∈ l -> b' ∈ l -> has_coord b c -> has_coord b' c -> b = b'.
(** [ax] is the position of the first coordinate of [b] among the distributor's. *)
Definition starts_at (coords : list coord) (b : basis) (ax : nat) : Prop :=
  exists c, head (cs_coords (b_cs b)) = Some c /\ coords !! ax = Some c /\ forall i, i < ax -> coords !! i <> Some c.
