(** Order conditions of additive Runge-Kutta methods, by rooted trees with coloured nodes, and
    sums. *)
From Coq Require Import Reals.
From stdpp Require Import list.
From Verif Require Import RungeKutta_Model.
Local Open Scope R_scope.

Fixpoint sum_lt (n : nat) (f : nat -> R) : R := match n with O => 0 | S n' => sum_lt n' f + f n' end.

(** Rooted trees; a node is [true] for an implicit (H, stiff linear part) evaluation and [false]
    for an explicit one (A). *)
Inductive tree := Node (implicit_node : bool) (children : list tree).

Fixpoint order (t : tree) : nat := match t with Node _ ch => S (list_sum (map order ch)) end.
(** Density: gamma(t) = |t| times the densities of the subtrees. *)
Fixpoint density (t : tree) : R :=
  match t with Node _ ch => INR (order t) * foldr Rmult 1 (map density ch) end.

Section Conditions.
  (** [s]: index of the last stage; [A i j], [H i j]: the two tableaus on stages 0..s. *)
  Context (s : nat) (A H : nat -> nat -> R).
  Definition part (c : bool) : nat -> nat -> R := if c then H else A.
  Definition colour (t : tree) : bool := match t with Node c _ => c end.
  (** Elementary weight at stage i: product over the subtrees u of sum_j a^{u}_{ij} weight u j. *)
  Fixpoint weight (t : tree) (i : nat) : R :=
    match t with
    | Node _ ch => foldr Rmult 1 (map (fun u => sum_lt (S s) (fun j => part (colour u) i j * weight u j)) ch)
    end.
  (** The result is the last stage, so the weights of the step are the last rows. *)
  Definition step_weight (t : tree) : R := sum_lt (S s) (fun j => part (colour t) s j * weight t j).
  (** Numerical and exact solution of every additively split system agree to order p. *)
  Definition order_conditions (p : nat) : Prop :=
    forall t, (order t <= p)%nat -> step_weight t = 1 / density t.
  (** The same with all nodes of one colour: order of the method for unsplit systems. *)
  Fixpoint all_colour (c : bool) (t : tree) : Prop :=
    match t with Node c' ch => c' = c /\ foldr and True (map (all_colour c) ch) end.
  Definition order_conditions_for (c : bool) (p : nat) : Prop :=
    forall t, all_colour c t -> (order t <= p)%nat -> step_weight t = 1 / density t.
End Conditions.

(** Tableau entries, zero outside. *)
Definition at_ (A : list (list R)) (i j : nat) : R := match entry A i j with Some x => x | None => 0 end.
Definition at1 (c : list R) (i : nat) : R := match c !! i with Some x => x | None => 0 end.
(** Array dimensions of a tableau class and zero first abscissa. *)
Definition well_shaped (tab : tableau) : Prop :=
  let s := stages tab in
  (0 < s)%nat /\ length (abscissae tab) = S s /\ abscissae tab !! O = Some 0 /\
  length (explicit tab) = S s /\ Forall (fun r => length r = S s) (explicit tab) /\
  length (implicit tab) = S s /\ Forall (fun r => length r = S s) (implicit tab).
