(* What users expect of right-hand sides. *)
From Coq Require Import List ZArith.
From Verif Require Import FreshRHS_Model.
Import ListNotations.
Open Scope Z_scope.

(* Every right-hand side that was used is that of the state at its time. *)
Definition fresh {X V} (rhs : X -> V) (used : list (X * V)) : Prop :=
  forall x v, In (x, v) used -> v = rhs x.

(* Histories that load only iterations which come after all the steps that were
   made: i is the current iteration and m the last iteration of a step. *)
Fixpoint forward {X} (i m : Z) (l : list (action X)) : Prop :=
  match l with
  | [] => True
  | Step n :: l => forward (i + 1) (Z.max m i) l
  | Edit _ :: l | Evaluate :: l => forward i m l
  | Load j _ :: l => m < j /\ forward j m l
  end.

(* Histories without loading. *)
Definition no_load {X} (l : list (action X)) : Prop :=
  forall j x, ~ In (Load j x) l.
