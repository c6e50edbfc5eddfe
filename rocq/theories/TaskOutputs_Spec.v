(* What users expect of the outputs of tasks. *)
From Coq Require Import Arith List ZArith.
From Verif Require Import TaskOutputs_Model.
Import ListNotations.

(* A field that shows a function v of the modes, as a task asked: at the layout and
   the scales of the task, with the modes of the basis, and on the grid only those
   among them that the grid resolves. *)
Definition shows (o : obj) (r l sc : nat) (v : nat -> Z) : Prop :=
  olay o = l /\ osc o = sc /\ ores o = r /\
  forall k, oval o k =
    if k <? (if l =? 0 then r else Nat.min r sc) then v k else 0%Z.

(* A field that is in coefficient space and holds the modes of v. *)
Definition holds_coeffs (o : obj) (r : nat) (v : nat -> Z) : Prop :=
  olay o = 0 /\ forall k, oval o k = if k <? r then v k else 0%Z.

(* Dealias scales do not lose modes of the basis. *)
Definition dealiased (env : nat -> opdef) : Prop :=
  forall i, d_res (env i) <= d_dealias (env i).

(* The tasks of the file with number h, in order. *)
Definition file_tasks (h : nat) (xs : list (nat * kind * task)) : list task :=
  flat_map (fun x => match x with
    | (h', File, t) => if h' =? h then [t] else [] | _ => [] end) xs.

(* No entry of a list of tasks is for the same key of the same dictionary. *)
Definition no_entry (h name : nat) (xs : list (nat * kind * task)) : Prop :=
  forall t, In (h, Dict, t) xs -> t_name t <> name.

(* The states that the program reaches: solvers build the system of right-hand
   sides first, and then handlers are evaluated, any number of times. *)
Definition reached (env : nat -> opdef) (store : bool) (is : list nat) (s : st) : Prop :=
  exists es, s = history env store es (fst (build_system env is start)).

(* An operator that no task of some handlers evaluates, inside or at the root of
   its expression. *)
Definition not_evaluated (i : nat) (hs : list handler) : Prop :=
  forall h t, In h hs -> In t (h_tasks h) -> i <> t_op t /\ ~ In i (t_inner t).
