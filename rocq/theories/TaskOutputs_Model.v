(* Model of what the evaluator does with the outputs of tasks: storage of the
   outputs in operators, dealiasing, copies of outputs that several tasks share,
   and the dictionary, file and system handlers.

   Simplifications, for the whole file:
   - one axis is transformed, so layout 0 is coefficient space and every other
     layout is grid space, in some distribution over processes; the data of a
     field is the function of the mode number that it stands for;
   - scales are given by the number of grid points they stand for;
   - the oscillation through layouts (evaluator.py:114-129), which ends with
     every task evaluated, is one pass over the tasks, in which each operator
     moves its arguments to the layout it works in;
   - locked fields are left out;
   - a fresh uuid (evaluator.py:99-100) is the next value of a counter. *)
From Coq Require Import Arith List ZArith Bool.
Import ListNotations.

(* A field: its resolution, layout, scales and data (field.py:530-560). *)
Record obj := mkobj { ores : nat; olay : nat; osc : nat; oval : nat -> Z }.

(* Modes below a number of modes, and zero above. *)
Definition trunc (n : nat) (v : nat -> Z) : nat -> Z :=
  fun k => if k <? n then v k else 0%Z.

(* Field.require_coeff_space (field.py:683-690): the forward transform keeps the
   modes of the basis. *)
Definition to_coeff (o : obj) : obj :=
  if olay o =? 0 then o else mkobj (ores o) 0 (osc o) (trunc (ores o) (oval o)).

(* Field.change_scales (field.py:631-649). *)
Definition change_scales (s : nat) (o : obj) : obj :=
  if osc o =? s then o
  else let c := to_coeff o in mkobj (ores c) (olay c) s (oval c).

(* Field.change_layout (field.py:651-662): going to the grid keeps the modes that
   the grid resolves, and going between grid layouts moves data only. *)
Definition change_layout (l : nat) (o : obj) : obj :=
  if l =? 0 then to_coeff o
  else if olay o =? 0 then mkobj (ores o) l (osc o) (trunc (osc o) (oval o))
  else mkobj (ores o) l (osc o) (oval o).

(* What is fixed about an operator: the resolution of its output, the dealias
   scales, the layout it works in, and its arguments that are operators
   (future.py:44-58). *)
Record opdef := mkop { d_res : nat; d_dealias : nat; d_lay : nat; d_args : list nat }.

(* A task of a handler (evaluator.py:278-308): the operators inside its
   expression in the order in which they are evaluated, the operator at its root,
   and the layout, scales and name that were asked for. *)
Record task := mktask { t_inner : list nat; t_op : nat; t_lay : nat; t_sc : nat; t_name : nat }.

(* Kinds of handlers: DictionaryHandler (evaluator.py:322-337), H5FileHandlerBase
   (evaluator.py:366), SystemHandler (evaluator.py:340-363). *)
Inductive kind := Dict | File | Sys.

Record handler := mkh { h_id : nat; h_kind : kind; h_tasks : list task }.

(* The state: fields and their number, the counter of uuids, for each operator its
   stored output (Future.out) and the last evaluation with its output
   (Future.last_id, Future.last_out), for each handler its dictionary and its
   file. *)
Record st := mkst {
  heap : nat -> obj; nxt : nat; uid : nat;
  outs : nat -> option nat; last : nat -> option (nat * nat);
  dicts : nat -> nat -> option nat; files : nat -> list (nat * obj) }.

Definition upd {A} (f : nat -> A) (i : nat) (x : A) : nat -> A :=
  fun j => if j =? i then x else f j.

Definition set_heap (s : st) (o : nat) (x : obj) : st :=
  mkst (upd (heap s) o x) (nxt s) (uid s) (outs s) (last s) (dicts s) (files s).

(* A new field (field.py:550-575). *)
Definition alloc (s : st) (x : obj) : st * nat :=
  (mkst (upd (heap s) (nxt s) x) (S (nxt s)) (uid s) (outs s) (last s) (dicts s) (files s),
   nxt s).

Definition set_out (s : st) (i o : nat) : st :=
  mkst (heap s) (nxt s) (uid s) (upd (outs s) i (Some o)) (last s) (dicts s) (files s).

Definition set_last (s : st) (i : nat) (p : nat * nat) : st :=
  mkst (heap s) (nxt s) (uid s) (outs s) (upd (last s) i (Some p)) (dicts s) (files s).

(* A field that was just built, with the data of its new buffer
   (field.py:476-485). *)
Definition blank (r : nat) : obj := mkobj r 0 r (fun _ => 0%Z).

Section Evaluate.
Variable env : nat -> opdef.      (* the operators *)
Variable store : bool.            (* the option STORE_OUTPUTS (future.py:19) *)

(* Future.get_out and build_out (future.py:208-223). *)
Definition get_out (i : nat) (s : st) : st * nat :=
  match outs s i with
  | Some o => (s, o)
  | None => let (s1, o) := alloc s (blank (d_res (env i))) in
            (if store then set_out s1 i o else s1, o)
  end.

(* The move of an argument to the layout in which an operator works
   (evaluator.py:114-129). *)
Definition move (id l : nat) (s : st) (a : nat) : st :=
  match last s a with
  | Some (j, o) => if j =? id then set_heap s o (change_layout l (heap s o)) else s
  | None => s
  end.

(* Future.evaluate (future.py:149-206), with the option STORE_LAST_DEFAULT on: the
   output of the same evaluation is returned if there is one; otherwise the
   operation is written to the output, at the dealias scales. The values of the
   operations are given by vals. *)
Definition eval_node (vals : nat -> nat -> Z) (id : nat) (s : st) (i : nat) : st :=
  let run :=
    let s1 := fold_left (move id (d_lay (env i))) (d_args (env i)) s in
    let (s2, o) := get_out i s1 in
    let r := d_res (env i) in
    let n := if d_lay (env i) =? 0 then r else d_dealias (env i) in
    set_last (set_heap s2 o (mkobj r (d_lay (env i)) (d_dealias (env i)) (trunc n (vals i))))
             i (id, o) in
  match last s i with
  | Some (j, o) => if j =? id then s else run
  | None => run
  end.

(* The output that the evaluation of a task returns. *)
Definition out_of (s : st) (i : nat) : nat :=
  match last s i with Some (_, o) => o | None => 0 end.

Definition eval_task (vals : nat -> nat -> Z) (id : nat) (s : st) (t : task) : st :=
  eval_node vals id (fold_left (eval_node vals id) (t_inner t) s) (t_op t).

(* Evaluator.attempt_tasks (evaluator.py:194-204). *)
Fixpoint attempt (vals : nat -> nat -> Z) (id : nat) (ts : list task) (s : st) : st * list nat :=
  match ts with
  | [] => (s, [])
  | t :: ts =>
      let s1 := eval_task vals id s t in
      let (s2, os) := attempt vals id ts s1 in
      (s2, out_of s1 (t_op t) :: os)
  end.

(* Evaluator.require_coeff_space (evaluator.py:148-163). *)
Definition require_coeff (os : list nat) (s : st) : st :=
  fold_left (fun s o => set_heap s o (to_coeff (heap s o))) os s.

(* The copies of redundant outputs (evaluator.py:135-142, Field.copy
   field.py:618-622). *)
Fixpoint redundant (seen os : list nat) (s : st) : st * list nat :=
  match os with
  | [] => (s, [])
  | o :: os =>
      if existsb (Nat.eqb o) seen then
        let (s1, c) := alloc s (heap s o) in
        let (s2, cs) := redundant seen os s1 in (s2, c :: cs)
      else
        let (s2, cs) := redundant (o :: seen) os s in (s2, o :: cs)
  end.

(* The loops of the form "for handler in handlers: for task in handler.tasks". *)
Definition flat (hs : list handler) : list (nat * kind * task) :=
  flat_map (fun h => map (fun t => (h_id h, h_kind h, t)) (h_tasks h)) hs.

(* Handler.process of the three kinds (evaluator.py:332-337, 360-363, 588-593), for
   one task. *)
Definition process1 (s : st) (x : nat * kind * task) (o : nat) : st :=
  let '(h, k, t) := x in
  let s1 := set_heap s o (change_layout (t_lay t) (change_scales (t_sc t) (heap s o))) in
  match k with
  | Sys => s
  | Dict => mkst (heap s1) (nxt s1) (uid s1) (outs s1) (last s1)
                 (upd (dicts s1) h (upd (dicts s1 h) (t_name t) (Some o))) (files s1)
  | File => mkst (heap s1) (nxt s1) (uid s1) (outs s1) (last s1) (dicts s1)
                 (upd (files s1) h (files s1 h ++ [(t_name t, heap s1 o)]))
  end.

Fixpoint process (xs : list (nat * kind * task)) (os : list nat) (s : st) : st :=
  match xs, os with
  | x :: xs, o :: os => process xs os (process1 s x o)
  | _, _ => s
  end.

(* Evaluator.evaluate_handlers (evaluator.py:95-146). *)
Definition evaluate (vals : nat -> nat -> Z) (hs : list handler) (s : st) : st :=
  let id := uid s in
  let s0 := mkst (heap s) (nxt s) (S id) (outs s) (last s) (dicts s) (files s) in
  let xs := flat hs in
  let (s1, os) := attempt vals id (map snd xs) s0 in
  let s2 := require_coeff os s1 in
  let (s3, os') := redundant [] os s2 in
  process xs os' s3.

(* A history of evaluations, each with the values of the operations at its
   time. *)
Definition history (es : list ((nat -> nat -> Z) * list handler)) (s : st) : st :=
  fold_left (fun s e => evaluate (fst e) (snd e) s) es s.

(* SystemHandler.build_system (evaluator.py:343-358), which returns the list of
   fields. *)
Fixpoint build_system (is : list nat) (s : st) : st * list nat :=
  match is with
  | [] => (s, [])
  | i :: is =>
      let (s1, o) := alloc s (blank (d_res (env i))) in
      let (s2, os) := build_system is (set_out s1 i o) in
      (s2, o :: os)
  end.

End Evaluate.

(* The state before anything was evaluated. *)
Definition start : st :=
  mkst (fun _ => blank 0) 0 0 (fun _ => None) (fun _ => None) (fun _ _ => None) (fun _ => []).
