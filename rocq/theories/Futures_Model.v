(** Deferred evaluation: dedalus/core/future.py:43-262 ([Future]), dedalus/core/evaluator.py:95-205
    ([Evaluator.evaluate_handlers] and its helpers), dedalus/tools/general.py:49-59 ([oscillate]).

    Simplifications: the data of a field is one value of any type [V], which changes of layout and of
    dealias scales keep (core/field.py; the transforms are modelled elsewhere); operators are pure
    functions of the data of their operands; STORE_OUTPUTS and STORE_LAST_DEFAULT are on
    (dedalus.cfg:104, 107), so that every operator has one output field; there are no locked fields
    and no operands that are neither fields nor operators. *)
From stdpp Require Import list list_numbers.

(** Fields: the user's, and the output field of each operator (future.py:211-219). *)
Inductive fid := U (v : nat) | O (i : nat).
Global Instance fid_eq_dec : EqDecision fid.
Proof. solve_decision. Defined.

(** Operands: a field or an operator. *)
Inductive arg := AF (f : fid) | AN (j : nat).

(** What an operator class defines: [check_conditions] on the layouts of the operands,
    [enforce_conditions] as the new layouts of the operands, the layout of the output set by
    [operate], and the function computed. *)
Record op (V : Type) := Op {
  check : list nat -> bool; enforce : list nat -> list nat; out_layout : list nat -> nat; func : list V -> V }.
Global Arguments Op {V}. Global Arguments check {V}. Global Arguments enforce {V}.
Global Arguments out_layout {V}. Global Arguments func {V}.

(** An operator with [original_args] (future.py:43-63).  Operators are numbered in the order of their
    construction. *)
Record node (V : Type) := Node { n_op : op V; original_args : list arg }.
Global Arguments Node {V}. Global Arguments n_op {V}. Global Arguments original_args {V}.

(** The mutable state: layout and data of each field; [args] and [last_id] of each operator; and the
    calls of [operate] so far, newest first, with the identification number. *)
Record state (V : Type) := State {
  layout : fid -> nat; value : fid -> V; args : nat -> list arg; last_id : nat -> option nat;
  calls : list (nat * option nat) }.
Global Arguments State {V}. Global Arguments layout {V}. Global Arguments value {V}.
Global Arguments args {V}. Global Arguments last_id {V}. Global Arguments calls {V}.

Section Model.
  Context {V : Type}.
  Notation node := (node V).
  Notation state := (state V).

  Definition set_layout (f : fid) (l : nat) (s : state) : state :=
    State (fun f' => if decide (f' = f) then l else layout s f') (value s) (args s) (last_id s) (calls s).
  Definition set_value (f : fid) (x : V) (s : state) : state :=
    State (layout s) (fun f' => if decide (f' = f) then x else value s f') (args s) (last_id s) (calls s).
  Definition set_args (i : nat) (a : list arg) (s : state) : state :=
    State (layout s) (value s) (fun i' => if decide (i' = i) then a else args s i') (last_id s) (calls s).
  Definition set_last (i : nat) (a : option nat) (s : state) : state :=
    State (layout s) (value s) (args s) (fun i' => if decide (i' = i) then a else last_id s i') (calls s).
  Definition log_call (i : nat) (a : option nat) (s : state) : state :=
    State (layout s) (value s) (args s) (last_id s) ((i, a) :: calls s).

  (** The fields among the operands; all of them, after a complete substitution. *)
  Definition fields_of (l : list arg) : list fid := omap (fun a => match a with AF f => Some f | AN _ => None end) l.

  (** future.py:163-174: attempt the operators among [self.args], at the positions [ks], and substitute
      the results.  The second result is [all_eval]. *)
  Fixpoint eval_args (ev : nat -> state -> state * option fid) (i : nat) (ks : list nat) (s : state) : state * bool :=
    match ks with
    | [] => (s, true)
    | k :: ks =>
        match args s i !! k with
        | Some (AN j) =>
            let '(s, r) := ev j s in
            match r with
            | Some f => eval_args ev i ks (set_args i (<[k := AF f]> (args s i)) s)
            | None => let '(s, _) := eval_args ev i ks s in (s, false)
            end
        | _ => eval_args ev i ks s
        end
    end.

  (** [enforce_conditions]: change the layouts of the operands, in order. *)
  Definition enforce_layouts (o : op V) (fs : list fid) (s : state) : state :=
    foldl (fun s p => set_layout p.1 p.2 s) s (zip fs (enforce o (map (layout s) fs))).

  (** future.py:190-206: [operate] into the output field, [reset], update of the storage. *)
  Definition operate (nd : node) (i : nat) (id : option nat) (s : state) : state :=
    let fs := fields_of (args s i) in
    let l := out_layout (n_op nd) (map (layout s) fs) in
    let x := func (n_op nd) (map (value s) fs) in
    let s := log_call i id (set_value (O i) x (set_layout (O i) l s)) in
    let s := set_args i (original_args nd) s in
    match id with Some a => set_last i (Some a) s | None => s end.

  (** future.py:147-209, [evaluate] ([force] true) and [attempt] ([force] false); the result is the
      output field or [None].  [n] bounds the depth of the recursion. *)
  Fixpoint evaluate (g : list node) (n : nat) (id : option nat) (force : bool) (i : nat) (s : state) : state * option fid :=
    match n, g !! i with
    | S n, Some nd =>
        if match id with Some a => bool_decide (last_id s i = Some a) | None => false end then (s, Some (O i))
        else
          let s := match id with Some _ => set_last i None s | None => s end in
          let '(s, all_eval) := eval_args (evaluate g n id force) i (seq 0 (length (args s i))) s in
          if all_eval then
            let fs := fields_of (args s i) in
            if force then (operate nd i id (enforce_layouts (n_op nd) fs s), Some (O i))
            else if check (n_op nd) (map (layout s) fs) then (operate nd i id s, Some (O i))
            else (s, None)
          else (s, None)
    | _, _ => (s, None)
    end.

  (** The state when the operators have been built. *)
  Definition start (g : list node) (lay : fid -> nat) (val : fid -> V) : state :=
    State lay val (fun i => match g !! i with Some nd => original_args nd | None => [] end) (fun _ => None) [].

  (** evaluator.py:196-205: the tasks are operators; the result has the unfinished ones. *)
  Fixpoint attempt_tasks (g : list node) (id : option nat) (tasks : list nat) (s : state) : state * list nat :=
    match tasks with
    | [] => (s, [])
    | i :: tasks =>
        let '(s, r) := evaluate g (length g) id false i s in
        let '(s, unfinished) := attempt_tasks g id tasks s in
        (s, match r with Some _ => unfinished | None => i :: unfinished end)
    end.

  (** future.py:93-101: the fields below an operator, through its current operands. *)
  Fixpoint atoms (n : nat) (s : state) (i : nat) : list fid :=
    match n with
    | 0 => []
    | S n => a ← args s i; match a with AF f => [f] | AN j => atoms n s j end
    end.
  (** evaluator.py:184-194. *)
  Definition get_fields (n : nat) (s : state) (tasks : list nat) : list fid := remove_dups (i ← tasks; atoms n s i).

  (** [paths[index].increment] and [.decrement] (distributor.py): they transform data as being in the
      layout [index] (or [index + 1]) and label the fields accordingly.  [None]: some field is in
      another layout. *)
  Definition increment (index : nat) (fs : list fid) (s : state) : option state :=
    if decide (Forall (fun f => layout s f = index) fs) then Some (foldl (fun s f => set_layout f (index + 1) s) s fs) else None.
  Definition decrement (index : nat) (fs : list fid) (s : state) : option state :=
    if decide (Forall (fun f => layout s f = index + 1) fs) then Some (foldl (fun s f => set_layout f index s) s fs) else None.

  (** evaluator.py:146-163.  [layouts] are the fields by layout as they are at the start; the loop goes
      down from index [top]. *)
  Fixpoint coeff_loop (top : nat) (by_index : nat -> list fid) (current : list fid) (s : state) : option state :=
    match top with
    | 0 => Some s
    | S below =>
        let current := current ++ by_index top in
        match decrement below current s with Some s => coeff_loop below by_index current s | None => None end
    end.
  Definition require_coeff_space (fs : list fid) (s : state) : option state :=
    if decide (Forall (fun f => layout s f = 0) fs) then Some s
    else coeff_loop (max_list (map (layout s) fs)) (fun l => filter (fun f => layout s f = l) fs) [] s.

  (** general.py:49-59 on [range(n)]. *)
  Definition oscillate (n passes : nat) : list nat :=
    concat (replicate passes (seq 0 n ++ reverse (seq 1 (n - 2)))).

  (** The ways in which the evaluation ends: [StopIteration] of the exhausted iterator, or [Corrupt]:
      a transform applied to a field in another layout. *)
  Inductive outcome := Done (s : state) (steps : nat) | StopIteration (s : state) | Corrupt.

  (** evaluator.py:119-131.  [steps] counts the changes of layout. *)
  Fixpoint sweep (g : list node) (id : option nat) (indices : list nat) (current steps : nat) (tasks : list nat) (s : state) : outcome :=
    match tasks with
    | [] => Done s steps
    | _ =>
        match indices with
        | [] => StopIteration s
        | next :: indices =>
            let fields := get_fields (length g) s tasks in
            match (if decide (current < next) then increment current fields s else decrement next fields s) with
            | None => Corrupt
            | Some s =>
                let '(s, tasks) := attempt_tasks g id tasks s in
                sweep g id indices next (steps + 1) tasks s
            end
        end
    end.

  (** evaluator.py:95-135, up to the outputs; [n_layouts] is the number of layouts.  Copies of repeated
      outputs and their processing are not modelled. *)
  Definition evaluate_handlers (g : list node) (n_layouts : nat) (id : nat) (tasks : list nat) (s : state) : outcome :=
    let '(s, todo) := attempt_tasks g (Some id) tasks s in
    match require_coeff_space (get_fields (length g) s todo) s with
    | None => Corrupt
    | Some s =>
        let '(s, todo) := attempt_tasks g (Some id) todo s in
        match oscillate n_layouts 10 with
        | [] => StopIteration s
        | current :: indices =>
            match sweep g (Some id) indices current 0 todo s with
            | Done s steps =>
                match require_coeff_space (remove_dups (map O tasks)) s with Some s => Done s steps | None => Corrupt end
            | o => o
            end
        end
    end.
End Model.
Global Arguments outcome : clear implicits.
