(** Synchronised blocks: [Sync], [RotateProcesses] and [parallel_mkdir] of dedalus/tools/parallel.py.

    Simplifications.  The processes of one communicator are run in any order, one action or one half of a barrier at a time.  A barrier is as MPI documents it: a
    process that has entered it leaves it only after all processes of the communicator have entered it.  What the blocks do is a list of actions that do not
    communicate, cut short where an exception is raised ([__exit__] runs either way); an exception after the block is not followed further. *)
From Coq Require Import List Arith Bool.
Import ListNotations.

Section Actions.
Context {A : Type}.
Inductive instr := Barrier | Act (a : A).
Notation program := (list instr).
(** A process: what remains to do, how many barriers it has entered, and whether it is inside one (then the first instruction). *)
Record proc := Proc { todo : program; entered : nat; waiting : bool }.
Record state := State { procs : nat -> proc; trace : list (nat * A) }.
Definition upd (f : nat -> proc) (p : nat) (x : proc) : nat -> proc := fun q => if q =? p then x else f q.
Definition start (prog : nat -> program) : state := State (fun p => Proc (prog p) 0 false) [].
(** Process [p] of [n] gets a turn; nothing happens if it cannot go on. *)
Definition turn (n : nat) (s : state) (p : nat) : state :=
  if p <? n then
    let x := procs s p in
    match todo x with
    | [] => s
    | Act a :: r => State (upd (procs s) p (Proc r (entered x) false)) (trace s ++ [(p, a)])
    | Barrier :: r =>
        if waiting x then
          if forallb (fun q => entered x <=? entered (procs s q)) (seq 0 n) then State (upd (procs s) p (Proc r (entered x) false)) (trace s) else s
        else State (upd (procs s) p (Proc (todo x) (S (entered x)) true)) (trace s)
    end
  else s.
Definition run (n : nat) (prog : nat -> program) (schedule : list nat) : state := fold_left (turn n) schedule (start prog).

(** parallel.py:24-37: [Sync.__enter__] and [__exit__]; [with] runs them around the block. *)
Definition sync_enter (enter : bool) : program := if enter then [Barrier] else [].
Definition sync_exit (exit : bool) : program := if exit then [Barrier] else [].
Definition with_sync (enter exit : bool) (block : list A) : program := sync_enter enter ++ map Act block ++ sync_exit exit.
(** 48-60: [RotateProcesses]. *)
Definition rotate_enter (size rank : nat) : program := repeat Barrier rank.
Definition rotate_exit (size rank : nat) : program := repeat Barrier (size - rank).
Definition with_rotation (size rank : nat) (block : list A) : program := rotate_enter size rank ++ map Act block ++ rotate_exit size rank.
End Actions.
Arguments instr A : clear implicits. Arguments proc A : clear implicits. Arguments state A : clear implicits.

(** 72-79: [parallel_mkdir]; [Create] is [if not path.exists(): path.mkdir()]; [Use]: what a process does after the call returns. *)
Inductive mkdir_action := Create | Use.
Definition parallel_mkdir (rank : nat) : list (instr mkdir_action) := with_sync false true (if rank =? 0 then [Create] else []).
