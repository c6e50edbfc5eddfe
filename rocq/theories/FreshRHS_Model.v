(* Model of when solvers evaluate their right-hand sides: the handler that solvers
   make for them (cadence of one iteration, group 'F') is scheduled like any other
   handler in the first stage of a step, and evaluated as a group in later stages.

   Simplifications: the state is one value of a type X, its evolution in each stage
   is any function of the state and of the right-hand side, and the right-hand side
   is any function of the state; the other handlers of the evaluator, which do not
   change these decisions (C21), are left out. *)
From Coq Require Import List ZArith QArith.
From Verif Require Import Schedules_Model.
Import ListNotations.
Open Scope Z_scope.

Section Solver.
Context {X V : Type}.
Variable rhs : X -> V.                  (* the expressions of the right-hand sides *)
Variable advance : X -> V -> X.         (* the solution of a stage *)

(* Attributes of solvers (solvers.py:345-356, 446-457, 560-590): the iteration, the
   handler of right-hand sides, the state, the data in the fields of right-hand
   sides. *)
Record solver := mksolver { it : Z; handlerF : handler; state : X; fields : V }.

(* The handler of right-hand sides (solvers.py:351, 452, 570). *)
Definition new_solver (x : X) (blank : V) : solver :=
  mksolver 0 (new_handler None None (Some 1) None) x blank.

(* Evaluator.evaluate_scheduled as the handler of right-hand sides sees it
   (evaluator.py:90-93): evaluation writes the fields. No time is needed, so that
   there is no exception; that case leaves the solver as it is. *)
Definition evaluate_scheduled (s : solver) : solver :=
  match check_schedule (handlerF s) (Args (it s) None None None) with
  | Some (true, h) => mksolver (it s) h (state s) (rhs (state s))
  | Some (false, h) => mksolver (it s) h (state s) (fields s)
  | None => s
  end.

(* Evaluator.evaluate_group('F') (evaluator.py:85-88), and evaluate_handlers of all
   handlers (solvers.py:411-415, 496-500, 749-753): there is no schedule. *)
Definition evaluate_group (s : solver) : solver :=
  mksolver (it s) (handlerF s) (state s) (rhs (state s)).

(* The solution of a stage from the fields of right-hand sides. The second result is
   what was used: the state and the right-hand side. *)
Definition solve_stage (s : solver) : solver * (X * V) :=
  (mksolver (it s) (handlerF s) (advance (state s) (fields s)) (fields s),
   (state s, fields s)).

(* Later stages of Runge-Kutta schemes (timesteppers.py:596-640). *)
Fixpoint later_stages (n : nat) (s : solver) : solver * list (X * V) :=
  match n with
  | O => (s, [])
  | S n => let (s1, u) := solve_stage (evaluate_group s) in
           let (s2, us) := later_stages n s1 in (s2, u :: us)
  end.

(* One step with a scheme of 1 + n stages (timesteppers.py:149-153, 596-640,
   solvers.py:683-711); with n = 0, a step of a multistep scheme, the solution of a
   linear boundary value problem (solvers.py:370-409) or a Newton iteration
   (solvers.py:470-494). *)
Definition step (n : nat) (s : solver) : solver * list (X * V) :=
  let (s1, u) := solve_stage (evaluate_scheduled s) in
  let (s2, us) := later_stages n s1 in
  (mksolver (it s2 + 1) (handlerF s2) (state s2) (fields s2), u :: us).

(* What users do with a solver: steps, changes of the data of the state, evaluation
   of handlers, and loading of a state with its iteration (solvers.py:632-672). *)
Inductive action := Step (n : nat) | Edit (x : X) | Evaluate | Load (i : Z) (x : X).

Definition act (a : action) (s : solver) : solver * list (X * V) :=
  match a with
  | Step n => step n s
  | Edit x => (mksolver (it s) (handlerF s) x (fields s), [])
  | Evaluate => (evaluate_group s, [])
  | Load i x => (mksolver i (handlerF s) x (fields s), [])
  end.

(* A history of actions, and everything that was used in it. *)
Fixpoint acts (l : list action) (s : solver) : solver * list (X * V) :=
  match l with
  | [] => (s, [])
  | a :: l => let (s1, u) := act a s in let (s2, us) := acts l s1 in (s2, u ++ us)
  end.

End Solver.
Arguments action X : clear implicits.
Arguments solver X V : clear implicits.
