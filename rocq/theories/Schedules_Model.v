(** Output schedules: dedalus/core/evaluator.py:231-275 ([Handler.__init__],
    [Handler.check_schedule]) and 90-93 ([Evaluator.evaluate_scheduled]).

    Times and cadences are rational numbers, of which the floating point numbers of the program
    are a subset; the rounding of the arithmetic on them is not modelled. *)
From Coq Require Import List ZArith QArith Qround Qabs.
Import ListNotations.
Open Scope Z_scope.

(** The keyword arguments [**kw].  Initial value problems pass all four
    (timesteppers.py:150, 608); boundary value problems pass the iteration only
    (solvers.py:395, 473), which is [None] for the other three. *)
Record args := Args { iteration : Z; wall_time : option Q; sim_time : option Q; timestep : option Q }.

(** evaluator.py:231-244.  [None] is Python's [None]; the custom schedule is a pure function. *)
Record handler := Handler {
  wall_dt : option Q; sim_dt : option Q; iter : option Z; custom_schedule : option (args -> bool);
  last_wall_div : Z; last_sim_div : Z; last_iter_div : Z }.

(** evaluator.py:231-244, the initial divisors. *)
Definition new_handler (w s : option Q) (i : option Z) (c : option (args -> bool)) : handler :=
  Handler w s i c (-1) (-1) (-1).

(** The truth value of [self.wall_dt], [self.sim_dt] and [self.iter] (evaluator.py:249, 255, 266):
    false for [None] and for zero. *)
Definition truthy_Q (x : option Q) : option Q :=
  match x with Some q => if Qeq_bool q 0 then None else Some q | None => None end.
Definition truthy_Z (x : option Z) : option Z :=
  match x with Some n => if n =? 0 then None else Some n | None => None end.

(** [int(np.round(x))], evaluator.py:260: to the nearest integer, halves to the even one. *)
Definition np_round (x : Q) : Z :=
  let f := Qfloor x in
  match Qcompare (x - inject_Z f)%Q (1#2)%Q with
  | Lt => f
  | Gt => f + 1
  | Eq => if Z.even f then f else f + 1
  end.

(** [a < b] on rationals. *)
Definition Qlt_bool (a b : Q) : bool := negb (Qle_bool b a).

(** evaluator.py:249-253.  The result is the decision and the new divisor; [None] is the
    [KeyError] of a missing keyword. *)
Definition check_wall (h : handler) (kw : args) : option (bool * Z) :=
  match truthy_Q (wall_dt h) with
  | None => Some (false, last_wall_div h)
  | Some w =>
      match wall_time kw with
      | None => None
      | Some t =>
          let wall_div := Qfloor (t / w) in
          if last_wall_div h <? wall_div then Some (true, wall_div)
          else Some (false, last_wall_div h)
      end
  end.

(** evaluator.py:255-265. *)
Definition check_sim (h : handler) (kw : args) : option (bool * Z) :=
  match truthy_Q (sim_dt h) with
  | None => Some (false, last_sim_div h)
  | Some s =>
      match sim_time kw, timestep kw with
      | Some t, Some dt =>
          let closest_sim_div := np_round (t / s) in
          if last_sim_div h <? closest_sim_div then
            let closest_sim_time := (inject_Z closest_sim_div * s)%Q in
            if Qlt_bool (Qabs (t - closest_sim_time)) (Qabs (t + dt - closest_sim_time))
            then Some (true, closest_sim_div)
            else Some (false, last_sim_div h)
          else Some (false, last_sim_div h)
      | _, _ => None
      end
  end.

(** evaluator.py:266-271. *)
Definition check_iter (h : handler) (kw : args) : bool * Z :=
  match truthy_Z (iter h) with
  | None => (false, last_iter_div h)
  | Some n =>
      let iter_div := iteration kw / n in
      if last_iter_div h <? iter_div then (true, iter_div) else (false, last_iter_div h)
  end.

(** evaluator.py:272-274. *)
Definition check_custom (h : handler) (kw : args) : bool :=
  match custom_schedule h with Some c => c kw | None => false end.

(** evaluator.py:246-275.  [None] is the [KeyError]; what it leaves of the handler is not
    modelled. *)
Definition check_schedule (h : handler) (kw : args) : option (bool * handler) :=
  match check_wall h kw with
  | None => None
  | Some (b1, w) =>
      match check_sim h kw with
      | None => None
      | Some (b2, s) =>
          let '(b3, i) := check_iter h kw in
          let b4 := check_custom h kw in
          Some (b1 || b2 || b3 || b4,
                Handler (wall_dt h) (sim_dt h) (iter h) (custom_schedule h) w s i)%bool
      end
  end.

(** evaluator.py:90-93: the decisions for all handlers, and their new states. *)
Fixpoint check_all (hs : list handler) (kw : args) : option (list bool * list handler) :=
  match hs with
  | [] => Some ([], [])
  | h :: hs =>
      match check_schedule h kw with
      | None => None
      | Some (b, h') =>
          match check_all hs kw with
          | None => None
          | Some (bs, hs') => Some (b :: bs, h' :: hs')
          end
      end
  end.

(** A run: [evaluate_scheduled] is called once per step (timesteppers.py:150; for Runge-Kutta
    schemes only in the first stage, timesteppers.py:606-610).  The result is the list of
    decisions, one per step. *)
Fixpoint run (h : handler) (kws : list args) : option (list bool) :=
  match kws with
  | [] => Some []
  | kw :: kws =>
      match check_schedule h kw with
      | None => None
      | Some (b, h') => match run h' kws with None => None | Some bs => Some (b :: bs) end
      end
  end.

(** The same for a list of handlers: the rows are the steps. *)
Fixpoint run_all (hs : list handler) (kws : list args) : option (list (list bool)) :=
  match kws with
  | [] => Some []
  | kw :: kws =>
      match check_all hs kw with
      | None => None
      | Some (bs, hs') => match run_all hs' kws with None => None | Some r => Some (bs :: r) end
      end
  end.

(** timesteppers.py:104-150 and 561-608, as the schedule sees it: before each step the handlers are
    offered the current iteration, wall time, simulation time and the size of the step about to be
    taken; then the iteration (solvers.py:710) and the simulation time (timesteppers.py:187, 644)
    are advanced. *)
Fixpoint solver_args (it : Z) (t : Q) (steps : list (Q * Q)) : list args :=
  match steps with
  | [] => []
  | (wall, dt) :: steps =>
      Args it (Some wall) (Some t) (Some dt) :: solver_args (it + 1) (t + dt)%Q steps
  end.
