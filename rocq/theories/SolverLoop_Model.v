(** The main loop of an initial value solver: dedalus/core/solvers.py, [InitialValueSolver].

    Simplifications.  A time stepper advances the data by a given function and the time by the step
    (timesteppers.py:187; 644 with a last stage at the end of the step).  The wall clock is any sequence of
    readings.  Logging, profiling and log_cadence are left out, except for the attributes that [log_stats]
    reads: reading one that was never set raises. *)
From Coq Require Import Reals.
From stdpp Require Import numbers list.
From Verif Require Import FlowTools_Model.

Inductive exn := ValueError | AttributeError | IOError | UserError.
Inductive outcome (A : Type) := Done (a : A) | Raised (e : exn) (a : A).
Arguments Done {A} a.
Arguments Raised {A} e a.

(** [x >= y]. *)
Definition flt_ge (x y : flt) : bool :=
  match x, y with
  | NaN, _ | _, NaN => false
  | _, _ => negb (flt_lt x y)
  end.
(** [np.isfinite] and [np.isinf]. *)
Definition is_finite (x : flt) : bool := match x with Fin _ => true | _ => false end.
Definition is_inf (x : flt) : bool := match x with PInf | NInf => true | _ => false end.

Section Loop.
Context {D : Type}.          (* the data of the state's fields *)
Context (advance : R -> D -> D) (symmetrise : D -> D).
Context (clock : nat -> R).  (* wall time at each reading *)

(** solvers.py:546-590: attributes; [cadence] is [enforce_real_cadence], none for complex problems. *)
Record config := Config {
  stop_sim_time : flt; stop_wall_time : flt; stop_iteration : flt;
  enforce_cadence : option nat; scheme_steps : nat; warmup_iterations : nat }.
Record solver := Solver {
  data : D; iteration : nat; initial_iteration : nat; sim_time : R; last_dt : option R;
  start_time_end : option R; warmup_time_end : option R;
  readings : nat }.
Definition read_clock (s : solver) : R * solver :=
  (clock (readings s), Solver (data s) (iteration s) (initial_iteration s) (sim_time s) (last_dt s) (start_time_end s) (warmup_time_end s) (S (readings s))).

(** solvers.py:618-630, [proceed]: the clock is read only if the simulation time passes. *)
Definition proceed (cf : config) (s : solver) : bool * solver :=
  if flt_ge (Fin (sim_time s)) (stop_sim_time cf) then (false, s)
  else
    let (wall, s) := read_clock s in
    if flt_ge (Fin wall) (stop_wall_time cf) then (false, s)
    else if flt_ge (Fin (INR (iteration s))) (stop_iteration cf) then (false, s)
    else (true, s).

(** solvers.py:704-708: whether an iteration ends with the enforcement; a cadence of zero is false. *)
Definition enforces (cf : config) (it : nat) : bool :=
  match enforce_cadence cf with
  | None | Some 0 => false
  | Some c => bool_decide (it mod c < scheme_steps cf)
  end.

(** solvers.py:683-711, [step]. *)
Definition step (cf : config) (dt : flt) (s : solver) : outcome solver :=
  match dt with
  | Fin dt =>
      let (wall, s) := read_clock s in
      let s := if decide (iteration s = initial_iteration s)
               then Solver (data s) (iteration s) (initial_iteration s) (sim_time s) (last_dt s) (Some wall) (warmup_time_end s) (S (readings s))
               else s in
      let s := if decide (iteration s = initial_iteration s + warmup_iterations cf)
               then Solver (data s) (iteration s) (initial_iteration s) (sim_time s) (last_dt s) (start_time_end s) (Some (clock (readings s))) (S (S (readings s)))
               else s in
      let d := advance dt (data s) in
      let d := if enforces cf (iteration s) then symmetrise d else d in
      Done (Solver d (S (iteration s)) (initial_iteration s) (sim_time s + dt)%R (Some dt) (start_time_end s) (warmup_time_end s) (readings s))
  | _ => Raised ValueError s
  end.

(** solvers.py:755-778, [log_stats]. *)
Definition log_stats (cf : config) (s : solver) : outcome solver :=
  let (_, s) := read_clock s in
  match start_time_end s with
  | None => Raised AttributeError s
  | Some _ =>
      if decide (initial_iteration s + warmup_iterations cf <= iteration s)
      then match warmup_time_end s with None => Raised AttributeError s | Some _ => Done s end
      else Done s
  end.

(** solvers.py:713-732, [evolve]: [timestep] is the user's function, [None] if it raises; [fuel] bounds the
    turns of the loop, [None] if it has not ended by then. *)
Fixpoint main_loop (cf : config) (timestep : solver -> option flt) (fuel : nat) (s : solver) : option (outcome solver) :=
  match fuel with
  | 0 => None
  | S fuel =>
      let (go, s) := proceed cf s in
      if go then
        match timestep s with
        | None => Some (Raised UserError s)
        | Some dt => match step cf dt s with Done s => main_loop cf timestep fuel s | Raised e s => Some (Raised e s) end
        end
      else Some (Done s)
  end.
Definition evolve (cf : config) (timestep : solver -> option flt) (fuel : nat) (s : solver) : option (outcome solver) :=
  if is_inf (stop_sim_time cf) && is_inf (stop_wall_time cf) && is_inf (stop_iteration cf) then Some (Raised ValueError s)
  else
    match main_loop cf timestep fuel s with
    | None => None
    | Some (Done s) => Some (log_stats cf s)
    | Some (Raised e s) => Some (match log_stats cf s with Done s => Raised e s | Raised e' s => Raised e' s end)
    end.
End Loop.
Arguments config : clear implicits.
Arguments solver : clear implicits.

(** solvers.py:632-672, [load_state], on the names and data of the state's fields: [file] gives the iteration,
    time and tasks of the selected write. *)
Section Load.
Context {name V : Type} `{EqDecision name}.
Record loading := Loading { fields : list (name * V); at_iteration : nat; at_initial : nat; at_time : R; at_initial_time : R }.
Record savefile := Savefile { file_iteration : nat; file_time : R; file_tasks : list (name * V) }.
Fixpoint find_task (n : name) (l : list (name * V)) : option V :=
  match l with [] => None | (m, v) :: l => if decide (n = m) then Some v else find_task n l end.
Fixpoint load_fields (tasks : list (name * V)) (allow_missing : bool) (fs : list (name * V)) : outcome (list (name * V)) :=
  match fs with
  | [] => Done []
  | (n, v) :: fs =>
      match find_task n tasks with
      | Some v' => match load_fields tasks allow_missing fs with Done r => Done ((n, v') :: r) | Raised e r => Raised e ((n, v') :: r) end
      | None =>
          if allow_missing then match load_fields tasks allow_missing fs with Done r => Done ((n, v) :: r) | Raised e r => Raised e ((n, v) :: r) end
          else Raised IOError ((n, v) :: fs)
      end
  end.
Definition load_state (file : savefile) (allow_missing : bool) (s : loading) : outcome loading :=
  let done fs := Loading fs (file_iteration file) (file_iteration file) (file_time file) (file_time file) in
  match load_fields (file_tasks file) allow_missing (fields s) with Done fs => Done (done fs) | Raised e fs => Raised e (done fs) end.
End Load.
