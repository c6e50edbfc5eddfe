(** Reductions of distributed data and the adaptive time step: dedalus/extras/flow_tools.py and the norms of
    dedalus/core/field.py.

    Simplifications.  Floating-point numbers are real numbers, infinities and NaN, with exact arithmetic.
    A process's data is the list of its elements, and there is at least one process. *)
From Coq Require Import Reals.
From stdpp Require Import numbers list.
Local Open Scope R_scope.

(** Floating-point numbers and Python's operators on them. *)
Inductive flt := Fin (r : R) | PInf | NInf | NaN.
Definition flt_lt (x y : flt) : bool :=
  match x, y with
  | Fin a, Fin b => if Rlt_dec a b then true else false
  | NInf, Fin _ | NInf, PInf | Fin _, PInf => true
  | _, _ => false
  end.
Definition flt_abs (x : flt) : flt := match x with Fin a => Fin (Rabs a) | NInf => PInf | _ => x end.
Definition flt_neg (x : flt) : flt := match x with Fin a => Fin (- a) | PInf => NInf | NInf => PInf | NaN => NaN end.
Definition flt_add (x y : flt) : flt :=
  match x, y with
  | Fin a, Fin b => Fin (a + b)
  | NaN, _ | _, NaN | PInf, NInf | NInf, PInf => NaN
  | PInf, _ | _, PInf => PInf
  | NInf, _ | _, NInf => NInf
  end.
Definition flt_sub (x y : flt) : flt := flt_add x (flt_neg y).
Definition inf_times (a : R) (pos : flt) : flt := if Rlt_dec 0 a then pos else if Rlt_dec a 0 then flt_neg pos else NaN.
Definition flt_mul (x y : flt) : flt :=
  match x, y with
  | Fin a, Fin b => Fin (a * b)
  | NaN, _ | _, NaN => NaN
  | Fin a, i | i, Fin a => inf_times a i
  | PInf, PInf | NInf, NInf => PInf
  | PInf, NInf | NInf, PInf => NInf
  end.
(** [1 / x] for [x] other than zero; the sign of zero is not kept. *)
Definition flt_inv (x : flt) : flt := match x with Fin a => Fin (/ a) | PInf | NInf => Fin 0 | NaN => NaN end.
(** Python's [min] and [max]: the first of equal ones, comparisons with NaN being false. *)
Definition py_min (x : flt) (l : list flt) : flt := fold_left (fun m y => if flt_lt y m then y else m) l x.
Definition py_max (x : flt) (l : list flt) : flt := fold_left (fun m y => if flt_lt m y then y else m) l x.

(** flow_tools.py:30-34, [reduce_scalar]: every process gets the reduction of all scalars (MPI's Allreduce). *)
Definition reduce_scalar {A} (op : A -> A -> A) (locals : list A) (default : A) : A :=
  match locals with [] => default | x :: l => fold_left op l x end.
Definition mpi_min (x y : flt) : flt := if flt_lt y x then y else x.
Definition mpi_max (x y : flt) : flt := if flt_lt x y then y else x.
(** flow_tools.py:36-42, [global_min]. *)
Definition local_min (empty : flt) (data : list R) : flt := match data with [] => empty | a :: l => Fin (fold_left Rmin l a) end.
Definition global_min (empty : flt) (procs : list (list R)) : flt := reduce_scalar mpi_min (map (local_min empty) procs) NaN.
(** flow_tools.py:44-50, [global_max]. *)
Definition local_max (empty : flt) (data : list R) : flt := match data with [] => empty | a :: l => Fin (fold_left Rmax l a) end.
Definition global_max (empty : flt) (procs : list (list R)) : flt := reduce_scalar mpi_max (map (local_max empty) procs) NaN.
(** flow_tools.py:52-58, [global_mean]. *)
Definition np_sum (data : list R) : R := fold_left Rplus data 0.
Definition global_mean (procs : list (list R)) : flt :=
  let s := reduce_scalar Rplus (map np_sum procs) 0 in
  let n := reduce_scalar Rplus (map (fun d => INR (length d)) procs) 0 in
  if Req_EM_T n 0 then NaN else Fin (s / n).
(** flow_tools.py:112-126, [volume_integral]: the integral is a constant field, whose only element is on some
    processes. *)
Definition volume_integral (integral : list (list R)) : flt := global_max NInf integral.

(** field.py:820-842, [allreduce_data_norm] and [allreduce_data_max]; [None] is order infinity.  [x ** p] for
    non-negative [x] and positive [p]. *)
Definition npow (x p : R) : R := if Req_EM_T x 0 then 0 else Rpower x p.
Definition local_norm (order : option R) (data : list R) : R :=
  match data with
  | [] => 0
  | a :: l => match order with
              | None => fold_left Rmax (map Rabs l) (Rabs a)
              | Some p => np_sum (map (fun x => npow (Rabs x) p) data)
              end
  end.
Definition data_norm (order : option R) (procs : list (list R)) : R :=
  let locals := map (local_norm order) procs in
  match order with
  | None => reduce_scalar Rmax locals 0
  | Some p => npow (reduce_scalar Rplus locals 0) (1 / p)
  end.
Definition data_max (procs : list (list R)) : R := data_norm None procs.
(** solvers.py:580, the initial time of an initial value solver, from the data of the problem's time field. *)
Definition initial_sim_time (time : list (list R)) : R := data_max time.

(** flow_tools.py:171-185, the parameters of [CFL]. *)
Record cfl := Cfl { cadence : Z; safety : R; max_dt : flt; min_dt : R; max_change : flt; min_change : R; threshold : R }.
(** [sum(np.abs(field['g']) for field in fields)] on a process: [None] if there are no fields (the integer
    zero has no size). *)
Fixpoint zip_add (l m : list R) : list R := match l, m with a :: l, b :: m => (a + b) :: zip_add l m | _, _ => [] end.
Definition local_freqs (fields : list (list R)) : option (list R) :=
  match fields with [] => None | f :: fs => Some (fold_left (fun acc g => zip_add acc (map Rabs g)) fs (map Rabs f)) end.
(** flow_tools.py:191-217, [compute_timestep], with the value of [stored_dt]; [procs] is each process's fields. *)
Definition new_dt (c : cfl) (stored freq : flt) : flt :=
  let dt := match freq with Fin f => if Req_EM_T f 0 then PInf else flt_inv freq | _ => flt_inv freq end in
  let dt := flt_mul dt (Fin (safety c)) in
  let dt := py_min dt [max_dt c; flt_mul (max_change c) stored] in
  py_max dt [Fin (min_dt c); flt_mul (Fin (min_change c)) stored].
Definition compute_timestep (c : cfl) (initial_iteration iteration : Z) (procs : list (list (list R))) (stored : flt) : option flt :=
  if decide ((iteration - 1) mod cadence c = 0)%Z then
    if decide (iteration - 1 <= initial_iteration)%Z then Some stored
    else
      locals ← mapM local_freqs procs;
      let freq := global_max NInf locals in
      let dt := new_dt c stored freq in
      Some (if flt_lt (flt_mul (Fin (threshold c)) stored) (flt_abs (flt_sub dt stored)) then dt else stored)
  else Some stored.
(** Successive calls; each gives the iteration and the samples. *)
Fixpoint compute_timesteps (c : cfl) (initial_iteration : Z) (calls : list (Z * list (list (list R)))) (stored : flt) : option (list flt) :=
  match calls with
  | [] => Some []
  | (iteration, procs) :: calls =>
      dt ← compute_timestep c initial_iteration iteration procs stored;
      rest ← compute_timesteps c initial_iteration calls dt;
      Some (dt :: rest)
  end.
