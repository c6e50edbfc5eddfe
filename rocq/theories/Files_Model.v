(** Output files: dedalus/core/evaluator.py:366-650 and 728-843 ([H5FileHandlerBase],
    [H5GatherFileHandler], [H5ParallelFileHandler], [H5VirtualFileHandler]).

    Simplifications: the numbers stored in a file are integers (they are only copied); one task
    output is one number; every operation on a file is durable once it returned, so that a crash
    leaves the effect of a prefix of the operations; process 0 holds data for the virtual handler. *)
From stdpp Require Import gmap list list_numbers.

(** A set file.  [dsets] are the resizable datasets in the order in which they are written: the
    scales sim_time, wall_time, timestep, iteration and write_number (evaluator.py:602), then one
    dataset per task.  [maxshape] is the bound on their length (evaluator.py:521-524, 570). *)
Record h5 := H5 { attr_set : nat; attr_writes : nat; maxshape : option nat; dsets : list (list Z) }.

Definition dataset (c : nat) (f : h5) : list Z := default [] (dsets f !! c).
(** The place of [write_number] among the datasets, evaluator.py:602. *)
Notation wn := 4 (only parsing).

(** The entries of the output folder that match the pattern [name_s*] of evaluator.py:402, where
    [name] is the handler's:
    - [joint]: the files name_sN.h5;
    - [folders]: the folders name_sN, each with the file name_sN_p0.h5 if it is there, and that
      file's /scales/write_number if it has one;
    - [strays]: anything else, with the number if its stem is name_s and a number. *)
Record dir := Dir {
  joint : gmap nat h5;
  folders : gmap nat (option (option (list Z)));
  strays : list (option nat) }.

Definition empty_dir : dir := Dir ∅ ∅ [].
Definition set_joint (g : gmap nat h5 -> gmap nat h5) (d : dir) : dir :=
  Dir (g (joint d)) (folders d) (strays d).
Definition set_folders (g : gmap nat (option (option (list Z))) -> gmap nat (option (option (list Z)))) (d : dir) : dir :=
  Dir (joint d) (g (folders d)) (strays d).

Inductive mode := Overwrite | Append.
Inductive exn := ValueError | IndexError | KeyError.
(** The result of [__init__]: the handler's set number and total write number, or an exception. *)
Inductive started := Ready (set_num : nat) (total_write_num : Z) | Raises (e : exn).

(** Python [max]; [None] is the [ValueError] of an empty sequence. *)
Fixpoint py_max (l : list nat) : option nat :=
  match l with
  | [] => None
  | x :: l => Some (match py_max l with Some m => x `max` m | None => x end)
  end.

(** The numbers [set_nums] of evaluator.py:414-419. *)
Definition set_nums (d : dir) : list nat :=
  (map_to_list (joint d)).*1 ++ (map_to_list (folders d)).*1 ++ omap id (strays d).

(** The truth value of the list [sets], evaluator.py:415. *)
Definition has_sets (d : dir) : bool :=
  match map_to_list (joint d), map_to_list (folders d), strays d with [], [], [] => false | _, _, _ => true end.

(** evaluator.py:423-431: [testfile['/scales/write_number'][-1]]. *)
Definition last_number (max_set : nat) (l : option (list Z)) : started :=
  match l with
  | None => Raises KeyError
  | Some l => match last l with None => Raises IndexError | Some w => Ready (max_set + 1) w end
  end.

(** evaluator.py:413-437. *)
Definition append (d : dir) : started :=
  if has_sets d then
    match py_max (set_nums d) with
    | None => Raises ValueError
    | Some max_set =>
        match joint d !! max_set with
        | Some f => last_number max_set (Some (dataset wn f))
        | None =>
            match folders d !! max_set with
            | Some (Some p0) => last_number max_set p0
            | _ => Ready (max_set + 1) 0
            end
        end
    end
  else Ready 1 0.

(** evaluator.py:401-437: the handler's numbers and the folder after [__init__]. *)
Definition init (m : mode) (d : dir) : started * dir :=
  match m with
  | Overwrite => (Ready 1 0, empty_dir)
  | Append => (append d, d)
  end.

(** The handler.  [ntasks] is the number of tasks; [virtual] tells [H5VirtualFileHandler] from the
    other two. *)
Record handler := Handler {
  set_num : nat; total_write_num : Z; file_write_num : nat;
  max_writes : option nat; ntasks : nat; virtual : bool }.

(** evaluator.py:440-442. *)
Definition new_handler (s : nat) (t : Z) (max : option nat) (n : nat) (v : bool) : handler :=
  Handler s t 0 max n v.

(** Operations on one file. *)
Inductive fop :=
| Attr (writes : nat)             (* file.attrs['writes'] = writes *)
| Resize (c n : nat)              (* dset.resize(n, axis=0) *)
| Set_ (c i : nat) (v : Z).       (* dset[i] = v *)

(** [None] is an exception of h5py: an axis longer than [maxshape], an index out of range or a
    missing dataset. *)
Definition fapply (o : fop) (f : h5) : option h5 :=
  match o with
  | Attr w => Some (H5 (attr_set f) w (maxshape f) (dsets f))
  | Resize c n =>
      if match maxshape f with Some m => bool_decide (n <= m) | None => true end then
        match dsets f !! c with
        | Some l => Some (H5 (attr_set f) (attr_writes f) (maxshape f) (<[c := resize n 0%Z l]> (dsets f)))
        | None => None
        end
      else None
  | Set_ c i v =>
      match dsets f !! c with
      | Some l =>
          if bool_decide (i < length l) then
            Some (H5 (attr_set f) (attr_writes f) (maxshape f) (<[c := <[i := v]> l]> (dsets f)))
          else None
      | None => None
      end
  end.

(** Operations on the folder: create a set file, create a set folder, create its process file, or
    an operation on a set file. *)
Inductive op := Create (n : nat) (f : h5) | Mkdir (n : nat) | Process (n : nat) | On (n : nat) (o : fop).

Definition apply (o : op) (d : dir) : option dir :=
  match o with
  | Create n f =>                                     (* h5py.File(..., 'w-'), evaluator.py:509 *)
      match joint d !! n with Some _ => None | None => Some (set_joint (<[n := f]>) d) end
  | Mkdir n =>                                        (* mkdir(exist_ok=True), evaluator.py:774 *)
      match folders d !! n with Some _ => Some d | None => Some (set_folders (<[n := None]>) d) end
  | Process n =>                                      (* h5py.File(..., 'w-'), evaluator.py:782 *)
      match folders d !! n with
      | Some None => Some (set_folders (<[n := Some None]>) d)
      | _ => None
      end
  | On n o =>
      match joint d !! n with
      | Some f => match fapply o f with Some f => Some (set_joint (<[n := f]>) d) | None => None end
      | None => None
      end
  end.

Fixpoint exec (ops : list op) (d : dir) : option dir :=
  match ops with
  | [] => Some d
  | o :: ops => match apply o d with Some d => exec ops d | None => None end
  end.

(** evaluator.py:512-531 and 566-572, the new file.  The scales have length 0 and the tasks length
    1.  A maximal length of 0 does not admit that and h5py raises here; the model raises at the first
    [Resize] of the same write. *)
Definition setup_file (h : handler) : h5 :=
  H5 (set_num h) (file_write_num h) (max_writes h) (replicate 5 [] ++ replicate (ntasks h) [0%Z]).

(** The numbers to be written: by dataset. *)
Notation row := (nat -> Z).

(** evaluator.py:597-605 and 641-650 (693-709, 835-843 for the other handlers): the operations on the
    open file.  [vals] gives the number to write by dataset. *)
Definition write_fops (k : nat) (vals : row) (n : nat) : list fop :=
  Attr k :: concat (map (fun c => [Resize c k; Set_ c (k - 1) (vals c)]) (seq 0 (5 + n))).

(** evaluator.py:574-583: the counters. *)
Definition advance (h : handler) : handler :=
  let total := (total_write_num h + 1)%Z in
  let k := file_write_num h + 1 in
  if match max_writes h with Some m => bool_decide (m < k) | None => false end
  then Handler (set_num h + 1) total 1 (max_writes h) (ntasks h) (virtual h)
  else Handler (set_num h) total k (max_writes h) (ntasks h) (virtual h).

(** evaluator.py:497-510, 767-786: the operations that create the current file, if needed. *)
Definition create_ops (h : handler) (d : dir) : list op :=
  match joint d !! set_num h with
  | Some _ => []
  | None => Create (set_num h) (setup_file h) ::
            (if virtual h then [Mkdir (set_num h); Process (set_num h)] else [])
  end.

(** evaluator.py:574-595: the operations of one write, by the handler with advanced counters. *)
Definition process_ops (h : handler) (d : dir) (r : row) : list op :=
  create_ops h d ++
  map (On (set_num h))
      (write_fops (file_write_num h) (fun c => if decide (c = wn) then total_write_num h else r c) (ntasks h)).

(** One write; [None] is an exception. *)
Definition process (h : handler) (d : dir) (r : row) : option (handler * dir) :=
  let h := advance h in
  match exec (process_ops h d r) d with Some d => Some (h, d) | None => None end.

(** The writes of a run. *)
Fixpoint write_all (h : handler) (d : dir) (rs : list row) : option (handler * dir) :=
  match rs with
  | [] => Some (h, d)
  | r :: rs => match process h d r with Some (h, d) => write_all h d rs | None => None end
  end.

(** One run of the program: start in a mode, then write. *)
Record job := Job { j_mode : mode; j_max : option nat; j_tasks : nat; j_virtual : bool; j_rows : list row }.

Definition run_job (d : dir) (j : job) : option dir :=
  let '(st, d) := init (j_mode j) d in
  match st with
  | Raises _ => None
  | Ready s t =>
      match write_all (new_handler s t (j_max j) (j_tasks j) (j_virtual j)) d (j_rows j) with
      | Some (_, d) => Some d
      | None => None
      end
  end.

Fixpoint run_jobs (d : dir) (js : list job) : option dir :=
  match js with
  | [] => Some d
  | j :: js => match run_job d j with Some d => run_jobs d js | None => None end
  end.

(** A crash in the write after [rs], after [c] of its operations: the operations of that write that
    were executed, and the folder left. *)
Definition crash (h : handler) (d : dir) (rs : list row) (r : row) (c : nat) : option (list op * dir) :=
  match write_all h d rs with
  | Some (h, d) =>
      let executed := take c (process_ops (advance h) d r) in
      match exec executed d with Some d => Some (executed, d) | None => None end
  | None => None
  end.
