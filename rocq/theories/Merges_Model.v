(** Merging virtual output files: dedalus/tools/post.py:112-163 ([merge_virtual_analysis],
    [merge_virtual_file]), 187-222 ([merge_distributed_set]), 225-315 ([merge_setup], as called by
    [merge_virtual], post.py:345).

    Simplifications: the data of a dataset is a list of integers (it is only copied); every call of
    h5py and every file system call is atomic and durable when it returns, so that a crash leaves the
    state after some number of calls; the removal of a folder is one call. *)
From stdpp Require Import gmap strings list.

(** A task dataset.  [content] is [None] for a virtual dataset, whose data are in the process files;
    [ddims] has for each dimension its label and the names of the attached scales. *)
Record dset := Dset { content : option (list Z); dattrs : gmap string Z; ddims : list (string * list string) }.

(** A file: root attributes, the groups scales and tasks if present, the latter in the order of
    iteration. *)
Record h5 := H5 { rattrs : gmap string Z; scales : option (gmap string (list Z)); tasks : option (list (string * dset)) }.
Definition empty_h5 : h5 := H5 ∅ None None.

(** The files of one set: NAME_sN.h5, tmp_NAME_sN.h5, and the task data in the process files in the
    folder NAME_sN. *)
Record entry := Entry { joint : option h5; tmp : option h5; folder : option (gmap string (list Z)) }.

Inductive exn := KeyError | IndexError | FileNotFoundError | AttributeError.

(** The data read from a dataset.  A virtual dataset whose sources are missing reads as empty. *)
Definition read (g : option (gmap string (list Z))) (name : string) (d : dset) : list Z :=
  match content d with
  | Some x => x
  | None => match g with Some g => default [] (g !! name) | None => [] end
  end.

(** Programs on the merged file: the list of its states after each call, and the exception that ends
    the program, if any. *)
Definition prog := h5 -> list h5 * option exn.
Definition skip : prog := fun f => ([], None).
Definition raise (e : exn) : prog := fun f => ([], Some e).
Definition edit (g : h5 -> h5) : prog := fun f => ([g f], None).
Definition andthen (p q : prog) : prog := fun f =>
  let '(l, e) := p f in
  match e with
  | Some _ => (l, e)
  | None => let '(l', e') := q (List.last l f) in (l ++ l', e')
  end.
Fixpoint for_each {A} (p : A -> prog) (xs : list A) : prog :=
  match xs with [] => skip | x :: xs => andthen (p x) (for_each p xs) end.
(** Python's [x[key]]: the program goes on with the value, or raises. *)
Definition get {A} (x : option A) (p : A -> prog) : prog := match x with Some a => p a | None => raise KeyError end.

Definition set_attr (k : string) (v : Z) (f : h5) : h5 := H5 (<[k := v]> (rattrs f)) (scales f) (tasks f).
Definition set_scales (s : gmap string (list Z)) (f : h5) : h5 := H5 (rattrs f) (Some s) (tasks f).
Definition set_tasks (t : list (string * dset)) (f : h5) : h5 := H5 (rattrs f) (scales f) (Some t).
Definition add_task (nd : string * dset) (f : h5) : h5 := set_tasks (default [] (tasks f) ++ [nd]) f.
(** Change the dataset added last, [joint_dset]. *)
Definition on_last (g : dset -> dset) (f : h5) : h5 :=
  match tasks f with
  | Some t => set_tasks (match last t with Some (n, d) => take (length t - 1) t ++ [(n, g d)] | None => t end) f
  | None => f
  end.
Definition set_dattr (k : string) (v : Z) (d : dset) : dset := Dset (content d) (<[k := v]> (dattrs d)) (ddims d).
Definition set_label (i : nat) (l : string) (d : dset) : dset :=
  Dset (content d) (dattrs d) (alter (fun p => (l, p.2)) i (ddims d)).
Definition attach (i : nat) (s : string) (d : dset) : dset :=
  Dset (content d) (dattrs d) (alter (fun p => (p.1, p.2 ++ [s])) i (ddims d)).

Definition time_scales : list string := ["sim_time"; "wall_time"; "timestep"; "iteration"; "write_number"].
Definition copied_attrs : list string := ["task_number"; "constant"; "grid_space"; "scales"].

(** post.py:288-290 and 311-315: look up the scale in the joint file and attach it.  The call of
    [create_scale] marks the scale and has no effect here. *)
Definition attach_scale (i : nat) (s : string) : prog := fun f =>
  match scales f with
  | Some m => match m !! s with Some _ => edit (on_last (attach i s)) f | None => raise KeyError f end
  | None => raise KeyError f
  end.

(** post.py:284-315, one dimension of a dataset, for [virtual] true.  [sha] is the hash function, as a
    hexadecimal string. *)
Definition merge_dim (sha : list Z -> string) (src : h5) (i : nat) (dim : string * list string) : prog :=
  andthen (edit (on_last (set_label i dim.1)))
  (if decide (dim.1 = "t") then for_each (attach_scale i) time_scales
   else if decide (dim.1 = "constant" \/ dim.1 = "") then attach_scale i "constant"
   else get (head dim.2) (fun s0 =>
        get (s ← scales src; s !! s0) (fun data => attach_scale i ("hash_" +:+ sha data)))).

(** post.py:265-315, one task, for [virtual] true. *)
Definition merge_dataset (sha : list Z -> string) (src : h5) (g : option (gmap string (list Z))) (nd : string * dset) : prog :=
  let '(n, d) := nd in
  andthen (edit (add_task (n, Dset (Some (read g n d)) ∅ (replicate (length (ddims d)) ("", [])))))
  (andthen (for_each (fun k => get (dattrs d !! k) (fun v => edit (on_last (set_dattr k v)))) copied_attrs)
  (for_each (fun p : nat * (string * list string) => merge_dim sha src p.1 p.2) (imap pair (ddims d)))).

(** post.py:225-315 with [virtual] true: [merge_setup(joint_file, [virtual_path], virtual=True)]. *)
Definition merge_virtual (sha : list Z -> string) (src : h5) (g : option (gmap string (list Z))) : prog :=
  andthen (match rattrs src !! "set_number" with
           | Some v => edit (set_attr "set_number" v)
           | None => get (rattrs src !! "file_number") (fun v => edit (set_attr "set_number" v))
           end)
  (andthen (get (rattrs src !! "handler_name") (fun v => edit (set_attr "handler_name" v)))
  (andthen (match rattrs src !! "writes" with
            | Some v => edit (set_attr "writes" v)
            | None => get (s ← scales src; s !! "write_number") (fun l => edit (set_attr "writes" (Z.of_nat (length l))))
            end)
  (andthen (get (scales src) (fun s => edit (set_scales s)))
  (andthen (edit (set_tasks []))
  (get (tasks src) (for_each (merge_dataset sha src g))))))).

(** post.py:136-163.  The result is the list of the states of the files of the set after each call,
    and the exception, if any.  [is_path]: the argument is a [Path] and not a string. *)
Definition merge_virtual_file (sha : list Z -> string) (is_path cleanup : bool) (e : entry) : list entry * option exn :=
  match joint e with
  | None => ([], Some FileNotFoundError)                                        (* shutil.move *)
  | Some src =>
      let moved := Entry None (Some src) (folder e) in
      let '(fs, x) := merge_virtual sha src (folder e) empty_h5 in
      let opened := Entry (Some empty_h5) (Some src) (folder e) in
      let partials := map (fun f => Entry (Some f) (Some src) (folder e)) fs in
      match x with
      | Some x => (moved :: opened :: partials, Some x)
      | None =>
          let merged := List.last fs empty_h5 in
          let removed := Entry (Some merged) None (folder e) in
          if cleanup then
            if is_path then (moved :: opened :: partials ++ [removed; Entry (Some merged) None None], None)
            else (moved :: opened :: partials ++ [removed], Some AttributeError)  (* str has no .stem *)
          else (moved :: opened :: partials ++ [removed], None)
      end
  end.

(** The files after the call. *)
Definition merged_entry (sha : list Z -> string) (is_path cleanup : bool) (e : entry) : entry * option exn :=
  let '(l, x) := merge_virtual_file sha is_path cleanup e in (List.last l e, x).

(** post.py:130-134: all sets of a process, in order, up to the first exception. *)
Fixpoint merge_virtual_analysis (sha : list Z -> string) (cleanup : bool) (es : list entry) : list entry * option exn :=
  match es with
  | [] => ([], None)
  | e :: es =>
      match merged_entry sha true cleanup e with
      | (e', None) => let '(es', x) := merge_virtual_analysis sha cleanup es in (e' :: es', x)
      | (e', Some x) => (e' :: es, Some x)
      end
  end.

(** post.py:187-222 on a set of the virtual handler.  Its process files have tasks only
    (evaluator.py:812-828), so that [proc_file.attrs['file_number']] raises (post.py:246); without
    process files [proc_paths[0]] does.  The joint file is truncated before that (post.py:210). *)
Definition merge_distributed_set (has_processes : bool) (e : entry) : entry * option exn :=
  (Entry (Some empty_h5) (tmp e) (folder e), Some (if has_processes then KeyError else IndexError)).
