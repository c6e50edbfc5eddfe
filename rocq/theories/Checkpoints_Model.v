(** Writing tasks to HDF5 files and loading them: the three file handlers of dedalus/core/evaluator.py and the loading of fields of dedalus/core/field.py.

    Simplifications.  Arrays are functions of their index, tensor axes first.  A dataset is the list of its writes.  HDF5 as documented: new entries of a
    resized dataset hold the fill value; a virtual dataset is as long as the longest of its sources.  Collective writes of the processes happen in any
    order.  [None] is an exception.  Scales are exact. *)
From stdpp Require Import list.
From Verif Require Import Layouts_Model Blocks_Model.

(** A distribution of the axes [ax] (sizes and chunk sizes): the process mesh, and which axes are local. *)
Record distribution := Distribution { mesh : list nat; locals : list bool; axes_of : axes }.
Definition processes (m : distribution) : nat := mesh_prod (mesh m).
Definition elements (m : distribution) (r : nat) : list (list nat) := default [] (local_elements (mesh m) (locals m) (axes_of m) r).

Section files.
Context {A : Type} (fill : A).
Notation entry := (list nat -> A).
Notation dataset := (list entry).
Definition blank : entry := fun _ => fill.
(** h5py [dset.resize(n, axis=0)]. *)
Definition resize (n : nat) (d : dataset) : dataset := take n d ++ replicate (n - length d) blank.
(** The local data of the processes. *)
Notation pieces := (nat -> entry).

Section task.
Context (tshape : list nat) (m : distribution).
(** evaluator.py:460-485, [local_start] and [local_shape]. *)
Definition local_start (r : nat) : list nat :=
  replicate (length tshape) 0 ++ zip_with (fun (x : nat * nat) e => match e with [] => x.1 | i :: _ => i end) (axes_of m) (elements m r).
Definition local_shape (r : nat) : list nat := tshape ++ map length (elements m r).
(** 457. *)
Definition local_size (r : nat) : nat := foldr Nat.mul 1 (local_shape r).
(** Is an index in the slab [start, start + count)? *)
Fixpoint in_slab (start count idx : list nat) : bool :=
  match start, count, idx with
  | [], [], [] => true
  | s :: start, c :: count, i :: idx => (s <=? i) && (i <? s + c) && in_slab start count idx
  | _, _, _ => false
  end.

(** 641-650 with field.py:802-818; [np.block] works on the last axes. *)
Definition gathered (p : pieces) : entry := fun idx =>
  let t := take (length tshape) idx in
  gather_data (axes_of m) (locals m) (default [] (assign_masked (locals m) 1 (mesh m))) (fun r j => p r (t ++ j)) (drop (length tshape) idx).
Definition gather_write (n : nat) (p : pieces) (d : dataset) : dataset := <[n - 1 := gathered p]> (resize n d).

(** 693-727, for processes that write in the order [order]. *)
Definition slab_write (p : pieces) (r : nat) (e : entry) : entry := fun idx =>
  if in_slab (local_start r) (local_shape r) idx then p r (zip_with Nat.sub idx (local_start r)) else e idx.
Definition parallel_write (order : list nat) (n : nat) (p : pieces) (d : dataset) : dataset :=
  foldl (fun d r => alter (slab_write p r) (n - 1) d) (resize n d) order.

(** 811-826, 835-842: the datasets of the process files. *)
Notation process_files := (nat -> option dataset).
Definition setup_process_files : process_files := fun r => if decide (local_size r = 0) then None else Some [blank].
Definition virtual_write (n : nat) (p : pieces) (f : process_files) : process_files := fun r =>
  if decide (local_size r = 0) then f r else d ← f r; Some (<[n - 1 := p r]> (resize n d)).
(** 788-809: the joint dataset. *)
Definition sources : list nat := List.filter (fun r => negb (local_size r =? 0)) (seq 0 (processes m)).
Definition writes_of (f : process_files) (r : nat) : nat := match f r with Some d => length d | None => 0 end.
Definition joint_entry (f : process_files) (i : nat) : entry := fun idx =>
  match List.find (fun r => in_slab (local_start r) (local_shape r) idx) sources with
  | Some r => match f r with Some d => match d !! i with Some e => e (zip_with Nat.sub idx (local_start r)) | None => fill end | None => fill end
  | None => fill
  end.
Definition joint (f : process_files) : dataset := map (joint_entry f) (seq 0 (foldr Nat.max 0 (map (writes_of f) sources))).

(** The handlers, and the task's dataset after the writes [ws] to one file: 574-595 without the change of files; [file_write_num] is 0 before the first. *)
Inductive handler := Gather | Parallel (order : nat -> list nat) | Virtual.
Fixpoint run {S : Type} (write : nat -> pieces -> S -> S) (num : nat) (ws : list pieces) (s : S) : S :=
  match ws with [] => s | p :: ws => run write (num + 1) ws (write (num + 1) p s) end.
Definition saved (h : handler) (ws : list pieces) : dataset :=
  match h with
  | Gather => run gather_write 0 ws [blank]
  | Parallel order => run (fun n => parallel_write (order n) n) 0 ws [blank]
  | Virtual => joint (run virtual_write 0 ws setup_process_files)
  end.
End task.

(** ** Loading *)
(** Indexing of the first axis. *)
Definition python_index (len : nat) (i : Z) : option nat :=
  let k := if (i <? 0)%Z then (i + Z.of_nat len)%Z else i in
  if ((0 <=? k) && (k <? Z.of_nat len))%Z then Some (Z.to_nat k) else None.
(** field.py:752-779: [global_data[pre_slices + component_slices + spatial_slices]], with [k] tensor axes. *)
Definition local_part (k : nat) (els : list (list nat)) (e : entry) : entry := fun idx => e (take k idx ++ zip_with (fun s i => s.1 + i) (slices els) (drop k idx)).
(** The axes of a field whose grid sizes at scale 1 are those of [ax], at the scales that fit data of sizes [shape]: sizes are [ceil (scale * size)],
    but 1 for sizes 1 (basis.py:141-144). *)
Definition scaled_axes (ax : axes) (shape : list nat) : axes := zip_with (fun (x : nat * nat) n => (if x.1 =? 1 then 1 else n, x.2)) ax shape.
(** field.py:734-779 on process [r]: [flags] is the attribute [grid_space] of the dataset, [shape] its sizes along the spatial axes, [grid] and [coeff] the
    distributions of the field on the grid at scale 1 and in coefficient space.  Also the sizes that the field then has. *)
Definition load_from_hdf5 (k : nat) (flags : list bool) (shape : list nat) (d : dataset) (index : Z) (grid coeff : distribution) (r : nat) : option (list nat * entry) :=
  if forallb id flags then
    let m := Distribution (mesh grid) (locals grid) (scaled_axes (axes_of grid) shape) in
    i ← python_index (length d) index; e ← d !! i; Some (map fst (axes_of m), local_part k (elements m r) e)
  else if forallb negb flags then
    if decide (shape = map fst (axes_of coeff)) then i ← python_index (length d) index; e ← d !! i; Some (shape, local_part k (elements coeff r) e) else None
  else None.
End files.

(** ** Crashes of the process that writes (gather handler) *)
Section crash.
Context {V : Type} (fill : V).
(** A file: its datasets, first those of the time scales (597-605), then those of the tasks (641-650). *)
Notation file := (list (list V)).
Inductive op := Resize (j n : nat) | Store (j n : nat) (v : V).
Definition perform (o : op) (f : file) : file :=
  match o with Resize j n => alter (fun d => take n d ++ replicate (n - length d) fill) j f | Store j n v => alter (fun d => <[n - 1 := v]> d) j f end.
(** 574-595, write number [n] of the file. *)
Definition write_ops (n : nat) (row : list V) : list op := concat (imap (fun j v => [Resize j n; Store j n v]) row).
Definition performs (os : list op) (f : file) : file := foldl (fun f o => perform o f) f os.
Fixpoint process_all (num : nat) (rows : list (list V)) (f : file) : file :=
  match rows with [] => f | row :: rows => process_all (num + 1) rows (performs (write_ops (num + 1) row) f) end.
(** 512-533: [scales] datasets without entries, then [tasks] datasets with one. *)
Definition new_file (scales tasks : nat) : file := replicate scales [] ++ replicate tasks [fill].
(** The file after the writes [rows] and the first [c] operations of the write [row]. *)
Definition crashed (scales tasks : nat) (rows : list (list V)) (row : list V) (c : nat) : file :=
  performs (take c (write_ops (length rows + 1) row)) (process_all 0 rows (new_file scales tasks)).
(** solvers.py:655-668: every dataset is read at the same index. *)
Definition load_all (f : file) (index : Z) : list (option V) := map (fun d => i ← python_index (length d) index; d !! i) f.
End crash.
