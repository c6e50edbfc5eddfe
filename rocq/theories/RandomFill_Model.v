(** Random data: dedalus/tools/random_arrays.py and [Field.fill_random] (dedalus/core/field.py:898-943).

    The generator is the sequence [stream] of the values it draws for the seed and distribution: drawing
    [n] values gives the next [n] of them (numpy's generators draw arrays elementwise).  Indices are
    nonnegative, slices have step one. *)
From stdpp Require Import list list_numbers numbers.
From Verif Require Import Blocks_Model.

Section Random.
  Context {V : Type} (zero : V) (stream : nat -> V).

  (** random_arrays.py:7-16: the generator at position [pos] draws a chunk. *)
  Definition draw (pos size : nat) : list V * nat := (map stream (seq pos size), pos + size).

  (** random_arrays.py:19-29, [rng_element]; [None]: division by zero. *)
  Fixpoint element_loop (fuel pos size chunk div : nat) : list V :=
    let '(data, pos) := draw pos size in
    match fuel with 0 => data | S fuel => if decide (chunk = div) then data else element_loop fuel pos size (S chunk) div end.
  Definition rng_element (index size : nat) : option V :=
    let size := Nat.min (1 + index) size in
    if decide (size = 0) then None else element_loop (index / size) 0 size 0 (index / size) !! (index mod size).

  (** random_arrays.py:32-56, [rng_elements], over the flattened indices. *)
  Fixpoint elements_loop (rounds pos size chunk : nat) (div mod_ : list nat) (values : list V) : list V :=
    match rounds with
    | 0 => values
    | S rounds =>
        let '(data, pos) := draw pos size in
        let values := if decide (chunk ∈ div)
          then imap (fun p v => if decide (div !! p = Some chunk) then default zero (m ← mod_ !! p; data !! m) else v) values
          else values in
        elements_loop rounds pos size (S chunk) div mod_ values
    end.
  Definition rng_elements (indices : list nat) (size : nat) : option (list V) :=
    match indices with
    | [] => match rng_element 0 size with Some _ => Some [] | None => None end
    | _ =>
        let size := Nat.min (1 + max_list indices) size in
        if decide (size = 0) then None else
        let div := map (fun i => i / size) indices in
        let mod_ := map (fun i => i mod size) indices in
        Some (elements_loop (S (max_list div)) 0 size 0 div mod_ (replicate (length indices) zero))
    end.

  (** random_arrays.py:80-96, [IndexArray.__getitem__]: flat C-order indices of a selection.  [slice.indices]
      clips to the shape; missing trailing slices are whole axes; [None]: too many selections. *)
  Fixpoint ravel (shape idx : list nat) : nat :=
    match shape, idx with _ :: shape, i :: idx => i * foldr Nat.mul 1 shape + ravel shape idx | _, _ => 0 end.
  Fixpoint mgrid (sl : list (nat * nat)) : list (list nat) :=
    match sl with [] => [[]] | (a, b) :: sl => flat_map (fun i => map (cons i) (mgrid sl)) (seq a (b - a)) end.
  Definition concrete (shape : list nat) (key : list (nat * nat)) : option (list (nat * nat)) :=
    if decide (length key <= length shape) then
      let key := key ++ map (fun n => (0, n)) (drop (length key) shape) in
      Some (zip_with (fun (k : nat * nat) s => (Nat.min k.1 s, Nat.min k.2 s)) key shape)
    else None.
  Definition index_array (shape : list nat) (key : list (nat * nat)) : option (list nat * list nat) :=
    key ← concrete shape key; Some (map (fun k => k.2 - k.1) key, map (ravel shape) (mgrid key)).

  (** random_arrays.py:124-126, [ChunkedRandomArray.__getitem__]: shape and flattened values. *)
  Definition random_array (shape : list nat) (chunk_size : nat) (key : list (nat * nat)) : option (list nat * list V) :=
    '(sh, indices) ← index_array shape key; values ← rng_elements indices chunk_size; Some (sh, values).
  (** Element [idx] of an array given by shape and flattened values. *)
  Definition entry (a : list nat * list V) (idx : list nat) : V := default zero (a.2 !! ravel a.1 idx).

  (** field.py:926-943: the local data (components first) as pairs of real and imaginary parts, for
      component dimensions [tshape], global shape [gshape] and the process's elements [els].  [None]: an
      error, or a shape that cannot be assigned to the data. *)
  Definition fill_random (tshape gshape : list nat) (is_complex : bool) (chunk_size : nat) (els : list (list nat)) : option (list nat -> V * V) :=
    let shape := tshape ++ gshape ++ (if is_complex then [2] else []) in
    let key := map (fun n => (0, n)) tshape ++ slices els in
    local ← random_array shape chunk_size key;
    if decide (local.1 = tshape ++ local_shape els ++ (if is_complex then [2] else [])) then
      Some (fun idx => if is_complex then (entry local (idx ++ [0]), entry local (idx ++ [1])) else (entry local idx, zero))
    else None.
End Random.
