(** Python slices and numpy slice assignment on one axis, as used throughout dedalus
    ([axslice], dedalus/tools/array.py:41-49).  One-dimensional: the other axes of the arrays
    are spectators in every use modelled.  Shape errors are [None]. *)
From stdpp Require Import list list_numbers.
From Coq Require Import ZArith.

(** CPython [slice.indices] (PySlice_AdjustIndices): bounds normalised for length [n]. *)
Definition slice_bounds (start stop : option Z) (step n : Z) : Z * Z :=
  let lower := if decide (step < 0)%Z then (-1)%Z else 0%Z in
  let upper := if decide (step < 0)%Z then (n - 1)%Z else n in
  let norm (x : Z) := if decide (x < 0)%Z then Z.max (x + n) lower else Z.min x upper in
  (match start with Some s => norm s | None => if decide (step < 0)%Z then upper else lower end,
   match stop with Some s => norm s | None => if decide (step < 0)%Z then lower else upper end).

(** Number of indices of a slice. *)
Definition slice_len (a b step : Z) : Z :=
  if decide (step < 0)%Z then if decide (b < a)%Z then ((a - b - 1) / (- step) + 1)%Z else 0%Z
  else if decide (a < b)%Z then ((b - a - 1) / step + 1)%Z else 0%Z.

(** Indices selected by [x[start:stop:step]] on an axis of length [n]. *)
Definition slice_indices (start stop : option Z) (step : Z) (n : nat) : list nat :=
  let '(a, b) := slice_bounds start stop step (Z.of_nat n) in
  map (fun i => Z.to_nat (a + step * Z.of_nat i)) (seq 0 (Z.to_nat (slice_len a b step))).

Section arrays.
  Context {A : Type}.

  (** [x[idxs]] for a slice. *)
  Definition np_get (idxs : list nat) (x : list A) : list A := omap (fun i => x !! i) idxs.

  Fixpoint write_all (idxs : list nat) (vals : list A) (x : list A) : list A :=
    match idxs, vals with
    | i :: is, v :: vs => write_all is vs (<[i := v]> x)
    | _, _ => x
    end.

  (** [x[idxs] = vals]: equal lengths, or one value broadcast; otherwise [ValueError]. *)
  Definition np_set (idxs : list nat) (vals : list A) (x : list A) : option (list A) :=
    if decide (length vals = length idxs) then Some (write_all idxs vals x)
    else match vals with
         | [v] => Some (write_all idxs (replicate (length idxs) v) x)
         | _ => None
         end.

  (** [x[idxs] = scalar]. *)
  Definition np_fill (idxs : list nat) (v : A) (x : list A) : list A :=
    write_all idxs (replicate (length idxs) v) x.
End arrays.
