(** What random filling should do. *)
From stdpp Require Import list list_numbers.

(** The position of an element in the C order of an array: the sum over the axes of index times the
    product of the later dimensions. *)
Definition c_position (shape idx : list nat) : nat :=
  sum_list (imap (fun k i => i * foldr Nat.mul 1 (drop (S k) shape)) idx).
Definition within (shape idx : list nat) : Prop := Forall2 (fun i n => i < n) idx shape.
(** [lidx] is the local position of the global element [gidx] on a process with elements [els]. *)
Definition local_position (els : list (list nat)) (lidx gidx : list nat) : Prop :=
  Forall3 (fun e l g => e !! l = Some g) els lidx gidx.
(** What every element of the global data should be: real part, imaginary part. *)
Definition global_random {V} (zero : V) (stream : nat -> V) (shape : list nat) (is_complex : bool) (idx : list nat) : V * V :=
  if is_complex then (stream (2 * c_position shape idx), stream (2 * c_position shape idx + 1)) else (stream (c_position shape idx), zero).
