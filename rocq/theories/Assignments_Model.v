(** Division of output writes and sets among processes: dedalus/tools/post.py:20-110
    ([visit_writes], [get_assigned_writes], [get_all_writes], [get_assigned_sets]) and
    dedalus/tools/general.py:36-46 ([natural_sort]).

    Simplifications: a path is a value of any type, of which the sort key is a natural number (for the
    files of one handler, the set number); [writes] gives the attribute of the file of a path; the
    division and rounding up of floating point numbers are exact. *)
From stdpp Require Import list list_numbers.

(** general.py:36-46: Python's [sorted] is stable. *)
Fixpoint insert_sorted {A} (key : A -> nat) (x : A) (l : list A) : list A :=
  match l with
  | [] => [x]
  | y :: l' => if decide (key x <= key y) then x :: l else y :: insert_sorted key x l'
  end.
Definition natural_sort {A} (key : A -> nat) (l : list A) : list A := foldr (insert_sorted key) [] l.

(** [np.clip]: [minimum(maximum(x, a_min), a_max)]. *)
Definition clip (x a_min a_max : nat) : nat := (x `max` a_min) `min` a_max.

(** post.py:72-87. *)
Definition get_all_writes {A} (key writes : A -> nat) (paths : list A) : list nat :=
  map writes (natural_sort key paths).

(** [np.cumsum], from a start value. *)
Fixpoint cumsum (s : nat) (l : list nat) : list nat :=
  match l with [] => [] | x :: l => (s + x) :: cumsum (s + x) l end.

(** post.py:47-69: the pairs of start and count, by set. *)
Definition get_assigned_writes {A} (key writes : A -> nat) (size rank : nat) (paths : list A) : list (nat * nat) :=
  let paths := natural_sort key paths in
  let ws := get_all_writes key writes paths in
  let block := (sum_list ws + size - 1) `div` size in
  let proc_start := rank * block in
  let set_ends := cumsum 0 ws in
  let set_starts := zip_with Nat.sub set_ends ws in
  let starts := zip_with (clip proc_start) set_starts set_ends in
  let counts := zip_with Nat.sub (zip_with (clip (proc_start + block)) set_starts set_ends) starts in
  zip (zip_with Nat.sub starts set_starts) counts.

(** post.py:20-44: the calls of the function on a process. *)
Definition visit_writes {A} (key writes : A -> nat) (size rank : nat) (paths : list A) : list (A * nat * nat) :=
  let paths := natural_sort key paths in
  filter (fun x : A * nat * nat => x.2 <> 0)
    (zip_with (fun p (x : nat * nat) => (p, x.1, x.2)) paths (get_assigned_writes key writes size rank paths)).

(** [l[rank::size]]: from position [rank], every [size]-th element. *)
Definition stride {A} (rank size : nat) (l : list A) : list A :=
  omap (fun i => if decide (i `mod` size = rank) then l !! i else None) (seq 0 (length l)).

(** post.py:90-110, after the listing of the folder. *)
Definition get_assigned_sets {A} (key : A -> nat) (size rank : nat) (paths : list A) : list A :=
  stride rank size (natural_sort key paths).
