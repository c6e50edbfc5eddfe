(** Tuples of spins or regularities and tensor operators: dedalus/libraries/dedalus_sphere/tuple_tools.py and spin_operators.py.

    Simplifications.  Tuples are lists of integers.  Characters of numerals are their values, 0-9 and then the letters.  Matrices of integers
    are given by their entries; [np.where] in [TensorOperator.__call__] (spin_operators.py:56) has no effect, since its result is discarded. *)
From Coq Require Import List Arith Bool ZArith.
Import ListNotations.
Local Open Scope nat_scope.

Notation tuple := (list Z).
Inductive error := IndexError | ValueError | NameError.
Inductive result {A : Type} := Ok (x : A) | Raises (e : error).
Arguments result : clear implicits.
Definition bind {A B} (r : result A) (f : A -> result B) : result B := match r with Ok x => f x | Raises e => Raises e end.

(** ** tuple_tools.py *)
(** [t[i]], with negative indices. *)
Definition item {A} (t : list A) (i : Z) : result A :=
  let n := Z.of_nat (List.length t) in
  let j := if (i <? 0)%Z then (i + n)%Z else i in
  if (j <? 0)%Z then Raises IndexError else match nth_error t (Z.to_nat j) with Some x => Ok x | None => Raises IndexError end.
Fixpoint all {A B} (f : A -> result B) (l : list A) : result (list B) :=
  match l with [] => Ok [] | x :: l => bind (f x) (fun y => bind (all f l) (fun ys => Ok (y :: ys))) end.
(** 3: [dual]. *)
Definition dual (t : tuple) : tuple := map Z.opp t.
(** 4: [apply]. *)
Definition apply (p : list Z) {A} (t : list A) : result (list A) := all (item t) p.
(** 5: [sum_]. *)
Definition sum_ (k : list Z) (t : tuple) : Z :=
  fold_left Z.add (map (fun i => nth (Z.to_nat i) t 0%Z) (filter (fun i => (0 <=? i)%Z && (i <? Z.of_nat (List.length t))%Z) k)) 0%Z.
(** [enumerate]. *)
Definition enumerate {A} (t : list A) : list (nat * A) := combine (seq 0 (List.length t)) t.
(** 6: [remove]. *)
Definition remove (k : list Z) (t : tuple) : tuple := map snd (filter (fun p => negb (existsb (Z.eqb (Z.of_nat (fst p))) k)) (enumerate t)).
(** 7: [replace]. *)
Definition treplace (j : nat) (n : Z) (t : tuple) : tuple := map (fun p => if fst p =? j then n else snd p) (enumerate t).

(** [indexing.index(s)]. *)
Fixpoint find_index (indexing : list Z) (s : Z) : result nat :=
  match indexing with [] => Raises ValueError | x :: l => if (x =? s)%Z then Ok 0 else bind (find_index l s) (fun n => Ok (S n)) end.
(** [str(n)], a decimal numeral; the first argument only bounds the recursion. *)
Fixpoint decimal (fuel n : nat) : list nat :=
  match fuel with 0 => [] | S fuel => if n <? 10 then [n] else decimal fuel (n / 10) ++ [n mod 10] end.
(** [int(s, base)]. *)
Definition to_int (s : list nat) (base : nat) : result nat :=
  if (base <? 2) || (36 <? base) then Raises ValueError
  else if forallb (fun d => d <? base) s then Ok (fold_left (fun v d => v * base + d) s 0) else Raises ValueError.
(** 22-23: [tuple2index].  A base of 0, for an empty [indexing], would be read from the numeral; it is taken as an error. *)
Definition tuple2index (tup : tuple) (indexing : list Z) : result nat :=
  bind (all (fun s => bind (find_index indexing s) (fun i => Ok (decimal (S i) i))) tup) (fun ds => to_int (0 :: concat ds) (List.length indexing)).
(** [np.base_repr(number, base, padding)] of numpy/core/numeric.py, which is not in the repository; the first argument bounds its loop. *)
Fixpoint numerals (fuel num base : nat) : list nat :=
  match fuel with 0 => [] | S fuel => if num =? 0 then [] else num mod base :: numerals fuel (num / base) base end.
Definition base_repr (number base padding : nat) : result (list nat) :=
  if (36 <? base) || (base <? 2) then Raises ValueError
  else let res := numerals number number base ++ repeat 0 padding in Ok (match rev res with [] => [0] | s => s end).
(** 25-27: [index2tuple].  [numpy] is whether the name [np] is defined; in the module it is not (tuple_tools.py has no import). *)
Definition index2tuple_with (numpy : bool) (index rank : nat) (indexing : list Z) : result tuple :=
  if negb numpy then Raises NameError
  else bind (base_repr index (List.length indexing) rank) (fun s =>
    let s := if rank =? 0 then skipn 1 s else skipn (List.length s - rank) s in
    all (fun d => if d <? 10 then item indexing (Z.of_nat d) else Raises ValueError) s).
Definition index2tuple := index2tuple_with false.

(** ** spin_operators.py *)
(** 66-67: [range], the order of [itertools.product]. *)
Fixpoint range (indexing : list Z) (rank : nat) : list tuple :=
  match rank with 0 => [[]] | S rank => flat_map (fun s => map (cons s) (range indexing rank)) indexing end.
Definition tuple_eqb (s t : tuple) : bool := if list_eq_dec Z.eq_dec s t then true else false.
Definition int (b : bool) : Z := if b then 1%Z else 0%Z.
(** [__getitem__] of [Identity], 89-91; [Metric], 111-113; [Transpose], 146-148; [Trace], 209-212; [TensorProduct], 247-252. *)
Definition entry := tuple -> tuple -> result Z.
Definition identity_entry : entry := fun s t => Ok (int (tuple_eqb s t)).
Definition metric_entry : entry := fun s t => Ok (int (tuple_eqb s (dual t))).
Definition transpose_entry (permutation : list Z) : entry := fun s t => bind (apply permutation t) (fun t => Ok (int (tuple_eqb s t))).
Definition trace_entry (indices : list Z) : entry := fun s t => Ok (int (tuple_eqb s (remove indices t) && (sum_ indices t =? 0)%Z)).
Definition left_product_entry (element : tuple) : entry := fun s t => Ok (int (tuple_eqb s (element ++ t))).
Definition right_product_entry (element : tuple) : entry := fun s t => Ok (int (tuple_eqb s (t ++ element))).
(** 69-74: [array]. *)
Definition array (indexing : list Z) (e : entry) (rank0 rank1 : nat) : result (list (list Z)) :=
  all (fun s => all (e s) (range indexing rank1)) (range indexing rank0).
(** 59-64: [__getitem__] of other operators, for the matrix that [self(rank)] gives. *)
Definition getitem (indexing : list Z) (call : nat -> result (list (list Z))) (sigma tau : tuple) : result Z :=
  bind (tuple2index sigma indexing) (fun i => bind (tuple2index tau indexing) (fun j => bind (call (List.length tau)) (fun T =>
  bind (item T (Z.of_nat i)) (fun row => item row (Z.of_nat j))))).
(** The matrices of the operators, by the rank of the tensor they act on: 86, 108, 137, 199, 237. *)
Definition identity_call (indexing : list Z) (rank : nat) := array indexing identity_entry rank rank.
Definition metric_call (indexing : list Z) (rank : nat) := array indexing metric_entry rank rank.
Definition transpose_call (permutation : list Z) (indexing : list Z) (rank : nat) := array indexing (transpose_entry permutation) rank rank.
Definition trace_call (indices : list Z) (indexing : list Z) (rank : nat) := array indexing (trace_entry indices) (rank - List.length indices) rank.
Definition left_product_call (element : tuple) (indexing : list Z) (rank : nat) := array indexing (left_product_entry element) (rank + List.length element) rank.
Definition right_product_call (element : tuple) (indexing : list Z) (rank : nat) := array indexing (right_product_entry element) (rank + List.length element) rank.
