(** What the enumeration of tuples and the tensor operators are. *)
From Coq Require Import List Arith Bool ZArith.
Import ListNotations.
From Verif Require Import TupleTools_Model.
Local Open Scope nat_scope.

(** Tuples of a rank with entries in [indexing], which lists different numbers. *)
Definition tuples (indexing : list Z) (rank : nat) (t : tuple) : Prop := List.length t = rank /\ Forall (fun s => In s indexing) t.
Definition good (indexing : list Z) : Prop := NoDup indexing /\ 2 <= List.length indexing <= 10.
(** Lexicographic order by the positions of the entries in [indexing]. *)
Inductive before (indexing : list Z) : tuple -> tuple -> Prop :=
  | before_head a b s t i j : nth_error indexing i = Some a -> nth_error indexing j = Some b -> i < j -> before indexing (a :: s) (b :: t)
  | before_tail a s t : before indexing s t -> before indexing (a :: s) (a :: t).

(** The matrix of an operator takes the list of the components of a tensor [v], each at its index, to the list of those of [w]. *)
Definition zsum (l : list Z) : Z := fold_right Z.add 0%Z l.
Definition listed (indexing : list Z) (rank : nat) (v : tuple -> Z) (x : list Z) : Prop :=
  List.length x = List.length indexing ^ rank /\ forall t j, tuples indexing rank t -> tuple2index t indexing = Ok j -> nth_error x j = Some (v t).
Definition times (T : list (list Z)) (x : list Z) : list Z := map (fun row => zsum (map (fun p => (fst p * snd p)%Z) (combine row x))) T.
Definition acts (indexing : list Z) (rank_in rank_out : nat) (T : list (list Z)) (v w : tuple -> Z) : Prop :=
  List.length T = List.length indexing ^ rank_out /\ Forall (fun row => List.length row = List.length indexing ^ rank_in) T
  /\ forall x, listed indexing rank_in v x -> listed indexing rank_out w (times T x).
(** Tensors with their indices permuted, and with entries put in at two places. *)
Definition permuted (q : list nat) (t : tuple) : tuple := map (fun i => nth i t 0%Z) q.
Definition inserted (j : nat) (a : Z) (m : nat) (b : Z) (s : tuple) : tuple := firstn j s ++ a :: firstn m (skipn j s) ++ b :: skipn m (skipn j s).
