(** Row and column orderings of the pencil matrices:
    dedalus/core/subsystems.py:614-738 ([left_permutation], [right_permutation]).
    The two functions are the same text over equations and over variables. *)
From stdpp Require Import list list_numbers sorting.

(** What the functions read of one equation ([equations[n1]]) or variable: the dimension of its
    domain, and [vfshape] (subsystems.py:632-634) as the number of components
    [prod(vfshape[:rank])] and the number of modes per component [prod(vfshape[1:])]. *)
Record block := Block { bdim : nat; bcomps : nat; bmodes : nat }.

(** subsystems.py:627-646: the hierarchy [L0] of input indices, equation > component > mode,
    numbered by one running counter [i].  The counter of the two inner loops is in closed form. *)
Fixpoint hierarchy (i : nat) (bs : list block) : list (list (list nat)) :=
  match bs with
  | [] => []
  | b :: bs =>
      if decide (bcomps b = 0) then [[]] :: hierarchy i bs
      else map (fun comp => seq (i + comp * bmodes b) (bmodes b)) (seq 0 (bcomps b))
             :: hierarchy (i + bcomps b * bmodes b) bs
  end.

(** Python [max] of a sequence; [None] is the [ValueError] of an empty one. *)
Fixpoint py_max (l : list nat) : option nat :=
  match l with
  | [] => None
  | x :: l => Some (match py_max l with Some m => x `max` m | None => x end)
  end.

(** [indices[dim].append(...)] on the [defaultdict(list)] of subsystems.py:648.  The key is
    created before the subscript [L0[n1][n2][n3]] is evaluated, so it also appears when that
    raises [IndexError] ([x = None]) and the body goes on with [continue]. *)
Fixpoint dd_append (dim : nat) (x : option nat) (d : list (nat * list nat)) : list (nat * list nat) :=
  match d with
  | [] => [(dim, option_list x)]
  | (k, l) :: d => if decide (k = dim) then (k, l ++ option_list x) :: d
                   else (k, l) :: dd_append dim x d
  end.

(** The subscript [L0[n1][n2][n3]]. *)
Definition subscript (L0 : list (list (list nat))) (n1 n2 n3 : nat) : option nat :=
  L1 ← L0 !! n1; L2 ← L1 !! n2; L2 !! n3.

(** The visiting orders of the two loop nests, subsystems.py:652-669. *)
Definition visits (interleave : bool) (n1max n2max n3max : nat) : list (nat * nat * nat) :=
  if interleave then
    n3 ← seq 0 n3max; n2 ← seq 0 n2max; n1 ← seq 0 n1max; [(n1, n2, n3)]
  else
    n3 ← seq 0 n3max; n1 ← seq 0 n1max; n2 ← seq 0 n2max; [(n1, n2, n3)].

(** subsystems.py:648-669: indices by dimension. *)
Definition indices_by_dim (bs : list block) (L0 : list (list (list nat)))
  (vs : list (nat * nat * nat)) : list (nat * list nat) :=
  foldl (fun d '(n1, n2, n3) =>
           match bs !! n1 with
           | Some b => dd_append (bdim b) (subscript L0 n1 n2 n3) d
           | None => d
           end) [] vs.

(** [indices[dim]] *)
Fixpoint dd_get (dim : nat) (d : list (nat * list nat)) : list nat :=
  match d with
  | [] => []
  | (k, l) :: d => if decide (k = dim) then l else dd_get dim d
  end.

(** The index list handed to [perm_matrix(indices, source_index=True)]: output row [i] is input
    row [indices[i]].  [first] is [bc_top] (equations) or [tau_left] (variables). *)
Definition permutation (bs : list block) (first interleave : bool) : option (list nat) :=
  let L0 := hierarchy 0 bs in
  let n1max := length L0 in
  n2max ← py_max (map length L0);
  n3max ← py_max (map length (concat L0));
  let indices := indices_by_dim bs L0 (visits interleave n1max n2max n3max) in
  let dims := merge_sort le (map fst indices) in
  let dims := if first then dims else reverse dims in
  Some (concat (map (fun dim => dd_get dim indices) dims)).

(** subsystems.py:614-676 *)
Definition left_permutation (equations : list block) (bc_top interleave : bool) : option (list nat) :=
  permutation equations bc_top interleave.

(** subsystems.py:679-738 *)
Definition right_permutation (variables : list block) (tau_left interleave : bool) : option (list nat) :=
  permutation variables tau_left interleave.
