(** Linear operators on the indices of tensor fields in dedalus/core/operators.py: components, traces, transpositions and skews, as they
    evaluate on the data of a field and as they build matrices for a subproblem.

    Simplifications.  Exact arithmetic over any field, with [ki] for [1j].  Data is an array (a shape and a function of the index) whose
    axes are the tensor indices followed by the directions; the coefficients of a subproblem are flat, in C order.  [None] stands for an
    exception.  The classes chosen by coordinate system, and the spherical versions, are not modelled here. *)
From Coq Require Import List Arith Bool ZArith.
Import ListNotations.
From Verif Require Import CSR_Model CSR_Spec MatSolvers_Model Clenshaw_Model TensorArith_Model.
Local Open Scope nat_scope.

(** ** Python and numpy *)
(** [l[:i]], [l[i:]], and [l[i] = x] for integers of either sign. *)
Definition upto {A} (i : Z) (l : list A) : list A := firstn (clip (List.length l) i) l.
Definition from {A} (i : Z) (l : list A) : list A := skipn (clip (List.length l) i) l.
Definition place (n : nat) (i : Z) : option nat :=
  if (i <? - Z.of_nat n)%Z || (Z.of_nat n <=? i)%Z then None else Some (Z.to_nat (if (i <? 0)%Z then i + Z.of_nat n else i)%Z).
Definition set_item {A} (l : list A) (i : Z) (x : A) : option (list A) :=
  match place (List.length l) i with Some k => Some (firstn k l ++ x :: skipn (S k) l) | None => None end.
Definition get_item {A} (l : list A) (i : Z) : option A :=
  match place (List.length l) i with Some k => nth_error l k | None => None end.

Section Ops.
Context {K : Type} (k0 k1 ki : K) (kadd kmul : K -> K -> K) (kopp : K -> K).
Notation array := (CSR_Model.array (K := K)).
Notation mat := (MatSolvers_Model.mat K).
Notation identity := (MatSolvers_Model.identity k0 k1).
Notation skron := (Clenshaw_Model.skron kmul).

(** [a[(None,)*news + (k,)]] *)
Definition take (news : nat) (k : nat) (a : array) : option array :=
  match fst a with
  | n :: rest => if k <? n then Some (repeat 1 news ++ rest, fun idx => snd a (k :: skipn news idx)) else None
  | [] => None
  end.
(** [a[(None,)*news + (slice(start, start + len),)]] *)
Definition take_slice (news : nat) (start len : nat) (a : array) : option array :=
  match fst a with
  | n :: rest => Some (repeat 1 news ++ (Nat.min (start + len) n - start) :: rest,
                       fun idx => match skipn news idx with i :: r => snd a (start + i :: r) | [] => k0 end)
  | [] => None
  end.
(** [out[:] = a]: leading axes of length 1 that [out] does not have are dropped, and axes of length 1 are repeated. *)
Definition assign_all (out : list nat) (a : array) : option (list nat -> K) :=
  let extra := List.length (fst a) - List.length out in
  let s := skipn extra (fst a) in
  let lead := List.length out - List.length s in
  if forallb (Nat.eqb 1) (firstn extra (fst a)) && forallb (fun p => (fst p =? snd p) || (snd p =? 1)) (combine (skipn lead out) s)
  then Some (fun idx => snd a (repeat 0 extra ++ map (fun p => if fst p =? 1 then 0 else snd p) (combine s (skipn lead idx))))
  else None.
(** [reduce(sparse.kron, factors, 1)] *)
Definition kron_all (factors : list mat) : mat := fold_left skron factors (Mat 1 1 (fun _ _ => k1)).
Definition option_bind {A B} (x : option A) (f : A -> option B) : option B := match x with Some a => f a | None => None end.

(** ** Components *)
(** 3327: the tensor signature of a component. *)
Definition component_sig (sig : tensorsig) (index : Z) : tensorsig := upto index sig ++ from (index + 1) sig.
(** 3339-3349; [k] is the place of the component in its coordinate system, [n] the number of coefficients of the subproblem. *)
Definition component_matrix (sig : tensorsig) (index : Z) (k n : nat) : option mat :=
  option_bind (get_item sig index) (fun cs =>
  if k <? cs_dim cs then
    let factors := map identity (dims sig) ++ [identity n] in
    let index_factor := Mat 1 (cs_dim cs) (fun _ j => if j =? k then k1 else k0) in
    option_map kron_all (set_item factors index index_factor)
  else None).
(** 3351-3358; [spatial] is the shape of the data of a component. *)
Definition component_operate (sig : tensorsig) (index : Z) (k : nat) (spatial : list nat) (a : array) : option (list nat -> K) :=
  option_bind (take (Z.to_nat index) k a) (assign_all (dims (component_sig sig index) ++ spatial)).
(** 3376-3381, 3393-3403, 3405-3411: [DirectProductComponent] of a component system [comp] that starts at [start]. *)
Definition direct_sig (sig : tensorsig) (index : Z) (comp : coordsys) : option tensorsig := set_item sig index comp.
Definition direct_matrix (sig : tensorsig) (index : Z) (comp : coordsys) (start n : nat) : option mat :=
  option_bind (get_item sig index) (fun cs =>
  if start + cs_dim comp <=? cs_dim cs then
    let factors := map identity (dims sig) ++ [identity n] in
    let index_factor := Mat (cs_dim comp) (cs_dim cs) (fun i j => if j =? start + i then k1 else k0) in
    option_map kron_all (set_item factors index index_factor)
  else None).
Definition direct_operate (sig : tensorsig) (index : Z) (comp : coordsys) (start : nat) (spatial : list nat) (a : array) : option (list nat -> K) :=
  option_bind (direct_sig sig index comp) (fun out =>
  option_bind (take_slice (Z.to_nat index) start (cs_dim comp) a) (assign_all (dims out ++ spatial))).

(** ** Skews *)
(** array.py:39-49, [axslice]: negative axes are refused.  [out[axslice(axis, i, i+1)] = v] *)
Definition axis_ok (axis : Z) : option nat := if (axis <? 0)%Z then None else Some (Z.to_nat axis).
Definition write (axis i : nat) (v : list nat -> K) (out : list nat -> K) : list nat -> K := fun idx => if nth axis idx 0 =? i then v idx else out idx.
Definition read_at (axis i : nat) (a : list nat -> K) : list nat -> K := fun idx => a (replace axis idx i).
(** 2102-2110, [CartesianSkew] *)
Definition skew_factor : mat := Mat 2 2 (fun i j => match i, j with 0, 1 => kopp k1 | 1, 0 => k1 | _, _ => k0 end).
Definition skew_matrix (sig : tensorsig) (index : Z) (n : nat) : option mat :=
  option_map kron_all (set_item (map identity (dims sig) ++ [identity n]) index skew_factor).
(** 2112-2122; [old] is what the output held. *)
Definition skew_operate (index : Z) (old : list nat -> K) (a : list nat -> K) : option (list nat -> K) :=
  option_bind (axis_ok index) (fun i =>
  let out := write i 0 (fun idx => kopp (read_at i 1 a idx)) old in
  Some (write i 1 (read_at i 0 a) out)).
(** 2134-2149, [SpinSkew.subproblem_matrix]; [shape] is the shape of the field in the subproblem, tensor indices first. *)
Definition spin_matrix (complex : bool) (rank azimuth : nat) (index : Z) (shape : list nat) : option mat :=
  let factors := map identity shape in
  let s := Mat 2 2 (fun i j => match i, j with 0, 0 => kopp k1 | 1, 1 => k1 | _, _ => k0 end) in
  if complex then option_map kron_all (set_item factors index (mscale kmul ki s))
  else option_bind (set_item factors index s) (fun factors =>
       option_map kron_all (set_item factors (Z.of_nat (rank + azimuth)) (skron (identity (nth azimuth shape 0 / 2)) skew_factor))).
(** 2151-2187, [SpinSkew.operate] on coefficients; [shape] is that of the data.  With an odd number of coefficients along the azimuth the
    even and odd parts have different lengths. *)
Definition spin_operate (complex : bool) (rank azimuth : nat) (index : Z) (shape : list nat) (old : list nat -> K) (a : list nat -> K) : option (list nat -> K) :=
  option_bind (axis_ok index) (fun i =>
  if complex then
    Some (write i 0 (fun idx => kmul (read_at i 0 a idx) (kopp ki)) (write i 1 (fun idx => kmul (read_at i 1 a idx) ki) old))
  else
    let ax := rank + azimuth in
    if Nat.even (nth ax shape 0) then
      let parity (odd : bool) (v : list nat -> K) (out : list nat -> K) : list nat -> K := fun idx => if Bool.eqb (Nat.odd (nth ax idx 0)) odd then v idx else out idx in
      let cos_of (b : list nat -> K) : list nat -> K := fun idx => b (replace ax idx (nth ax idx 0 - 1)) in
      let msin_of (b : list nat -> K) : list nat -> K := fun idx => b (replace ax idx (nth ax idx 0 + 1)) in
      let plus := fun idx => parity true (cos_of (read_at i 1 a)) (parity false (fun idx => kopp (msin_of (read_at i 1 a) idx)) old) idx in
      let minus := fun idx => parity true (fun idx => kopp (cos_of (read_at i 0 a) idx)) (parity false (msin_of (read_at i 0 a)) old) idx in
      Some (write i 0 minus (write i 1 plus old))
    else None).

(** ** Traces *)
(** 1856-1865; [np.ravel(np.eye(dim))] has [dim * dim] entries, and as a sparse factor one row. *)
Definition trace_matrix (sig : tensorsig) (n : nat) : option mat :=
  match sig with
  | cs :: _ :: rest =>
      let d := cs_dim cs in
      let trace := Mat 1 (d * d) (fun _ j => if j / d =? j mod d then k1 else k0) in
      Some (skron trace (identity (fold_right Nat.mul 1 (dims rest) * n)))
  | _ => None
  end.
(** 1776-1780: [np.einsum('ii...', a)] sums over the repeated label; its two axes must have the same length. *)
Definition trace_operate (shape : list nat) (a : list nat -> K) : option (list nat -> K) :=
  match shape with
  | d :: d' :: _ => if d =? d' then Some (fun idx => total k0 kadd d (fun i => a (i :: i :: idx))) else None
  | _ => None
  end.

(** ** Transposition *)
(** 1905-1908: [while i < 0: i += rank]; without indices this does not end, and here no index is found. *)
Definition wrap (rank : nat) (i : Z) : Z := if (i <? 0)%Z then (i mod Z.of_nat rank)%Z else i.
(** 1902-1932: the new order of the axes, from the indices as given. *)
Definition TransposeComponents (sig : tensorsig) (dim : nat) (indices : Z * Z) : option (list Z) :=
  let rank := List.length sig in
  let i0 := wrap rank (fst indices) in
  let i1 := wrap rank (snd indices) in
  if (Z.of_nat rank <=? Z.max i0 i1)%Z then None else
  if (i0 =? i1)%Z then None else
  option_bind (get_item sig i0) (fun cs0 => option_bind (get_item sig i1) (fun cs1 =>
  if negb (cs_id cs0 =? cs_id cs1) then None else
  option_bind (set_item (map Z.of_nat (seq 0 (rank + dim))) (fst indices) (snd indices)) (fun order =>
  set_item order (snd indices) (fst indices)))).
(** numpy's check of an order of axes. *)
Fixpoint all_places (n : nat) (order : list Z) : option (list nat) :=
  match order with
  | [] => Some []
  | o :: order => match place n o, all_places n order with Some k, Some l => Some (k :: l) | _, _ => None end
  end.
Fixpoint distinct (l : list nat) : bool := match l with [] => true | k :: l => negb (existsb (Nat.eqb k) l) && distinct l end.
Definition np_transpose {B} (order : list Z) (a : list nat * (list nat -> B)) : option (list nat * (list nat -> B)) :=
  let n := List.length (fst a) in
  if negb (List.length order =? n) then None else
  option_bind (all_places n order) (fun axes => if distinct axes then Some (CSR_Model.transpose axes a) else None).
(** 1951-1959, [_transpose_matrix]: [I1] has at an index its position; [perm_matrix] with source indices has 1 at (i, perm[i]). *)
Definition index_transpose (sig : tensorsig) (order : list Z) : option mat :=
  let shape := dims sig in
  option_map (fun I2 : list nat * (list nat -> nat) =>
      let N := size shape in
      Mat N N (fun r c => if c =? snd I2 (unravel (fst I2) r) then k1 else k0))
    (np_transpose (firstn (List.length sig) order) (shape, flat shape)).
(** 1969-1973 *)
Definition transpose_matrix (sig : tensorsig) (order : list Z) (n : nat) : option mat := option_map (fun P => skron P (identity n)) (index_transpose sig order).
(** 1975-1981 *)
Definition transpose_operate (out : list nat) (order : list Z) (a : array) : option (list nat -> K) := option_bind (np_transpose order a) (assign_all out).
End Ops.
