(** Applying and solving sparse matrices along an axis of an array: dedalus/tools/linalg.pyx, and
    [apply_sparse], [apply_dense], [solve_upper_sparse] of dedalus/tools/array.py.

    Simplifications.  Entries are of any type with field operations, without rounding; types are already
    promoted.  Arrays are C-contiguous, so that [reshape] is a view of the same buffer, and a buffer is a
    function from positions.  A parallel loop is the list of its iterations, each a list of writes; what each
    write reads is read at the time of the write.  Checks of types and shapes are left out. *)
From Coq Require Import List Arith Lia.
Import ListNotations.

Section CSR.
Context {K : Type} (kzero : K) (kadd kmul ksub kdiv : K -> K -> K).
Definition buffer := nat -> K.
Definition upd (b : buffer) (p : nat) (v : K) : buffer := fun q => if q =? p then v else b q.
(** A write: the position and the value as a function of the buffer. *)
Definition write : Type := nat * (buffer -> K).
Definition run (ws : list write) (b : buffer) : buffer := fold_left (fun b w => upd b (fst w) (snd w b)) ws b.

(** The arrays [indptr], [indices] and [data] of a matrix. *)
Record csr := Csr { Ap : nat -> nat; Aj : nat -> nat; Ax : nat -> K }.
(** [range(a, b)] and [range(b - 1, a, -1)]. *)
Definition range (a b : nat) : list nat := seq a (b - a).
Definition range_down (a b : nat) : list nat := rev (range (a + 1) b).

(** ** Products.  Each kernel is its list of parallel iterations, writing to the output [y]. *)
(** linalg.pyx:276-278, the loop over the entries of a row. *)
Definition row_sum (m : csr) (i : nat) (x : nat -> K) : K :=
  fold_left (fun sum jj => kadd sum (kmul (Ax m jj) (x (Aj m jj)))) (range (Ap m i) (Ap m (i + 1))) kzero.
(** linalg.pyx:264-279, [apply_csr_vec]. *)
Definition apply_csr_vec (m : csr) (n_row : nat) (x : buffer) : list (list write) :=
  map (fun i => [(i, fun _ => row_sum m i x)]) (seq 0 n_row).
(** linalg.pyx:284-303, [apply_csr_first]. *)
Definition apply_csr_first (m : csr) (n_row n_after : nat) (x : buffer) : list (list write) :=
  map (fun i =>
    map (fun k => (i * n_after + k, fun _ => kzero)) (seq 0 n_after)
    ++ flat_map (fun jj => map (fun k => (i * n_after + k, fun y => kadd (y (i * n_after + k)) (kmul (Ax m jj) (x (Aj m jj * n_after + k))))) (seq 0 n_after))
                (range (Ap m i) (Ap m (i + 1)))) (seq 0 n_row).
(** linalg.pyx:309-328, [apply_csr_last]. *)
Definition apply_csr_last (m : csr) (n_before n_in n_row : nat) (x : buffer) : list (list write) :=
  map (fun hi => let h := hi / n_row in let i := hi mod n_row in
    [(h * n_row + i, fun _ => row_sum m i (fun j => x (h * n_in + j)))]) (seq 0 (n_before * n_row)).
(** linalg.pyx:334-357, [apply_csr_mid]. *)
Definition apply_csr_mid (m : csr) (n_before n_in n_row n_after : nat) (x : buffer) : list (list write) :=
  map (fun hi => let h := hi / n_row in let i := hi mod n_row in
    map (fun k => ((h * n_row + i) * n_after + k, fun _ => kzero)) (seq 0 n_after)
    ++ flat_map (fun jj => map (fun k => ((h * n_row + i) * n_after + k,
                                          fun y => kadd (y ((h * n_row + i) * n_after + k)) (kmul (Ax m jj) (x ((h * n_in + Aj m jj) * n_after + k))))) (seq 0 n_after))
                (range (Ap m i) (Ap m (i + 1)))) (seq 0 (n_before * n_row)).

(** linalg.pyx:220-235 and 50-63: the equivalent shape with the axis in the middle. *)
Definition prod (l : list nat) : nat := fold_left Nat.mul l 1.
Definition before (shape : list nat) (axis : nat) : nat := if axis =? 0 then 1 else prod (firstn axis shape).
Definition after (shape : list nat) (axis : nat) : nat := if axis =? length shape - 1 then 1 else prod (skipn (axis + 1) shape).
Definition dim (shape : list nat) (axis : nat) : nat := nth axis shape 0.
(** linalg.pyx:189-258, [apply_csr]: the iterations; [out] has the shape of the array but for the axis.  An axis
    out of range does nothing for one and two dimensions. *)
Definition apply_csr (m : csr) (shape : list nat) (n_out : nat) (x : buffer) (axis : nat) : list (list write) :=
  match shape with
  | [n] => if axis =? 0 then apply_csr_vec m n_out x else []
  | [n0; n1] =>
      if axis =? 0 then if n1 =? 1 then apply_csr_vec m n_out x else apply_csr_first m n_out n1 x
      else if axis =? 1 then if n0 =? 1 then apply_csr_vec m n_out x else apply_csr_last m n0 n1 n_out x
      else []
  | _ =>
      let '(N1, N2, N3) :=
        if andb (length shape =? 3) (axis =? 1) then (dim shape 0, dim shape 1, dim shape 2)
        else (before shape axis, dim shape axis, after shape axis) in
      if N1 =? 1 then if N3 =? 1 then apply_csr_vec m n_out x else apply_csr_first m n_out N3 x
      else if N3 =? 1 then apply_csr_last m N1 N2 n_out x else apply_csr_mid m N1 N2 n_out N3 x
  end.

(** ** Back substitution, in place: the writes of each parallel iteration *)
(** linalg.pyx:98-104. *)
Definition solve_upper_csr_vec (m : csr) (n_row : nat) : list (list write) :=
  [map (fun i => (i, fun x =>
      let sum := fold_left (fun sum jj => ksub sum (kmul (Ax m jj) (x (Aj m jj)))) (range_down (Ap m i) (Ap m (i + 1))) (x i) in
      kdiv sum (Ax m (Ap m i)))) (rev (seq 0 n_row))].
(** linalg.pyx:110-131, [solve_upper_csr_first]. *)
Definition solve_upper_csr_first (m : csr) (n_row n_after : nat) : list (list write) :=
  [flat_map (fun i =>
      flat_map (fun jj => map (fun k => (i * n_after + k, fun x => ksub (x (i * n_after + k)) (kmul (Ax m jj) (x (Aj m jj * n_after + k))))) (seq 0 n_after))
               (range_down (Ap m i) (Ap m (i + 1)))
      ++ map (fun k => (i * n_after + k, fun x => kdiv (x (i * n_after + k)) (Ax m (Ap m i)))) (seq 0 n_after)) (rev (seq 0 n_row))].
(** linalg.pyx:137-155, [solve_upper_csr_last]. *)
Definition solve_upper_csr_last (m : csr) (n_before n_row : nat) : list (list write) :=
  map (fun h => map (fun i => (h * n_row + i, fun x =>
      let sum := fold_left (fun sum jj => ksub sum (kmul (Ax m jj) (x (h * n_row + Aj m jj)))) (range_down (Ap m i) (Ap m (i + 1))) (x (h * n_row + i)) in
      kdiv sum (Ax m (Ap m i)))) (rev (seq 0 n_row))) (seq 0 n_before).
(** linalg.pyx:161-184, [solve_upper_csr_mid]. *)
Definition solve_upper_csr_mid (m : csr) (n_before n_row n_after : nat) : list (list write) :=
  map (fun h => flat_map (fun i =>
      flat_map (fun jj => map (fun k => ((h * n_row + i) * n_after + k,
                                         fun x => ksub (x ((h * n_row + i) * n_after + k)) (kmul (Ax m jj) (x ((h * n_row + Aj m jj) * n_after + k))))) (seq 0 n_after))
               (range_down (Ap m i) (Ap m (i + 1)))
      ++ map (fun k => ((h * n_row + i) * n_after + k, fun x => kdiv (x ((h * n_row + i) * n_after + k)) (Ax m (Ap m i)))) (seq 0 n_after)) (rev (seq 0 n_row))) (seq 0 n_before).
(** linalg.pyx:20-82, [solve_upper_csr]. *)
Definition solve_upper_csr (m : csr) (shape : list nat) (axis : nat) : list (list write) :=
  match shape with
  | [n] => if axis =? 0 then solve_upper_csr_vec m n else []
  | [n0; n1] =>
      if axis =? 0 then if n1 =? 1 then solve_upper_csr_vec m n0 else solve_upper_csr_first m n0 n1
      else if axis =? 1 then if n0 =? 1 then solve_upper_csr_vec m n1 else solve_upper_csr_last m n0 n1
      else []
  | _ =>
      let '(N1, N2, N3) :=
        if andb (length shape =? 3) (axis =? 1) then (dim shape 0, dim shape 1, dim shape 2)
        else (before shape axis, dim shape axis, after shape axis) in
      if N1 =? 1 then if N3 =? 1 then solve_upper_csr_vec m N2 else solve_upper_csr_first m N2 N3
      else if N3 =? 1 then solve_upper_csr_last m N1 N2 else solve_upper_csr_mid m N1 N2 N3
  end.
(** array.py:206-232, [solve_upper_sparse], for given writes of the iterations in the order of execution: what
    the buffer [out] holds afterwards, if one was given, and what the call returns. *)
Definition solve_upper_sparse (order : list write) (rhs : buffer) (out : option buffer) : option buffer * option buffer :=
  let solved := run order rhs in
  (match out with Some _ => Some solved | None => None end, None).

(** ** Dense matrices.  An array is a shape and a function from indices. *)
Definition array : Type := list nat * (list nat -> K).
(** array.py:97-101, [move_single_axis]: [a.transpose(order)] has at [idx] the element of [a] whose index along
    axis [order[m]] is [idx[m]]. *)
Definition moved_order (n source destination : nat) : list nat :=
  let order := filter (fun a => negb (a =? source)) (seq 0 n) in firstn destination order ++ source :: skipn destination order.
Fixpoint position (a : nat) (l : list nat) : nat := match l with [] => 0 | b :: l => if b =? a then 0 else S (position a l) end.
Definition transpose (order : list nat) (a : array) : array :=
  (map (fun o => nth o (fst a) 0) order, fun idx => snd a (map (fun ax => nth (position ax order) idx 0) (seq 0 (length order)))).
Definition move_single_axis (a : array) (source destination : nat) : array := transpose (moved_order (length (fst a)) source destination) a.
(** [reshape] to a given shape with as many elements: same elements in row-major order. *)
Definition ravel (shape idx : list nat) : nat := fold_left (fun acc p => acc * fst p + snd p) (combine shape idx) 0.
Fixpoint unravel (shape : list nat) (p : nat) : list nat :=
  match shape with [] => [] | n :: shape => let s := prod shape in p / s mod n :: unravel shape p end.
Definition reshape (shape : list nat) (a : array) : array := (shape, fun idx => snd a (unravel (fst a) (ravel shape idx))).
(** [np.matmul] of a matrix with [rows] rows and an array of one or two dimensions. *)
Definition matmul (rows : nat) (m : nat -> nat -> K) (a : array) : array :=
  (match fst a with [] => [] | _ :: l => rows :: l end,
   fun idx => match idx with [] => kzero | i :: rest => fold_left (fun s j => kadd s (kmul (m i j) (snd a (j :: rest)))) (seq 0 (nth 0 (fst a) 0)) kzero end).
(** array.py:104-129, [apply_dense], for an axis in range. *)
Definition apply_dense (rows : nat) (m : nat -> nat -> K) (a : array) (axis : nat) : array :=
  let n := length (fst a) in
  let a1 := if axis =? 0 then a else move_single_axis a axis 0 in
  let sh := fst a1 in
  let a2 := if 2 <? n then reshape [nth 0 sh 0; prod (skipn 1 sh)] a1 else a1 in
  let t := matmul rows m a2 in
  let t := if 2 <? n then reshape (nth 0 (fst t) 0 :: skipn 1 sh) t else t in
  if axis =? 0 then t else move_single_axis t 0 axis.
End CSR.
Arguments csr : clear implicits.
