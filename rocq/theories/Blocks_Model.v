(** Model of the block distribution of array axes over processes and of the global
    gather/scatter of field data. *)
From stdpp Require Import list.
From Verif Require Import Layouts_Model.

(** [-(-a // b)], used at dedalus/core/distributor.py:361 and 380 (non-negative ints). *)
Definition cdiv (a b : nat) : nat := (a + b - 1) / b.

(** dedalus/core/distributor.py:370-384.  Chunk indices along one axis with [n] elements in
    chunks of [c]; [loc]: axis is local; [P], [q]: mesh size and coordinate of this axis. *)
Definition axis_chunks (n c : nat) (loc : bool) (P q : nat) : list nat :=
  let nch := cdiv n c in
  if loc then seq 0 nch
  else let block := cdiv nch P in
       let start := Nat.min nch (block * q) in
       let stop := Nat.min nch (block * (q + 1)) in
       seq start (stop - start).

(** dedalus/core/distributor.py:393-401.
    [chunk_size*np.repeat(chunks, chunk_size) + np.tile(np.arange(chunk_size), len(chunks))]. *)
Definition axis_elements (n c : nat) (loc : bool) (P q : nat) : list nat :=
  let chunks := axis_chunks n c loc P q in
  zip_with Nat.add (map (Nat.mul c) (concat (map (replicate c) chunks)))
                   (concat (replicate (length chunks) (seq 0 c))).

(** dedalus/core/distributor.py:496-505.  [slice(LE.min(), LE.max()+1)] or [slice(0, 0)]. *)
Definition axis_slice (els : list nat) : nat * nat :=
  match els with
  | [] => (0, 0)
  | e :: es => (foldr Nat.min e es, S (foldr Nat.max e es))
  end.

(** MPI row-major Cartesian topology (dedalus/core/distributor.py:112-113, [Create_cart],
    [Get_coords]); MPI's documented behaviour. *)
Fixpoint cart_coords (dims : list nat) (r : nat) : list nat :=
  match dims with
  | [] => []
  | _ :: ds => r / mesh_prod ds :: cart_coords ds (r mod mesh_prod ds)
  end.

(** Row-major rank of coordinates (used for [reshape(ext_mesh)], dedalus/core/field.py:817). *)
Fixpoint cart_rank (dims coords : list nat) : nat :=
  match dims, coords with
  | _ :: ds, c :: cs => c * mesh_prod ds + cart_rank ds cs
  | _, _ => 0
  end.

(** Per-axis data: global size and chunk size. *)
Definition axes := list (nat * nat).

(** dedalus/core/distributor.py:357-401.  Local elements of a layout on a rank, axis by axis,
    with [ext_mesh] and [ext_coords] of lines 331-335 and 364-368. *)
Fixpoint zip_elements (ax : axes) (loc : list bool) (ext co : list nat) : list (list nat) :=
  match ax, loc, ext, co with
  | (n, c) :: ax', b :: loc', P :: ext', q :: co' =>
      axis_elements n c b P q :: zip_elements ax' loc' ext' co'
  | _, _, _, _ => []
  end.

Definition local_elements (dims : list nat) (loc : list bool) (ax : axes) (r : nat)
  : option (list (list nat)) :=
  ext ← assign_masked loc 1 dims;
  co ← assign_masked loc 0 (cart_coords dims r);
  Some (zip_elements ax loc ext co).

(** dedalus/core/distributor.py:508-512. *)
Definition local_shape (els : list (list nat)) : list nat := map length els.

(** dedalus/core/distributor.py:496-505. *)
Definition slices (els : list (list nat)) : list (nat * nat) := map axis_slice els.

(** ** Global data.  An n-dimensional array is a function of its multi-index. *)
Section data.
  Context {A : Type} (zero : A) (add : A -> A -> A).
  Definition array := list nat -> A.

  (** numpy basic slicing [g[slices]]: local index [j] reads [g] at [lo + j]. *)
  Definition take_slices (sl : list (nat * nat)) (g : array) : array :=
    fun j => g (zip_with (fun s i => s.1 + i) sl j).

  Definition in_slices (sl : list (nat * nat)) (idx : list nat) : bool :=
    bool_decide (Forall2 (fun s i => s.1 <= i /\ i < s.2) sl idx).

  (** dedalus/core/field.py:746-761 ([load_from_global_coeff_data]) and 764-779: each rank
      takes its slice of the global array. *)
  Definition load_global (els : list (list nat)) (g : array) : array :=
    take_slices (slices els) g.

  (** dedalus/core/field.py:791-798: zeros outside the local slices, local data inside. *)
  Definition send_buffer (els : list (list nat)) (data : array) : array :=
    fun idx => if in_slices (slices els) idx
               then data (zip_with (fun s i => i - s.1) (slices els) idx) else zero.

  (** dedalus/core/field.py:782-800: [Allreduce(SUM)] of the send buffers of all ranks. *)
  Definition allgather_data (bufs : list array) : array :=
    fun idx => foldr (fun b acc => add (b idx) acc) zero bufs.

  (** dedalus/core/field.py:802-818: [np.block] of the pieces arranged in [ext_mesh].  Along
      each axis the block that contains an index is found from the pieces' sizes. *)
  Fixpoint locate (sizes : list nat) (i : nat) : nat * nat :=
    match sizes with
    | [] => (0, i)
    | s :: ss => if decide (i < s) then (0, i)
                 else let '(q, o) := locate ss (i - s) in (S q, o)
    end.

  Fixpoint block_find (ax : axes) (loc : list bool) (ext idx : list nat) : list (nat * nat) :=
    match ax, loc, ext, idx with
    | (n, c) :: ax', b :: loc', P :: ext', i :: idx' =>
        locate (map (fun q => length (axis_elements n c b P q)) (seq 0 P)) i
          :: block_find ax' loc' ext' idx'
    | _, _, _, _ => []
    end.

  Definition gather_data (ax : axes) (loc : list bool) (ext : list nat) (pieces : nat -> array)
    : array :=
    fun idx => let f := block_find ax loc ext idx in
               pieces (cart_rank ext (map fst f)) (map snd f).
End data.

(** dedalus/core/field.py:624-626.  [global_data[np.ix_( *elements)]] indexes the leading
    [len(elements)] axes of the array, whatever they are; [None] is the [IndexError].  The
    shape of the selected block, for an array of shape [tensor shape ++ spatial shape]. *)
Definition ix_shape (shape : list nat) (els : list (list nat)) : option (list nat) :=
  if decide (length els <= length shape /\
             Forall2 (fun n e => Forall (fun i => i < n) e) (take (length els) shape) els)
  then Some (map length els ++ drop (length els) shape) else None.

(** dedalus/core/field.py:624-629.  [set_global_data] succeeds if the selected block has the
    shape of the local data (numpy would also broadcast size-one axes; not modelled). *)
Definition set_global_data_ok (tshape gshape : list nat) (els : list (list nat)) : bool :=
  bool_decide (ix_shape (tshape ++ gshape) els = Some (tshape ++ map length els)).
