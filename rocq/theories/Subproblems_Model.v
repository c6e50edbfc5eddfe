(** Assembly, filtering and permutation of the pencil matrices, and the gathers and scatters between
    fields and pencil vectors: dedalus/core/subsystems.py, dedalus/tools/array.py and
    dedalus/core/distributor.py:428-494.
    Matrix values are real; the complex dtype changes no index computation modelled here. *)
From Coq Require Import Reals.
From stdpp Require Import list list_numbers.
From Verif Require Import Numpy_Model Permutations_Model.

(** ** Sparse matrices *)

(** A scipy CSR matrix: per row, its stored entries (column, value).  Stored entries may repeat a
    column, as in scipy before [sum_duplicates]. *)
Notation csr := (list (list (nat * R))) (only parsing).

(** Product of a CSR row with a vector. *)
Definition row_dot (row : list (nat * R)) (x : list R) : R :=
  foldr (fun '(c, v) acc => v * nth c x 0 + acc)%R 0%R row.

(** [apply_sparse(matrix, x, axis=0)] on one column (dedalus/tools/array.py:171-204). *)
Definition mv (A : csr) (x : list R) : list R := map (fun row => row_dot row x) A.

(** [A @ B] of scipy CSR matrices; entries of equal columns are not summed up. *)
Definition mm (A B : csr) : csr :=
  map (fun row => row ≫= fun '(k, v) => map (fun '(c, w) => (c, (v * w)%R)) (nth k B [])) A.

(** [A.T.tocsr()] for [ncols] columns. *)
Definition transpose_csr (ncols : nat) (A : csr) : csr :=
  map (fun j => concat (imap (fun i row => map (fun '(_, v) => (i, v))
                                               (filter (fun cv => cv.1 = j) row)) A)) (seq 0 ncols).

(** dedalus/tools/array.py:356-389 with [source_index=True]. *)
Definition perm_matrix (perm : list nat) : csr := map (fun j => [(j, 1%R)]) perm.

(** [sparse.diags(v, dtype=int).tocsr()]: the conversion keeps the nonzero entries only. *)
Definition diags_csr (v : list bool) : csr :=
  imap (fun i (b : bool) => if b then [(i, 1%R)] else []) v.

(** [.nnz] *)
Definition nnz (A : csr) : nat := sum_list_with length A.

(** dedalus/tools/array.py:392-395 *)
Definition drop_empty_rows (A : csr) : csr := filter (fun row => row <> []) A.

(** COO entries (row, column, value). *)
Notation coo := (list (nat * nat * R)) (only parsing).

(** [sparse.coo_matrix((data, (rows, cols)), shape=(I, J)).tocsr()] *)
Definition coo_tocsr (nrows : nat) (es : coo) : csr :=
  map (fun i => map (fun '(_, c, v) => (c, v)) (filter (fun e => e.1.1 = i) es)) (seq 0 nrows).

(** ** Building the pencil matrices (subsystems.py:497-602) *)

(** One equation seen from one subproblem: sizes, whether [check_condition] holds, its valid modes
    (ravelled), and, per matrix name, [None] if [eqn[name] == 0] or else, per variable, the block of
    [expression_matrices] if the variable occurs in it. *)
Record equation := Equation
  { q_block : block; q_cond : bool; q_valid : list bool;
    q_mats : list (option (list (option coo))) }.
Record variable := Variable_ { v_block : block; v_valid : list bool }.

(** [field_size] *)
Definition block_size (b : block) : nat := bcomps b * bmodes b.

(** subsystems.py:521-530: entries of one equation row block, variable by variable. *)
Fixpoint eqn_entries (i0 j0 : nat) (vars : list variable) (blocks : list (option coo)) : coo :=
  match vars, blocks with
  | v :: vars, b :: blocks =>
      (if decide (block_size (v_block v) <> 0) then
         match b with
         | Some es => map (fun '(r, c, x) => (i0 + r, j0 + c, x)) es
         | None => []
         end
       else [])
      ++ eqn_entries i0 (j0 + block_size (v_block v)) vars blocks
  | _, _ => []
  end.

(** subsystems.py:514-531, for the matrix number [name]. *)
Fixpoint entries (i0 : nat) (eqns : list equation) (vars : list variable) (name : nat) : coo :=
  match eqns with
  | [] => []
  | q :: eqns =>
      (if decide (block_size (q_block q) <> 0 /\ q_cond q = true) then
         match nth name (q_mats q) None with
         | Some blocks => eqn_entries i0 0 vars blocks
         | None => []
         end
       else [])
      ++ entries (i0 + block_size (q_block q)) eqns vars name
  end.

(** subsystems.py:537: [data[np.abs(data) < solver.entry_cutoff] = 0] *)
Definition cut (cutoff v : R) : R := if Rlt_dec (Rabs v) cutoff then 0%R else v.

(** subsystems.py:533-538 *)
Definition raw_matrix (cutoff : R) (eqns : list equation) (vars : list variable) (name : nat) : csr :=
  coo_tocsr (sum_list_with (fun q => block_size (q_block q)) eqns)
    (map (fun '(r, c, v) => (r, c, cut cutoff v)) (entries 0 eqns vars name)).

(** subsystems.py:540, 543-545 *)
Definition valid_eqn (eqns : list equation) : list bool :=
  eqns ≫= fun q => if q_cond q then q_valid q else map (fun _ => false) (q_valid q).

(** subsystems.py:541 *)
Definition valid_var (vars : list variable) : list bool := vars ≫= v_valid.

Record system := System
  { pre_left : csr; pre_left_pinv : csr; pre_right : csr; pre_right_pinv : csr; min_matrices : list csr }.

(** subsystems.py:497-602: [None] is an exception: the [ValueError] for a non-square system, the
    empty [max] of the permutations (614-738), the empty [max] of the Woodbury update rank
    (589-594) when no equation passes its condition.  The pseudo-inverse assertions
    (565-567) are not modelled; see [preconditioners_pseudoinverse]. *)
Definition build_matrices (cutoff : R) (eqns : list equation) (vars : list variable) (nnames : nat)
  (bc_top tau_left interleave : bool) : option system :=
  let ve := diags_csr (valid_eqn eqns) in
  let vv := diags_csr (valid_var vars) in
  if decide (nnz ve <> nnz vv) then None
  else
    left_perm ← left_permutation (map q_block eqns) bc_top interleave;
    right_perm ← right_permutation (map v_block vars) tau_left interleave;
    let I := sum_list_with (fun q => block_size (q_block q)) eqns in
    let J := sum_list_with (fun v => block_size (v_block v)) vars in
    let pl := drop_empty_rows (mm (perm_matrix left_perm) ve) in
    let pl_pinv := transpose_csr I pl in
    let pr_pinv := drop_empty_rows (mm (perm_matrix right_perm) vv) in
    let pr := transpose_csr J pr_pinv in
    if decide (Forall (fun q => q_cond q = false) eqns) then None
    else Some (System pl pl_pinv pr pr_pinv
                 (map (fun name => mm (mm pl (raw_matrix cutoff eqns vars name)) pr) (seq 0 nnames))).

(** ** Gathers and scatters (subsystems.py:302-380) *)

(** Row-major positions, in an array of shape [shape], of the entries of [array[slices]], in the
    order of the view's elements. *)
Fixpoint view_positions (shape : list nat) (sl : list (nat * nat)) : list nat :=
  match shape, sl with
  | n :: shape, (a, b) :: sl =>
      i ← seq a (Nat.min b n - a);
      map (fun p => i * foldr Nat.mul 1 shape + p) (view_positions shape sl)
  | _, _ => [0]
  end.

(** The local data of a list of fields, each flattened in row-major order; [views] gives, per field
    and per subsystem of the subproblem, the positions of [field.data[ss.field_slices(field)]]. *)
Notation fields_data := (list (list R)) (only parsing).
Notation views := (list (list (list nat))) (only parsing).

(** subsystems.py:302-321, 344-346: column [j] of the buffer after the copies.  Each field fills the
    rows [i0:i1] of the column by the flattened view ([buffer[i0:i1, j].reshape(fshape)]). *)
Definition buffer_column (vs : views) (fs : fields_data) (j : nat) : list R :=
  concat (zip_with (fun v f => np_get (nth j v []) f) vs fs).

(** [gather_inputs] with [pre_right_pinv], [gather_outputs] with [pre_left]: result by columns,
    one per subsystem. *)
Definition gather (pre : csr) (vs : views) (nsub : nat) (fs : fields_data) : list (list R) :=
  map (fun j => mv pre (buffer_column vs fs j)) (seq 0 nsub).

(** [np.copyto(field_view, buffer_view)] for all the subsystems of one field whose rows start at
    [i0] in the buffer (columns [cols]). *)
Definition scatter_field (i0 : nat) (v : list (list nat)) (cols : list (list R)) (f : list R) : list R :=
  foldl (fun f '(pos, col) => write_all pos (take (length pos) (drop i0 col)) f) f (zip v cols).

(** subsystems.py:368-371: the fields in turn. *)
Fixpoint scatter_buffer (i0 : nat) (vs : views) (cols : list (list R)) (fs : fields_data) : fields_data :=
  match vs, fs with
  | v :: vs, f :: fs =>
      scatter_field i0 v cols f :: scatter_buffer (i0 + length (nth 0 v [])) vs cols fs
  | _, _ => fs
  end.

(** [scatter_inputs] with [pre_right], [scatter_outputs] with [pre_left_pinv]. *)
Definition scatter (pre : csr) (vs : views) (data : list (list R)) (fs : fields_data) : fields_data :=
  scatter_buffer 0 vs (map (mv pre) data) fs.

(** ** Which modes belong to a subsystem (distributor.py:428-494, subsystems.py:131-138) *)

(** Cartesian product of lists, row-major ([itertools.product], and the index order of numpy). *)
Fixpoint product {A} (ls : list (list A)) : list (list A) :=
  match ls with
  | [] => [[]]
  | l :: ls => x ← l; map (cons x) (product ls)
  end.

Definition in_box (box : list (nat * nat)) (idx : list nat) : Prop :=
  Forall2 (fun '(a, b) i => a <= i < b) box idx.
#[global] Instance in_box_dec box idx : Decision (in_box box idx).
Proof. apply Forall2_dec. intros [a b] i. apply _. Defined.

Fixpoint list_min (l : list nat) : nat :=
  match l with [] => 0 | [x] => x | x :: l => x `min` list_min l end.

Section groups.
  (** Local shape of the coefficient array, group shape, and the (masked) group array:
      [groups axis idx] is [None] where masked. *)
  Context (shape group_shape : list nat) (groups : nat -> list nat -> option nat).

  (** [selections]: the subgroup of every enumerated axis matches. *)
  Definition selected (groupset : list (option nat)) (idx : list nat) : Prop :=
    forall i g, groupset !! i = Some (Some g) -> groups i idx = Some g.

  Definition selectedb (groupset : list (option nat)) (idx : list nat) : bool :=
    forallb (fun ig => match ig.2 with Some g => bool_decide (groups ig.1 idx = Some g) | None => true end)
            (imap pair groupset).

  (** distributor.py:471-478: per axis, the whole axis ([None]) or blocks of the group shape. *)
  Definition subslices (i : nat) (subgroup : option nat) : list (option (nat * nat)) :=
    match subgroup with
    | None => [None]
    | Some _ => let n := nth i shape 0 in let g := nth i group_shape 1 in
                map (fun k => Some (g * k, g * k + g)) (seq 0 ((n + g - 1) / g))
    end.

  (** The index box of a multidimensional slice, clipped to the array. *)
  Definition clip (s : list (option (nat * nat))) : list (nat * nat) :=
    zip_with (fun o n => match o with Some (a, b) => (Nat.min a n, Nat.min b n) | None => (0, n) end) s shape.

  (** distributor.py:459-494 *)
  Definition local_groupset_slices (groupset : list (option nat)) : list (list (nat * nat)) :=
    omap (fun s =>
      let sel := filter (fun idx => in_box (clip s) idx /\ selectedb groupset idx = true)
                        (product (map (seq 0) shape)) in
      match sel with
      | [] => None
      | _ => Some (imap (fun i o =>
                match o with
                | Some ab => ab
                | None => let xs := map (fun idx => nth i idx 0) sel in
                          (list_min xs, S (max_list xs))
                end) s)
      end)
      (product (imap subslices groupset)).

  (** subsystems.py:131-138; [None] is the [ValueError] for non-contiguous data. *)
  Definition coeff_slices (groupset : list (option nat)) : option (list (nat * nat)) :=
    match local_groupset_slices groupset with
    | [] => Some (map (fun _ => (0, 0)) shape)
    | [s] => Some s
    | _ => None
    end.

  (** distributor.py:445-457: the groupsets present in the local array, without repetition.  The
      order of the [OrderedSet] is not kept. *)
  Definition groupset_of (coupling : list bool) (idx : list nat) : option (list (option nat)) :=
    mapM (fun ic : nat * bool => if ic.2 then Some None else g ← groups ic.1 idx; Some (Some g))
         (imap pair coupling).
  Definition local_groupsets (coupling : list bool) : list (list (option nat)) :=
    remove_dups (omap (groupset_of coupling) (product (map (seq 0) shape))).
End groups.
