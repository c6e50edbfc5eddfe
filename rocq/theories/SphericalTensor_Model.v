(** Traces and transpositions of tensor fields in balls, shells and disks, in dedalus/core/operators.py: [SphericalTrace], [PolarTrace] and
    [SphericalTransposeComponents]; [interleave_matrices] in dedalus/tools/array.py.

    Simplifications.  Reals without rounding.  Coefficients of a subproblem are flat, in C order; for evaluation the tensor axes are
    flattened, as in the model of regularity recombination, and [None] stands for an exception. *)
From Coq Require Import List Arith Bool ZArith Reals.
Import ListNotations.
From Verif Require Import CSR_Model CSR_Spec MatSolvers_Model Clenshaw_Model TensorArith_Model TupleTools_Model TensorOps_Model Intertwiner_Model.
Local Open Scope nat_scope.
Notation rmat := (MatSolvers_Model.mat R).
Notation unit_matrix := (MatSolvers_Model.identity 0%R 1%R).
Notation product := (MatSolvers_Model.mmul 0%R Rplus Rmult).
Notation rkron := (Clenshaw_Model.skron Rmult).

(** basis.py:3548-3561, [radial_recombinations], for one degree; it raises if an index is over other coordinates. *)
Definition over (cs : coordsys) (sig : tensorsig) : bool := forallb (fun c => cs_id c =? cs_id cs) sig.
Definition recombination_matrix (ell : Z) (order : nat) : rmat :=
  let Q := Q_matrix ell order in Mat (List.length Q) (List.length Q) (fun i j => nth j (nth i Q []) 0%R).
(** operators.py:1799-1802 and 1837-1840: ones at some places of a row. *)
Definition ones_at (n : nat) (places : list nat) : rmat := Mat 1 n (fun _ j => if existsb (Nat.eqb j) places then 1%R else 0%R).
(** 1803-1809 and 2004-2010: degrees of the subproblem.  [group] is its degree, if the degrees are separate. *)
Definition ell_list (group : option Z) (m Lmax : Z) (reversed : bool) : list Z :=
  match group with
  | Some ell => [ell]
  | None => let l := map (fun i => (Z.abs m + Z.of_nat i)%Z) (seq 0 (Z.to_nat (Lmax + 1 - Z.abs m))) in if reversed then rev l else l
  end.
(** array.py:447-457.  For no matrices it returns a number, which is not met: there is a degree. *)
Definition interleave_matrices (matrices : list rmat) : option rmat :=
  match matrices with
  | [] => None
  | [M] => Some M
  | M :: rest =>
      let N := List.length matrices in
      let P (i : nat) : rmat := Mat N N (fun r c => if (r =? i) && (c =? i) then 1%R else 0%R) in
      Some (fold_left (fun sum p => madd Rplus sum (rkron (snd p) (P (fst p)))) (combine (seq 1 (N - 1)) rest) (rkron M (P 0)))
  end.
(** 1810-1824 and 2011-2026: [T] is the matrix in spin components. *)
Definition spherical_matrix (real : bool) (T : rmat) (rank_in rank_out : nat) (group : option Z) (m Lmax : Z) (reversed : bool) (n_size : Z -> nat) : option rmat :=
  let block ell := product (product (MatSolvers_Model.transpose (recombination_matrix ell rank_out)) T) (recombination_matrix ell rank_in) in
  let blocks := map (fun ell => if real then rkron (block ell) (unit_matrix 2) else block ell) (ell_list group m Lmax reversed) in
  option_map (fun M => rkron M (unit_matrix (n_size (match group with None => 0%Z | Some ell => ell end)))) (interleave_matrices blocks).
(** 1783-1824, [SphericalTrace.subproblem_matrix]. *)
Definition spherical_trace (real : bool) (sig : tensorsig) (group : option Z) (m Lmax : Z) (reversed : bool) (n_size : Z -> nat) : option rmat :=
  match sig with
  | cs :: _ :: rest =>
      if over cs sig then
        let T := rkron (ones_at 9 [1; 3; 8]) (unit_matrix (3 ^ List.length rest)) in
        spherical_matrix real T (List.length sig) (List.length rest) group m Lmax reversed n_size
      else None
  | _ => None
  end.
(** 1826-1848, [PolarTrace.subproblem_matrix]; [n] is the number of coefficients of a component. *)
Definition polar_trace (sig : tensorsig) (n : nat) : option rmat :=
  match sig with
  | _ :: _ :: rest => Some (rkron (ones_at 4 [1; 2]) (unit_matrix (fold_right Nat.mul 1 (dims rest) * n)))
  | _ => None
  end.
(** 1902-1932 and 1995-2026, [SphericalTransposeComponents.subproblem_matrix]. *)
Definition spherical_transpose (real : bool) (sig : tensorsig) (dim : nat) (indices : Z * Z) (group : option Z) (m Lmax : Z) (reversed : bool) (n_size : Z -> nat) : option rmat :=
  option_bind (TransposeComponents sig dim indices) (fun order =>
  option_bind (hd_error sig) (fun cs => if over cs sig then
    option_bind (index_transpose 0%R 1%R sig order) (fun T => spherical_matrix real T (List.length sig) (List.length sig) group m Lmax reversed n_size)
  else None)).
(** 2028-2050, [SphericalTransposeComponents.operate]; [grid] for values on the grid in radius.  The order of the axes is followed on the
    tensor axes; the others keep their places unless indices are negative (see [TensorOps_Props.transposition_negative_refuted]). *)
Section Operate.
Context {point : Type}.
Definition transposed_data (sig : tensorsig) (order : list Z) (data : point -> list R) : option (point -> list R) :=
  option_map (fun (T : list nat * (list nat -> point -> R)) => fun x => map (fun j => snd T (unravel (fst T) j) x) (seq 0 (size (fst T))))
    (np_transpose (firstn (List.length sig) order) (dims sig, fun idx x => nth (flat (dims sig) idx) (data x) 0%R)).
Definition spherical_transpose_operate (sig : tensorsig) (dim : nat) (indices : Z * Z) (grid : bool) (data : point -> list R) (ell_maps : list (Z * (point -> bool))) : option (point -> list R) :=
  option_bind (TransposeComponents sig dim indices) (fun order =>
  option_bind (hd_error sig) (fun cs =>
  if grid then transposed_data sig order data
  else match backward_recombination (over cs sig) (List.length sig) data ell_maps with
       | Ok spins => option_bind (transposed_data sig order spins) (fun out =>
           match forward_recombination (over cs sig) (List.length sig) out ell_maps with Ok out => Some out | Raises _ => None end)
       | Raises _ => None
       end)).
End Operate.
