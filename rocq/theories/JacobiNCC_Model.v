(** Matrices of multiplication by Jacobi series: dedalus/core/basis.py.

    Simplifications.  Reals without rounding.  [None] is an exception.  Sparse matrices are those of
    [MatSolvers_Model]; [sparse.kron] is [skron] of [Clenshaw_Model]. *)
From Coq Require Import List ZArith Reals Bool.
Import ListNotations.
From Verif Require Import MatSolvers_Model Clenshaw_Model JacobiCalc_Model FourierNCC_Model JacobiOps_Model.
Local Open Scope R_scope.

(** [np.round], up to the choice between two nearest integers. *)
Definition round (r : R) : Z := Int_part (r + 1 / 2).
(** basis.py:618-621. *)
Definition padded_size (N : nat) (da db : Z) : nat :=
  let h := ((Z.of_nat N + 1) / 2)%Z in Z.to_nat (3 * h + Z.min h ((da + db + 1) / 2)).
Section Mass.
Context (mass : R -> R -> R).
(** basis.py:571-574, [Jacobi_matrix(size)]. *)
Definition Jacobi_matrix (x : jbasis) (size : nat) : option (mat R) := jacobi_matrix size (ba x) (bb x).
(** basis.py:610-626 with an operand that has a basis; [coeffs] are the [K] coefficients. *)
Definition component_matrix (ncc arg out : jbasis) (K : nat) (coeffs : nat -> R) (cutoff : R) : option (mat R) :=
  let N := bsize arg in
  let Nmat := padded_size N (round (ba out - ba arg)) (round (bb out - bb arg)) in
  match Jacobi_matrix arg Nmat, jacobi_matrix Nmat (ba ncc) (bb ncc), polynomials mass true None 1 (ba ncc) (bb ncc) 1 with
  | Some J, Some JA, Some p =>
      let '(A, B) := jacobi_recursion 0 1 Rmult Rminus Rdiv Ropp Nmat (at_ JA) J in
      let f0 := mscale Rmult (nth 0 p 0) (identity 0 1 Nmat) in
      match matrix_clenshaw 0 1 Rplus Rmult Rabs K coeffs A B f0 cutoff, conversion_matrix Nmat (ba arg) (bb arg) (ba out) (bb out) with
      | Some matrix, Some convert => Some (get (mmul 0 Rplus Rmult convert matrix) (None, Some (Z.of_nat N)) (None, Some (Z.of_nat N)))
      | _, _ => None end
  | _, _, _ => None end.
(** basis.py:602-608, with an operand that has a basis. *)
Definition jproduct_matrix (ncc arg out : jbasis) (i : nat) : option (mat R) :=
  component_matrix ncc arg out (i + 1) (fun k => if (k =? i)%nat then 1 else 0) 0.
End Mass.
(** basis.py:264-269: the product of a mode and a constant. *)
Definition constant_product (x : jbasis) (i : nat) : option (mat R) :=
  if (i <? bsize x)%nat then Some (Mat (bsize x) 1 (fun r _ => if (r =? i)%nat then 1 else 0)) else None.
(** basis.py:612-613 and 248-262: without a basis of the operand. *)
Definition constant_component (ncc : jbasis) (coeffs : list R) (cutoff : R) : option (mat R) :=
  ncc_matrix 0 Rplus Rmult (constant_product ncc) (fun c => above (Rabs c) cutoff) coeffs.

(** [sparse.eye(m, n)]. *)
Definition eye (m n : nat) : mat R := Mat m n (fun i j => if (i =? j)%nat then 1 else 0).
(** basis.py:315-320: the block of a component, for [M] coefficients of the product and [N] of the operand, and the
    sum [block += matrix] at 321-327, which needs equal shapes. *)
Definition block_of (M N : nat) (matrix : mat R) : option (mat R) :=
  let matrix := if (nr matrix =? M)%nat && (nc matrix =? N)%nat then matrix else skron Rmult (eye (M / nr matrix) (N / nc matrix)) matrix in
  if (nr matrix =? M)%nat && (nc matrix =? N)%nat then Some matrix else None.
