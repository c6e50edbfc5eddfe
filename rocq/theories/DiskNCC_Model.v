(** Matrices of multiplication by axisymmetric functions on disks: dedalus/core/basis.py:2553-2590.

    Simplifications.  Numbers without rounding.  The matrix [J] of the native coordinate (2570), the Jacobi matrix [JA] of
    the function's polynomials (2571), the value [p0] of the first of them (2573) and [prefactor] (2574) are any matrices and
    number.  The function's coefficients are those of its cosine part and of its (minus) sine part in azimuth, [N0] each, as
    they are stored for the order zero. *)
From Coq Require Import List Arith ZArith Reals Bool.
Import ListNotations.
From Verif Require Import MatSolvers_Model Clenshaw_Model ShellNCC_Model.
Local Open Scope nat_scope.

(** basis.py:2366-2369 and 1882-1886: the number of radial modes of the order [m] when there are [N0] of the order zero. *)
Definition nmin (m : Z) : nat := Z.to_nat (Z.abs m) / 2.
Definition n_size (N0 : nat) (m : Z) : nat := N0 - nmin m.

(** [coeffs.ravel()] of the two rows of coefficients. *)
Definition ravel (N0 : nat) (cos msin : nat -> R) (i : nat) : R := if i <? N0 then cos i else msin (i - N0).
(** [c[n:]]. *)
Definition from (n : nat) (c : nat -> R) (i : nat) : R := c (n + i).

Section Disk.
Context (J prefactor : mat R) (JA : nat -> nat -> R) (p0 cutoff : R).

(** basis.py:2571-2578, one matrix, from [N] coefficients. *)
Definition disk_matrix (N : nat) (coeffs : nat -> R) : option (mat R) :=
  let '(A, B) := jacobi_recursion 0%R 1%R Rmult Rminus Rdiv Ropp N JA J in
  let f0 := mscale Rmult p0 (identity 0%R 1%R N) in
  match matrix_clenshaw 0%R 1%R Rplus Rmult Rabs N coeffs A B f0 cutoff with
  | Some matrix => Some (mmul 0%R Rplus Rmult prefactor matrix)
  | None => None end.

(** A matrix of zeros, [sparse.csr_matrix((n, n))]. *)
Definition zeros (n : nat) : mat R := Mat n n (fun _ _ => 0%R).

(** basis.py:2553-2590, real numbers, for the order [m]; the spins of the function, the operand and the product are
    [spin_ncc], [spin_arg] and [spin_out]. *)
Definition disk_real (N0 : nat) (m spin_ncc spin_arg spin_out : Z) (cos msin : nat -> R) : option (mat R) :=
  let N := n_size N0 m in
  let diff := (Z.abs (m + spin_out) - Z.abs (m + spin_arg))%Z in
  let d := (Z.abs spin_ncc - Z.abs diff)%Z in
  if (0 <=? d)%Z && (d mod 2 =? 0)%Z then
    let coeffs_filter := ravel N0 cos msin in
    pair_matrix (disk_matrix N coeffs_filter) (disk_matrix N (from N coeffs_filter))
  else Some (zeros (2 * N)).
End Disk.
