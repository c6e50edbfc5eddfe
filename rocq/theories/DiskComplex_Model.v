(** Matrices of multiplication by axisymmetric functions on disks for complex fields: dedalus/core/basis.py:2553-2590, with the
    simplifications of [DiskNCC_Model]. *)
From Coq Require Import List Arith ZArith Reals Bool.
Import ListNotations.
From Coquelicot Require Import Complex.
From Verif Require Import MatSolvers_Model Clenshaw_Model DiskNCC_Model.
Local Open Scope nat_scope.

(** basis.py:2569-2574, 2580-2582 and 2586-2588.  [coeffs] has [N0] entries, of which [coeffs.ravel()[:N]] are used. *)
Definition disk_complex (J prefactor : mat C) (JA : nat -> nat -> C) (p0 : C) (cutoff : R) (N0 : nat) (m spin_ncc spin_arg spin_out : Z) (coeffs : nat -> C) : option (mat C) :=
  let N := n_size N0 m in
  let diff := (Z.abs (m + spin_out) - Z.abs (m + spin_arg))%Z in
  let d := (Z.abs spin_ncc - Z.abs diff)%Z in
  if (0 <=? d)%Z && (d mod 2 =? 0)%Z then
    let '(A, B) := jacobi_recursion (RtoC 0) (RtoC 1) Cmult Cminus Cdiv Copp N JA J in
    let f0 := mscale Cmult p0 (identity (RtoC 0) (RtoC 1) N) in
    match matrix_clenshaw (RtoC 0) (RtoC 1) Cplus Cmult Cmod (Nat.min N0 N) coeffs A B f0 cutoff with
    | Some matrix => Some (mmul (RtoC 0) Cplus Cmult prefactor matrix)
    | None => None end
  else Some (Mat N N (fun _ _ => RtoC 0)).
