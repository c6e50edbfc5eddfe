(** Matrices of multiplication on shells by functions of colatitude and radius: dedalus/core/basis.py.

    Simplifications as in [ShellNCC_Model].  The coefficient of each radial mode is a matrix, which acts on the
    colatitudinal modes and tensor components of the operand; how it is built is not modelled. *)
From Coq Require Import List ZArith Reals Bool.
Import ListNotations.
From Verif Require Import MatSolvers_Model Clenshaw_Model JacobiCalc_Model JacobiOps_Model Radial_Model ShellNCC_Model.
Local Open Scope R_scope.

Section Numbers.
Context {K : Type} (k0 k1 : K) (kadd kmul ksub kdiv : K -> K -> K) (kopp : K -> K) (inj : R -> K) (mass : R -> R -> R).
(** [sparse.eye(m, n)]. *)
Definition rectangle (m n : nat) : mat K := Mat m n (fun i j => if (i =? j)%nat then k1 else k0).
(** basis.py:3878-3897 and 3904-3914, with matrices [vals] of norms [norms] as coefficients ([ell] and [regtotal_arg]
    are zero, as build_meridional_ncc_matrix at 4565-4568 passes no components). *)
Definition meridional_ncc (inner outer a b : R) (kn N ka n : nat) (vals : nat -> mat K) (norms : nat -> R) (cutoff : R) : option (mat K) :=
  let a_ncc := INR kn + a in let b_ncc := INR kn + b in
  let Nmat := padding N kn in
  match shell_operator_matrix inner outer a b ka SZ 0 0 Nmat, jacobi_matrix Nmat a_ncc b_ncc, polynomials mass true None 1 a_ncc b_ncc 1 with
  | Some J, Some JA, Some p =>
      let '(A, B) := jacobi_recursion k0 k1 kmul ksub kdiv kopp Nmat (fun i j => inj (at_ JA i j)) (lift inj J) in
      let f0 := mscale kmul (inj (nth 0 p 0)) (identity k0 k1 Nmat) in
      let i0 := nr (vals 0%nat) in let i1 := nc (vals 0%nat) in
      let I0 := identity k0 k1 i0 in let I1 := identity k0 k1 i1 in
      match shell_jacobi_conversion a b ka kn Nmat, kronecker_clenshaw k0 k1 kadd kmul n vals norms A B f0 cutoff true with
      | Some prefactor, Some matrix =>
          let matrix := mmul k0 kadd kmul (skron kmul I0 (lift inj prefactor)) matrix in
          let dealias0 := skron kmul I0 (rectangle N Nmat) in
          let dealias1 := skron kmul I1 (rectangle N Nmat) in
          Some (mmul k0 kadd kmul (mmul k0 kadd kmul dealias0 matrix) (transpose dealias1))
      | _, _ => None end
  | _, _, _ => None end.
End Numbers.
