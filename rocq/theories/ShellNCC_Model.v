(** Matrices of multiplication by radial functions on annuli and shells: dedalus/core/basis.py.

    Simplifications.  Numbers without rounding.  [None] is an exception.  A basis on an annulus or a shell is its radii,
    the parameters [a] and [b] ([alpha]), its power [k] and its radial size; the two bases have the same radii and
    parameters, as their product requires (basis.py:2101-2110).  [m] and [spintotal], or [regtotal], are those of the
    operand.  The recursion is done with numbers of the coefficients' type: real numbers are taken into it by [inj].
    Not modelled: matrix coefficients on shells, which depend on colatitude (3900-3913). *)
From Coq Require Import List ZArith Reals Bool.
Import ListNotations.
From Verif Require Import MatSolvers_Model Clenshaw_Model JacobiCalc_Model JacobiOps_Model Radial_Model.
Local Open Scope R_scope.

(** basis.py:2287 and 3890. *)
Definition padding (N0 k : nat) : nat := 3 * ((N0 + 1) / 2) + k.
Section Numbers.
Context {K : Type} (k0 k1 : K) (kadd kmul ksub kdiv : K -> K -> K) (kopp : K -> K) (inj : R -> K) (mag : K -> R) (mass : R -> R -> R).
Definition lift (M : mat R) : mat K := Mat (nr M) (nc M) (fun i j => inj (at_ M i j)).
(** basis.py:2288-2294, 2302 and 3891-3897, 3902: [J] and [prefactor] are matrices of size [Nmat]. *)
Definition recursion_matrix (a_ncc b_ncc : R) (Nmat N : nat) (J prefactor : option (mat R)) (n : nat) (coeffs : nat -> K) (cutoff : R) : option (mat K) :=
  match J, jacobi_matrix Nmat a_ncc b_ncc, polynomials mass true None 1 a_ncc b_ncc 1 with
  | Some J, Some JA, Some p =>
      let '(A, B) := jacobi_recursion k0 k1 kmul ksub kdiv kopp Nmat (fun i j => inj (at_ JA i j)) (lift J) in
      let f0 := mscale kmul (inj (nth 0 p 0)) (identity k0 k1 Nmat) in
      match matrix_clenshaw k0 k1 kadd kmul mag n coeffs A B f0 cutoff, prefactor with
      | Some matrix, Some prefactor => Some (get (mmul k0 kadd kmul (lift prefactor) matrix) (None, Some (Z.of_nat N)) (None, Some (Z.of_nat N)))
      | _, _ => None end
  | _, _, _ => None end.
Context (inner outer a b : R).
(** basis.py:2276-2303, one matrix: the function has power [kn] and size [N], and [n] coefficients, of which the first
    [N0 = N] are used; the operand has power [ka]. *)
Definition annulus_ncc (kn N ka : nat) (m spintotal : Z) (n : nat) (coeffs : nat -> K) (cutoff : R) : option (mat K) :=
  let Nmat := padding N kn in
  recursion_matrix (INR kn + a) (INR kn + b) Nmat N (annulus_operator_matrix inner outer a b ka SZ m spintotal Nmat) (shell_jacobi_conversion a b ka kn Nmat)
    (Nat.min n N) coeffs cutoff.
(** basis.py:3878-3904, one matrix, with numbers as coefficients; [kronecker_clenshaw] is then [matrix_clenshaw]
    (clenshaw.py:52-53). *)
Definition shell_ncc (kn N ka : nat) (regtotal : Z) (n : nat) (coeffs : nat -> K) (cutoff : R) : option (mat K) :=
  let Nmat := padding N kn in
  recursion_matrix (INR kn + a) (INR kn + b) Nmat N (shell_operator_matrix inner outer a b ka SZ 0 regtotal Nmat) (shell_jacobi_conversion a b ka kn Nmat)
    n coeffs cutoff.
End Numbers.
(** [sparse.bmat([[matrix_cos, -matrix_msin], [matrix_msin, matrix_cos]])], of matrices of the same shape. *)
Definition bmat (c s : mat R) : mat R :=
  Mat (nr c + nr s) (nc c + nc s) (fun i j =>
    if (i <? nr c)%nat then (if (j <? nc c)%nat then at_ c i j else - at_ s i (j - nc c))
    else (if (j <? nc c)%nat then at_ s (i - nr c) j else at_ c (i - nr c) (j - nc c))).
Definition pair_matrix (c s : option (mat R)) : option (mat R) := match c, s with Some c, Some s => Some (bmat c s) | _, _ => None end.
Section Real.
Context (mass : R -> R -> R) (inner outer a b : R).
Definition annulus_real (kn N ka : nat) (m spintotal : Z) (n : nat) (cos msin : nat -> R) (cutoff : R) : option (mat R) :=
  let matrix c := annulus_ncc 0 1 Rplus Rmult Rminus Rdiv Ropp (fun x => x) Rabs mass inner outer a b kn N ka m spintotal n c cutoff in
  pair_matrix (matrix cos) (matrix msin).
Definition shell_real (kn N ka : nat) (regtotal : Z) (n : nat) (cos msin : nat -> R) (cutoff : R) : option (mat R) :=
  let matrix c := shell_ncc 0 1 Rplus Rmult Rminus Rdiv Ropp (fun x => x) Rabs mass inner outer a b kn N ka regtotal n c cutoff in
  pair_matrix (matrix cos) (matrix msin).
End Real.
