(** Matrices of multiplication by radial functions in balls: dedalus/core/basis.py:4088-4136.

    Simplifications.  Numbers without rounding.  The matrix [J] of the native coordinate, the Jacobi matrix [JA] of the
    function's polynomials, the value [p0] of the first of them, and the matrices of the radial factor and of conversion are
    any matrices and number.  The operand has a basis (not 4097-4100). *)
From Coq Require Import List Arith ZArith Reals Bool.
Import ListNotations.
From Coquelicot Require Import Complex.
From Verif Require Import MatSolvers_Model Clenshaw_Model ShellNCC_Model DiskNCC_Model.
Local Open Scope nat_scope.

(** basis.py:4111-4113. *)
Definition ball_padding (N0 k_ncc k_arg : nat) : nat := let dk := Nat.max k_ncc k_arg - k_arg in 3 * ((N0 + 1) / 2) + (dk + 1) / 2.
(** basis.py:4084-4086 and the sizes of the radial basis: the number of modes of the degree [ell]. *)
Definition ball_size (N0 ell : nat) : nat := N0 - ell / 2.
(** basis.py:4110 and 4114. *)
Definition ball_condition (reg_ncc reg_arg reg_out : Z) : bool :=
  let d := (reg_ncc - Z.abs (reg_out - reg_arg))%Z in (0 <=? d)%Z && (d mod 2 =? 0)%Z.

Section Numbers.
Context {K : Type} (k0 k1 : K) (kadd kmul ksub kdiv : K -> K -> K) (kopp : K -> K) (mag : K -> R).
Context (J : mat K) (JA : nat -> nat -> K) (p0 : K) (cutoff : R).
(** basis.py:4116-4117 and 4123-4129: one matrix, from [N0] coefficients. *)
Definition ball_matrix (radial_factor conversion : mat K) (N0 Nmat N : nat) (coeffs : nat -> K) : option (mat K) :=
  let '(A, B) := jacobi_recursion k0 k1 kmul ksub kdiv kopp N0 JA J in
  let f0 := mscale kmul p0 (identity k0 k1 Nmat) in
  let prefactor := mmul k0 kadd kmul conversion radial_factor in
  match matrix_clenshaw k0 k1 kadd kmul mag N0 coeffs A B f0 cutoff with
  | Some matrix => Some (get (mmul k0 kadd kmul prefactor matrix) (None, Some (Z.of_nat N)) (None, Some (Z.of_nat N)))
  | None => None end.
End Numbers.

(** basis.py:4088-4136, real numbers; [cos] and [msin] are the two rows of coefficients. *)
Definition ball_real (J radial_factor conversion : mat R) (JA : nat -> nat -> R) (p0 cutoff : R) (N0 ell k_ncc k_arg : nat) (reg_ncc reg_arg reg_out : Z)
    (cos msin : nat -> R) : option (mat R) :=
  let N := ball_size N0 ell in
  if ball_condition reg_ncc reg_arg reg_out then
    let matrix c := ball_matrix 0%R 1%R Rplus Rmult Rminus Rdiv Ropp Rabs J JA p0 cutoff radial_factor conversion N0 (ball_padding N0 k_ncc k_arg) N c in
    pair_matrix (matrix cos) (matrix msin)
  else Some (Mat (2 * N) (2 * N) (fun _ _ => 0%R)).
(** The same for complex numbers. *)
Definition ball_complex (J radial_factor conversion : mat C) (JA : nat -> nat -> C) (p0 : C) (cutoff : R) (N0 ell k_ncc k_arg : nat) (reg_ncc reg_arg reg_out : Z)
    (coeffs : nat -> C) : option (mat C) :=
  let N := ball_size N0 ell in
  if ball_condition reg_ncc reg_arg reg_out then
    ball_matrix (RtoC 0) (RtoC 1) Cplus Cmult Cminus Cdiv Copp Cmod J JA p0 cutoff radial_factor conversion N0 (ball_padding N0 k_ncc k_arg) N coeffs
  else Some (Mat N N (fun _ _ => RtoC 0)).
