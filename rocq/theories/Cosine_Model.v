(** Multiplication by the cosine of the colatitude on spheres: dedalus/core/operators.py (PolarMOperator, MulCosine) with
    dedalus/libraries/dedalus_sphere/sphere.py.

    Simplifications.  Reals without rounding.  One spin component, which the operator takes to itself, and real data (the matrices are real:
    the parts of complex numbers are treated alike); the directions other than azimuth and colatitude are left out.  [None] is an exception. *)
From Coq Require Import List ZArith Reals Bool.
Import ListNotations.
From Verif Require Import CSR_Spec MatSolvers_Model Codomain_Model JacobiCalc_Model Radial_Model Sphere_Model Harmonics_Model.
Local Open Scope R_scope.

(** tools/array.py:300-318, [sparse_block_diag] of a zero matrix and another. *)
Definition zero_block_first (t : nat) (M : mat R) : mat R :=
  Mat (t + nr M) (t + nc M) (fun i j => if ((i <? t) || (j <? t))%nat then 0 else at_ M (i - t) (j - t)).
(** operators.py:3042-3050 with sphere.py:91-95. *)
Definition cosine_matrix (Lmax m s : Z) : option (mat R) :=
  let '(n, a, b) := spin2Jacobi Lmax m s in
  obind (Z_op true) (fun o =>
  obind (squared o (n, IZR a, IZR b)) (fun M =>
  let trunc := (Z.abs s - Z.abs m)%Z in
  Some (if (0 <? trunc)%Z then zero_block_first (Z.to_nat trunc) M else M))).

(** operators.py:2944-2953 for an entry of [m_maps]: [apply_matrix] asks for as many entries as the matrix has columns; adding the product
    to the slice of the output broadcasts a single row. *)
Definition cosine_step (Lmax : nat) (s : Z) (x : nat -> nat -> R) (e : m_map) (out : nat -> nat -> R) : option (nat -> nat -> R) :=
  let '(m, _, mc, es) := e in
  let cols := slice_columns es in
  if (0 <? snd mc - fst mc)%nat && (0 <? length cols)%nat then
    obind (cosine_matrix (Z.of_nat Lmax) m s) (fun A =>
    if (nc A =? length cols)%nat && ((nr A =? length cols)%nat || (nr A =? 1)%nat) then
      Some (fun a b => if inside a mc then match index_of b cols with
                         | Some q => out a b + total 0 Rplus (nc A) (fun j => at_ A (if (nr A =? 1)%nat then 0 else q) j * x a (nth j cols 0%nat))
                         | None => out a b end
                       else out a b)
    else None)
  else Some out.
Fixpoint cosine_loop (Lmax : nat) (s : Z) (x : nat -> nat -> R) (maps : list m_map) (out : nat -> nat -> R) : option (nat -> nat -> R) :=
  match maps with [] => Some out | e :: maps => obind (cosine_step Lmax s x e out) (fun out => cosine_loop Lmax s x maps out) end.
(** operators.py:2926-2953, [operate]. *)
Definition multiply_cosine (d : dtype) (Nphi Ntheta Ng c0 n : nat) (s : Z) (x : nat -> nat -> R) : option (nat -> nat -> R) :=
  obind (m_maps d Nphi Ntheta Ng c0 n) (fun maps => cosine_loop (Lmax d Ntheta) s x maps (fun _ _ => 0)).

(** operators.py:2967-2977, [subproblem_matrix], for the order of an entry of [m_maps] and one row: reversed ([radial_matrix[::-1, ::-1]])
    where the slice of the entry is (basis.py:2973-2980). *)
Definition reversed_matrix (A : mat R) : mat R := Mat (nr A) (nc A) (fun i j => at_ A (nr A - 1 - i) (nc A - 1 - j)).
Definition cosine_group_matrix (Lmax : nat) (s : Z) (e : m_map) : option (mat R) :=
  obind (cosine_matrix (Z.of_nat Lmax) (fst (fst (fst e))) s) (fun A => Some (if snd (snd e) then reversed_matrix A else A)).
