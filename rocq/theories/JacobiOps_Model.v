(** Operators of Jacobi bases: dedalus/core/basis.py, and their matrices for a subproblem, of
    [SpectralOperator1D.subproblem_matrix] in dedalus/core/operators.py.

    Simplifications.  Reals without rounding.  The mass of the weight and the Gauss-Legendre quadrature are those of
    [JacobiCalc_Model].  [None] is an exception (a division by zero is one, where numpy would go on with infinities).
    The attributes of a basis that these methods do not read are left out. *)
From Coq Require Import List ZArith Reals Bool.
Import ListNotations.
From Verif Require Import MatSolvers_Model Clenshaw_Model JacobiCalc_Model AffineCOV_Model FourierCalc_Model.
Local Open Scope R_scope.

(** basis.py:486-500: [size], [a], [b] and [bounds]. *)
Record jbasis := Jb { bsize : nat; ba : R; bb : R; bbounds : R * R }.
(** basis.py:354, [COV]. *)
Definition jcov (x : jbasis) : option cov := affine_cov jacobi_bounds (bbounds x).
(** basis.py:628-631. *)
Definition derivative_basis (order : nat) (x : jbasis) : jbasis := Jb (bsize x) (ba x + INR order) (bb x + INR order) (bbounds x).
(** basis.py:671-682. *)
Definition convert_full (x y : jbasis) : option (mat R) := conversion_matrix (bsize x) (ba x) (bb x) (ba y) (bb y).
(** basis.py:712-718. *)
Definition differentiate_full (x : jbasis) : option (mat R) :=
  match differentiation_matrix (bsize x) (ba x) (bb x), jcov x with
  | Some M, Some c => if Req_EM_T (stretch c) 0 then None else Some (Mat (nr M) (nc M) (fun i j => at_ M i j / stretch c))
  | _, _ => None end.

Section Mass.
Context (mass : R -> R -> R).
(** basis.py:499. *)
Definition jconstant_mode_value (x : jbasis) : R := 1 / sqrt (mass (ba x) (bb x)).
(** basis.py:685-702. *)
Definition constant_group (y : jbasis) (group : Z) : option (mat R) :=
  if (group =? 0)%Z then Some (Mat 1 1 (fun _ _ => 1 / jconstant_mode_value y)) else None.
(** basis.py:567-569: the groups of the modes are the modes. *)
Definition jmodes (x : jbasis) : axis_basis := Modes (map Z.of_nat (seq 0 (bsize x))) (bsize x) 1.
Definition constant_subspace (y : jbasis) (loc : bool) (P q : nat) : option (mat R) := subspace_matrix 0 (constant_group y) Constant (jmodes y) loc P q.
(** [v[None, :]]. *)
Definition row (v : list R) : mat R := Mat 1 (length v) (fun _ j => nth j v 0).
(** basis.py:733-742. *)
Definition interpolate_full (x : jbasis) (p : position) : option (mat R) :=
  match jcov x with None => None | Some c => match native_coord c p with None => None | Some z =>
    match polynomials mass true None (bsize x) (ba x) (bb x) z with None => None | Some v => Some (row v) end end end.
(** basis.py:757-764. *)
Definition integrate_full (cutoff : R) (leg : nat -> list (R * R)) (x : jbasis) : option (mat R) :=
  match integration_vector mass cutoff leg (bsize x) (ba x) (bb x), jcov x with
  | Some v, Some c => Some (row (map (fun w => w * stretch c) v)) | _, _ => None end.
(** basis.py:779-787. *)
Definition average_full (cutoff : R) (leg : nat -> list (R * R)) (x : jbasis) : option (mat R) :=
  match integration_vector mass cutoff leg (bsize x) (ba x) (bb x) with Some v => Some (row (map (fun w => w / 2) v)) | None => None end.
End Mass.

(** basis.py:806-814, [LiftJacobi.build_polynomial]: the coefficients, all on one process. *)
Definition lift_polynomial (x : jbasis) (n : Z) : list R :=
  let n := if (n <? 0)%Z then (n + Z.of_nat (bsize x))%Z else n in
  let s := MatSolvers_Model.bounds (bsize x) (Some n, Some (n + 1)%Z) in map (fun i => if inside s i then 1 else 0) (seq 0 (bsize x)).

(** operators.py:925-946, for the sizes [N_before] and [N_after] of the other axes and the matrix of the axis. *)
Definition subproblem_matrix (before after : nat) (M : mat R) : mat R :=
  let M := if (1 <? before)%nat then skron Rmult (identity 0 1 before) M else M in
  if (1 <? after)%nat then skron Rmult M (identity 0 1 after) else M.
