(** Fourier bases and their operators: dedalus/core/basis.py, with [SpectralOperator1D._subspace_matrix] of
    dedalus/core/operators.py and [sparse_block_diag] of dedalus/tools/array.py.

    Simplifications.  Reals and complex numbers without rounding.  Matrices are those of [MatSolvers_Model].  [None] is
    an exception.  One axis, in coefficient space; the other axes are spectators. *)
From Coq Require Import List ZArith Reals Bool.
Import ListNotations.
From Coquelicot Require Import Complex.
From Verif Require Blocks_Model.
From Verif Require Import MatSolvers_Model AffineCOV_Model.

(** ** Wavenumbers *)
(** [np.arange(a, b)]. *)
Definition arange (a b : Z) : list Z := map (fun i => (a + Z.of_nat i)%Z) (seq 0 (Z.to_nat (b - a))).
(** basis.py:960-970. *)
Definition complex_wavenumbers (N : nat) : list Z :=
  let kmax := Z.of_nat (N / 2) in
  if (N mod 2 =? 1)%nat then arange 0 (kmax + 1) ++ arange (- kmax) 0 else arange 0 (kmax + 1) ++ arange (1 - kmax) 0.
(** basis.py:1117-1121. *)
Definition repeat2 {A} (l : list A) : list A := concat (map (fun k => [k; k]) l).
Definition real_wavenumbers (N : nat) : list Z := let kmax := Z.of_nat ((N - 1) / 2) in repeat2 (arange 0 (kmax + 1)).
(** basis.py:896-901, [native_wavenumbers]: numpy indexing with the permutation. *)
Fixpoint take_all {A} (l : list A) (idx : list nat) : option (list A) :=
  match idx with [] => Some [] | i :: idx => match nth_error l i, take_all l idx with Some a, Some r => Some (a :: r) | _, _ => None end end.
Definition native_wavenumbers (ks : list Z) (perm : option (list nat)) : option (list Z) := match perm with None => Some ks | Some p => take_all ks p end.
(** basis.py:1750-1752: the permutation of complex azimuthal modes. *)
Definition complex_m_perm (N : nat) : list nat := map (fun a => a / 2 + N / 2 * (a mod 2))%nat (seq 0 N).
(** basis.py:1761-1764: the permutation of real azimuthal modes. *)
Definition real_m_perm (N : nat) : list nat :=
  map (fun a => let div2 := (a / 2)%nat in let mod2 := (a mod 2)%nat in let div22 := (div2 mod 2)%nat in
    ((mod2 + div2) * (1 - div22) + (N - 1 + mod2 - div2) * div22)%nat) (seq 0 N).

(** ** Matrices of group blocks *)
Section Blocks.
Context {K : Type} (k0 : K).
(** array.py:300-322.  The sum of the sizes must be within the shape (entries of zero outside it would do no harm
    either). *)
Fixpoint diagonal_entry (blocks : list (mat K)) (i j : nat) : K :=
  match blocks with
  | [] => k0
  | b :: blocks => if (i <? nr b)%nat then (if (j <? nc b)%nat then at_ b i j else k0)
                   else if (j <? nc b)%nat then k0 else diagonal_entry blocks (i - nr b) (j - nc b)
  end.
Definition sum_of (l : list nat) : nat := fold_right Nat.add 0 l.
Definition sparse_block_diag (blocks : list (mat K)) (shape : nat * nat) : option (mat K) :=
  if (sum_of (map nr blocks) <=? fst shape)%nat && (sum_of (map nc blocks) <=? snd shape)%nat
  then Some (Mat (fst shape) (snd shape) (diagonal_entry blocks)) else None.

(** A basis along the axis: none, or one of modes with their wavenumbers, its size and the size of its groups
    ([group_shape]). *)
Inductive axis_basis := Constant | Modes (ks : list Z) (size group : nat).
(** [OrderedSet]. *)
Definition ordered_set (l : list Z) : list Z := rev (nodup Z.eq_dec (rev l)).
(** distributor.py:393-457: the groups on a process, with [broadcast]; [loc], [P], [q] as in [Blocks_Model]. *)
Definition local_groups (b : axis_basis) (loc : bool) (P q : nat) : option (list Z) :=
  match b with
  | Constant => Some (ordered_set (map (fun _ => 0%Z) (Blocks_Model.axis_elements 1 1 loc P 0)))
  | Modes ks size group => match take_all ks (Blocks_Model.axis_elements size group loc P q) with Some gs => Some (ordered_set gs) | None => None end
  end.
(** distributor.py:507-512. *)
Definition local_elements (b : axis_basis) (loc : bool) (P q : nat) : list nat :=
  match b with Constant => Blocks_Model.axis_elements 1 1 loc P q | Modes _ size group => Blocks_Model.axis_elements size group loc P q end.
(** operators.py:958-974, for operators that do not couple groups. *)
Fixpoint all_blocks (group_matrix : Z -> option (mat K)) (gs : list Z) : option (list (mat K)) :=
  match gs with [] => Some [] | g :: gs => match group_matrix g, all_blocks group_matrix gs with Some b, Some bs => Some (b :: bs) | _, _ => None end end.
Definition subspace_matrix (group_matrix : Z -> option (mat K)) (input output : axis_basis) (loc : bool) (P q : nat) : option (mat K) :=
  match local_groups input loc P q, local_groups output loc P q with
  | Some gin, Some gout =>
      match all_blocks group_matrix (filter (fun g => existsb (Z.eqb g) gout) gin) with None => None | Some blocks =>
        sparse_block_diag blocks (length (local_elements output loc P q), length (local_elements input loc P q)) end
  | _, _ => None end.
End Blocks.

(** The matrix of a list of rows. *)
Definition of_rows {K} (k0 : K) (n m : nat) (rows : list (list K)) : mat K := Mat n m (fun i j => nth j (nth i rows []) k0).
(** [group / stretch]. *)
Definition physical (c : cov) (group : Z) : option R := pydiv (IZR group) (stretch c).
(** basis.py:859. *)
Definition constant_mode_value : R := 1%R.
Definition is_zero (x : R) : bool := if Req_EM_T x 0 then true else false.

(** ** Complex modes *)
Local Open Scope C_scope.
Notation crows := (of_rows (RtoC 0)).
(** basis.py:999-1015. *)
Definition complex_constant (c : cov) (group : Z) : option (mat C) :=
  match physical c group with None => None | Some k => Some (if is_zero k then crows 1 1 [[RtoC (1 / constant_mode_value)]] else crows 1 0 [[]]) end.
(** basis.py:1018-1034. *)
Definition complex_derivative (c : cov) (group : Z) : option (mat C) :=
  match physical c group with None => None | Some k => Some (crows 1 1 [[Ci * RtoC k]]) end.
(** basis.py:1037-1056; the exponential of an imaginary number. *)
Definition cis (t : R) : C := (cos t, sin t).
Definition complex_interpolation (c : cov) (ks : list Z) (p : position) : option (mat C) :=
  match native_coord c p with None => None | Some x => Some (crows 1 (length ks) [map (fun k => cis (IZR k * x)%R) ks]) end.
(** basis.py:1059-1081. *)
Definition complex_integration (c : cov) (group : Z) : option (mat C) :=
  match physical c group with None => None | Some k => if is_zero k then Some (crows 1 1 [[RtoC (problem_length c)]]) else None end.
(** basis.py:1084-1105. *)
Definition complex_average (c : cov) (group : Z) : option (mat C) :=
  match physical c group with None => None | Some k => if is_zero k then Some (crows 1 1 [[RtoC 1]]) else None end.

(** ** Real modes *)
Local Open Scope R_scope.
Notation rrows := (of_rows 0%R).
(** basis.py:1186-1203. *)
Definition real_constant (c : cov) (group : Z) : option (mat R) :=
  match physical c group with None => None | Some k => Some (if is_zero k then rrows 2 1 [[1 / constant_mode_value]; [0]] else rrows 2 0 [[]; []]) end.
(** basis.py:1206-1224. *)
Definition real_derivative (c : cov) (group : Z) : option (mat R) :=
  match physical c group with None => None | Some k => Some (rrows 2 2 [[0; - k]; [k; 0]]) end.
(** basis.py:1227-1249. *)
Definition real_interpolation (c : cov) (ks : list Z) (p : position) : option (mat R) :=
  match native_coord c p with None => None | Some x =>
    Some (Mat 1 (length ks) (fun _ j => if Nat.even j then cos (IZR (nth j ks 0%Z) * x) else - sin (IZR (nth j ks 0%Z) * x))) end.
(** basis.py:1252-1275. *)
Definition real_integration (c : cov) (group : Z) : option (mat R) :=
  match physical c group with None => None | Some k => if is_zero k then Some (rrows 1 2 [[problem_length c; 0]]) else None end.
(** basis.py:1278-1300. *)
Definition real_average (c : cov) (group : Z) : option (mat R) :=
  match physical c group with None => None | Some k => if is_zero k then Some (rrows 1 2 [[1; 0]]) else None end.
