(** Vector calculus in balls and shells, in regularity components: dedalus/core/operators.py:3108-3215, 3240-3285, 3546-3604,
    3838-3967, 4109-4154.

    Simplifications.  Reals and complex numbers without rounding.  Data of one azimuthal order and degree: for each
    component a vector over the radial modes, of a size [N] that operand and output share; the loop over orders and degrees
    is [SphereEll_Model.operate].  With complex data these are the coefficients; with real data a complex number stands for
    the two coefficients of a pair (cos, -sin), or both are kept apart.  [None] is an exception. *)
From Coq Require Import List ZArith Reals Bool.
From Coquelicot Require Import Coquelicot.
Import ListNotations.
From Verif Require Import MatSolvers_Model CSR_Spec Intertwiner_Model Radial_Model.
Local Open Scope R_scope.

Inductive geometry := Ball (radius alpha : R) | Shell (inner outer a b : R).
Inductive radial := Dplus | Dminus | Second.
(** basis.py:4044-4056 and 3847-3859, by the kind of the radial basis. *)
Definition radial_operator (g : geometry) (k : nat) (op : radial) (ell regtotal : Z) (size : nat) : option (mat R) :=
  match g with
  | Ball radius alpha => ball_operator_matrix radius alpha k (match op with Dplus => Signed LD true | Dminus => Signed LD false | Second => Lap end) ell regtotal size
  | Shell inner outer a b => shell_operator_matrix inner outer a b k (match op with Dplus => SD true | Dminus => SD false | Second => SL end) ell regtotal size
  end.

Definition index := list nat.
Definition equal_index (i j : index) : bool := if list_eq_dec Nat.eq_dec i j then true else false.
(** basis.py:3534, 3537-3542. *)
Definition regularities (i : index) : list Z := map (fun j => nth j ordering 0%Z) i.
Definition regtotal (i : index) : Z := fold_left Z.add (regularities i) 0%Z.
Definition allowed (ell : Z) (i : index) : bool := regularity_allowed ell (regularities i).
(** The components of a tensor of a rank, in the order of [np.ndenumerate]. *)
Fixpoint indices (rank : nat) : list index := match rank with O => [[]] | S rank => flat_map (fun a => map (cons a) (indices rank)) [0%nat; 1%nat; 2%nat] end.

(** A number times a matrix. *)
Definition times_matrix (s : C) (M : option (mat R)) : option (mat C) :=
  match M with Some M => Some (Mat (nr M) (nc M) (fun i j => Cmult s (RtoC (at_ M i j)))) | None => None end.
Section Operators.
Context (g : geometry) (k size : nat) (ell : Z).
Notation op := (fun o i => radial_operator g k o ell (regtotal i) size).
Notation xi mu l := (RtoC (basis_xi mu l)).

(** 3268-3271 and 3273-3289, [SphericalGradient]. *)
Definition gradient_out (i : index) : list index := [0%nat :: i; 1%nat :: i].
Definition gradient_matrix (i j : index) : option (mat C) :=
  match j with
  | h :: r => if negb (h =? 2)%nat && equal_index i r then
      match h with
      | 0%nat => times_matrix (xi (-1) (ell + regtotal i)) (op Dminus i)
      | 1%nat => times_matrix (xi 1 (ell + regtotal i)) (op Dplus i)
      | _ => None end else None
  | [] => None end.
(** 3578-3584 and 3586-3604, [SphericalDivergence]. *)
Definition divergence_out (i : index) : list index := match i with (0%nat | 1%nat) :: r => [r] | _ => [] end.
Definition divergence_matrix (i j : index) : option (mat C) :=
  match i with
  | h :: r => if negb (h =? 2)%nat && equal_index r j then
      match h with
      | 0%nat => times_matrix (xi (-1) (ell + regtotal i + 1)) (op Dplus i)
      | 1%nat => times_matrix (xi 1 (ell + regtotal i - 1)) (op Dminus i)
      | _ => None end else None
  | [] => None end.
(** 3870-3878 and 3880-3903, [SphericalCurl]. *)
Definition curl_out (i : index) : list index := match i with (0%nat | 1%nat) :: r => [2%nat :: r] | _ :: r => [0%nat :: r; 1%nat :: r] | [] => [] end.
Definition curl_matrix (i j : index) : option (mat C) :=
  match i, j with
  | h :: r, h' :: r' => if equal_index r r' then
      match h, h' with
      | 0%nat, 2%nat => times_matrix (Cmult (Copp Ci) (xi 1 (ell + regtotal i + 1))) (op Dplus i)
      | 1%nat, 2%nat => times_matrix (Cmult Ci (xi (-1) (ell + regtotal i - 1))) (op Dminus i)
      | 2%nat, 0%nat => times_matrix (Cmult (Copp Ci) (xi 1 (ell + regtotal i))) (op Dminus i)
      | 2%nat, 1%nat => times_matrix (Cmult Ci (xi (-1) (ell + regtotal i))) (op Dplus i)
      | _, _ => None end else None
  | _, _ => None end.
(** 4139-4154, [SphericalLaplacian]. *)
Definition same_out (i : index) : list index := [i].
Definition laplacian_matrix (i j : index) : option (mat C) := if equal_index i j then times_matrix (RtoC 1) (op Second i) else None.
End Operators.

(** 3140-3167, [SphericalEllOperator.operate], at one order and degree. *)
Definition applied (M : mat C) (x : nat -> C) (n : nat) : C := CSR_Spec.total (RtoC 0) Cplus (nc M) (fun q => Cmult (at_ M n q) (x q)).
Definition vectors := index -> nat -> C.
Definition step (A : index -> index -> option (mat C)) (ell : Z) (x : vectors) (i : index) (out : option vectors) (j : index) : option vectors :=
  obind out (fun out => if allowed ell i && allowed ell j
    then obind (A i j) (fun M => Some (fun j' n => if equal_index j' j then Cplus (out j' n) (applied M (x i) n) else out j' n)) else Some out).
Definition operate (A : index -> index -> option (mat C)) (outs : index -> list index) (rank : nat) (ell : Z) (x : vectors) : option vectors :=
  fold_left (fun out i => fold_left (step A ell x i) (outs i) out) (indices rank) (Some (fun _ _ => RtoC 0)).
Definition gradient g k size rank ell := operate (gradient_matrix g k size ell) gradient_out rank ell.
Definition divergence g k size rank ell := operate (divergence_matrix g k size ell) divergence_out (S rank) ell.
Definition curl g k size rank ell := operate (curl_matrix g k size ell) curl_out (S rank) ell.
Definition laplacian g k size rank ell := operate (laplacian_matrix g k size ell) same_out rank ell.

(** With real data: a vector for each of the two coefficients of a pair.  3140-3167, with matrices that are real; 3940-3967, the
    curl, that makes complex numbers of the pairs, and adds the real and imaginary parts. *)
Definition pairs := index -> bool -> nat -> R.
Definition step_real (A : index -> index -> option (mat C)) (ell : Z) (x : pairs) (i : index) (out : option pairs) (j : index) : option pairs :=
  obind out (fun out => if allowed ell i && allowed ell j
    then obind (A i j) (fun M => Some (fun j' msin n => if equal_index j' j
      then out j' msin n + CSR_Spec.total 0 Rplus (nc M) (fun q => Re (at_ M n q) * x i msin q) else out j' msin n)) else Some out).
Definition operate_real (A : index -> index -> option (mat C)) (outs : index -> list index) (rank : nat) (ell : Z) (x : pairs) : option pairs :=
  fold_left (fun out i => fold_left (step_real A ell x i) (outs i) out) (indices rank) (Some (fun _ _ _ => 0)).
Definition curl_step_real (A : index -> index -> option (mat C)) (ell : Z) (x : pairs) (i : index) (out : option pairs) (j : index) : option pairs :=
  obind out (fun out => if allowed ell i && allowed ell j
    then obind (A i j) (fun M => let vec_out := applied M (fun q => Cplus (RtoC (x i false q)) (Cmult Ci (RtoC (x i true q)))) in
      Some (fun j' msin n => if equal_index j' j then out j' msin n + (if msin then Im (vec_out n) else Re (vec_out n)) else out j' msin n)) else Some out).
Definition curl_real g k size rank ell (x : pairs) : option pairs :=
  fold_left (fun out i => fold_left (curl_step_real (curl_matrix g k size ell) ell x i) (curl_out i) out) (indices (S rank)) (Some (fun _ _ _ => 0)).

(** 3169-3199 and 3201-3227, [subproblem_matrix]: a block for each pair of components, over elements that are [ms] azimuthal ones, the
    degrees of a list (one, or those that are coupled, in their order), and radial modes; [sizes] are the numbers of modes of the degrees. *)
Definition element := (nat * nat * nat)%type.
Definition elements (ms : nat) (ells : list Z) (size : Z -> nat) : list element :=
  flat_map (fun m => flat_map (fun e => map (fun n => (m, e, n)) (seq 0 (size (nth e ells 0%Z)))) (seq 0 (length ells))) (seq 0 ms).
Definition wrapped (A : Z -> index -> index -> option (mat C)) (outs : index -> list index) (i j : index) (ell : Z) : nat -> nat -> C :=
  if existsb (equal_index j) (outs i) && allowed ell i && allowed ell j then match A ell i j with Some M => at_ M | None => fun _ _ => RtoC 0 end else fun _ _ => RtoC 0.
Definition block (A : Z -> index -> index -> option (mat C)) (outs : index -> list index) (ells : list Z) (j i : index) (p q : element) : C :=
  let '(m, e, n) := p in let '(m', e', n') := q in
  if (m =? m')%nat && (e =? e')%nat then wrapped A outs i j (nth e ells 0%Z) n n' else RtoC 0.
Definition subproblem_matrix (A : Z -> index -> index -> option (mat C)) (outs : index -> list index) (rank_in rank_out ms : nat) (ells : list Z) (size : Z -> nat) : list (list C) :=
  flat_map (fun j => map (fun p => flat_map (fun i => map (block A outs ells j i p) (elements ms ells size)) (indices rank_in)) (elements ms ells size)) (indices rank_out).
(** 3905-3938, for real data and one degree, with two azimuthal elements: real parts on the diagonal, imaginary ones with [mult_1j]. *)
Definition mult_1j (m m' : nat) : R := match m, m' with 0%nat, 1%nat => -1 | 1%nat, 0%nat => 1 | _, _ => 0 end.
Definition real_block (A : Z -> index -> index -> option (mat C)) (outs : index -> list index) (ell : Z) (j i : index) (p q : nat * nat) : R :=
  let '(m, n) := p in let '(m', n') := q in let z := wrapped A outs i j ell n n' in
  (if (m =? m')%nat then Re z else 0) + mult_1j m m' * Im z.
Definition real_elements (size : nat) : list (nat * nat) := flat_map (fun m => map (fun n => (m, n)) (seq 0 size)) [0%nat; 1%nat].
Definition curl_subproblem_matrix g k rank ell size : list (list R) :=
  let A := fun ell => curl_matrix g k size ell in
  flat_map (fun j => map (fun p => flat_map (fun i => map (real_block A curl_out ell j i p) (real_elements size)) (indices (S rank))) (real_elements size)) (indices (S rank)).
