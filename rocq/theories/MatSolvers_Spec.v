(** Linear systems, inverses, banded storage and pencils. *)
From Coq Require Import List Arith ZArith Bool.
Import ListNotations.
From Verif Require Import MatSolvers_Model CSR_Spec.

Section Spec.
Context {K : Type} (k0 k1 : K) (kadd kmul ksub : K -> K -> K) (kopp conj : K -> K).
Notation total := (CSR_Spec.total k0 kadd).
(** A conjugation of the field: the identity of the reals, the conjugation of complex numbers. *)
Definition conjugation : Prop :=
  (forall a b, conj (kadd a b) = kadd (conj a) (conj b)) /\ (forall a b, conj (kmul a b) = kmul (conj a) (conj b))
  /\ (forall a, conj (conj a) = a) /\ conj k0 = k0 /\ conj k1 = k1.
(** Product of an [n] column matrix with a vector, systems and adjoints. *)
Definition applied (n : nat) (A : nat -> nat -> K) (x : nat -> K) (i : nat) : K := total n (fun j => kmul (A i j) (x j)).
Definition equation (n : nat) (A : nat -> nat -> K) (x y : nat -> K) : Prop := forall i, i < n -> applied n A x i = y i.
Definition adjoint (A : nat -> nat -> K) : nat -> nat -> K := fun i j => conj (A j i).
Definition delta (i j : nat) : K := if i =? j then k1 else k0.
Definition inverses (n : nat) (A B : nat -> nat -> K) : Prop :=
  forall i j, i < n -> j < n -> applied n A (fun k => B k j) i = delta i j /\ applied n B (fun k => A k j) i = delta i j.
(** The same with as many right-hand sides as [Y] has columns. *)
Definition solves (A X Y : mat K) : Prop :=
  nr X = nc A /\ nc X = nc Y /\ forall j, j < nc Y -> forall i, i < nr A -> applied (nc A) (at_ A) (fun k => at_ X k j) i = at_ Y i j.
(** Exact solvers of matrices, and exact inversions (as far as they succeed). *)
Definition exact_base (base : mat K -> option (mat K -> mat K)) : Prop := forall A s, base A = Some s -> forall Y, nr Y = nr A -> solves A (s Y) Y.
Definition exact_inverse (inv : mat K -> option (mat K)) : Prop := forall A B, inv A = Some B -> solves A B (Mat (nr A) (nr A) delta).
(** A matrix without the top border (the first [R] rows, right of column [R]) and the right border (the last [R]
    columns, but for the last [R] rows). *)
Definition unbordered (M : mat K) (R : nat) : nat -> nat -> K := fun i j =>
  if ((i <? R) && (R <=? j)) || ((R <=? i) && (i <? nr M - R) && (nc M - R <=? j)) then k0 else at_ M i j.
(** Factorisations: [LU t] solves with the matrix, its transpose or its adjoint. *)
Definition factorises (n : nat) (B : nat -> nat -> K) (LU : trans -> (nat -> K) -> nat -> K) : Prop :=
  forall v, equation n B (LU N v) v /\ equation n (fun i j => B j i) (LU T v) v /\ equation n (adjoint B) (LU H v) v.
(** The dense matrix of stored entries, and of diagonal-ordered storage. *)
Definition dense (m : coo K) (i j : nat) : K :=
  fold_right (fun e s => kadd (if (fst (fst e) =? i) && (snd (fst e) =? j) then snd e else k0) s) k0 (stored m).
Definition coo_valid (m : coo K) : Prop :=
  NoDup (map fst (stored m)) /\ Forall (fun e => fst (fst e) < rows m /\ snd (fst e) < cols m) (stored m).
Definition column_used (m : coo K) (j : nat) : Prop := exists i v, In (i, j, v) (stored m).
Definition banded_entry (l u : nat) (ab : mat K) (i j : nat) : K :=
  if (i <=? j + l) && (j <=? i + u) then at_ ab (u + i - j) j else k0.
(** Eigenpairs of a pencil: [A x = lambda B x]. *)
Definition eigenpair (n : nat) (A B : nat -> nat -> K) (lambda : K) (x : nat -> K) : Prop :=
  forall i, i < n -> applied n A x i = kmul lambda (applied n B x i).
(** [pre_left A pre_right], for the full matrix [A] of a subproblem with [n] modes. *)
Definition preconditioned (n : nat) (sp : subproblem K) (A : nat -> nat -> K) : nat -> nat -> K := fun i j =>
  applied n (at_ (pre_left sp)) (fun k => applied n A (fun q => at_ (pre_right sp) q j) k) i.
(** Shapes: [m] valid modes of [n]. *)
Definition shaped (n m : nat) (sp : subproblem K) : Prop :=
  (nr (L_min sp) = m /\ nc (L_min sp) = m) /\ (nr (M_min sp) = m /\ nc (M_min sp) = m) /\ (nr (pre_left sp) = m /\ nc (pre_left sp) = n)
  /\ (nr (pre_right sp) = n /\ nc (pre_right sp) = m) /\ (nr (pre_right_pinv sp) = m /\ nc (pre_right_pinv sp) = n).
(** The reduced matrices come from the full matrices [L] and [M]. *)
Definition reduced_from (n m : nat) (sp : subproblem K) (L M : nat -> nat -> K) : Prop :=
  forall i j, i < m -> j < m -> at_ (L_min sp) i j = preconditioned n sp L i j /\ at_ (M_min sp) i j = preconditioned n sp M i j.
End Spec.

(** ** Histories of calls that solve a boundary value problem *)
Record call K := Call { c_matrices : nat -> mat K; c_rhs : nat -> vec K; c_selected : list nat; c_rebuild : bool }.
Arguments c_matrices {K}. Arguments c_rhs {K}. Arguments c_selected {K}. Arguments c_rebuild {K}. Arguments Call {K}.
(** The matrix in force for a subproblem, the newest call first: that of the last call that selected it and
    rebuilt, or of the first call that selected it. *)
Fixpoint in_force {K} (newest_first : list (call K)) (s : nat) : option (mat K) :=
  match newest_first with
  | [] => None
  | c :: older =>
    if existsb (Nat.eqb s) (c_selected c)
    then match in_force older s with Some A => if c_rebuild c then Some (c_matrices c s) else Some A | None => Some (c_matrices c s) end
    else in_force older s
  end.
