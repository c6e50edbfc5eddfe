(** What applying a matrix along an axis means. *)
From Coq Require Import List Arith.
Import ListNotations.
From Verif Require Import CSR_Model.

(** All orders in which the steps of parallel lists may be executed. *)
Inductive interleaves {A} : list (list A) -> list A -> Prop :=
| interleaves_nil ls : Forall (fun l => l = []) ls -> interleaves ls []
| interleaves_cons l1 a l l2 order : interleaves (l1 ++ l :: l2) order -> interleaves (l1 ++ (a :: l) :: l2) (a :: order).

(** Row-major positions of indices. *)
Fixpoint size (shape : list nat) : nat := match shape with [] => 1 | n :: shape => n * size shape end.
Fixpoint flat (shape idx : list nat) : nat := match shape, idx with _ :: shape, i :: idx => i * size shape + flat shape idx | _, _ => 0 end.
Definition in_shape (shape idx : list nat) : Prop := Forall2 (fun n i => i < n) shape idx.
(** A list with element [axis] replaced. *)
Definition replace (axis : nat) (l : list nat) (j : nat) : list nat := firstn axis l ++ j :: skipn (S axis) l.

Section Dense.
Context {K : Type} (kzero : K) (kadd kmul : K -> K -> K).
Definition total (n : nat) (f : nat -> K) : K := fold_right (fun j s => kadd (f j) s) kzero (seq 0 n).
(** The matrix stored in CSR arrays: duplicate entries add up. *)
Definition entry (m : csr K) (i j : nat) : K :=
  fold_right (fun jj s => kadd (if Aj m jj =? j then Ax m jj else kzero) s) kzero (seq (Ap m i) (Ap m (i + 1) - Ap m i)).
(** The stored columns are within the matrix. *)
Definition csr_valid (m : csr K) (rows cols : nat) : Prop :=
  forall i, i < rows -> Ap m i <= Ap m (i + 1) /\ forall jj, Ap m i <= jj < Ap m (i + 1) -> Aj m jj < cols.
(** Canonical: the columns of a row increase. *)
Definition canonical (m : csr K) (rows : nat) : Prop :=
  forall i jj jj', i < rows -> Ap m i <= jj -> jj < jj' -> jj' < Ap m (i + 1) -> Aj m jj < Aj m jj'.
(** Nothing is stored below the diagonal. *)
Definition stored_upper (m : csr K) (rows : nat) : Prop :=
  forall i jj, i < rows -> Ap m i <= jj < Ap m (i + 1) -> i <= Aj m jj.
End Dense.
