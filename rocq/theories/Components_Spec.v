(** What components of tensors on spheres and circles are.  [selected], [part], [represents] and [evaluates] are those of operators on tensor indices. *)
From Coq Require Import List Arith Bool ZArith.
Import ListNotations.
From Verif Require Import TensorArith_Model TensorArith_Spec.
Local Open Scope nat_scope.

(** The ways to give index [i] of a tensor of some rank that the operators understand: its place, or its place counted from the end unless it is the last. *)
Definition names (index : Z) (rank i : nat) : Prop := position index rank i /\ index <> (-1)%Z.
(** The axes of the coefficients of a component: cosines and sines for real numbers, and the degrees if they are coupled. *)
Definition axes (real : bool) (ell : option Z) (m Lmax : Z) : list nat :=
  (if real then [2] else []) ++ (match ell with None => [Z.to_nat (Lmax + 1 - Z.abs m)] | Some _ => [] end).
