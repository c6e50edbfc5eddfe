(** What traces and transpositions of tensors are, in spin and regularity components. *)
From Coq Require Import List Arith Bool ZArith Reals.
From Coquelicot Require Import Complex.
Import ListNotations.
From Verif Require Import CSR_Spec MatSolvers_Model TupleTools_Model Intertwiner_Model Intertwiner_Spec.
Local Open Scope nat_scope.

(** The product of a matrix and a vector. *)
Definition applied (M : mat R) (c : nat -> R) (i : nat) : R := total 0%R Rplus (nc M) (fun j => (at_ M i j * c j)%R).
(** The place of component [j], part [p] (cosine or sine) and radial function [k] of the [l]-th degree, among [parts], [degrees] and [n] of these. *)
Definition place (parts degrees n j p l k : nat) : nat := ((j * parts + p) * degrees + l) * n + k.
Definition parts (real : bool) : nat := if real then 2 else 1.
(** At these places [c] has the components [x]. *)
Definition stored (rank parts degrees n p l k : nat) (c : nat -> R) (x : tuple -> R) : Prop :=
  forall j t, nth_error (components rank) j = Some t -> c (place parts degrees n j p l k) = x t.
(** The spin components of a tensor with the regularity components [x] at degree [ell]. *)
Definition spin_parts (ell : Z) (rank : nat) (x : tuple -> R) (s : tuple) : R := sumR (map (fun r => (Q ell r s * x r)%R) (components rank)).
(** [y] are the regularity components of the tensor with the spin components [v]. *)
Definition regularity_parts (ell : Z) (rank : nat) (v y : tuple -> R) : Prop :=
  (forall t, In t (components rank) -> spin_parts ell rank y t = v t) /\ (forall r, In r (components rank) -> ~ regularity_exists ell r -> y r = 0%R).
(** The trace over the first two indices, and the exchange of indices [i] and [j], in spin components. *)
Definition contracted (v : tuple -> R) (t : tuple) : R := (v ((-1)%Z :: 1%Z :: t) + v (1%Z :: (-1)%Z :: t) + v (0%Z :: 0%Z :: t))%R.
Definition exchange (i j : nat) (t : tuple) : tuple := map (fun k => nth (if k =? i then j else if k =? j then i else k) t 0%Z) (seq 0 (length t)).
(** The degrees of a subproblem: its own, or all that an order has. *)
Definition degree (group : option Z) (m Lmax : Z) (reversed : bool) (l : nat) (ell : Z) : Prop :=
  match group with
  | Some g => l = 0 /\ ell = g
  | None => (Z.abs m <= ell <= Lmax)%Z /\ Z.of_nat l = if reversed then (Lmax - ell)%Z else (ell - Z.abs m)%Z
  end.
Definition degrees (group : option Z) (m Lmax : Z) : nat := match group with Some _ => 1 | None => Z.to_nat (Lmax + 1 - Z.abs m) end.
