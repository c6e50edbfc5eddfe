(** What it means for coefficients to be sliced well by degree. *)
From Coq Require Import List Arith Bool ZArith.
Import ListNotations.
From Verif Require Import CSR_Spec Sphere_Model Sphere_Spec SphereEll_Model.
Local Open Scope nat_scope.

(** The degree of an element on the process with the pieces from [c0] on and the columns from [j0] on. *)
Definition degree (d : dtype) (Nphi Ntheta c0 j0 a b : nat) : Z := snd (coeff_group d Nphi Ntheta (coeff_chunk d * c0 + a) (j0 + b)).
(** Every element is in one entry of the table, the one of its degree. *)
Definition sorted_by_degree (d : dtype) (Nphi Ntheta c0 n j0 nc : nat) (maps : list ell_map) : Prop :=
  forall a b, a < coeff_chunk d * n -> b < nc -> exists e, filter (fun e => covers e a b) maps = [e] /\ fst (fst e) = degree d Nphi Ntheta c0 j0 a b.
(** Where it goes wrong: on a process with order zero, if the largest degree is even and fewer orders are kept than degrees, the
    column of half the largest degree may have it in order zero and in folded orders, and another degree in between. *)
Definition straddled (d : dtype) (Nphi Ntheta c0 n j0 nc : nat) : Prop :=
  c0 = 0 /\ exists j, j0 <= j < j0 + nc /\ 2 * j = top_degree d Ntheta /\ 2 < Nphi /\ Nphi < 2 * Ntheta /\ Ntheta - Nphi / 2 < j /\ j - (Ntheta - Nphi / 2) + 1 < n.

(** The identity matrix, and matrices that are inverse to their transposes. *)
Section Orthogonal.
Context {K : Type} (k0 k1 : K) (kadd kmul : K -> K -> K).
Definition orthogonal (q : nat) (Q : nat -> nat -> K) : Prop := forall i j, i < q -> j < q ->
  CSR_Spec.total k0 kadd q (fun k => kmul (Q i k) (Q j k)) = (if i =? j then k1 else k0)
  /\ CSR_Spec.total k0 kadd q (fun k => kmul (Q k i) (Q k j)) = (if i =? j then k1 else k0).
End Orthogonal.
