(** C18: the row and column orderings of the pencil matrices. *)
From stdpp Require Import list list_numbers sorting.
From Coq Require Import Lia.
From Verif Require Import Permutations_Model Permutations_Spec Permutations_Proofs.

(** For every nonempty list of equations, sizes (including empty equations), both boundary
    placements and both interleaving options, the row ordering exists, lists every degree of
    freedom exactly once, and puts them in the documented order. *)
Theorem row_ordering_permutation : forall equations bc_top interleave,
  equations <> [] ->
  exists p, left_permutation equations bc_top interleave = Some p /\
    p ≡ₚ seq 0 (total equations) /\
    forall i j x y, is_dof equations x -> is_dof equations y ->
      p !! i = Some (position equations x) -> p !! j = Some (position equations y) ->
      (i < j <-> before equations bc_top interleave x y).
Proof.
  intros bs f il Hne. destruct (permutation_succeeds bs f il) as [Hs _].
  destruct (Hs Hne) as [p Hp]. exists p. split; [done|]. split; [by eapply permutation_perm|].
  intros i j x y Hx Hy Hi Hj. split; [intros Hij; by eapply permutation_sorted|].
  intros Hb. destruct (lt_eq_lt_dec i j) as [[H|<-]|H]; [done| |].
  - rewrite Hi in Hj. injection Hj as Hj. apply position_inj in Hj as <-; [|done..].
    by apply before_irrefl in Hb.
  - pose proof (permutation_sorted _ _ _ _ j i y x Hp H Hy Hx Hj Hi) as Hb'.
    unfold before, mode_before in *. destruct f, il; lia.
Qed.

(** The same for variables. *)
Theorem column_ordering_permutation : forall variables tau_left interleave,
  variables <> [] ->
  exists p, right_permutation variables tau_left interleave = Some p /\
    p ≡ₚ seq 0 (total variables) /\
    forall i j x y, is_dof variables x -> is_dof variables y ->
      p !! i = Some (position variables x) -> p !! j = Some (position variables y) ->
      (i < j <-> before variables tau_left interleave x y).
Proof. exact row_ordering_permutation. Qed.

(** The input positions used above number the degrees of freedom from 0 without gaps. *)
Theorem positions_number_dofs : forall bs n,
  n < total bs <-> exists x, is_dof bs x /\ position bs x = n.
Proof.
  intros bs n. split; [apply position_onto|]. intros (x & Hx & <-). by apply position_lt.
Qed.

(** An equation list with a vector equation, two boundary conditions and an empty equation. *)
Example ordering_example :
  let eqs := [Block 2 2 3; Block 2 1 3; Block 1 2 1; Block 1 0 1] in
  left_permutation eqs true true = Some [9; 10; 0; 6; 3; 1; 7; 4; 2; 8; 5] /\
  left_permutation eqs false false = Some [0; 3; 6; 1; 4; 7; 2; 5; 8; 9; 10].
Proof. vm_compute. done. Qed.

Print Assumptions row_ordering_permutation.
Print Assumptions column_ordering_permutation.
Print Assumptions positions_number_dofs.
