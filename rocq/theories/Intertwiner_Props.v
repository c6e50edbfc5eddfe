(** Theorems about regularity components (C55). *)
From Coq Require Import List Arith Bool ZArith Reals Lia Lra.
Import ListNotations.
From Verif Require Import TupleTools_Model Intertwiner_Model Intertwiner_Spec Intertwiner_Proofs.
Local Open Scope R_scope.

(** The matrix that takes regularity components to spin components has orthonormal rows, for the spins that exist; the other rows are zero. *)
Theorem regularity_rows : forall l order s t, (0 <= l)%Z -> In s (components order) -> In t (components order) ->
  let product := sumR (map (fun r => Q l r s * Q l r t) (components order)) in
  (spin_exists l s -> product = if list_eq_dec Z.eq_dec s t then 1 else 0) /\ (~ spin_exists l s -> product = 0).
Proof. exact rows_. Qed.
Print Assumptions regularity_rows.

(** Its columns are orthonormal, for the regularities that exist; the other columns are zero. *)
Theorem regularity_columns : forall l order r r', (0 <= l)%Z -> In r (components order) -> In r' (components order) ->
  let product := sumR (map (fun s => Q l r s * Q l r' s) (components order)) in
  (regularity_exists l r -> product = if list_eq_dec Z.eq_dec r r' then 1 else 0) /\ (~ regularity_exists l r -> product = 0).
Proof. exact columns_. Qed.
Print Assumptions regularity_columns.

(** Its entries are 0 where a component does not exist, and its evaluation takes no root of a negative number and does not divide by zero. *)
Theorem regularity_entries : forall l order r s, (0 <= l)%Z -> In r (components (S order)) -> In s (components (S order)) ->
  evaluates l r s /\ (~ spin_exists l s \/ ~ regularity_exists l r -> Q l r s = 0).
Proof. exact entries_. Qed.
Print Assumptions regularity_entries.

(** Both tests for valid regularities accept those that exist. *)
Theorem regularity_tests : forall l order r, (0 <= l)%Z -> In r (components order) ->
  (regularity_allowed l r = true <-> regularity_exists l r) /\ regularity_allowed_vectorized l r = regularity_allowed l r.
Proof. exact tests_. Qed.
Print Assumptions regularity_tests.

(** Forward and then backward recombination keeps the spin components that exist, and sets the others to zero; outside of the slices nothing changes. *)
Theorem regularity_there_and_back : forall (point : Type) order (data forward backward : point -> list R) maps,
  disjoint_maps maps -> (forall m, In m maps -> (0 <= fst m)%Z) -> (forall x, length (data x) = length (components order)) ->
  forward_recombination true order data maps = Ok forward -> backward_recombination true order forward maps = Ok backward ->
  forall x, (forall m, In m maps -> snd m x = true -> kept order (spin_exists (fst m)) (data x) (backward x))
            /\ ((forall m, In m maps -> snd m x = false) -> forward x = data x /\ backward x = data x).
Proof. exact @there_and_back_. Qed.
Print Assumptions regularity_there_and_back.

(** Backward and then forward recombination keeps the regularity components that exist. *)
Theorem regularity_back_and_there : forall (point : Type) order (data forward backward : point -> list R) maps,
  disjoint_maps maps -> (forall m, In m maps -> (0 <= fst m)%Z) -> (forall x, length (data x) = length (components order)) ->
  backward_recombination true order data maps = Ok backward -> forward_recombination true order backward maps = Ok forward ->
  forall x, (forall m, In m maps -> snd m x = true -> kept order (regularity_exists (fst m)) (data x) (forward x))
            /\ ((forall m, In m maps -> snd m x = false) -> backward x = data x /\ forward x = data x).
Proof. exact @back_and_there_. Qed.
Print Assumptions regularity_back_and_there.

(** What is computed: at each point of a slice, forward recombination gives the products with the columns, and backward with the rows. *)
Theorem regularity_forward : forall (point : Type) order (data out : point -> list R) maps,
  disjoint_maps maps -> (forall x, length (data x) = length (components order)) -> (0 < order)%nat -> forward_recombination true order data maps = Ok out ->
  forall m x, In m maps -> snd m x = true ->
  out x = map (fun r => sumR (map (fun p => Q (fst m) r (fst p) * snd p) (combine (components order) (data x)))) (components order).
Proof. exact @forward_. Qed.
Print Assumptions regularity_forward.
Theorem regularity_backward : forall (point : Type) order (data out : point -> list R) maps,
  disjoint_maps maps -> (forall x, length (data x) = length (components order)) -> (0 < order)%nat -> backward_recombination true order data maps = Ok out ->
  forall m x, In m maps -> snd m x = true ->
  out x = map (fun s => sumR (map (fun p => Q (fst m) (fst p) s * snd p) (combine (components order) (data x)))) (components order).
Proof. exact @backward_. Qed.
Print Assumptions regularity_backward.

(** Scalars are left alone; tensors over other coordinates are rejected. *)
Theorem regularity_cases : forall (point : Type) (data : point -> list R) maps,
  (forall spherical, forward_recombination spherical 0 data maps = Ok data /\ backward_recombination spherical 0 data maps = Ok data)
  /\ (forall order, (0 < order)%nat -> forward_recombination false order data maps = Raises ValueError /\ backward_recombination false order data maps = Raises ValueError)
  /\ (forall order, exists out out', forward_recombination true order data maps = Ok out /\ backward_recombination true order data maps = Ok out').
Proof. exact @cases_. Qed.
Print Assumptions regularity_cases.

(** The coefficients of radial derivatives: both implementations agree, and their squares add to 1; for degree 0 only the upper one remains. *)
Theorem xi_normalised : forall l, (0 <= l)%Z ->
  (forall mu, mu = (-1)%Z \/ mu = 1%Z -> xi mu l = basis_xi mu l) /\ (xi (-1) l)² + (xi 1 l)² = 1 /\ xi (-1) 0 = 0 /\ xi 1 0 = 1 /\ ((0 < l)%Z -> 0 < xi (-1) l /\ 0 < xi 1 l).
Proof. exact xi_. Qed.
Print Assumptions xi_normalised.

(** ** Examples *)
Example regularity_rows_case : In [(-1)%Z; 0%Z; 1%Z] (components 3) /\ spin_exists 2 [(-1)%Z; 0%Z; 1%Z] /\ ~ spin_exists 2 [1%Z; 1%Z; 1%Z].
Proof. split; [cbn; tauto|]. unfold spin_exists. cbn. lia. Qed.
Example regularity_exists_case : regularity_exists 1 [1%Z; (-1)%Z] /\ ~ regularity_exists 1 [0%Z; (-1)%Z] /\ ~ regularity_exists 1 [(-1)%Z; (-1)%Z].
Proof.
  split; [|split].
  - intros [|p [|q pre]] a b E; [injection E as <- <-; cbn; lia|injection E as <- <- <-; cbn; lia|destruct pre; discriminate].
  - intros H. specialize (H [] 0%Z [(-1)%Z] eq_refl). cbn in H. lia.
  - intros H. specialize (H [] (-1)%Z [(-1)%Z] eq_refl). cbn in H. lia.
Qed.
Example vectors_of_degree_one : Q 1 [1%Z] [0%Z] = 2 / sqrt 6.
Proof. cbn. unfold k. replace ((1 + 1) * (2 * 1 + 1)) with 6 by ring. unfold Rdiv. ring. Qed.
Example maps_case : disjoint_maps [(1%Z, Nat.eqb 0); (2%Z, Nat.eqb 1)] /\ (forall m, In m [(1%Z, Nat.eqb 0); (2%Z, Nat.eqb 1)] -> (0 <= fst m)%Z).
Proof.
  split; [|cbn; intros m [<-|[<-|[]]]; cbn; lia]. constructor; [|constructor; [constructor|constructor]]. constructor; [|constructor]. intros x [H1 H2]. cbn in H1, H2. destruct x; discriminate.
Qed.
