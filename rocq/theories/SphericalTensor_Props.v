(** Theorems about traces and transpositions in balls, shells and disks (C90). *)
From Coq Require Import List Arith Bool ZArith Reals Lia Lra.
From Coquelicot Require Import Complex.
Import ListNotations.
From Verif Require Import CSR_Spec MatSolvers_Model TensorArith_Model TupleTools_Model TensorOps_Model TensorOps_Proofs Intertwiner_Model Intertwiner_Spec Intertwiner_Proofs Spin_Spec SphericalTensor_Model SphericalTensor_Spec SphericalTensor_Proofs.
Local Open Scope nat_scope.

(** A subproblem has one degree, or all degrees of an order. *)
Definition group_ok (group : option Z) (m Lmax : Z) : Prop := match group with None => (Z.abs m <= Lmax)%Z | Some ell => (0 <= ell)%Z end.
(** A matrix takes the regularity components of a tensor with the spin components [v], at every degree, part and radial function, to those of the
    tensor with the spin components [W v]. *)
Definition takes (real : bool) (rank_in rank_out : nat) (group : option Z) (m Lmax : Z) (reversed : bool) (n_size : Z -> nat) (W : (tuple -> R) -> tuple -> R) (M : mat R) : Prop :=
  let n := n_size (match group with None => 0%Z | Some ell => ell end) in let L := degrees group m Lmax in
  nr M = 3 ^ rank_out * parts real * L * n /\ nc M = 3 ^ rank_in * parts real * L * n
  /\ forall c l ell p k, degree group m Lmax reversed l ell -> p < parts real -> k < n ->
     forall x, stored rank_in (parts real) L n p l k c x -> exists y, stored rank_out (parts real) L n p l k (applied M c) y /\ regularity_parts ell rank_out (W (spin_parts ell rank_in x)) y.

(** Regularity components are determined by the spin components. *)
Theorem regularity_parts_unique ell rank v y y' : (0 <= ell)%Z -> regularity_parts ell rank v y -> regularity_parts ell rank v y' -> forall r, In r (components rank) -> y r = y' r.
Proof. exact (unique ell rank v y y'). Qed.

(** Traces. *)
Theorem spherical_trace_value real cs rank group m Lmax reversed n_size : group_ok group m Lmax ->
  exists M, spherical_trace real (repeat cs (S (S rank))) group m Lmax reversed n_size = Some M /\ takes real (S (S rank)) rank group m Lmax reversed n_size contracted M.
Proof.
  intros Hg. unfold spherical_trace. change (repeat cs (S (S rank))) with (cs :: cs :: repeat cs rank). cbv iota. change (cs :: cs :: repeat cs rank) with (repeat cs (S (S rank))). rewrite over_repeat, !repeat_length.
  destruct (spherical_value real _ (S (S rank)) rank contracted group m Lmax reversed n_size (spin_trace_acts rank) Hg (fun ell x t => contracted_absent ell rank x t)) as (M & E & R1 & R2 & V). exists M. split; [exact E|]. rewrite !size_components in R1, R2. split; [exact R1|]. split; [exact R2|exact V].
Qed.
(** Transpositions. *)
Theorem spherical_transpose_value real cs rank dim i j group m Lmax reversed n_size : group_ok group m Lmax -> cs_dim cs = 3 -> i < rank -> j < rank -> i <> j ->
  exists M, spherical_transpose real (repeat cs rank) dim (Z.of_nat i, Z.of_nat j) group m Lmax reversed n_size = Some M
  /\ takes real rank rank group m Lmax reversed n_size (fun v t => v (exchange i j t)) M.
Proof.
  intros Hg H3 Hi Hj N. unfold spherical_transpose. rewrite (order_of cs rank dim i j Hi Hj N). cbn [option_bind]. assert (HD : hd_error (repeat cs rank) = Some cs) by (destruct rank; [lia|reflexivity]). rewrite HD. cbn [option_bind]. rewrite over_repeat, repeat_length.
  destruct (index_transpose_acts cs rank i j _ dim H3 Hi Hj eq_refl) as (T & -> & A). cbn [option_bind].
  destruct (spherical_value real T rank rank _ group m Lmax reversed n_size A Hg (fun ell x t => exchanged_absent ell rank i j x t Hi Hj)) as (M & E & R1 & R2 & V). exists M. split; [exact E|]. rewrite !size_components in R1, R2. split; [exact R1|]. split; [exact R2|exact V].
Qed.
(** Evaluation on coefficients gives the same regularity components, and on the grid the components are exchanged. *)
Theorem spherical_transpose_coefficients (point : Type) cs rank dim i j (data : point -> list R) maps : cs_dim cs = 3 -> i < rank -> j < rank -> i <> j ->
  disjoint_maps maps -> (forall m, In m maps -> (0 <= fst m)%Z) -> (forall x, length (data x) = 3 ^ rank) ->
  exists out, spherical_transpose_operate (repeat cs rank) dim (Z.of_nat i, Z.of_nat j) false data maps = Some out
  /\ forall m x v, In m maps -> snd m x = true -> data x = map v (components rank) ->
     exists y, out x = map y (components rank) /\ regularity_parts (fst m) rank (fun t => spin_parts (fst m) rank v (exchange i j t)) y.
Proof. intros H3 Hi Hj N Hd Hm Hl. apply operate_value; try assumption. intros x. rewrite size_components. apply Hl. Qed.
Theorem spherical_transpose_grid (point : Type) cs rank dim i j (data : point -> list R) maps : cs_dim cs = 3 -> i < rank -> j < rank -> i <> j ->
  exists out, spherical_transpose_operate (repeat cs rank) dim (Z.of_nat i, Z.of_nat j) true data maps = Some out
  /\ forall x v, data x = map v (components rank) -> out x = map (fun t => v (exchange i j t)) (components rank).
Proof. apply grid_value. Qed.
(** Indices counted from the end are accepted, but then the matrix leaves the tensor as it is. *)
Theorem spherical_transpose_negative_refuted real cs rank dim group m Lmax reversed n_size : group_ok group m Lmax -> cs_dim cs = 3 ->
  exists M, spherical_transpose real (repeat cs (S (S rank))) (S (S dim)) (-2, -1)%Z group m Lmax reversed n_size = Some M
  /\ takes real (S (S rank)) (S (S rank)) group m Lmax reversed n_size (fun v => v) M.
Proof.
  intros Hg H3. unfold spherical_transpose. destruct (negative_order_ cs rank dim) as (order & -> & Ho). cbn [option_bind]. change (hd_error (repeat cs (S (S rank)))) with (Some cs). cbn [option_bind]. rewrite over_repeat, repeat_length.
  destruct (identity_acts cs (S (S rank)) order H3 Ho) as (T & -> & A). cbn [option_bind].
  destruct (spherical_value real T (S (S rank)) (S (S rank)) _ group m Lmax reversed n_size A Hg (fun ell x t H Ht N => spins_absent ell (S (S rank)) x t H Ht N)) as (M & E & R1 & R2 & V). exists M. split; [exact E|]. rewrite !size_components in R1, R2. split; [exact R1|]. split; [exact R2|exact V].
Qed.
(** Tensors with an index over other coordinates are rejected. *)
Theorem spherical_mixed real (sig : list coordsys) dim indices group m Lmax reversed n_size cs c : hd_error sig = Some cs -> In c sig -> cs_id c <> cs_id cs ->
  spherical_trace real sig group m Lmax reversed n_size = None /\ spherical_transpose real sig dim indices group m Lmax reversed n_size = None.
Proof.
  intros Hh Hc N. assert (O : over cs sig = false) by (apply not_true_is_false; intros E; unfold over in E; rewrite forallb_forall in E; apply N, Nat.eqb_eq, E, Hc). split.
  - destruct sig as [|cs0 [|cs1 rest]]; [discriminate|reflexivity|]. injection Hh as ->. cbn [spherical_trace]. rewrite O. reflexivity.
  - unfold spherical_transpose. destruct (TransposeComponents sig dim indices); [|reflexivity]. cbn [option_bind]. rewrite Hh. cbn [option_bind]. rewrite O. reflexivity.
Qed.

(** The trace in disks and annuli: the sum of the components -+ and +-, for every component of the other indices and every coefficient. *)
Theorem polar_trace_value cs cs' (rest : list coordsys) n : let N := size (dims rest) * n in
  exists M, polar_trace (cs :: cs' :: rest) n = Some M /\ nr M = N /\ nc M = 4 * N /\ forall c r, r < N -> applied M c r = (c (flat [2; 2; N]%nat [0; 1; r]%nat) + c (flat [2; 2; N]%nat [1; 0; r]%nat))%R.
Proof. exact (polar_value cs cs' rest n). Qed.
(** These sums of spin components are the spin components of the trace in coordinates, the sum over equal indices. *)
Theorem spherical_spin_trace ps ds z s : let c a b := spin_components (Some 0 :: Some 0 :: ps) (3 :: 3 :: ds) z (a :: b :: s) in
  (c 0%nat 1%nat + c 1%nat 0%nat + c 2%nat 2%nat)%C = spin_components ps ds (fun t => z (0 :: 0 :: t)%nat + z (1 :: 1 :: t)%nat + z (2 :: 2 :: t)%nat)%C s.
Proof. exact (spin_trace_3 ps ds z s). Qed.
Theorem polar_spin_trace ps ds z s : let c a b := spin_components (Some 0 :: Some 0 :: ps) (2 :: 2 :: ds) z (a :: b :: s) in
  (c 0%nat 1%nat + c 1%nat 0%nat)%C = spin_components ps ds (fun t => z (0 :: 0 :: t)%nat + z (1 :: 1 :: t)%nat)%C s.
Proof. exact (spin_trace_2 ps ds z s). Qed.

Print Assumptions regularity_parts_unique.
Print Assumptions spherical_trace_value.
Print Assumptions spherical_transpose_value.
Print Assumptions spherical_transpose_coefficients.
Print Assumptions spherical_transpose_grid.
Print Assumptions spherical_transpose_negative_refuted.
Print Assumptions spherical_mixed.
Print Assumptions polar_trace_value.
Print Assumptions spherical_spin_trace.
Print Assumptions polar_spin_trace.

(** ** Examples *)
(** The degrees 2 to 4 of order -2, reversed; each has the place of its degree. *)
Example sample_degrees : group_ok None (-2) 4 /\ degrees None (-2) 4 = 3 /\ degree None (-2) 4 true 0 4 /\ degree None (-2) 4 true 2 2 /\ degree None (-2) 4 false 2 4.
Proof. repeat split; cbn; lia. Qed.
(** An exchange and a trace. *)
Example sample_exchange : exchange 0 2 [(-1)%Z; 1%Z; 0%Z] = [0%Z; 1%Z; (-1)%Z] /\ contracted (fun t => if tuple_eqb t [(-1)%Z; 1%Z] then 2%R else if tuple_eqb t [0%Z; 0%Z] then 3%R else 0%R) [] = 5%R.
Proof. split; [reflexivity|]. unfold contracted. cbn. lra. Qed.
(** Coefficients of a vector at degree 3, for two radial functions and both parts: at each place the component is read. *)
Example sample_stored : stored 1 2 1 2 1 0 1 (fun i => INR i) (fun t => if tuple_eqb t [(-1)%Z] then 3%R else if tuple_eqb t [1%Z] then 7%R else 11%R).
Proof. intros [|[|[|j]]] t E; cbn in E; try (injection E as <-; unfold place; cbn; lra). destruct j; discriminate. Qed.
(** The trace of tensors of degree 0 with two radial functions. *)
Example sample_takes : exists M, spherical_trace false (repeat {| cs_id := 0; cs_dim := 3; right_handed := false |} 2) (Some 0%Z) 0 3 false (fun _ => 2) = Some M /\ nr M = 2 /\ nc M = 18.
Proof. destruct (spherical_trace_value false {| cs_id := 0; cs_dim := 3; right_handed := false |} 0 (Some 0%Z) 0 3 false (fun _ => 2) ltac:(cbn; lia)) as (M & E & R1 & R2 & _). exists M. split; [exact E|]. split; [exact R1|exact R2]. Qed.
