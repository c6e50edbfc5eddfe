(** C01, C02, C64: layout chains and layout requests. *)
From stdpp Require Import list.
From Coq Require Import Lia.
From Verif Require Import Layouts_Model Layouts_Spec Layouts_Proofs.

(** C01: a mesh is accepted exactly when, apart from trailing ones, it has fewer axes than the
    problem and its product is the number of processes; the accepted mesh is the given one
    without its trailing ones. *)
Theorem mesh_accepted_iff : forall D nproc mesh m,
  accept_mesh D nproc (Some mesh) = Some m <->
  (exists k, mesh = m ++ replicate k 1) /\ last m <> Some 1 /\ length m < D /\
  foldr Nat.mul 1 mesh = nproc.
Proof.
  intros D n mesh m. unfold accept_mesh. simpl. split.
  - destruct (trim_ones_spec mesh) as [k Hk]. pose proof (trim_ones_last mesh) as HL.
    intros H. repeat case_decide; simplify_eq. split; [eauto|]. split; [done|]. split; [lia|].
    change (mesh_prod mesh = mesh_prod (trim_ones mesh)). rewrite Hk at 1. apply mesh_prod_ones.
  - intros ([k ->] & HL & HD & HP). rewrite trim_ones_app by done.
    rewrite decide_False by lia. rewrite decide_True; [done|].
    rewrite <- HP. symmetry. apply mesh_prod_ones.
Qed.
Print Assumptions mesh_accepted_iff.

(** C01: every accepted mesh yields a complete, well-formed chain that starts with the
    distribution the mesh prescribes. *)
Theorem layout_chain_complete : forall D nproc mesh m,
  accept_mesh D nproc mesh = Some m ->
  exists ls ps, build_layouts D m = Some (ls, ps) /\
    chain D (length (filter (fun k => 1 < k) m)) ls ps /\
    (exists l, ls !! 0 = Some l /\
       forall a, a < D -> local l !! a = Some (bool_decide (default 1 (m !! a) <= 1))).
Proof.
  intros D n mesh m H. destruct (accept_mesh_lt _ _ _ _ H) as [Hl Hp].
  destruct (build_layouts_full D m Hl) as (ls & ps & Hb & Hc & H0 & _).
  exists ls, ps. split; [exact Hb|]. split; [exact Hc|]. eexists. split; [exact H0|].
  intros a Ha. simpl. destruct (decide (a < length m)).
  - rewrite lookup_app_l by (rewrite map_length; lia). rewrite list_lookup_fmap.
    destruct (lookup_lt_is_Some_2 m a) as [x Hx]; [lia|]. rewrite Hx. done.
  - rewrite lookup_app_r by (rewrite map_length; lia). rewrite map_length.
    rewrite lookup_replicate_2 by lia. rewrite (lookup_ge_None_2 m a) by lia. done.
Qed.
Print Assumptions layout_chain_complete.

Example layout_chain_complete_ex : accept_mesh 4 6 (Some [2; 1; 3; 1]) = Some [2; 1; 3].
Proof. reflexivity. Qed.

(** C01: in every layout the mesh sizes can be assigned to the distributed axes (no shape
    error), and they use all processes. *)
Theorem layout_meshes_use_all_processes : forall D nproc mesh m ls ps i l,
  0 < nproc -> accept_mesh D nproc mesh = Some m -> build_layouts D m = Some (ls, ps) ->
  ls !! i = Some l ->
  exists ext, ext_mesh m l = Some ext /\ length ext = D /\ foldr Nat.mul 1 ext = nproc.
Proof.
  intros D n mesh m ls ps i l Hn H Hb Hi. destruct (accept_mesh_lt _ _ _ _ H) as [Hl Hp].
  destruct (build_layouts_full D m Hl) as (ls' & ps' & Hb' & Hc & H0 & HI). simplify_eq.
  destruct (HI i l Hi) as [c HIc].
  destruct (assign_masked_ok (local l) 1 (reduced_mesh m)) as (ext & E & L & P).
  { rewrite (iv_R _ _ _ _ HIc). done. }
  exists ext. split; [exact E|]. split; [rewrite L; apply HIc|].
  rewrite decide_True in P by done. rewrite reduced_prod in P by (apply mesh_prod_pos; lia). lia.
Qed.
Print Assumptions layout_meshes_use_all_processes.

(** C01: the communicator axis chosen for a transpose is the position of the transposed
    axis among the distributed axes of the layout it starts from. *)
Theorem transpose_uses_its_own_communicator : forall D nproc mesh m ls ps i a,
  0 < nproc -> accept_mesh D nproc mesh = Some m -> build_layouts D m = Some (ls, ps) ->
  ps !! i = Some (Transpose a) ->
  exists l, ls !! i = Some l /\
    comm_cart_axis m a = length (filter (fun b => b = false) (take a (local l))).
Proof.
  intros D n mesh m ls ps i a Hn H Hb Hi. destruct (accept_mesh_lt _ _ _ _ H) as [Hl Hp].
  apply (transpose_comm D m ls ps i a Hl); [apply mesh_prod_pos; lia|exact Hb|exact Hi].
Qed.
Print Assumptions transpose_uses_its_own_communicator.

Example transposes_exist : exists ls ps, build_layouts 4 [2; 1; 3] = Some (ls, ps) /\
  ps = [Transform 3; Transpose 2; Transform 2; Transform 1; Transpose 0; Transform 0].
Proof. eexists _, _. vm_compute. done. Qed.

(** C02.  [N = D + R] is the number of paths; any fuel of at least [N] suffices, so the
    loops of the code terminate. *)
Theorem change_layout_reaches_target : forall D R ls ps fuel i t,
  chain D R ls ps -> D + R <= fuel -> i <= D + R -> t <= D + R ->
  change_layout ps fuel t i = Some t.
Proof. intros D R ls ps fuel i t C Hf Hi Ht. eapply change_layout_ok; eauto; lia. Qed.
Print Assumptions change_layout_reaches_target.

Theorem require_grid_space_reaches_grid : forall D R ls ps fuel axis i,
  chain D R ls ps -> D + R <= fuel -> i <= D + R -> (forall a, axis = Some a -> a < D) ->
  exists k l, require_grid_space ls ps fuel axis i = Some k /\ i <= k /\ ls !! k = Some l /\
    (forall a, (axis = None \/ axis = Some a) -> a < D -> grid l !! a = Some true) /\
    (forall m lm, i <= m -> m < k -> ls !! m = Some lm ->
       exists a, (axis = None \/ axis = Some a) /\ grid lm !! a = Some false).
Proof. intros; eapply require_grid_ok; eauto. Qed.
Print Assumptions require_grid_space_reaches_grid.

Theorem require_coeff_space_reaches_coeff : forall D R ls ps fuel axis i,
  chain D R ls ps -> D + R <= fuel -> i <= D + R -> (forall a, axis = Some a -> a < D) ->
  exists k l, require_coeff_space ls ps fuel axis i = Some k /\ k <= i /\ ls !! k = Some l /\
    (forall a, (axis = None \/ axis = Some a) -> a < D -> grid l !! a = Some false) /\
    (forall m lm, k < m -> m <= i -> ls !! m = Some lm ->
       exists a, (axis = None \/ axis = Some a) /\ grid lm !! a = Some true).
Proof. intros; eapply require_coeff_ok; eauto. Qed.
Print Assumptions require_coeff_space_reaches_coeff.

Theorem require_local_reaches_local : forall D R ls ps fuel a i,
  chain D R ls ps -> D + R <= fuel -> i <= D + R -> a < D ->
  exists k l, require_local ls ps fuel a i = Some k /\ ls !! k = Some l /\
    local l !! a = Some true.
Proof. intros; eapply require_local_ok; eauto. Qed.
Print Assumptions require_local_reaches_local.

(** C64: before the scales of a field change, its data is moved to a layout in which every
    grid-space axis keeps its scale, so the copied data has the same meaning and shape. *)
Theorem change_scales_keeps_matching_axes : forall D R ls ps fuel dif i,
  chain D R ls ps -> D + R <= fuel -> i <= D + R ->
  exists k l, change_scales_loop ls ps fuel D dif i = Some k /\ k <= i /\ ls !! k = Some l /\
    (forall a, grid l !! a = Some true -> dif a = false).
Proof.
  intros D R ls ps fuel dif i C Hf Hi. eapply change_scales_ok; eauto.
  intros; lia.
Qed.
Print Assumptions change_scales_keeps_matching_axes.

(** The hypotheses of the moves are met by every distributor. *)
Example chain_ex : exists ls ps, build_layouts 4 [2; 1; 3] = Some (ls, ps) /\ chain 4 2 ls ps
  /\ require_local ls ps 6 3 6 = Some 1 /\ require_local ls ps 6 1 6 = Some 4
  /\ require_coeff_space ls ps 6 (Some 2) 6 = Some 2.
Proof.
  destruct (layout_chain_complete 4 6 (Some [2; 1; 3]) [2; 1; 3] eq_refl) as (ls & ps & H & C & _).
  exists ls, ps. split; [exact H|]. split; [exact C|].
  vm_compute in H. injection H as <- <-. vm_compute. done.
Qed.
