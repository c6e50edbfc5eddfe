(** C03, C04, C05: block distribution and global data. *)
From stdpp Require Import list list_numbers.
From Coq Require Import Lia ZifyNat.
From Verif Require Import Layouts_Model Layouts_Spec Layouts_Proofs Blocks_Model Blocks_Proofs.

(** C03.  Concatenating the elements owned by processes 0..P-1 along a distributed axis gives
    0, 1, ..., n-1: a partition into increasing contiguous runs in rank order. *)
Theorem block_distribution_partitions : forall n c P,
  0 < P -> 0 < c -> Nat.divide c n ->
  concat (map (fun q => axis_elements n c false P q) (seq 0 P)) = seq 0 n.
Proof.
  intros n c P HP Hc [k ->]. rewrite (Nat.mul_comm k c).
  etransitivity; [apply blocks_cover; done|]. by rewrite cdiv_exact.
Qed.
Print Assumptions block_distribution_partitions.

Example block_distribution_ex :
  map (fun q => axis_elements 10 2 false 4 q) (seq 0 4) = [[0;1;2;3]; [4;5;6;7]; [8;9]; []].
Proof. reflexivity. Qed.

(** C03.  Each process owns a contiguous run made of whole chunks. *)
Theorem block_distribution_whole_chunks : forall n c P q,
  exists k m, axis_elements n c false P q = seq (c * k) (c * m).
Proof. intros. eexists _, _. apply axis_elements_seq. Qed.
Print Assumptions block_distribution_whole_chunks.

(** C03.  A chunk size that does not divide the axis size makes some process own an index
    that is not an element of the axis. *)
Theorem block_distribution_overflow_refuted : forall n c P,
  0 < P -> 0 < c -> ~ Nat.divide c n ->
  exists q, q < P /\ n ∈ axis_elements n c false P q.
Proof.
  intros n c P HP Hc Hd.
  assert (n ∈ concat (map (axis_elements n c false P) (seq 0 P))) as H.
  { rewrite blocks_cover by done. apply elem_of_seq. split; [lia|]. simpl.
    pose proof (cdiv_ge n c Hc). destruct (decide (n = c * cdiv n c)) as [E|]; [|lia].
    exfalso. apply Hd. exists (cdiv n c). lia. }
  apply elem_of_list_In, in_concat in H as (e & He & Hn).
  apply in_map_iff in He as (q & <- & Hq). apply in_seq in Hq.
  exists q. split; [lia|]. by apply elem_of_list_In.
Qed.
Print Assumptions block_distribution_overflow_refuted.

Example block_distribution_overflow_ex : axis_elements 5 2 false 2 1 = [4; 5].
Proof. reflexivity. Qed.

(** C04.  In every layout of every accepted mesh, the local slabs tile the global array: each
    valid multi-index belongs to exactly one rank. *)
Theorem slabs_tile_global_array : forall D nproc mesh m ls ps i l ax idx,
  0 < nproc -> accept_mesh D nproc mesh = Some m -> build_layouts D m = Some (ls, ps) ->
  ls !! i = Some l -> length ax = D ->
  Forall2 (fun k (x : nat * nat) => k < x.1 /\ 0 < x.2) idx ax ->
  exists r, r < nproc /\
    (exists els, local_elements (reduced_mesh m) (local l) ax r = Some els /\
       Forall2 (fun k e => k ∈ e) idx els) /\
    (forall r', r' < nproc ->
       (exists els, local_elements (reduced_mesh m) (local l) ax r' = Some els /\
          Forall2 (fun k e => k ∈ e) idx els) -> r' = r).
Proof.
  intros D n mesh m ls ps i l ax idx Hn H Hb Hi Hax HF.
  destruct (accept_mesh_lt _ _ _ _ H) as [Hl Hp].
  destruct (build_layouts_full D m Hl) as (ls' & ps' & Hb' & Hc & H0 & HI). simplify_eq.
  destruct (HI i l Hi) as [c HIc].
  assert (Forall (fun x => 0 < x) m) as Hpos by (apply mesh_prod_pos; lia).
  assert (mesh_prod (reduced_mesh m) = mesh_prod m) as E by (apply reduced_prod; done).
  rewrite <- E. apply tile.
  - apply Forall_forall. intros x Hx. apply elem_of_list_filter in Hx. lia.
  - apply (iv_R _ _ _ _ HIc).
  - apply (iv_len _ _ _ _ HIc).
  - exact HF.
Qed.
Print Assumptions slabs_tile_global_array.

(** C04.  The reported slices select exactly the owned elements, and the local shape counts
    them. *)
Theorem slices_select_owned_elements : forall dims loc ax r els idx,
  local_elements dims loc ax r = Some els ->
  (Forall2 (fun s k => s.1 <= k /\ k < s.2) (slices els) idx <-> Forall2 (fun k e => k ∈ e) idx els)
  /\ Forall (fun e => e = seq (axis_slice e).1 ((axis_slice e).2 - (axis_slice e).1)) els
  /\ local_shape els = map (fun s => s.2 - s.1) (slices els).
Proof.
  intros dims loc ax r els idx H. split; [by eapply local_elements_slices|].
  pose proof (local_elements_contig _ _ _ _ _ H) as HC. split; [exact HC|].
  unfold local_shape, slices. rewrite map_map. clear H.
  induction HC as [|e els He HC IH]; simpl; [done|]. f_equal; [|exact IH].
  rewrite He at 1. apply seq_length.
Qed.
Print Assumptions slices_select_owned_elements.

Example local_elements_ex : local_elements [2; 3] [false; true; false] [(8, 2); (5, 1); (4, 1)] 4
  = Some [[4;5;6;7]; [0;1;2;3;4]; [2;3]].
Proof. reflexivity. Qed.

(** C05.  Whatever the mesh, loading a global array and summing the ranks' buffers gives the
    array back. *)
Theorem allgather_after_load : forall (A : Type) (zero : A) (add : A -> A -> A) dims loc ax g idx,
  (forall x, add zero x = x) -> (forall x, add x zero = x) ->
  Forall (fun d => 0 < d) dims ->
  length (filter (fun b => b = false) loc) = length dims -> length loc = length ax ->
  Forall2 (fun i (x : nat * nat) => i < x.1 /\ 0 < x.2) idx ax ->
  allgather_data zero add
    (map (fun r => let els := default [] (local_elements dims loc ax r) in
                   send_buffer zero els (load_global els g))
         (seq 0 (mesh_prod dims))) idx = g idx.
Proof. intros. by apply allgather_load. Qed.
Print Assumptions allgather_after_load.

(** C05.  The same for the assembly on the root process by [np.block]. *)
Theorem gather_after_load : forall (A : Type) dims loc ax ext (g : list nat -> A) idx,
  Forall (fun d => 0 < d) dims ->
  length (filter (fun b => b = false) loc) = length dims -> length loc = length ax ->
  Forall2 (fun i (x : nat * nat) => i < x.1 /\ 0 < x.2) idx ax ->
  assign_masked loc 1 dims = Some ext ->
  gather_data ax loc ext (fun r => load_global (default [] (local_elements dims loc ax r)) g) idx = g idx.
Proof.
  intros A dims loc ax ext g idx Hd Hn Hl HF He.
  destruct (tile dims Hd loc ax idx Hn Hl HF) as (r & Hr & (els & Hels & Hin) & _).
  destruct (gather_find dims Hd loc ax idx ext r els Hn Hl HF He Hr Hels Hin) as [E1 E2].
  unfold gather_data. rewrite E1, E2, Hels. simpl. unfold load_global, take_slices.
  f_equal. apply unshift. by apply (local_elements_slices dims loc ax r els idx Hels).
Qed.
Print Assumptions gather_after_load.

(** C05.  Data gathered under one mesh and loaded under another is unchanged. *)
Theorem remesh_preserves_data : forall (A : Type) dims1 loc1 ext1 dims2 loc2 ext2 ax (g : list nat -> A) idx,
  Forall (fun d => 0 < d) dims1 -> Forall (fun d => 0 < d) dims2 ->
  length (filter (fun b => b = false) loc1) = length dims1 -> length loc1 = length ax ->
  length (filter (fun b => b = false) loc2) = length dims2 -> length loc2 = length ax ->
  Forall2 (fun i (x : nat * nat) => i < x.1 /\ 0 < x.2) idx ax ->
  assign_masked loc1 1 dims1 = Some ext1 -> assign_masked loc2 1 dims2 = Some ext2 ->
  let saved := gather_data ax loc1 ext1
       (fun r => load_global (default [] (local_elements dims1 loc1 ax r)) g) in
  gather_data ax loc2 ext2
       (fun r => load_global (default [] (local_elements dims2 loc2 ax r)) saved) idx = g idx.
Proof.
  intros A dims1 loc1 ext1 dims2 loc2 ext2 ax g idx H1 H2 H3 H4 H5 H6 HF He1 He2 saved.
  etransitivity; [by apply gather_after_load|]. by apply gather_after_load.
Qed.
Print Assumptions remesh_preserves_data.

Example remesh_ex : assign_masked [false; true; false] 1 [2; 3] = Some [2; 1; 3]
  /\ assign_masked [true; false; true] 1 [5] = Some [1; 5; 1].
Proof. done. Qed.

(** C65.  [set_global_data] works for scalar fields. *)
Theorem set_global_data_scalar : forall dims loc ax r els gshape,
  local_elements dims loc ax r = Some els -> length els = length ax -> gshape = map fst ax ->
  Forall2 (fun n e => Forall (fun i => i < n) e) gshape els ->
  set_global_data_ok [] gshape els = true.
Proof.
  intros dims loc ax r els gshape H HL -> HF. unfold set_global_data_ok, ix_shape. simpl.
  apply bool_decide_eq_true_2. pose proof (Forall2_length _ _ _ HF) as HL2.
  rewrite decide_True.
  - f_equal. rewrite drop_ge by lia. by rewrite app_nil_r.
  - split; [lia|]. rewrite take_ge by lia. done.
Qed.
Print Assumptions set_global_data_scalar.

(** C65.  For a vector field the component axis is indexed as if it were spatial: on every
    grid whose first axis has more points than the vector has components, a serial
    [set_global_data] raises. *)
Theorem set_global_data_vector_refuted : forall ncomp nx ny, ncomp < nx ->
  set_global_data_ok [ncomp] [nx; ny] [seq 0 nx; seq 0 ny] = false.
Proof.
  intros ncomp nx ny H. unfold set_global_data_ok, ix_shape. apply bool_decide_eq_false_2.
  rewrite decide_False; [done|]. intros [_ HF]. simpl in HF. inversion HF as [|? ? ? ? H1 _]; subst.
  rewrite Forall_forall in H1. specialize (H1 ncomp). rewrite elem_of_seq in H1. lia.
Qed.
Print Assumptions set_global_data_vector_refuted.
