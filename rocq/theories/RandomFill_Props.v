(** Properties of random filling (C32). *)
From stdpp Require Import list list_numbers numbers.
From Verif Require Import Layouts_Model Blocks_Model Blocks_Proofs RandomFill_Model RandomFill_Spec RandomFill_Proofs.

(** C32.  Whatever the chunk size, the selected elements are the elements of one sequence at the
    selected indices: an element does not depend on what else is selected. *)
Theorem random_elements_value : forall {V} (zero : V) stream indices chunk_size, 0 < chunk_size ->
  rng_elements zero stream indices chunk_size = Some (map stream indices).
Proof. intros. by apply rng_elements_value. Qed.
Print Assumptions random_elements_value.
Theorem random_element_value : forall {V} (stream : nat -> V) index chunk_size, 0 < chunk_size -> rng_element stream index chunk_size = Some (stream index).
Proof. intros. by apply rng_element_value. Qed.
Print Assumptions random_element_value.
Example random_elements_example : rng_elements 0 (fun n => n * n) [7; 2; 5; 2] 3 = Some [49; 4; 25; 4].
Proof. reflexivity. Qed.

(** C32.  Different elements of an array are different members of the sequence, all of them among the
    first as many as the array has elements. *)
Theorem random_positions : forall shape idx idx', within shape idx -> within shape idx' ->
  c_position shape idx < foldr Nat.mul 1 shape /\ (c_position shape idx = c_position shape idx' -> idx = idx').
Proof.
  intros shape idx idx' H H'. rewrite <- !ravel_position by (by eapply Forall2_length). split; [by apply ravel_bound|]. by apply ravel_inj.
Qed.
Print Assumptions random_positions.
Example random_positions_example : within [3; 4] [2; 1] /\ c_position [3; 4] [2; 1] = 9.
Proof. split; [repeat constructor; lia|reflexivity]. Qed.

(** C32.  Slicing a random array gives the values of the whole array at the sliced indices. *)
Theorem random_array_slice : forall {V} (zero : V) stream shape chunk_size sl idx, 0 < chunk_size ->
  Forall2 (fun (k : nat * nat) s => k.1 <= s /\ k.2 <= s) sl shape -> Forall2 (fun i (k : nat * nat) => i < k.2 - k.1) idx sl ->
  exists a, random_array zero stream shape chunk_size sl = Some a /\ a.1 = map (fun k => k.2 - k.1) sl /\
    entry zero a idx = stream (c_position shape (zip_with Nat.add (map fst sl) idx)).
Proof.
  intros V zero stream shape chunk_size sl idx Hc Hs Hi. unfold random_array, index_array.
  pose proof (concrete_ok shape sl [] Hs) as E. rewrite !app_nil_r in E. rewrite E. cbn [mbind option_bind].
  rewrite rng_elements_value by done. cbn [mbind option_bind]. eexists. split; [done|]. split; [done|].
  unfold entry. cbn [fst snd]. rewrite !list_lookup_fmap, mgrid_lookup.
  - cbn. f_equal. apply ravel_position. rewrite zip_with_length, map_length, <- (Forall2_length _ _ _ Hs), (Forall2_length _ _ _ Hi). lia.
  - apply Forall2_fmap_r. done.
Qed.
Print Assumptions random_array_slice.

(** C32.  On every process of every mesh, filling succeeds and gives each owned element its value of
    the global random array, if the sizes of the chunks divide the sizes of the axes. *)
Theorem fill_random_local : forall {V} (zero : V) stream tshape ax is_complex chunk_size dims loc r els, 0 < chunk_size ->
  length loc = length ax -> Forall (fun x : nat * nat => 0 < x.2 /\ Nat.divide x.2 x.1) ax -> local_elements dims loc ax r = Some els ->
  exists data, fill_random zero stream tshape (map fst ax) is_complex chunk_size els = Some data /\
    forall tidx lidx gidx, within tshape tidx -> local_position els lidx gidx ->
      data (tidx ++ lidx) = global_random zero stream (tshape ++ map fst ax) is_complex (tidx ++ gidx).
Proof.
  intros V zero stream tshape ax is_complex chunk_size dims loc r els Hc Hl Ha Hels.
  pose proof (local_elements_bound _ _ _ _ _ Hels Hl Ha) as Hb.
  destruct (fill_value zero stream tshape (map fst ax) is_complex chunk_size els Hc Hb (local_elements_contig _ _ _ _ _ Hels)) as (data & Hd & Hv).
  exists data. split; [done|]. intros tidx lidx gidx Ht Hp. apply Hv; [done..|].
  clear -Hp Hb. revert Hb. generalize (map fst ax). induction Hp as [|e l g els lidx gidx H _ IH]; intros sh Hb; inversion Hb as [|? ? ? ? H1 H2]; subst; [constructor|].
  constructor; [|by apply IH]. rewrite Forall_forall in H1. apply H1, elem_of_list_In. by eapply elem_of_list_lookup_2.
Qed.
Print Assumptions fill_random_local.
Example fill_random_example : exists data, fill_random 0 (fun n => n) [2] [4; 6] true 5 [[2; 3]; [3; 4; 5]] = Some data /\ data [1; 1; 0] = (90, 91) /\
  local_elements [2; 2] [false; false] [(4, 2); (6, 3)] 3 = Some [[2; 3]; [3; 4; 5]] /\ local_position [[2; 3]; [3; 4; 5]] [1; 0] [3; 3] /\ c_position [2; 4; 6] [1; 3; 3] = 45.
Proof. eexists. split; [reflexivity|]. repeat split; repeat constructor. Qed.

(** C32.  The value of a global element is the same on all meshes, in all distributions of the axes and
    for all chunk sizes. *)
Theorem fill_random_mesh_independent : forall {V} (zero : V) stream tshape ax is_complex chunk1 chunk2 dims1 loc1 r1 els1 dims2 loc2 r2 els2,
  0 < chunk1 -> 0 < chunk2 -> length loc1 = length ax -> length loc2 = length ax -> Forall (fun x : nat * nat => 0 < x.2 /\ Nat.divide x.2 x.1) ax ->
  local_elements dims1 loc1 ax r1 = Some els1 -> local_elements dims2 loc2 ax r2 = Some els2 ->
  exists data1 data2, fill_random zero stream tshape (map fst ax) is_complex chunk1 els1 = Some data1 /\ fill_random zero stream tshape (map fst ax) is_complex chunk2 els2 = Some data2 /\
    forall tidx lidx1 lidx2 gidx, within tshape tidx -> local_position els1 lidx1 gidx -> local_position els2 lidx2 gidx -> data1 (tidx ++ lidx1) = data2 (tidx ++ lidx2).
Proof.
  intros V zero stream tshape ax is_complex chunk1 chunk2 dims1 loc1 r1 els1 dims2 loc2 r2 els2 H1 H2 H3 H4 H5 H6 H7.
  destruct (fill_random_local zero stream tshape ax is_complex chunk1 dims1 loc1 r1 els1) as (d1 & E1 & F1); [done..|].
  destruct (fill_random_local zero stream tshape ax is_complex chunk2 dims2 loc2 r2 els2) as (d2 & E2 & F2); [done..|].
  exists d1, d2. split; [done|]. split; [done|]. intros tidx lidx1 lidx2 gidx Ht P1 P2. rewrite (F1 tidx lidx1 gidx), (F2 tidx lidx2 gidx); done.
Qed.
Print Assumptions fill_random_mesh_independent.
Example fill_random_mesh_example : exists data1 data2, fill_random 0 (fun n => n) [] [4; 6] false 5 [[2; 3]; [3; 4; 5]] = Some data1 /\
  fill_random 0 (fun n => n) [] [4; 6] false 7 [[0; 1; 2; 3]; [4; 5]] = Some data2 /\ data1 [1; 1] = data2 [3; 0] /\ data1 [1; 1] = (22, 0) /\
  local_elements [3] [true; false] [(4, 2); (6, 1)] 2 = Some [[0; 1; 2; 3]; [4; 5]].
Proof. eexists. eexists. split; [reflexivity|]. split; [reflexivity|]. repeat split. Qed.

(** C32.  If a chunk size does not divide an axis, a process can own more elements than the axis has and
    filling then fails. *)
Theorem fill_random_division_refuted : exists ax dims loc r els, local_elements dims loc ax r = Some els /\
  fill_random 0 (fun n => n) [] (map fst ax) false 10 els = None.
Proof. exists [(5, 2)], [2], [false], 1, [[4; 5]]. by vm_compute. Qed.
Print Assumptions fill_random_division_refuted.

(** C32.  A chunk size of zero fails. *)
Theorem random_chunk_zero : forall {V} (zero : V) stream indices, rng_elements zero stream indices 0 = None.
Proof. intros V zero stream [|i indices]; [done|]. unfold rng_elements. rewrite Nat.min_0_r. done. Qed.
Print Assumptions random_chunk_zero.
