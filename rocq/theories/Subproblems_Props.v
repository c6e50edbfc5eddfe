(** C19, C20: the pencil systems and the gathers and scatters of their vectors. *)
From Coq Require Import Reals Lia Lra.
From stdpp Require Import list list_numbers sorting.
From Verif Require Import Numpy_Model Permutations_Model Permutations_Spec Permutations_Proofs
  Subproblems_Model Subproblems_Spec Subproblems_Proofs Gathers_Proofs.

Section C20.
  Local Open Scope R_scope.

  (** The compressed vectors are exactly the mode values whose invalid modes vanish:
      [pre_right] and [pre_right_pinv] are inverse to each other between the two. *)
  Theorem compressed_vectors : forall cutoff eqns vars nnames bc_top tau_left interleave B,
    problem_ok eqns vars ->
    build_matrices cutoff eqns vars nnames bc_top tau_left interleave = Some B ->
    (forall y, length y = length (pre_right_pinv B) ->
       exists X, invalid_vanish vars X /\
         mv (pre_right B) y = flatten (map v_block vars) X /\
         mv (pre_right_pinv B) (flatten (map v_block vars) X) = y) /\
    (forall X, invalid_vanish vars X ->
       mv (pre_right B) (mv (pre_right_pinv B) (flatten (map v_block vars) X)) = flatten (map v_block vars) X).
  Proof.
    intros cutoff eqns vars nn bt tl il B Hok HB.
    destruct (build_form _ _ _ _ _ _ _ _ Hok HB) as (sl & sr & Hsl & Hsr & Hel & Her & Hlen & Hl & Hlp & Hrp & Hr & _ & _).
    rewrite Hr, Hrp. set (n := total (map v_block vars)).
    assert (Hlt : Forall (fun j => (j < n)%nat) sr) by (apply Forall_forall; intros j Hj; by apply Her).
    split.
    - intros y Hy. unfold sel_matrix in Hy. rewrite map_length in Hy.
      destruct (flatten_onto (map v_block vars) (mv (transpose_csr n (sel_matrix sr)) y)) as [X HX].
      { by rewrite mv_length, transpose_length. }
      exists X. split; [|split; [done|]].
      + intros k v c Hk Hc.
        assert ((map v_block vars) !! k = Some (v_block v)) as Hk' by (by rewrite list_lookup_fmap, Hk).
        assert (c < bcomps (v_block v) * bmodes (v_block v))%nat as Hcl.
        { destruct Hok as [_ Hf]. rewrite Forall_forall in Hf.
          rewrite <-(Hf v); [by eapply lookup_lt_Some|by eapply elem_of_list_lookup_2]. }
        rewrite <-(flatten_nth _ X k _ c Hk' Hcl), HX. apply expand_miss.
        rewrite Her. intros [_ Hv]. rewrite (valid_var_nth eqns vars k v c) in Hv by done.
        rewrite nth_lookup, Hc in Hv. done.
      + rewrite HX. by apply compress_expand.
    - intros X HX. apply (nth_ext _ _ 0 0).
      { by rewrite mv_length, transpose_length, flatten_length. }
      intros j Hj. rewrite mv_length, transpose_length in Hj. rewrite expand_compress by done.
      destruct (decide (j ∈ sr)) as [Hin|Hin]; [done|].
      destruct (total_split _ _ Hj) as (k & b & c & Hk & Hc & ->).
      erewrite flatten_nth by done. rewrite list_lookup_fmap in Hk.
      destruct (vars !! k) as [v|] eqn:Hv; [|done]. injection Hk as <-. symmetry. apply (HX k v c Hv).
      rewrite Her in Hin.
      rewrite (valid_var_nth eqns vars k v c) in Hin by done. rewrite nth_true in Hin.
      destruct (lookup_lt_is_Some_2 (v_valid v) c) as [[] Hvc]; [|tauto|done].
      destruct Hok as [_ Hf]. rewrite Forall_forall in Hf. rewrite (Hf v); [done|by eapply elem_of_list_lookup_2].
  Qed.

  (** Two right-hand sides agree after compression exactly when they agree on every imposed row. *)
  Theorem compressed_rows : forall cutoff eqns vars nnames bc_top tau_left interleave B F G,
    problem_ok eqns vars ->
    build_matrices cutoff eqns vars nnames bc_top tau_left interleave = Some B ->
    (mv (pre_left B) (flatten (map q_block eqns) F) = mv (pre_left B) (flatten (map q_block eqns) G) <->
     forall e r, imposed eqns e r -> F e r = G e r).
  Proof.
    intros cutoff eqns vars nn bt tl il B F G Hok HB.
    destruct (build_form _ _ _ _ _ _ _ _ Hok HB) as (sl & sr & Hsl & Hsr & Hel & Her & Hlen & Hl & Hlp & Hrp & Hr & _ & _).
    rewrite Hl, !mv_sel. split.
    - intros H e r (q & He & Hc & Hv).
      assert ((map q_block eqns) !! e = Some (q_block q)) as He' by (by rewrite list_lookup_fmap, He).
      assert (r < bcomps (q_block q) * bmodes (q_block q))%nat as Hrl.
      { destruct Hok as [Hf _]. rewrite Forall_forall in Hf. destruct (Hf q) as [<- _];
          [by eapply elem_of_list_lookup_2|by eapply lookup_lt_Some]. }
      assert (total (take e (map q_block eqns)) + r ∈ sl)%nat as Hin.
      { apply Hel. split.
        - rewrite <-(take_drop_middle _ _ _ He') at 2. rewrite total_app.
          change (total (q_block q :: ?l)) with (bsize (q_block q) + total l)%nat. unfold bsize. lia.
        - rewrite (valid_eqn_nth eqns vars e q r) by done. rewrite Hc. by apply nth_true. }
      apply elem_of_list_lookup in Hin as [i Hi].
      assert (map (fun j => nth j (flatten (map q_block eqns) F) 0) sl !! i =
              map (fun j => nth j (flatten (map q_block eqns) G) 0) sl !! i) as Hi' by (by rewrite H).
      rewrite !list_lookup_fmap, Hi in Hi'. simpl in Hi'. injection Hi' as Hi'.
      by rewrite !(flatten_nth _ _ e (q_block q) r) in Hi' by done.
    - intros H. apply map_ext_in. intros j Hj. apply elem_of_list_In, Hel in Hj as [Hj Hv].
      destruct (total_split _ _ Hj) as (e & b & r & He & Hr' & ->). rewrite !(flatten_nth _ _ e b r) by done.
      rewrite list_lookup_fmap in He. destruct (eqns !! e) as [q|] eqn:Hq; [|done]. injection He as <-.
      rewrite (valid_eqn_nth eqns vars e q r) in Hv by done. apply andb_true_iff in Hv as [Hc Hv].
      apply H. exists q. apply nth_true in Hv. done.
  Qed.

  (** Every pencil matrix acts on compressed vectors as the equations' left-hand sides do on mode
      values, so that any combination of the matrices solves the combined equations. *)
  Theorem compressed_matrices : forall cutoff eqns vars nnames bc_top tau_left interleave B name X,
    problem_ok eqns vars ->
    build_matrices cutoff eqns vars nnames bc_top tau_left interleave = Some B ->
    (name < nnames)%nat -> invalid_vanish vars X ->
    mv (nth name (min_matrices B) []) (mv (pre_right_pinv B) (flatten (map v_block vars) X)) =
    mv (pre_left B) (flatten (map q_block eqns) (lhs cutoff eqns name X)).
  Proof.
    intros cutoff eqns vars nn bt tl il B name X Hok HB Hn HX.
    destruct (build_form _ _ _ _ _ _ _ _ Hok HB) as (sl & sr & Hsl & Hsr & Hel & Her & Hlen & Hl & Hlp & Hrp & Hr & _ & Hm).
    rewrite Hm by done. rewrite !mv_mm.
    destruct (compressed_vectors _ _ _ _ _ _ _ _ Hok HB) as [_ Hinv]. rewrite Hinv by done.
    rewrite raw_matrix_apply.
    - apply (compressed_rows _ _ _ _ _ _ _ _ _ _ Hok HB). intros e r (q & -> & -> & _). done.
    - destruct Hok as [Hf _]. eapply Forall_impl; [done|]. by intros q [_ ?].
  Qed.

  (** C20.  The preconditioned pencil system has the same solutions as the equations: a compressed
      vector solves it exactly when the mode values it expands to vanish on the invalid modes and
      satisfy every imposed row of every equation; and every such set of mode values is reached. *)
  Theorem pencil_solution_set : forall cutoff eqns vars nnames bc_top tau_left interleave B name F,
    problem_ok eqns vars ->
    build_matrices cutoff eqns vars nnames bc_top tau_left interleave = Some B ->
    (name < nnames)%nat ->
    (forall y, length y = length (pre_right_pinv B) ->
       (mv (nth name (min_matrices B) []) y = mv (pre_left B) (flatten (map q_block eqns) F) <->
        exists X, mv (pre_right B) y = flatten (map v_block vars) X /\ invalid_vanish vars X /\
          forall e r, imposed eqns e r -> lhs cutoff eqns name X e r = F e r)) /\
    (forall X, invalid_vanish vars X -> (forall e r, imposed eqns e r -> lhs cutoff eqns name X e r = F e r) ->
       exists y, length y = length (pre_right_pinv B) /\
         mv (nth name (min_matrices B) []) y = mv (pre_left B) (flatten (map q_block eqns) F) /\
         mv (pre_right B) y = flatten (map v_block vars) X).
  Proof.
    intros cutoff eqns vars nn bt tl il B name F Hok HB Hn.
    destruct (compressed_vectors _ _ _ _ _ _ _ _ Hok HB) as [Hc1 Hc2].
    assert (Hkey : forall X, invalid_vanish vars X ->
       mv (nth name (min_matrices B) []) (mv (pre_right_pinv B) (flatten (map v_block vars) X)) =
       mv (pre_left B) (flatten (map q_block eqns) F) <->
       (forall e r, imposed eqns e r -> lhs cutoff eqns name X e r = F e r)).
    { intros X HX. rewrite (compressed_matrices _ _ _ _ _ _ _ _ _ _ Hok HB Hn HX).
      apply (compressed_rows _ _ _ _ _ _ _ _ _ _ Hok HB). }
    split.
    - intros y Hy. destruct (Hc1 y Hy) as (X & HX & H1 & H2). split.
      + intros Hs. exists X. split; [done|]. split; [done|]. apply Hkey; [done|]. by rewrite H2.
      + intros (X' & H1' & HX' & Hs). apply Hkey in Hs; [|done].
        rewrite H1 in H1'. rewrite <-H1', H2 in Hs. done.
    - intros X HX Hs. exists (mv (pre_right_pinv B) (flatten (map v_block vars) X)).
      split; [by rewrite mv_length|]. split; [by apply Hkey|]. by apply Hc2.
  Qed.

  (** The pencil matrices are square, of the size of the compressed vectors. *)
  Theorem pencil_square : forall cutoff eqns vars nnames bc_top tau_left interleave B name,
    problem_ok eqns vars ->
    build_matrices cutoff eqns vars nnames bc_top tau_left interleave = Some B ->
    (name < nnames)%nat ->
    length (nth name (min_matrices B) []) = length (pre_right_pinv B) /\
    length (pre_left B) = length (pre_right_pinv B) /\
    Forall (Forall (fun cv => cv.1 < length (pre_right_pinv B))%nat) (nth name (min_matrices B) []).
  Proof.
    intros cutoff eqns vars nn bt tl il B name Hok HB Hn.
    destruct (build_form _ _ _ _ _ _ _ _ Hok HB) as (sl & sr & Hsl & Hsr & Hel & Her & Hlen & Hl & Hlp & Hrp & Hr & _ & Hm).
    rewrite Hm by done. rewrite Hrp, Hl, Hr. unfold sel_matrix. rewrite !map_length.
    split; [unfold mm; rewrite !map_length; done|]. split; [done|].
    apply Forall_forall. intros row Hrow. apply Forall_forall. intros [c w] Hc. cbn [fst].
    unfold mm at 1 in Hrow. apply elem_of_list_fmap in Hrow as (row' & -> & _).
    apply elem_of_list_bind in Hc as ([k v] & Hc & _). apply elem_of_list_fmap in Hc as ([c' w'] & [= -> ->] & Hc).
    unfold transpose_csr in Hc.
    destruct (decide (k < total (map v_block vars))%nat) as [Hk|Hk].
    - rewrite nth_map_seq in Hc by done.
      apply elem_of_list_In, in_concat in Hc as (l & Hl' & Hc). apply elem_of_list_In in Hl', Hc.
      apply elem_of_lookup_imap in Hl' as (i & r' & -> & Hi).
      apply elem_of_list_fmap in Hc as ([? ?] & [= -> ->] & _).
      apply lookup_lt_Some in Hi. by rewrite map_length in Hi.
    - rewrite nth_overflow in Hc; [by apply elem_of_nil in Hc|]. rewrite map_length, seq_length. lia.
  Qed.

  (** The assertions on the pseudo-inverses (subsystems.py:565-567) hold: both products reproduce the
      factors (the two remaining Penrose conditions, symmetry, hold because each pseudo-inverse is the
      transpose of its matrix). *)
  Theorem preconditioners_pseudoinverse : forall cutoff eqns vars nnames bc_top tau_left interleave B x y,
    problem_ok eqns vars ->
    build_matrices cutoff eqns vars nnames bc_top tau_left interleave = Some B ->
    length y = length (pre_left B) ->
    mv (pre_left B) (mv (pre_left_pinv B) (mv (pre_left B) x)) = mv (pre_left B) x /\
    mv (pre_left_pinv B) (mv (pre_left B) (mv (pre_left_pinv B) y)) = mv (pre_left_pinv B) y /\
    mv (pre_right_pinv B) (mv (pre_right B) (mv (pre_right_pinv B) x)) = mv (pre_right_pinv B) x /\
    mv (pre_right B) (mv (pre_right_pinv B) (mv (pre_right B) y)) = mv (pre_right B) y.
  Proof.
    intros cutoff eqns vars nn bt tl il B x y Hok HB Hy.
    destruct (build_form _ _ _ _ _ _ _ _ Hok HB) as (sl & sr & Hsl & Hsr & Hel & Her & Hlen & Hl & Hlp & Hrp & Hr & _ & _).
    rewrite Hl in Hy. unfold sel_matrix in Hy. rewrite map_length in Hy. rewrite Hl, Hlp, Hrp, Hr.
    assert (Hlt : Forall (fun j => (j < total (map q_block eqns))%nat) sl) by (apply Forall_forall; intros j Hj; by apply Hel).
    assert (Hrt : Forall (fun j => (j < total (map v_block vars))%nat) sr) by (apply Forall_forall; intros j Hj; by apply Her).
    repeat split; rewrite compress_expand; try done; try lia;
      rewrite mv_length; unfold sel_matrix; by rewrite map_length.
  Qed.

  (** Builds fail only for the documented reasons. *)
  Theorem build_succeeds : forall cutoff eqns vars nnames bc_top tau_left interleave,
    vars <> [] -> (exists q, q ∈ eqns /\ q_cond q = true) ->
    length (filter (fun b : bool => b = true) (valid_eqn eqns)) =
    length (filter (fun b : bool => b = true) (valid_var vars)) ->
    is_Some (build_matrices cutoff eqns vars nnames bc_top tau_left interleave).
  Proof.
    intros cutoff eqns vars nn bt tl il Hv (q & Hq & Hc) Hs. unfold build_matrices.
    rewrite !nnz_diags. rewrite decide_False by tauto.
    destruct (permutation_succeeds (map q_block eqns) bt il) as [Hl _].
    destruct (permutation_succeeds (map v_block vars) tl il) as [Hr _].
    destruct Hl as [pl Hpl]; [by destruct eqns; [apply elem_of_nil in Hq|]|].
    destruct Hr as [pr Hpr]; [by destruct vars|].
    unfold left_permutation, right_permutation. rewrite Hpl, Hpr. cbn [mbind option_bind].
    rewrite decide_False; [by eexists|]. rewrite Forall_forall. intros H. specialize (H q Hq). congruence.
  Qed.
End C20.

Section C19.
  Local Open Scope nat_scope.

  Lemma vtotal_blocks vs bs :
    Forall2 (fun v b => length (nth 0 v []) = bcomps b * bmodes b) vs bs -> vtotal vs = total bs.
  Proof. induction 1 as [|v b vs bs H _ IH]; [done|]. unfold vtotal, total in *. simpl. rewrite H, IH. done. Qed.

  Lemma vtotal_take_blocks vs bs k :
    Forall2 (fun v b => length (nth 0 v []) = bcomps b * bmodes b) vs bs -> vtotal (take k vs) = total (take k bs).
  Proof. intros H. apply vtotal_blocks. by apply Forall2_take. Qed.

  (** Gathering what was just scattered returns the data, for any number of subsystems, for
      variables (inputs) and for right-hand sides (outputs). *)
  Theorem gather_after_scatter : forall cutoff eqns vars nnames bc_top tau_left interleave B nsub vs fs data,
    problem_ok eqns vars ->
    build_matrices cutoff eqns vars nnames bc_top tau_left interleave = Some B ->
    Forall2 (field_views_ok nsub) vs fs ->
    length data = nsub -> Forall (fun y => length y = length (pre_right_pinv B)) data ->
    (Forall2 (fun v b => length (nth 0 v []) = bcomps b * bmodes b) vs (map v_block vars) ->
     gather (pre_right_pinv B) vs nsub (scatter (pre_right B) vs data fs) = data) /\
    (Forall2 (fun v b => length (nth 0 v []) = bcomps b * bmodes b) vs (map q_block eqns) ->
     gather (pre_left B) vs nsub (scatter (pre_left_pinv B) vs data fs) = data).
  Proof.
    intros cutoff eqns vars nn bt tl il B nsub vs fs data Hok HB Hf Hd Hy.
    destruct (build_form _ _ _ _ _ _ _ _ Hok HB) as (sl & sr & Hsl & Hsr & Hel & Her & Hlen & Hl & Hlp & Hrp & Hr & _ & _).
    rewrite Hrp in Hy. unfold sel_matrix in Hy. rewrite map_length in Hy.
    split; intros Hb; [rewrite Hrp, Hr|rewrite Hl, Hlp].
    - apply gather_scatter; [done| |by apply vtotal_blocks|done|done|done].
      apply Forall_forall. intros j Hj. by apply Her in Hj as [? _].
    - apply gather_scatter; [done| |by apply vtotal_blocks|done|done|by rewrite Hlen].
      apply Forall_forall. intros j Hj. by apply Hel in Hj as [? _].
  Qed.

  (** Scattering what was gathered from variables leaves every valid mode of the subproblem as it was,
      zeroes its invalid modes, and touches nothing else. *)
  Theorem scatter_after_gather : forall cutoff eqns vars nnames bc_top tau_left interleave B nsub vs fs k v f,
    problem_ok eqns vars ->
    build_matrices cutoff eqns vars nnames bc_top tau_left interleave = Some B ->
    Forall2 (field_views_ok nsub) vs fs ->
    Forall2 (fun v b => length (nth 0 v []) = bcomps b * bmodes b) vs (map v_block vars) ->
    vs !! k = Some v -> fs !! k = Some f ->
    exists f', scatter (pre_right B) vs (gather (pre_right_pinv B) vs nsub fs) fs !! k = Some f' /\
      length f' = length f /\
      (forall j pos t p, v !! j = Some pos -> pos !! t = Some p -> valid_mode vars k t -> f' !! p = f !! p) /\
      (forall j pos t p, v !! j = Some pos -> pos !! t = Some p -> ~ valid_mode vars k t -> f' !! p = Some 0%R) /\
      (forall p, p ∉ concat v -> f' !! p = f !! p).
  Proof.
    intros cutoff eqns vars nn bt tl il B nsub vs fs k v f Hok HB Hf Hb Hk Hfk.
    destruct (build_form _ _ _ _ _ _ _ _ Hok HB) as (sl & sr & Hsl & Hsr & Hel & Her & Hlen & Hl & Hlp & Hrp & Hr & _ & _).
    rewrite Hrp, Hr.
    assert (Hgl : length (gather (sel_matrix sr) vs nsub fs) = nsub) by (unfold gather; by rewrite map_length, seq_length).
    assert (Hsome : is_Some (scatter (transpose_csr (total (map v_block vars)) (sel_matrix sr)) vs
              (gather (sel_matrix sr) vs nsub fs) fs !! k)).
    { eexists. by apply scatter_buffer_lookup with (nsub := nsub). }
    destruct Hsome as [f' Hf']. exists f'. split; [done|]. split; [by eapply scatter_lengths|].
    pose proof (Forall2_lookup_lr _ _ _ _ _ _ Hf Hk Hfk) as Hv.
    assert (Hvar : exists w, vars !! k = Some w /\ length (nth 0 v []) = bcomps (v_block w) * bmodes (v_block w)).
    { destruct (Forall2_lookup_l _ _ _ _ _ Hb Hk) as (b & Hbk & Hlb). rewrite list_lookup_fmap in Hbk.
      destruct (vars !! k) as [w|] eqn:Hw; [|done]. injection Hbk as <-. by exists w. }
    destruct Hvar as (w & Hw & Hwl).
    assert (Hvalid : forall pos j t p, v !! j = Some pos -> pos !! t = Some p ->
        (vtotal (take k vs) + t ∈ sr <-> valid_mode vars k t)).
    { intros pos j t p Hpos Ht. destruct (view_in_range _ _ _ _ _ Hv Hpos) as [Hpl _].
      assert (t < bcomps (v_block w) * bmodes (v_block w)) as Htl
        by (rewrite <-Hwl, <-Hpl; by eapply lookup_lt_Some).
      rewrite Her, (vtotal_take_blocks _ _ k Hb), (valid_var_nth eqns vars k w t) by done.
      rewrite nth_true. unfold valid_mode. split.
      - intros [_ ?]. by exists w.
      - intros (w' & Hw' & ?). rewrite Hw in Hw'. injection Hw' as <-. split; [|done].
        assert ((map v_block vars) !! k = Some (v_block w)) as Hk' by (by rewrite list_lookup_fmap, Hw).
        rewrite <-(take_drop_middle _ _ _ Hk') at 2. rewrite total_app.
        change (total (v_block w :: ?l)) with (bsize (v_block w) + total l). unfold bsize. lia. }
    split; [|split].
    - intros j pos t p Hpos Ht Hvm.
      destruct (scatter_gather_in sr _ nsub vs fs k v f j pos t p Hsr (vtotal_blocks _ _ Hb) Hf Hk Hfk Hpos Ht)
        as (f2 & x & H2 & Hx & Hp). rewrite Hf' in H2. injection H2 as <-. rewrite Hp, Hx.
      rewrite decide_True; [done|]. by eapply Hvalid.
    - intros j pos t p Hpos Ht Hvm.
      destruct (scatter_gather_in sr _ nsub vs fs k v f j pos t p Hsr (vtotal_blocks _ _ Hb) Hf Hk Hfk Hpos Ht)
        as (f2 & x & H2 & Hx & Hp). rewrite Hf' in H2. injection H2 as <-. rewrite Hp.
      rewrite decide_False; [done|]. by rewrite (Hvalid pos j t p).
    - intros p Hp. destruct (scatter_out (transpose_csr (total (map v_block vars)) (sel_matrix sr)) nsub vs fs
        (gather (sel_matrix sr) vs nsub fs) k v f p Hf Hgl Hk Hfk Hp) as (f2 & H2 & Hp2).
      rewrite Hf' in H2. injection H2 as <-. done.
  Qed.

  (** On a Cartesian domain (one basis per axis), for every coupling of axes: the modes of a
      subsystem are one box, found without error; and every local mode of every component belongs to
      exactly one subsystem. *)
  Theorem subsystem_modes_partition : forall shape gshape h groups coupling,
    cartesian_groups shape gshape h groups -> length coupling = length shape ->
    (forall gset, gset ∈ local_groupsets shape groups coupling ->
       exists box, coeff_slices shape gshape groups gset = Some box /\
         forall idx, in_shape shape idx -> (in_box box idx <-> groupset_of groups coupling idx = Some gset)) /\
    (forall idx, in_shape shape idx -> exists gset,
       gset ∈ local_groupsets shape groups coupling /\ groupset_of groups coupling idx = Some gset).
  Proof.
    intros shape gshape h groups coupling (Hd & Hgl & Ha & Hg) Hc.
    pose proof (elem_in_shape shape) as Hin.
    split.
    - intros gset Hgs. pose proof Hgs as Hgs'.
      unfold local_groupsets in Hgs'. apply elem_of_remove_dups, elem_of_list_omap in Hgs' as (ix & Hix & Hf).
      apply Hin in Hix.
      destruct (groupset_of_spec shape h groups Hg coupling ix Hc Hix) as (gset' & Hf' & Hl & Hsel & Hu).
      rewrite Hf in Hf'. injection Hf' as <-.
      destruct (coeff_slices_spec shape gshape h groups Hd Hgl Ha Hg gset Hl) as (box & Hbox & _ & Hb).
      exists box. split; [done|]. intros idx Hi. rewrite Hb by done.
      destruct (groupset_of_spec shape h groups Hg coupling idx Hc Hi) as (gset2 & Hf2 & _ & Hsel2 & Hu2).
      rewrite Hf2. split; [intros Hs; f_equal; symmetry; by apply Hu2|by intros [= <-]].
    - intros idx Hi.
      destruct (groupset_of_spec shape h groups Hg coupling idx Hc Hi) as (gset2 & Hf2 & _).
      exists gset2. split; [|done]. unfold local_groupsets. apply elem_of_remove_dups, elem_of_list_omap.
      exists idx. split; [by apply Hin|done].
  Qed.

  (** In terms of the field's flat local data ([comps] component axes in front): distinct subsystems
      have disjoint views without repetition, and the views cover the data. *)
  Theorem subsystem_views_disjoint : forall shape gshape h groups coupling comps,
    cartesian_groups shape gshape h groups -> length coupling = length shape ->
    let view gset := match coeff_slices shape gshape groups gset with
                     | Some box => view_positions (comps ++ shape) (map (fun n => (0, n)) comps ++ box)
                     | None => []
                     end in
    (forall gset, gset ∈ local_groupsets shape groups coupling -> NoDup (view gset)) /\
    (forall g1 g2 p, g1 ∈ local_groupsets shape groups coupling -> g2 ∈ local_groupsets shape groups coupling ->
       p ∈ view g1 -> p ∈ view g2 -> g1 = g2) /\
    (forall p, (exists gset, gset ∈ local_groupsets shape groups coupling /\ p ∈ view gset) <->
       exists idx, in_shape (comps ++ shape) idx /\ p = flat (comps ++ shape) idx).
  Proof.
    intros shape gshape h groups coupling comps Hcart Hc view.
    assert (Hview : forall gset, gset ∈ local_groupsets shape groups coupling -> NoDup (view gset) /\
       forall p, p ∈ view gset <-> exists ci idx, in_shape comps ci /\ in_shape shape idx /\
          groupset_of groups coupling idx = Some gset /\ p = flat (comps ++ shape) (ci ++ idx)).
    { intros gset Hg. destruct (subsystem_modes_partition _ _ _ _ _ Hcart Hc) as [H1 _].
      destruct (H1 gset Hg) as (box & Hbox & Hb). 
      assert (Hlb : length box = length shape).
      { destruct Hcart as (Hd & Hgl & Ha & Hgr).
        unfold local_groupsets in Hg. apply elem_of_remove_dups, elem_of_list_omap in Hg as (ix & Hix & Hf).
        apply (elem_in_shape shape) in Hix.
        destruct (groupset_of_spec shape h groups Hgr coupling ix Hc Hix) as (gset' & Hf' & Hl & _).
        rewrite Hf in Hf'. injection Hf' as <-.
        destruct (coeff_slices_spec shape gshape h groups Hd Hgl Ha Hgr gset Hl) as (box' & Hbox' & Hlb & _).
        congruence. }
      unfold view. rewrite Hbox. split; [apply view_NoDup; rewrite !app_length, map_length; lia|].
      intros p. rewrite elem_of_view by (rewrite !app_length, map_length; lia). split.
      - intros (idx & Hi & Hbx & ->). apply Forall2_app_inv_l in Hi as (ci & ix & Hci & Hix & ->).
        exists ci, ix. split; [done|]. split; [done|]. split; [|done]. apply Hb; [done|].
        apply Forall2_app_inv in Hbx as [_ Hbx]; [done|].
        rewrite map_length. by apply Forall2_length in Hci.
      - intros (ci & ix & Hci & Hix & Hgo & ->). exists (ci ++ ix). split; [by apply Forall2_app|]. split; [|done].
        apply Forall2_app; [|by apply Hb].
        apply Forall2_fmap_l. eapply Forall2_impl; [exact Hci|]. intros n i Hni; simpl in *; lia. }
    split; [|split].
    - intros gset Hg. by apply Hview.
    - intros g1 g2 p Hg1 Hg2 H1 H2. apply Hview in H1; [|done]. apply Hview in H2; [|done].
      destruct H1 as (c1 & i1 & Hc1 & Hi1 & Hf1 & ->). destruct H2 as (c2 & i2 & Hc2 & Hi2 & Hf2 & He).
      apply flat_inj in He; [|by apply Forall2_app..].
      apply app_inj_1 in He as [_ <-]; [congruence|].
      apply Forall2_length in Hc1, Hc2. congruence.
    - intros p. split.
      + intros (gset & Hg & Hp). apply Hview in Hp as (ci & ix & H1 & H2 & _ & ->); [|done].
        exists (ci ++ ix). split; [by apply Forall2_app|done].
      + intros (idx & Hi & ->). apply Forall2_app_inv_l in Hi as (ci & ix & Hci & Hix & ->).
        destruct (subsystem_modes_partition _ _ _ _ _ Hcart Hc) as [_ H2].
        destruct (H2 ix Hix) as (gset & Hg & Hf). exists gset. split; [done|]. apply Hview; [done|].
        by exists ci, ix.
  Qed.
End C19.

(** ** Concrete cases *)

(** u - dxx u = f with one tau term and one boundary condition, one invalid mode on each side. *)
Definition ex_eqns : list equation :=
  [Equation (Block 1 1 3) true [true; true; true] [Some [Some [(0, 0, 1%R); (1, 2, 2%R); (2, 1, 1%R)]; Some [(2, 0, 1%R)]]];
   Equation (Block 0 1 1) true [true] [Some [Some [(0, 0, 1%R); (0, 1, 1%R)]; None]];
   Equation (Block 0 1 1) false [true] [None]].
Definition ex_vars : list variable :=
  [Variable_ (Block 1 1 3) [true; true; true]; Variable_ (Block 0 1 1) [true]].

Example ex_problem_ok : problem_ok ex_eqns ex_vars.
Proof.
  split; repeat constructor; intros [|[|]] blocks; simpl; intros [= <-]; repeat constructor; simpl; lia.
Qed.
Example ex_build : is_Some (build_matrices 0 ex_eqns ex_vars 1 true false true).
Proof.
  apply build_succeeds; [done| |done]. eexists. split; [left|done].
Qed.

(** Two real Fourier groups along the first axis, a coupled second axis. *)
Example ex_cartesian :
  cartesian_groups [4; 3] [2; 1] (fun a i => match a with O => i / 2 | _ => i end)
    (fun a idx => match idx !! a with Some i => Some (match a with O => i / 2 | _ => i end) | None => None end).
Proof.
  split; [done|]. split; [done|]. split.
  - intros [|[|[|a]]] n g; simpl; try done; intros [= <-] [= <-].
    + split; [lia|]. split; [by exists 2|]. done.
    + split; [lia|]. split; [by exists 3|]. intros i j _ _. by rewrite !Nat.div_1_r.
  - intros a idx i ->. done.
Qed.
Example ex_slices :
  let groups a idx := match idx !! a with Some i => Some (match a with O => i / 2 | _ => i end) | None => None end in
  local_groupsets [4; 3] groups [false; true] = [[Some 0; None]; [Some 1; None]] /\
  coeff_slices [4; 3] [2; 1] groups [Some 1; None] = Some [(2, 4); (0, 3)].
Proof. vm_compute. done. Qed.

Example ex_views : field_views_ok 2 [[0; 1]; [2; 3]] [1; 2; 3; 4]%R.
Proof.
  split; [done|]. split; [by repeat constructor|]. split.
  - apply NoDup_ListNoDup. repeat constructor; simpl; lia.
  - repeat constructor; simpl; lia.
Qed.

Print Assumptions pencil_solution_set.
Print Assumptions pencil_square.
Print Assumptions preconditioners_pseudoinverse.
Print Assumptions build_succeeds.
Print Assumptions gather_after_scatter.
Print Assumptions scatter_after_gather.
Print Assumptions subsystem_modes_partition.
Print Assumptions subsystem_views_disjoint.
