(** C24: merging output files. *)
From stdpp Require Import gmap strings list.
From Verif Require Import Merges_Model Merges_Spec Merges_Proofs.

(** A merge of a file with everything the merge needs runs to its end and leaves a single file with
    the same numbers, scales, tasks, task data and dimension labels, in which nothing is virtual; the
    process files are deleted exactly if asked. *)
Theorem merge_complete sha cleanup src t g s ts : ready sha src s ts ->
  exists f e, merged_entry sha true cleanup (Entry (Some src) t g) = (e, None) /\
    e = Entry (Some f) None (if cleanup then None else g) /\
    (forall k, k ∈ ["set_number"; "handler_name"; "writes"] -> rattrs f !! k = rattrs src !! k) /\
    scales f = scales src /\
    (forall g', task_data g' f = task_data g src) /\ task_labels f = task_labels src /\
    (forall nd, nd ∈ default [] (tasks f) -> ~ virtual nd).
Proof.
  intros Hr. destruct (runs_merge sha src g s ts Hr) as (ts' & a & [H1 H2] & H3 & H4).
  exists (H5 a (Some s) (Some ts')). eexists. split; [|split; [reflexivity|]].
  - unfold merged_entry, merge_virtual_file. cbn [joint folder].
    destruct (merge_virtual sha src g empty_h5) as [fs x]. simpl in H1, H2. subst x. rewrite H2.
    destruct cleanup; cbn [andb]; rewrite !last_cons_list, last_app_list; done.
  - cbn [rattrs scales tasks]. split; [done|]. split; [by rewrite (ready_scales _ _ _ _ Hr)|].
    unfold task_data, task_labels. rewrite (ready_tasks _ _ _ _ Hr). cbn [default from_option tasks]. unfold id. split; [|split].
    + intros g'. clear H1 H2 Hr. induction H3 as [|nd nd' ts ts' Hm H3 IH]; [done|]. cbn [map]. rewrite IH. f_equal.
      destruct Hm as (-> & Hc & _). f_equal. unfold data_of at 1. rewrite Hc. unfold read, data_of. by destruct (content nd.2), g.
    + clear H1 H2 Hr. induction H3 as [|nd nd' ts ts' Hm H3 IH]; [done|]. cbn [map]. rewrite IH. f_equal. apply Hm.
    + intros nd' Hin. clear H1 H2 Hr. unfold virtual. induction H3 as [|nd nd'' ts ts' Hm H3 IH]; [by apply elem_of_nil in Hin|].
      apply elem_of_cons in Hin as [->|Hin]; [|by apply IH]. destruct Hm as (_ & -> & _). done.
Qed.
Print Assumptions merge_complete.

(** At every point of one merge, of any file, the original is still there, under its name or as the
    temporary file, until the merge has finished and the merged file is complete; and the process files
    are untouched until then. *)
Theorem merge_keeps_original sha p cleanup src t g e :
  e ∈ (merge_virtual_file sha p cleanup (Entry (Some src) t g)).1 ->
  (tmp e = Some src /\ folder e = g) \/
  (exists f, joint e = Some f /\ runs (merge_virtual sha src g) empty_h5 f).
Proof.
  unfold merge_virtual_file. cbn [joint folder].
  destruct (merge_virtual sha src g empty_h5) as [fs x] eqn:Em.
  assert (forall e', e' ∈ map (fun f => Entry (Some f) (Some src) g) fs -> tmp e' = Some src /\ folder e' = g) as Hp.
  { intros e' Hin. apply elem_of_list_In, in_map_iff in Hin as (f & <- & _). done. }
  assert (x = None -> runs (merge_virtual sha src g) empty_h5 (List.last fs empty_h5)) as Hr.
  { intros ->. unfold runs. by rewrite Em. }
  destruct x as [x|]; cbn [fst].
  - intros Hin. left. apply elem_of_cons in Hin as [->|Hin]; [done|]. apply elem_of_cons in Hin as [->|Hin]; [done|]. by apply Hp.
  - specialize (Hr eq_refl). intros Hin.
    assert (e ∈ Entry None (Some src) g :: Entry (Some empty_h5) (Some src) g ::
       map (fun f => Entry (Some f) (Some src) g) fs ++
       [Entry (Some (List.last fs empty_h5)) None g; Entry (Some (List.last fs empty_h5)) None None]) as Hin'.
    { destruct cleanup, p; cbn [fst] in Hin; set_solver. }
    clear Hin. apply elem_of_cons in Hin' as [->|Hin]; [by left|]. apply elem_of_cons in Hin as [->|Hin]; [by left|].
    apply elem_of_app in Hin as [Hin|Hin]; [left; by apply Hp|]. right. eexists. split; [|exact Hr].
    apply elem_of_cons in Hin as [->|Hin]; [done|]. by apply elem_of_list_singleton in Hin as ->.
Qed.
Print Assumptions merge_keeps_original.

(** Merging is not crash safe: when a merge was interrupted after it had created its output, the files
    after any number of calls of the next one no longer depend on the original. *)
Theorem merge_after_crash_refuted sha p cleanup partial src src' g :
  merge_virtual_file sha p cleanup (Entry (Some partial) (Some src) g) =
  merge_virtual_file sha p cleanup (Entry (Some partial) (Some src') g) /\
  (forall e, e ∈ (merge_virtual_file sha p cleanup (Entry (Some partial) (Some src) g)).1 ->
     tmp e = Some partial \/ tmp e = None).
Proof.
  split; [done|]. intros e. unfold merge_virtual_file. cbn [joint folder].
  destruct (merge_virtual sha partial g empty_h5) as [fs x].
  assert (forall e', e' ∈ map (fun f => Entry (Some f) (Some partial) g) fs -> tmp e' = Some partial \/ tmp e' = None) as Hp.
  { intros e' Hin. apply elem_of_list_In, in_map_iff in Hin as (f & <- & _). by left. }
  intros Hin.
  assert (e ∈ Entry None (Some partial) g :: Entry (Some empty_h5) (Some partial) g ::
       map (fun f => Entry (Some f) (Some partial) g) fs ++
       [Entry (Some (List.last fs empty_h5)) None g; Entry (Some (List.last fs empty_h5)) None None]) as Hin'.
  { destruct x, cleanup, p; cbn [fst] in Hin; set_solver. }
  clear Hin. apply elem_of_cons in Hin' as [->|Hin]; [by left|]. apply elem_of_cons in Hin as [->|Hin]; [by left|].
  apply elem_of_app in Hin as [Hin|Hin]; [by apply Hp|]. right.
  apply elem_of_cons in Hin as [->|Hin]; [done|]. by apply elem_of_list_singleton in Hin as ->.
Qed.
Print Assumptions merge_after_crash_refuted.

(** Interrupted between the move and the creation, the next merge raises and changes nothing. *)
Theorem merge_after_move sha p cleanup src g :
  merged_entry sha p cleanup (Entry None src g) = (Entry None src g, Some FileNotFoundError).
Proof. done. Qed.
Print Assumptions merge_after_move.

(** The files that the handlers of this version write cannot be merged: with at least one task the
    merge always raises a key error, with the original moved away and the first task in the partial
    file; and a second attempt raises too and deletes the original: only the first task is left
    outside of the process files. *)
Theorem merge_handler_files_refuted sha p cleanup src t g : handler_written src ->
  exists n d ts partial, tasks src = Some ((n, d) :: ts) /\
    task_data None partial = [(n, data_of g n d)] /\
    merged_entry sha p cleanup (Entry (Some src) t g) = (Entry (Some partial) (Some src) g, Some KeyError) /\
    exists partial', task_data None partial' = [(n, data_of g n d)] /\
      merged_entry sha p cleanup (Entry (Some partial) (Some src) g) = (Entry (Some partial') (Some partial) g, Some KeyError).
Proof.
  intros Hw. destruct (raises_merge sha src g Hw) as (n & d & x1 & x2 & x3 & s & ts & Et & Es & E1 & E2 & E3 & Em).
  cbn zeta in Em.
  set (nd := Dset (Some (read g n d)) ∅ (replicate (length (ddims d)) ("", []))) in *.
  set (f6 := add_task (n, nd) (set_tasks [] (set_scales s (set_attr "writes" x3 (set_attr "handler_name" x2 (set_attr "set_number" x1 empty_h5)))))) in *.
  exists n, d, ts, f6. split; [done|]. split; [cbn; unfold read, data_of; by destruct (content d), g|]. split.
  - unfold merged_entry, merge_virtual_file. cbn [joint folder]. rewrite Em. done.
  - set (nd' := Dset (Some (read g n nd)) ∅ (replicate (length (ddims nd)) ("", []))).
    exists (add_task (n, nd') (set_tasks [] (set_scales s (set_attr "writes" x3 (set_attr "handler_name" x2 (set_attr "set_number" x1 empty_h5)))))).
    split; [cbn; unfold read, data_of; cbn; by destruct (content d), g|]. unfold merged_entry, merge_virtual_file. cbn [joint folder].
    assert (rattrs f6 !! "set_number" = Some x1) as F1.
    { cbn. by rewrite !lookup_insert_ne, lookup_insert by done. }
    assert (rattrs f6 !! "handler_name" = Some x2) as F2.
    { cbn. by rewrite lookup_insert_ne, lookup_insert by done. }
    assert (rattrs f6 !! "writes" = Some x3) as F3.
    { cbn. by rewrite lookup_insert by done. }
    unfold merge_virtual. rewrite F1, F2, F3. done.
Qed.
Print Assumptions merge_handler_files_refuted.

(** So merging an analysis folder stops at the first set of each process. *)
Theorem merge_analysis_stops sha cleanup src t g es : handler_written src ->
  exists e, merge_virtual_analysis sha cleanup (Entry (Some src) t g :: es) = (e :: es, Some KeyError).
Proof.
  intros Hw. destruct (merge_handler_files_refuted sha true cleanup src t g Hw) as (n & d & ts & f & _ & _ & E & _).
  eexists. cbn [merge_virtual_analysis]. by rewrite E.
Qed.
Print Assumptions merge_analysis_stops.

(** Merging a set of the virtual handler as a distributed set raises and empties the joint file: its
    scales and attributes, which are in no other file, are lost. *)
Theorem merge_distributed_refuted b e : exists e' x, merge_distributed_set b e = (e', Some x) /\
  (forall f, joint e' = Some f -> scales f = None /\ tasks f = None /\ rattrs f = ∅) /\ tmp e' = tmp e /\ folder e' = folder e.
Proof. eexists _, _. split; [reflexivity|]. split; [|done]. by intros f [= <-]. Qed.
Print Assumptions merge_distributed_refuted.

(** Concrete cases. *)
Definition sha_example (l : list Z) : string := "x".
Definition scales_example : gmap string (list Z) :=
  list_to_map [("sim_time", [0; 1]%Z); ("wall_time", [0; 1]%Z); ("timestep", [1; 1]%Z); ("iteration", [0; 1]%Z); ("write_number", [1; 2]%Z);
               ("constant", [0]%Z); ("hash_x", [5; 6]%Z)].
Definition ready_file : h5 :=
  H5 (list_to_map [("set_number", 1%Z); ("handler_name", 7%Z); ("writes", 2%Z)]) (Some scales_example)
     (Some [("b", Dset None (list_to_map [("task_number", 0%Z); ("constant", 0%Z); ("grid_space", 1%Z); ("scales", 1%Z)])
                       [("t", time_scales); ("x", ["hash_x"]); ("constant", ["constant"])])]).
Definition handler_dset : dset :=
  Dset None (list_to_map [("constant", 0%Z); ("grid_space", 1%Z); ("scales", 1%Z)]) [("t", time_scales)].
Definition handler_file : h5 :=
  H5 (list_to_map [("set_number", 1%Z); ("handler_name", 7%Z); ("writes", 2%Z)]) (Some scales_example)
     (Some [("b", handler_dset)]).
Example ready_example : ready sha_example ready_file scales_example (default [] (tasks ready_file)).
Proof.
  split; try (vm_compute; by eexists); try done.
  - intros n d k Hin Hk. apply elem_of_list_singleton in Hin as [= -> ->].
    unfold copied_attrs in Hk. repeat (apply elem_of_cons in Hk as [->|Hk]; [vm_compute; by eexists|]). by apply elem_of_nil in Hk.
  - intros n d dim Hin Hd. apply elem_of_list_singleton in Hin as [= -> ->]. cbn [ddims] in Hd.
    apply elem_of_cons in Hd as [->|Hd]; [|apply elem_of_cons in Hd as [->|Hd]; [|apply elem_of_list_singleton in Hd as ->]]; unfold dim_ready; cbn [fst snd].
    + rewrite decide_True by done. intros n Hn. unfold time_scales in Hn.
      repeat (apply elem_of_cons in Hn as [->|Hn]; [vm_compute; by eexists|]). by apply elem_of_nil in Hn.
    + rewrite decide_False by done. rewrite decide_False by (intros [?|?]; done). exists "hash_x", [], [5; 6]%Z. split; [done|]. split; [done|]. vm_compute. by eexists.
    + rewrite decide_False by done. rewrite decide_True by (by left). vm_compute. by eexists.
Qed.
Example handler_example : handler_written handler_file.
Proof.
  do 4 (split; [vm_compute; by eexists|]). eexists _, _, _. split; [reflexivity|].
  intros n d Hin. apply elem_of_list_singleton in Hin. assert (d = handler_dset) as -> by congruence. intros k. split.
  - unfold handler_dset. cbn [dattrs]. intros [v Hk%elem_of_list_to_map_2]. set_solver.
  - rewrite !elem_of_cons. intros [->|[->|[->|[]%elem_of_nil]]]; vm_compute; by eexists.
Qed.
Example merge_example : option_map (task_data None) (joint (merged_entry sha_example true true (Entry (Some ready_file) None (Some {[ "b" := [8; 9]%Z ]}))).1) = Some [("b", [8; 9]%Z)].
Proof. vm_compute. reflexivity. Qed.
