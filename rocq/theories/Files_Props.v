(** C22 and C23: output files. *)
From stdpp Require Import gmap list list_numbers.
From Verif Require Import Files_Model Files_Spec Files_Proofs.

(** A run that starts as the handler does (in either mode, in any folder) stores its writes in
    order in consecutive sets, each of which has [max_writes] writes except the last, numbered
    consecutively from the number found at the start; everything below the first set stays. *)
Theorem run_files md d s t d0 m T v rs : init md d = (Ready s t, d0) -> m <> Some 0 ->
  exists h' d', write_all (new_handler s t m T v) d0 rs = Some (h', d') /\ holds_run s t m T d0 rs d'.
Proof.
  intros Hi Hm. destruct (init_new _ _ _ _ _ Hi) as [Hnew _].
  destruct (write_all_inv s t m T v d0 Hm Hnew rs) as (d' & E & [Hinv _]). eauto.
Qed.
Print Assumptions run_files.

(** A set has at most [max_writes] writes, and once it has [max_writes] it is not touched again. *)
Theorem full_set_frozen md d s t d0 k T v rs more h1 d1 h2 d2 n f : init md d = (Ready s t, d0) -> k <> 0 ->
  write_all (new_handler s t (Some k) T v) d0 rs = Some (h1, d1) ->
  write_all (new_handler s t (Some k) T v) d0 (rs ++ more) = Some (h2, d2) ->
  s <= n -> joint d1 !! n = Some f ->
  length (dataset wn f) <= k /\ (length (dataset wn f) = k -> joint d2 !! n = Some f).
Proof.
  intros Hi Hk E1 E2 Hn Hf.
  destruct (run_files md d s t d0 (Some k) T v rs Hi ltac:(congruence)) as (h1' & d1' & E1' & (_ & _ & H1)).
  destruct (run_files md d s t d0 (Some k) T v (rs ++ more) Hi ltac:(congruence)) as (h2' & d2' & E2' & (_ & _ & H2)).
  rewrite E1 in E1'. injection E1' as <- <-. rewrite E2 in E2'. injection E2' as <- <-.
  specialize (H1 (n - s)). specialize (H2 (n - s)). replace (s + (n - s)) with n in * by lia.
  rewrite Hf in H1. unfold chunk in H1, H2.
  assert (length (dataset wn f) = length (take k (drop ((n - s) * k) rs))) as El.
  { destruct (take k (drop ((n - s) * k) rs)) as [|x l]; [done|]. injection H1 as ->.
    unfold dataset. rewrite (wn_writable _ _ _ _ _ _ (or_introl eq_refl)). cbn [from_option]. unfold id. by rewrite map_length, seq_length. }
  rewrite El. rewrite take_length, drop_length. split; [lia|]. intros Hfull.
  rewrite H2. rewrite H1. rewrite drop_app_le by lia. rewrite take_app_le by (rewrite drop_length; lia). done.
Qed.
Print Assumptions full_set_frozen.

(** In append mode nothing that was in the folder is changed or deleted, whatever is written and
    wherever the run crashes; and no set number that was present is reused. *)
Theorem append_keeps_files d s t m T v rs r c executed d' :
  init Append d = (Ready s t, d) -> m <> Some 0 ->
  crash (new_handler s t m T v) d rs r c = Some (executed, d') ->
  (forall n, n ∈ set_nums d -> n < s) /\
  (forall n f, joint d !! n = Some f -> joint d' !! n = Some f) /\
  (forall n p, folders d !! n = Some p -> folders d' !! n = Some p) /\
  strays d' = strays d.
Proof.
  intros Hi Hm Hc. destruct (init_new _ _ _ _ _ Hi) as [Hnew _].
  destruct (crash_run s t m T v d rs r c Hm Hnew) as (d1 & Hinv & E). rewrite E in Hc.
  destruct (crash_state s t m T v d Hm Hnew rs d1 r c Hinv) as (d2 & E2 & _ & _ & _ & _ & _ & Ho & Hst). rewrite E2 in Hc.
  injection Hc as _ <-. destruct Hinv as [(Hst' & Hlow & _) _].
  assert (forall n, n ∈ set_nums d -> joint d2 !! n = joint d !! n /\ folders d2 !! n = folders d !! n) as Hn.
  { intros n Hn. specialize (Hnew n Hn). destruct (Ho n) as [-> ->]; [unfold current; lia|]. by apply Hlow. }
  split; [done|]. split; [|split].
  - intros n f Hf. destruct (Hn n) as [-> _]; [apply elem_of_set_nums; left; by eexists|done].
  - intros n p Hf. destruct (Hn n) as [_ ->]; [apply elem_of_set_nums; right; left; by eexists|done].
  - by rewrite Hst.
Qed.
Print Assumptions append_keeps_files.

(** Any number of complete runs in append mode, each with its own [max_writes], starting in an
    empty folder: all of them start; the sets are 1, ..., S for some S without gaps; their write
    numbers are together 1, 2, ..., N in order; and every scale, and every task that all the runs
    have, holds exactly what was given to be written, in order. *)
Theorem append_runs_consecutive T js :
  (forall j, j ∈ js -> j_mode j = Append /\ j_max j <> Some 0 /\ T <= j_tasks j) ->
  exists d S, run_jobs empty_dir js = Some d /\
    (forall n, is_Some (joint d !! n) <-> 1 <= n <= S) /\
    column wn S d = map Z.of_nat (seq 1 (length (concat (map j_rows js)))) /\
    (forall c, c <> wn -> c < 5 + T -> column c S d = map (fun r => r c) (concat (map j_rows js))).
Proof.
  intros Hjs.
  assert (forall js' S all d, (forall j, j ∈ js' -> j_mode j = Append /\ j_max j <> Some 0 /\ T <= j_tasks j) -> runs_inv S all T d ->
    exists d' S', run_jobs d js' = Some d' /\ runs_inv S' (all ++ concat (map j_rows js')) T d') as Hgen.
  { induction js' as [|j js' IH]; intros S all d Hj Hinv; simpl; [exists d, S; by rewrite app_nil_r|].
    destruct (Hj j ltac:(by left)) as (Ea & Em & ET). destruct j as [md m T' v rs]. simpl in *. subst md.
    destruct (runs_inv_step S all T d m T' v rs Em ET Hinv) as (d' & S' & -> & Hinv').
    destruct (IH S' (all ++ rs) d') as (d'' & S'' & -> & Hinv''); [intros; apply Hj; by right|done|].
    exists d'', S''. by rewrite app_assoc. }
  destruct (Hgen js 0 [] empty_dir Hjs (runs_inv_start T)) as (d & S & E & [H1 _ _ H2 H3]).
  exists d, S. done.
Qed.
Print Assumptions append_runs_consecutive.

(** In overwrite mode the earlier sets are deleted and the run is as in an empty folder. *)
Theorem overwrite_restarts d m T v rs :
  run_job d (Job Overwrite m T v rs) = run_job empty_dir (Job Append m T v rs).
Proof. done. Qed.
Print Assumptions overwrite_restarts.

(** With [max_writes] = 0 the first write raises. *)
Theorem zero_max_writes_raises d s t T v r rs : init Append d = (Ready s t, d) ->
  write_all (new_handler s t (Some 0) T v) d (r :: rs) = None.
Proof.
  intros Hi. destruct (init_new _ _ _ _ _ Hi) as [Hnew _]. cbn [write_all]. unfold process.
  assert (advance (new_handler s t (Some 0) T v) = Handler (s + 1) (t + 1) 1 (Some 0) T v) as -> by reflexivity.
  cbn zeta. unfold process_ops, create_ops. cbn [set_num virtual].
  assert (joint d !! (s + 1) = None) as Ej.
  { destruct (joint d !! (s + 1)) as [f|] eqn:E; [|done]. exfalso. assert (s + 1 < s); [|lia]. apply Hnew, elem_of_set_nums. left. by eexists. }
  assert (folders d !! (s + 1) = None) as Ef.
  { destruct (folders d !! (s + 1)) as [f|] eqn:E; [|done]. exfalso. assert (s + 1 < s); [|lia]. apply Hnew, elem_of_set_nums. right; left. by eexists. }
  rewrite Ej. rewrite exec_app. cbn [exec apply]. rewrite Ej.
  assert (exists d1, exec (if v then [Mkdir (s + 1); Process (s + 1)] else [])
     (set_joint (<[s + 1:=setup_file (Handler (s + 1) (t + 1) 1 (Some 0) T v)]>) d) = Some d1 /\
     joint d1 !! (s + 1) = Some (setup_file (Handler (s + 1) (t + 1) 1 (Some 0) T v))) as (d1 & -> & Hj).
  { destruct v; cbn [exec apply].
    - change (folders (set_joint _ d)) with (folders d). rewrite Ef. cbn [set_folders folders]. rewrite lookup_insert.
      eexists. split; [done|]. simpl. apply lookup_insert.
    - eexists. split; [done|]. simpl. apply lookup_insert. }
  rewrite (exec_on _ _ _ _ Hj). done.
Qed.
Print Assumptions zero_max_writes_raises.

(** C23.  Restart in append mode after a crash at any operation of any write of a run:
    - once the write number is stored, the count goes on after the interrupted write;
    - if its dataset was extended and the number not yet stored, the count restarts from 0;
    - if the set was created and the first write number not yet begun, the restart raises;
    - otherwise, the count goes on after the last complete write. *)
Theorem append_after_crash md d0 s t d m T v rs r c executed d' :
  init md d0 = (Ready s t, d) -> m <> Some 0 ->
  crash (new_handler s t m T v) d rs r c = Some (executed, d') ->
  let created := exists n f, Create n f ∈ executed in
  let extended := exists n k, On n (Resize wn k) ∈ executed in
  let stored := exists n i x, On n (Set_ wn i x) ∈ executed in
  (stored -> append d' = Ready (s + sets_used m (length rs + 1)) (t + Z.of_nat (length rs + 1))) /\
  (extended -> ~ stored -> append d' = Ready (s + sets_used m (length rs + 1)) 0) /\
  (created -> ~ extended -> append d' = Raises IndexError) /\
  (~ created -> ~ extended -> append d' = Ready (s + sets_used m (length rs)) (t + Z.of_nat (length rs))).
Proof.
  intros Hi Hm Hc created extended stored. destruct (init_new _ _ _ _ _ Hi) as [Hnew Happ].
  destruct (crash_run s t m T v d rs r c Hm Hnew) as (d1 & Hinv & E). rewrite E in Hc.
  destruct (crash_state s t m T v d Hm Hnew rs d1 r c Hinv) as (d2 & E2 & H0 & Hidx & Hgo & Hzero & Hset & _). rewrite E2 in Hc.
  injection Hc as <- <-. set (h := h_next s t m T v rs) in *. set (cr := create_ops h d1) in *.
  rewrite Nat.add_1_r.
  assert (Hstored : stored <-> length cr + 11 <= c).
  { split.
    - intros (n & i & x & Hin). destruct (executed_touch s t m T v rs d1 r c _ n Hin eq_refl) as [(_ & k & Hk)|(Hle & _)]; done.
    - intros Hle. destruct (executed_touch_conv s t m T v rs d1 r c) as (n & k & _ & Hx); [fold h; fold cr; lia|].
      destruct (Hx Hle) as (i & x & Hin). by exists n, i, x. }
  assert (Hext : extended <-> length cr + 10 <= c).
  { split.
    - intros (n & k & Hin). destruct (executed_touch s t m T v rs d1 r c _ n Hin eq_refl) as [(Hle & _)|(_ & i & x & Hk)]; done.
    - intros Hle. destruct (executed_touch_conv s t m T v rs d1 r c Hle) as (n & k & Hin & _). by exists n, k. }
  assert (Hcre : created <-> cr <> [] /\ 1 <= c).
  { split.
    - intros (n & f & Hin). by eapply executed_create.
    - intros [Hne Hle]. by apply executed_create_conv. }
  rewrite Hstored, Hext, Hcre. split; [|split; [|split]].
  - apply Hset.
  - intros ? ?. apply Hzero. lia.
  - intros [? ?] ?. apply Hidx; [done|lia].
  - intros Hn1 Hn2. destruct (decide (c = 0)) as [->|Hc0].
    + rewrite (H0 eq_refl). destruct rs as [|r0 rs0]; [|by eapply append_run].
      destruct (write_all_inv s t m T v d Hm Hnew []) as (d3 & Ew & Hinv3). simpl in Ew.
      assert (d1 = d) as ->.
      { unfold crash in E. simpl in E. congruence. }
      rewrite Happ. f_equal; [|simpl; lia]. destruct m as [k|]; simpl; [|lia]. destruct k; [done|]. rewrite Nat.div_small; lia.
    + destruct (decide (cr = [])) as [Ecr|]; [|exfalso; apply Hn1; split; [done|lia]].
      rewrite Ecr in Hn2. simpl in Hn2. apply Hgo; [done|lia].
Qed.
Print Assumptions append_after_crash.

(** A restart in append mode raises [ValueError] exactly if something in the folder matches the
    pattern but nothing has a number. *)
Theorem append_value_error d : append d = Raises ValueError <-> has_sets d = true /\ set_nums d = [].
Proof.
  unfold append. destruct (has_sets d); [|split; [done|by intros [? ?]]]. split.
  - destruct (py_max (set_nums d)) as [M|] eqn:E; [|].
    + destruct (joint d !! M); [unfold last_number; by destruct (last _)|].
      destruct (folders d !! M) as [[[l|]|]|]; simpl; try done. by destruct (last l).
    + intros _. split; [done|]. by destruct (set_nums d).
  - intros [_ ->]. done.
Qed.
Print Assumptions append_value_error.

(** A restart in append mode raises [KeyError] if the newest set is a folder with the process files
    of the virtual handler and the joint file is missing. *)
Theorem append_key_error d M : folders d !! M = Some (Some None) -> joint d !! M = None ->
  (forall n, n ∈ set_nums d -> n <= M) -> append d = Raises KeyError.
Proof.
  intros Hf Hj Hle. assert (M ∈ set_nums d) as HM by (apply elem_of_set_nums; right; left; by eexists).
  unfold append. by rewrite (has_sets_true _ _ HM), (py_max_spec _ _ HM Hle), Hj, Hf.
Qed.
Print Assumptions append_key_error.

(** Concrete cases. *)
Definition row_example (x : Z) : nat -> Z := fun c => (100 * x + Z.of_nat c)%Z.
Definition jobs_example : list job :=
  [Job Append (Some 2) 1 false (map row_example [1; 2; 3]%Z); Job Append None 1 true (map row_example [4; 5]%Z);
   Job Append (Some 2) 2 false (map row_example [6]%Z)].

Example files_example :
  option_map (fun d => (map (fun n => option_map (dataset wn) (joint d !! n)) (seq 0 6), column 5 4 d)) (run_jobs empty_dir jobs_example) =
  Some ([None; Some [1; 2]; Some [3]; Some [4; 5]; Some [6]; None]%Z, [105; 205; 305; 405; 505; 605]%Z).
Proof. vm_compute. reflexivity. Qed.
Example crash_example c :
  c < 14 ->
  option_map (fun x => append (snd x)) (crash (new_handler 1 0 (Some 2) 1 false) empty_dir (map row_example [1; 2]%Z) (row_example 3) c) =
  Some (if decide (c = 0) then Ready 2 2 else if decide (c <= 10) then Raises IndexError
        else if decide (c = 11) then Ready 3 0 else Ready 3 3).
Proof. intros Hc. do 14 (destruct c as [|c]; [vm_compute; reflexivity|]). lia. Qed.
Example key_error_example : append (Dir ∅ {[ 3 := Some None ]} []) = Raises KeyError.
Proof. vm_compute. reflexivity. Qed.
Example value_error_example : append (Dir ∅ ∅ [None]) = Raises ValueError.
Proof. vm_compute. reflexivity. Qed.
