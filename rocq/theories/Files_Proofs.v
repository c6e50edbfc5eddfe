From stdpp Require Import gmap list list_numbers.
From Verif Require Import Files_Model Files_Spec.

(** ** Maximum *)
Lemma py_max_spec l M : M ∈ l -> (forall x, x ∈ l -> x <= M) -> py_max l = Some M.
Proof.
  revert M. induction l as [|x l IH]; intros M Hin Hle; [by apply elem_of_nil in Hin|].
  simpl. f_equal. destruct (decide (M ∈ l)) as [Hl|Hl].
  - rewrite (IH M Hl) by (intros y Hy; apply Hle; by right). specialize (Hle x ltac:(by left)). lia.
  - apply elem_of_cons in Hin as [<-|?]; [|done]. destruct (py_max l) as [m|] eqn:E; [|done].
    assert (m ∈ l) as Hm.
    { clear -E. revert m E. induction l as [|y l IH]; intros m E; [done|]. simpl in E. injection E as <-.
      destruct (py_max l) as [m'|]; [|by left]. destruct (Nat.max_spec y m') as [[_ ->]|[_ ->]]; [right; by apply IH|by left]. }
    specialize (Hle m ltac:(by right)). lia.
Qed.
Lemma py_max_ge l M x : py_max l = Some M -> x ∈ l -> x <= M.
Proof.
  revert M. induction l as [|y l IH]; intros M E Hx; [done|]. simpl in E. injection E as <-.
  apply elem_of_cons in Hx as [->|Hx]; [destruct (py_max l); lia|].
  destruct (py_max l) as [m|] eqn:E; [specialize (IH m eq_refl Hx); lia|]. destruct l; [by apply elem_of_nil in Hx|done].
Qed.
Lemma py_max_in l M : py_max l = Some M -> M ∈ l.
Proof.
  revert M. induction l as [|y l IH]; intros m E; [done|]. simpl in E. injection E as <-.
  destruct (py_max l) as [m'|]; [|by left]. destruct (Nat.max_spec y m') as [[_ ->]|[_ ->]]; [right; by apply IH|by left].
Qed.

Lemma elem_of_set_nums d n : n ∈ set_nums d <->
  is_Some (joint d !! n) \/ is_Some (folders d !! n) \/ Some n ∈ strays d.
Proof.
  unfold set_nums. rewrite !elem_of_app, elem_of_list_omap, !elem_of_list_fmap. split.
  - intros [([k f] & -> & H)|[([k f] & -> & H)|(x & Hx & Hi)]].
    + apply elem_of_map_to_list in H. left. by eexists.
    + apply elem_of_map_to_list in H. right; left. by eexists.
    + simpl in Hi. subst x. by right; right.
  - intros [[f H]|[[f H]|H]].
    + left. exists (n, f). split; [done|]. by apply elem_of_map_to_list.
    + right; left. exists (n, f). split; [done|]. by apply elem_of_map_to_list.
    + right; right. by exists (Some n).
Qed.

Lemma has_sets_true d n : n ∈ set_nums d -> has_sets d = true.
Proof.
  unfold set_nums, has_sets. intros H. destruct (map_to_list (joint d)); [|done]. destruct (map_to_list (folders d)); [|done].
  destruct (strays d); [|done]. by apply elem_of_nil in H.
Qed.
Lemma has_sets_false d : has_sets d = false -> d = empty_dir.
Proof.
  unfold has_sets. destruct d as [j f s]. simpl. destruct (map_to_list j) eqn:Ej; [|done].
  destruct (map_to_list f) eqn:Ef; [|done]. destruct s; [|done]. intros _. unfold empty_dir.
  apply map_to_list_empty_iff in Ej, Ef. by subst.
Qed.

Lemma append_above d s t n : append d = Ready s t -> n ∈ set_nums d -> n < s.
Proof.
  unfold append. intros H Hn. rewrite (has_sets_true _ _ Hn) in H. destruct (py_max (set_nums d)) as [M|] eqn:E; [|done].
  pose proof (py_max_ge _ _ _ E Hn). unfold last_number in H.
  destruct (joint d !! M) as [f|]; [destruct (last (dataset wn f)); [injection H as <- <-; lia|done]|].
  destruct (folders d !! M) as [[[l|]|]|]; [destruct (last l); [|done]| |..]; try done; injection H as <- <-; lia.
Qed.

Lemma append_newest d M f w : joint d !! M = Some f -> last (dataset wn f) = Some w ->
  (forall n, n ∈ set_nums d -> n <= M) -> append d = Ready (M + 1) w.
Proof.
  intros Hf Hw Hle. unfold append. assert (M ∈ set_nums d) as HM by (apply elem_of_set_nums; left; by eexists).
  rewrite (has_sets_true _ _ HM), (py_max_spec _ _ HM Hle), Hf. unfold last_number. by rewrite Hw.
Qed.
Lemma append_newest_empty d M f : joint d !! M = Some f -> dataset wn f = [] ->
  (forall n, n ∈ set_nums d -> n <= M) -> append d = Raises IndexError.
Proof.
  intros Hf Hw Hle. unfold append. assert (M ∈ set_nums d) as HM by (apply elem_of_set_nums; left; by eexists).
  rewrite (has_sets_true _ _ HM), (py_max_spec _ _ HM Hle), Hf. unfold last_number. by rewrite Hw.
Qed.

(** ** File operations *)
Fixpoint fexec (os : list fop) (f : h5) : option h5 :=
  match os with [] => Some f | o :: os => match fapply o f with Some f => fexec os f | None => None end end.

Lemma fexec_app a b f : fexec (a ++ b) f = match fexec a f with Some f => fexec b f | None => None end.
Proof. revert f. induction a as [|o a IH]; intros f; simpl; [done|]. destruct (fapply o f); [apply IH|done]. Qed.
Lemma exec_app a b d : exec (a ++ b) d = match exec a d with Some d => exec b d | None => None end.
Proof. revert d. induction a as [|o a IH]; intros d; simpl; [done|]. destruct (apply o d); [apply IH|done]. Qed.

Lemma exec_on n os d f : joint d !! n = Some f ->
  exec (map (On n) os) d = match fexec os f with Some f' => Some (set_joint (<[n := f']>) d) | None => None end.
Proof.
  revert d f. induction os as [|o os IH]; intros d f Hf; simpl.
  - f_equal. unfold set_joint. destruct d as [j fo st]. simpl in *. by rewrite insert_id.
  - rewrite Hf. destruct (fapply o f) as [f'|]; [|done]. rewrite (IH _ f') by apply lookup_insert.
    destruct (fexec os f'); [|done]. f_equal. unfold set_joint. simpl. by rewrite insert_insert.
Qed.

Definition fits (m : option nat) (k : nat) : Prop := match m with Some m => k <= m | None => True end.

Lemma fexec_columns (a b k : nat) (vals : nat -> Z) f : 1 <= k -> fits (maxshape f) k -> a + b <= length (dsets f) ->
  fexec (concat (map (fun c => [Resize c k; Set_ c (k - 1) (vals c)]) (seq a b))) f =
  Some (H5 (attr_set f) (attr_writes f) (maxshape f)
          (imap (fun c l => if decide (a <= c < a + b) then <[k - 1 := vals c]> (resize k 0%Z l) else l) (dsets f))).
Proof.
  intros Hk Hm. revert a f Hm. induction b as [|b IH]; intros a f Hm Hlen; cbn [seq map concat app].
  - simpl. f_equal. destruct f as [s w m ds]. simpl. f_equal. apply list_eq. intros i. rewrite list_lookup_imap.
    destruct (ds !! i); simpl; [|done]. by rewrite decide_False by lia.
  - assert (exists l, dsets f !! a = Some l) as [l Hl] by (apply lookup_lt_is_Some_2; lia).
    cbn [fexec fapply]. assert ((match maxshape f with Some m => bool_decide (k <= m) | None => true end) = true) as ->.
    { unfold fits in Hm. destruct (maxshape f); [by apply bool_decide_eq_true|done]. }
    rewrite Hl. cbn [fapply dsets]. rewrite list_lookup_insert by lia.
    rewrite bool_decide_true by (rewrite resize_length; lia). cbn [attr_set attr_writes maxshape dsets]. rewrite list_insert_insert.
    rewrite (IH (S a)); [|exact Hm|cbn [dsets]; rewrite insert_length; lia].
    cbn [attr_set attr_writes maxshape dsets]. do 2 f_equal. apply list_eq. intros i. rewrite !list_lookup_imap.
    destruct (decide (i = a)) as [->|Hi].
    + rewrite list_lookup_insert by lia. rewrite Hl. simpl. rewrite decide_False by lia. by rewrite decide_True by lia.
    + rewrite list_lookup_insert_ne by done. destruct (dsets f !! i); [|done]. simpl. f_equal.
      repeat case_decide; try done; lia.
Qed.

Lemma fexec_write k vals T f : 1 <= k -> fits (maxshape f) k -> length (dsets f) = 5 + T ->
  fexec (write_fops k vals T) f =
  Some (H5 (attr_set f) k (maxshape f) (imap (fun c l => <[k - 1 := vals c]> (resize k 0%Z l)) (dsets f))).
Proof.
  intros Hk Hm Hlen. unfold write_fops. cbn [fexec fapply]. rewrite fexec_columns by (simpl; (done || lia)).
  simpl. do 2 f_equal. apply imap_ext. intros i l Hi. simpl. apply lookup_lt_Some in Hi. by rewrite decide_True by lia.
Qed.

(** A file to which the next write can be appended. *)
Definition writable (f : h5) (n : nat) (m : option nat) (T : nat) (first : Z) (rs : list (nat -> Z)) : Prop :=
  f = set_file n m T first rs \/
  (rs = [] /\ attr_set f = n /\ maxshape f = m /\ dsets f = replicate 5 [] ++ replicate T [0%Z]).

Lemma dset_set_file n m T first rs c l : dsets (set_file n m T first rs) !! c = Some l <->
  c < 5 + T /\ l = if decide (c = wn) then map (fun i => first + Z.of_nat i)%Z (seq 0 (length rs)) else map (fun r => r c) rs.
Proof.
  unfold set_file. cbn [dsets]. rewrite list_lookup_fmap. destruct (decide (c < 5 + T)) as [Hc|Hc].
  - rewrite lookup_seq_lt by lia. simpl. split; [intros [= <-]; done|intros [_ ->]; done].
  - rewrite lookup_seq_ge by lia. simpl. split; [done|intros [? _]; lia].
Qed.

Lemma write_set_file f n m T first rs vals r : writable f n m T first rs -> fits m (S (length rs)) ->
  vals wn = (first + Z.of_nat (length rs))%Z -> (forall c, c <> wn -> vals c = r c) ->
  fexec (write_fops (S (length rs)) vals T) f = Some (set_file n m T first (rs ++ [r])).
Proof.
  intros Hf Hm Hvn Hv.
  assert (attr_set f = n /\ maxshape f = m /\ length (dsets f) = 5 + T) as (Ha & Hms & Hlen).
  { destruct Hf as [->|(_ & ? & ? & ->)]; [|rewrite app_length, !replicate_length; done].
    repeat split. simpl. by rewrite !map_length, seq_length. }
  rewrite fexec_write by (rewrite ?Hms; (done || lia)). rewrite Ha, Hms. f_equal.
  unfold set_file. rewrite app_length, Nat.add_comm. cbn [length Nat.add]. f_equal.
  apply list_eq. intros c. rewrite list_lookup_imap, list_lookup_fmap. destruct (decide (c < 5 + T)) as [Hc|Hc].
  2: { rewrite (lookup_ge_None_2 (dsets f)) by lia. by rewrite lookup_seq_ge by lia. }
  rewrite lookup_seq_lt by lia. cbn [fmap option_fmap option_map].
  assert (exists l, dsets f !! c = Some l /\ resize (S (length rs)) 0%Z l =
    (if decide (c = wn) then map (fun i => first + Z.of_nat i)%Z (seq 0 (length rs)) else map (fun r => r c) rs) ++ [0%Z])
    as (l & -> & Hl).
  { destruct Hf as [->|(-> & _ & _ & Hd)].
    - eexists. split; [apply dset_set_file; split; [done|reflexivity]|].
      assert (forall l : list Z, length l = length rs -> resize (S (length rs)) 0%Z l = l ++ [0%Z]) as E.
      { intros l El. rewrite resize_ge by lia. by replace (S (length rs) - length l) with 1 by lia. }
      apply E. destruct (decide (c = wn)); by rewrite map_length, ?seq_length.
    - rewrite Hd. destruct (decide (c < 5)) as [H5|H5].
      + rewrite lookup_app_l by (rewrite replicate_length; lia). rewrite lookup_replicate_2 by lia. exists []. split; [done|].
        by destruct (decide (c = wn)).
      + rewrite lookup_app_r by (rewrite replicate_length; lia). rewrite lookup_replicate_2 by (rewrite replicate_length; lia).
        exists [0%Z]. split; [done|]. by rewrite decide_False by lia. }
  cbn [fmap option_fmap option_map]. f_equal. rewrite Hl. replace (S (length rs) - 1) with (length rs) by lia.
  assert (forall (l : list Z) v, length l = length rs -> <[length rs:=v]> (l ++ [0%Z]) = l ++ [v]) as E.
  { intros l' v El. rewrite insert_app_r_alt by lia. by rewrite El, Nat.sub_diag. }
  rewrite E by (destruct (decide (c = wn)); by rewrite map_length, ?seq_length).
  destruct (decide (c = wn)) as [->|Hn].
  - rewrite Hvn. replace (S (length rs)) with (length rs + 1) by lia. rewrite seq_app, map_app. done.
  - rewrite (Hv c Hn), map_app. by rewrite decide_False by lia.
Qed.

(** ** Counters *)
Definition wf_max (m : option nat) : Prop := m <> Some 0.

(** The set (relative to the first) and the number of writes in it after [n >= 1] writes. *)
Definition pos_set (m : option nat) (n : nat) : nat := match m with Some m => (n - 1) `div` m | None => 0 end.
Definition pos_in (m : option nat) (n : nat) : nat := match m with Some m => (n - 1) `mod` m + 1 | None => n end.

Definition handler_after (s : nat) (t : Z) (m : option nat) (T : nat) (v : bool) (n : nat) : handler :=
  Handler (s + pos_set m n) (t + Z.of_nat n) (if decide (n = 0) then 0 else pos_in m n) m T v.

Lemma advance_after s t m T v n : wf_max m ->
  advance (handler_after s t m T v n) = handler_after s t m T v (S n).
Proof.
  intros Hm. unfold advance, handler_after. cbn [total_write_num file_write_num max_writes set_num ntasks virtual].
  replace (t + Z.of_nat n + 1)%Z with (t + Z.of_nat (S n))%Z by lia.
  rewrite (decide_False (P := S n = 0)) by lia.
  destruct m as [m|]; simpl.
  2: { rewrite Nat.add_0_r. destruct (decide (n = 0)) as [->|]; [done|]. f_equal; lia. }
  assert (m <> 0) as Hm0 by (intros ->; by apply Hm). rewrite Nat.sub_0_r.
  destruct (decide (n = 0)) as [->|Hn].
  - rewrite bool_decide_false by lia. simpl. rewrite !Nat.div_0_l, Nat.mod_0_l by done. done.
  - pose proof (Nat.div_mod (n - 1) m Hm0) as E. pose proof (Nat.mod_upper_bound (n - 1) m Hm0) as B.
    pose proof (Nat.div_mod n m Hm0) as E'. pose proof (Nat.mod_upper_bound n m Hm0) as B'.
    set (q := (n - 1) `div` m) in *. set (r := (n - 1) `mod` m) in *.
    set (q' := n `div` m) in *. set (r' := n `mod` m) in *.
    case_bool_decide as Hlt.
    + assert (q' = q + 1 /\ r' = 0) as [Eq Er].
      { assert (r = m - 1) by lia. assert (n = m * (q + 1) + 0) by nia.
        split; symmetry; [apply (Nat.div_unique n m (q + 1) 0)|apply (Nat.mod_unique n m (q + 1) 0)]; lia. }
      f_equal; lia.
    + assert (q' = q /\ r' = r + 1) as [Eq Er].
      { assert (n = m * q + (r + 1)) by lia.
        split; symmetry; [apply (Nat.div_unique n m q (r + 1))|apply (Nat.mod_unique n m q (r + 1))]; lia. }
      f_equal; lia.
Qed.

(** ** Chunks *)
Lemma chunk_app {A} m q (rs : list A) r : wf_max m ->
  chunk m q (rs ++ [r]) = if decide (q = pos_set m (S (length rs))) then chunk m q rs ++ [r] else chunk m q rs.
Proof.
  intros Hm. destruct m as [m|]; simpl.
  2: { destruct (decide (q = 0)); done. }
  assert (m <> 0) as Hm0 by (intros ->; by apply Hm). rewrite Nat.sub_0_r.
  pose proof (Nat.div_mod (length rs) m Hm0) as E. pose proof (Nat.mod_upper_bound (length rs) m Hm0) as B.
  destruct (decide (q = length rs `div` m)) as [->|Hq].
  - rewrite drop_app_le by nia. rewrite take_ge; [|rewrite app_length, drop_length; simpl; nia].
    rewrite take_ge; [done|]. rewrite drop_length. nia.
  - destruct (decide (q < length rs `div` m)) as [Hlt|Hge].
    + rewrite drop_app_le by nia. rewrite take_app_le; [done|]. rewrite drop_length. nia.
    + rewrite !drop_ge; [done| |]; rewrite ?app_length; simpl; nia.
Qed.

Lemma chunk_length {A} m q (rs : list A) : q = pos_set m (S (length rs)) -> wf_max m ->
  length (chunk m q rs) + 1 = pos_in m (S (length rs)) /\ before m q + length (chunk m q rs) = length rs.
Proof.
  intros -> Hm. destruct m as [m|]; simpl; [|lia].
  assert (m <> 0) as Hm0 by (intros ->; by apply Hm). rewrite Nat.sub_0_r.
  pose proof (Nat.div_mod (length rs) m Hm0) as E. pose proof (Nat.mod_upper_bound (length rs) m Hm0) as B.
  rewrite take_length, drop_length. nia.
Qed.

Lemma chunk_nonempty {A} m q (rs : list A) : wf_max m -> chunk m q rs <> [] <-> q < sets_used m (length rs).
Proof.
  intros Hm. destruct m as [m|]; simpl.
  - assert (m <> 0) as Hm0 by (intros ->; by apply Hm).
    assert (take m (drop (q * m) rs) <> [] <-> q * m < length rs) as ->.
    { split.
      - intros H. destruct (decide (q * m < length rs)); [done|]. exfalso. apply H. by rewrite drop_ge, take_nil by lia.
      - intros H E. apply (f_equal length) in E. rewrite take_length, drop_length in E. simpl in E. lia. }
    pose proof (Nat.div_mod (length rs + m - 1) m Hm0) as E. pose proof (Nat.mod_upper_bound (length rs + m - 1) m Hm0) as B. nia.
  - destruct (decide (q = 0)) as [->|]; destruct rs; simpl; split; intros; try done; try lia.
Qed.

(** ** A run *)
Section Run.
Context (s : nat) (t : Z) (m : option nat) (T : nat) (v : bool) (d0 : dir).
Context (Hm : wf_max m) (Hnew : forall n, n ∈ set_nums d0 -> n < s).

(** Folders are made along with the sets. *)
Definition run_inv (rs : list (nat -> Z)) (d : dir) : Prop :=
  holds_run s t m T d0 rs d /\ (forall q, is_Some (folders d !! (s + q)) -> chunk m q rs <> []).

Lemma holds_start : run_inv [] d0.
Proof.
  assert (forall q, chunk m q ([] : list (nat -> Z)) = []) as E.
  { intros q. destruct m as [k|]; simpl; [by rewrite drop_nil, take_nil|by destruct (decide (q = 0))]. }
  split; [split; [done|]; split; [done|]|].
  - intros q. rewrite E. destruct (joint d0 !! (s + q)) as [f|] eqn:Ej; [|done]. exfalso.
    assert (s + q < s); [|lia]. apply Hnew, elem_of_set_nums. left. by eexists.
  - intros q Hq. exfalso. assert (s + q < s); [|lia]. apply Hnew, elem_of_set_nums. by right; left.
Qed.

Definition current (rs : list (nat -> Z)) : nat := s + pos_set m (S (length rs)).
Definition vals (rs : list (nat -> Z)) (r : nat -> Z) : nat -> Z :=
  fun c => if decide (c = wn) then (t + Z.of_nat (S (length rs)))%Z else r c.
Definition inset (rs : list (nat -> Z)) : list (nat -> Z) := chunk m (pos_set m (S (length rs))) rs.
Definition first (rs : list (nat -> Z)) : Z := t + 1 + Z.of_nat (before m (pos_set m (S (length rs)))).

Definition h_next (rs : list (nat -> Z)) : handler := handler_after s t m T v (S (length rs)).

(** The folder once the current file has been made, if it had to. *)
Definition created (rs : list (nat -> Z)) (d : dir) : dir :=
  match joint d !! current rs with
  | Some _ => d
  | None => let d := set_joint (<[current rs := setup_file (h_next rs)]>) d in
            if v then set_folders (<[current rs := Some None]>) d else d
  end.

Lemma next_num rs : set_num (h_next rs) = current rs.
Proof. done. Qed.
Lemma next_fwn rs : file_write_num (h_next rs) = S (length (inset rs)).
Proof.
  unfold h_next, handler_after. cbn [file_write_num]. rewrite decide_False by lia.
  destruct (chunk_length m (pos_set m (S (length rs))) rs eq_refl Hm) as [<- _]. unfold inset. lia.
Qed.
Lemma next_first rs : (t + Z.of_nat (S (length rs)))%Z = (first rs + Z.of_nat (length (inset rs)))%Z.
Proof.
  destruct (chunk_length m (pos_set m (S (length rs))) rs eq_refl Hm) as [_ E]. unfold first, inset. lia.
Qed.
Lemma next_fits rs : fits m (S (length (inset rs))).
Proof.
  destruct (chunk_length m (pos_set m (S (length rs))) rs eq_refl Hm) as [E _]. fold (inset rs) in E.
  unfold fits. destruct m as [k|]; [|done]. simpl in E. assert (k <> 0) as Hk by (intros ->; by apply Hm).
  pose proof (Nat.mod_upper_bound (length rs - 0) k Hk). lia.
Qed.

Lemma current_file rs d : run_inv rs d ->
  joint d !! current rs = match inset rs with [] => None | _ => Some (set_file (current rs) m T (first rs) (inset rs)) end.
Proof. intros [(_ & _ & Hj) _]. unfold current. rewrite Hj. unfold inset, first. by destruct (chunk m _ rs). Qed.

Lemma current_folder rs d : run_inv rs d -> inset rs = [] -> folders d !! current rs = None.
Proof.
  intros [_ Hf] E. destruct (folders d !! current rs) as [x|] eqn:Ef; [|done]. exfalso.
  apply (Hf (pos_set m (S (length rs)))); [|exact E]. unfold current in Ef. rewrite Ef. by eexists.
Qed.

Lemma exec_create rs d : run_inv rs d -> exec (create_ops (h_next rs) d) d = Some (created rs d).
Proof.
  intros Hd. unfold create_ops, created. rewrite next_num. rewrite (current_file rs d Hd).
  destruct (inset rs) as [|x l] eqn:E; [|done]. cbn [exec apply]. rewrite (current_file rs d Hd), E.
  change (virtual (h_next rs)) with v. destruct v; [|done]. cbn [exec apply].
  change (folders (set_joint (<[current rs:=setup_file (h_next rs)]>) d)) with (folders d).
  rewrite (current_folder rs d Hd E). cbn [apply]. cbn [set_folders folders]. rewrite lookup_insert.
  unfold set_folders. cbn [joint folders strays]. by rewrite insert_insert.
Qed.

Lemma created_file rs d : run_inv rs d ->
  exists f, joint (created rs d) !! current rs = Some f /\ writable f (current rs) m T (first rs) (inset rs).
Proof.
  intros Hd. unfold created. pose proof (current_file rs d Hd) as E. rewrite E. destruct (inset rs) as [|x l] eqn:Ei.
  - exists (setup_file (h_next rs)). split; [destruct v; simpl; apply lookup_insert|]. right. done.
  - eexists. split; [exact E|]. by left.
Qed.

Lemma process_exec rs d r : run_inv rs d ->
  exec (process_ops (h_next rs) d r) d =
  Some (set_joint (<[current rs := set_file (current rs) m T (first rs) (inset rs ++ [r])]>) (created rs d)).
Proof.
  intros Hd. unfold process_ops. rewrite exec_app, (exec_create rs d Hd).
  destruct (created_file rs d Hd) as (f & Hf & Hw). rewrite next_num, (exec_on _ _ _ f Hf), next_fwn.
  change (ntasks (h_next rs)) with T. rewrite (write_set_file f (current rs) m T (first rs) (inset rs) _ r); [done|done|apply next_fits| |].
  - rewrite decide_True by done. apply next_first.
  - intros c Hc. by rewrite decide_False by done.
Qed.

Lemma created_other rs d n : n <> current rs ->
  joint (created rs d) !! n = joint d !! n /\ folders (created rs d) !! n = folders d !! n /\ strays (created rs d) = strays d.
Proof.
  intros Hn. unfold created. destruct (joint d !! current rs); [done|]. destruct v; simpl.
  - rewrite !lookup_insert_ne by done. done.
  - rewrite lookup_insert_ne by done. done.
Qed.
Lemma created_strays rs d : strays (created rs d) = strays d.
Proof. unfold created. destruct (joint d !! current rs); [done|]. by destruct v. Qed.

Lemma process_inv rs d r : run_inv rs d ->
  run_inv (rs ++ [r]) (set_joint (<[current rs := set_file (current rs) m T (first rs) (inset rs ++ [r])]>) (created rs d)).
Proof.
  intros Hd. pose proof Hd as [(Hst & Hlow & Hj) Hfo]. split; [split; [|split]|].
  - simpl. rewrite created_strays. done.
  - intros n Hn. simpl. assert (n <> current rs) as Hc by (unfold current; lia).
    rewrite lookup_insert_ne by done. destruct (created_other rs d n Hc) as (-> & -> & _). by apply Hlow.
  - intros q. rewrite (chunk_app m q rs r Hm). simpl. case_decide as Hq.
    + unfold current at 1. rewrite Hq, lookup_insert. fold (inset rs). destruct (inset rs ++ [r]) as [|x l] eqn:E; [by destruct (inset rs)|]. done.
    + assert (s + q <> current rs) as Hc by (unfold current; lia). rewrite lookup_insert_ne by done.
      destruct (created_other rs d _ Hc) as (-> & _ & _). apply Hj.
  - intros q. rewrite (chunk_app m q rs r Hm). simpl. case_decide as Hq; [intros _; by destruct (chunk m q rs)|].
    assert (s + q <> current rs) as Hc by (unfold current; lia). destruct (created_other rs d _ Hc) as (_ & -> & _). apply Hfo.
Qed.

Lemma write_all_inv rs : exists d, write_all (new_handler s t m T v) d0 rs = Some (handler_after s t m T v (length rs), d) /\ run_inv rs d.
Proof.
  assert (forall rs' rs d, run_inv rs d ->
    exists d', write_all (handler_after s t m T v (length rs)) d rs' = Some (handler_after s t m T v (length (rs ++ rs')), d') /\ run_inv (rs ++ rs') d') as Hgen.
  { induction rs' as [|r rs' IH]; intros rs1 d Hd; simpl.
    - exists d. by rewrite app_nil_r.
    - unfold process. cbv zeta. rewrite (advance_after s t m T v (length rs1) Hm). fold (h_next rs1). rewrite (process_exec rs1 d r Hd).
      destruct (IH (rs1 ++ [r]) _ (process_inv rs1 d r Hd)) as (d' & E & Hd'). rewrite <- app_assoc in E, Hd'. simpl in E, Hd'.
      exists d'. split; [|done]. rewrite app_length in E. simpl in E. rewrite Nat.add_comm in E. exact E. }
  destruct (Hgen rs [] d0 holds_start) as (d & E & Hd). exists d. split; [|done].
  assert (new_handler s t m T v = handler_after s t m T v 0) as ->.
  { unfold new_handler, handler_after. rewrite decide_True by done. f_equal; [|lia]. destruct m as [k|]; simpl; [|lia].
    destruct k; simpl; [by exfalso; apply Hm|]. lia. }
  exact E.
Qed.

(** ** Crashes *)
Lemma run_inv_bound rs d n : run_inv rs d -> n ∈ set_nums d -> n < s + sets_used m (length rs).
Proof.
  intros [(Hst & Hlow & Hj) Hfo] Hn. destruct (decide (n < s)) as [|Hge]; [lia|].
  assert (exists q, n = s + q) as [q ->] by (exists (n - s); lia).
  assert (chunk m q rs <> []) as Hc.
  { apply elem_of_set_nums in Hn as [Hn|[Hn|Hn]].
    - rewrite Hj in Hn. destruct (chunk m q rs); [by destruct Hn|done].
    - by apply Hfo.
    - rewrite Hst in Hn. assert (s + q < s); [|lia]. apply Hnew, elem_of_set_nums. by right; right. }
  apply chunk_nonempty in Hc; [lia|done].
Qed.

Lemma pos_set_used n : pos_set m (S n) + 1 = sets_used m (S n).
Proof.
  destruct m as [k|]; cbn [pos_set sets_used]; [|lia]. assert (k <> 0) as Hk by (intros ->; by apply Hm).
  replace (S n + k - 1) with (n + 1 * k) by lia. rewrite Nat.div_add by done. by replace (S n - 1) with n by lia.
Qed.
Lemma sets_used_S n : sets_used m n <= sets_used m (S n).
Proof. destruct m as [k|]; simpl; [|lia]. assert (k <> 0) as Hk by (intros ->; by apply Hm). apply Nat.div_le_mono; [done|lia]. Qed.
Lemma inset_used rs : inset rs <> [] -> sets_used m (S (length rs)) = sets_used m (length rs).
Proof.
  intros H. apply chunk_nonempty in H; [|done]. pose proof (pos_set_used (length rs)). pose proof (sets_used_S (length rs)). lia.
Qed.

Definition touches (c : nat) (o : fop) : Prop :=
  match o with Attr _ => False | Resize c' _ => c' = c | Set_ c' _ _ => c' = c end.

Lemma fapply_untouched c o f f' : fapply o f = Some f' -> ~ touches c o -> dsets f' !! c = dsets f !! c.
Proof.
  destruct o as [w|c' n|c' i v']; simpl; intros E Hc.
  - by injection E as <-.
  - destruct (match maxshape f with Some m0 => bool_decide (n <= m0) | None => true end); [|done].
    destruct (dsets f !! c'); [|done]. injection E as <-. simpl. by rewrite list_lookup_insert_ne.
  - destruct (dsets f !! c'); [|done]. case_bool_decide; [|done]. injection E as <-. simpl. by rewrite list_lookup_insert_ne.
Qed.
Lemma fexec_untouched c os f f' : fexec os f = Some f' -> (forall o, o ∈ os -> ~ touches c o) -> dsets f' !! c = dsets f !! c.
Proof.
  revert f. induction os as [|o os IH]; intros f E H; simpl in E; [by injection E as <-|].
  destruct (fapply o f) as [f1|] eqn:Eo; [|done]. rewrite (IH f1 E) by (intros; apply H; by right).
  eapply fapply_untouched; [exact Eo|]. apply H. by left.
Qed.
Lemma fexec_prefix a b f g : fexec (a ++ b) f = Some g -> exists f1, fexec a f = Some f1.
Proof. rewrite fexec_app. destruct (fexec a f); [by eexists|done]. Qed.

Definition pre_ops (k : nat) (vs : nat -> Z) : list fop :=
  [Attr k; Resize 0 k; Set_ 0 (k - 1) (vs 0); Resize 1 k; Set_ 1 (k - 1) (vs 1); Resize 2 k; Set_ 2 (k - 1) (vs 2);
   Resize 3 k; Set_ 3 (k - 1) (vs 3)].
Definition post_ops (k : nat) (vs : nat -> Z) (n : nat) : list fop :=
  concat (map (fun c => [Resize c k; Set_ c (k - 1) (vs c)]) (seq 5 n)).
Lemma write_fops_split k vs n :
  write_fops k vs n = pre_ops k vs ++ Resize wn k :: Set_ wn (k - 1) (vs wn) :: post_ops k vs n.
Proof. done. Qed.
Lemma post_ops_elem o k vs n : o ∈ post_ops k vs n -> ~ touches wn o.
Proof.
  unfold post_ops. intros H. rewrite elem_of_list_In, in_concat in H. destruct H as (l & Hl & Ho).
  apply in_map_iff in Hl as (c & <- & Hc). apply in_seq in Hc. destruct Ho as [<-|[<-|[]]]; simpl; lia.
Qed.
Lemma pre_ops_elem o k vs : o ∈ pre_ops k vs -> ~ touches wn o.
Proof.
  unfold pre_ops. intros H. rewrite elem_of_list_In in H. simpl in H.
  repeat (destruct H as [<-|H]; [simpl; lia|]). destruct H.
Qed.

Lemma take_subset {A} n (l : list A) x : x ∈ take n l -> x ∈ l.
Proof. intros H. rewrite <- (take_drop n l). apply elem_of_app. by left. Qed.

(** The dataset of write numbers after a prefix of the operations of a write. *)
Lemma write_prefix n' vs T' f g : fexec (write_fops (S n') vs T') f = Some g -> forall c,
  exists f1, fexec (take c (write_fops (S n') vs T')) f = Some f1 /\
  (c <= 9 -> dsets f1 !! wn = dsets f !! wn) /\
  (c = 10 -> dsets f1 !! wn = resize (S n') 0%Z <$> dsets f !! wn) /\
  (11 <= c -> dsets f1 !! wn = (fun l => <[n' := vs wn]> (resize (S n') 0%Z l)) <$> dsets f !! wn).
Proof.
  intros E c.
  assert (exists f1, fexec (take c (write_fops (S n') vs T')) f = Some f1) as [f1 E1].
  { apply (fexec_prefix _ (drop c (write_fops (S n') vs T')) f g). by rewrite take_drop. }
  exists f1. split; [done|]. rewrite write_fops_split in E1. split; [|split].
  - intros Hc. rewrite take_app_le in E1 by done. eapply fexec_untouched; [exact E1|].
    intros o Ho. apply take_subset in Ho. by eapply pre_ops_elem.
  - intros ->. change 10 with (length (pre_ops (S n') vs) + 1) in E1. rewrite take_add_app in E1 by done.
    rewrite fexec_app in E1. destruct (fexec (pre_ops (S n') vs) f) as [f2|] eqn:E2; [|done].
    rewrite <- (fexec_untouched wn _ _ _ E2) by (intros; by eapply pre_ops_elem).
    cbn [take fexec fapply] in E1. destruct (match maxshape f2 with Some m0 => bool_decide (S n' <= m0) | None => true end); [|done].
    destruct (dsets f2 !! wn) as [l|] eqn:El; [|done]. injection E1 as <-. cbn [dsets fmap option_fmap option_map].
    apply list_lookup_insert. by eapply lookup_lt_Some.
  - intros Hc. replace c with (length (pre_ops (S n') vs) + (2 + (c - 11))) in E1 by (simpl; lia). rewrite take_add_app in E1 by done.
    rewrite fexec_app in E1. destruct (fexec (pre_ops (S n') vs) f) as [f2|] eqn:E2; [|done].
    rewrite <- (fexec_untouched wn _ _ _ E2) by (intros; by eapply pre_ops_elem).
    cbn [Nat.add take fexec fapply] in E1. destruct (match maxshape f2 with Some m0 => bool_decide (S n' <= m0) | None => true end); [|done].
    destruct (dsets f2 !! wn) as [l|] eqn:El; [|done]. pose proof (lookup_lt_Some _ _ _ El) as Hlt. cbn [dsets] in E1.
    rewrite list_lookup_insert in E1 by done. case_bool_decide; [|done].
    rewrite (fexec_untouched wn _ _ _ E1) by (intros o Ho; apply take_subset in Ho; by eapply post_ops_elem).
    cbn [dsets fmap option_fmap option_map]. rewrite list_lookup_insert by (by rewrite insert_length).
    f_equal. f_equal. lia.
Qed.

Lemma wn_writable f n' m' T' fi rs' : writable f n' m' T' fi rs' ->
  dsets f !! wn = Some (map (fun i => fi + Z.of_nat i)%Z (seq 0 (length rs'))).
Proof.
  intros [->|(-> & _ & _ & Hd)]; [apply dset_set_file; split; [lia|done]|]. rewrite Hd. done.
Qed.

Lemma last_numbers (fi : Z) n' : last (map (fun i => fi + Z.of_nat i)%Z (seq 0 (S n'))) = Some (fi + Z.of_nat n')%Z.
Proof. replace (S n') with (n' + 1) by lia. rewrite seq_app, map_app. simpl. by rewrite last_snoc. Qed.

(** What the crash leaves, by the number [c] of operations executed. *)
Lemma crash_state rs d r c : run_inv rs d ->
  let cr := create_ops (h_next rs) d in
  exists d1, exec (take c (process_ops (h_next rs) d r)) d = Some d1 /\
    (c = 0 -> d1 = d) /\
    (cr <> [] -> 1 <= c <= length cr + 9 -> append d1 = Raises IndexError) /\
    (cr = [] -> c <= 9 -> append d1 = Ready (s + sets_used m (length rs)) (t + Z.of_nat (length rs))) /\
    (c = length cr + 10 -> append d1 = Ready (s + sets_used m (S (length rs))) 0) /\
    (length cr + 11 <= c -> append d1 = Ready (s + sets_used m (S (length rs))) (t + Z.of_nat (S (length rs)))) /\
    (forall n, n <> current rs -> joint d1 !! n = joint d !! n /\ folders d1 !! n = folders d !! n) /\ strays d1 = strays d.
Proof.
  intros Hd cr.
  assert (Hcur : current rs + 1 = s + sets_used m (S (length rs))).
  { unfold current. rewrite <- pos_set_used. lia. }
  assert (Hbound : forall d1, (forall n, n <> current rs -> joint d1 !! n = joint d !! n /\ folders d1 !! n = folders d !! n) -> strays d1 = strays d ->
            forall n, n ∈ set_nums d1 -> n <= current rs).
  { intros d1 Ho Hs n Hn. destruct (decide (n = current rs)) as [->|Hne]; [lia|]. destruct (Ho n Hne) as [Ej Ef].
    assert (n ∈ set_nums d) as Hnd.
    { apply elem_of_set_nums in Hn. apply elem_of_set_nums. rewrite Ej, Ef, Hs in Hn. done. }
    apply (run_inv_bound rs d n Hd) in Hnd. pose proof (sets_used_S (length rs)). lia. }
  destruct (created_file rs d Hd) as (f & Hf & Hw).
  assert (Hcr : length cr = 0 \/ inset rs = []).
  { unfold cr, create_ops. rewrite next_num, (current_file rs d Hd). destruct (inset rs); [by right|by left]. }
  assert (Hcr' : cr <> [] -> inset rs = []) by (intros H; destruct Hcr as [H'|]; [by destruct cr|done]).
  assert (Hcr0 : cr = [] -> inset rs <> []).
  { unfold cr, create_ops. rewrite next_num, (current_file rs d Hd). by destruct (inset rs). }
  assert (Hin0 : inset rs <> [] -> cr = []).
  { unfold cr, create_ops. rewrite next_num, (current_file rs d Hd). by destruct (inset rs). }
  pose proof (exec_create rs d Hd) as Hec. fold cr in Hec.
  destruct (decide (c <= length cr)) as [Hc|Hc].
  - unfold process_ops. fold cr. rewrite take_app_le by done.
    destruct (decide (c = 0)) as [->|Hc0].
    { exists d. split; [done|]. split; [done|]. split; [intros; lia|]. split; [|split; [intros; lia|split; [intros; lia|done]]].
      intros Ecr _. specialize (Hcr0 Ecr). pose proof (current_file rs d Hd) as Ecf.
      destruct (inset rs) as [|x l] eqn:Ei; [done|]. rewrite <- Ei in *.
      assert (Ecf' : joint d !! current rs = Some (set_file (current rs) m T (first rs) (inset rs))) by (rewrite Ecf, Ei; done).
      rewrite <- (inset_used rs Hcr0), <- Hcur. eapply append_newest; [exact Ecf'| |by apply Hbound].
      unfold dataset. rewrite (wn_writable _ _ _ _ _ _ (or_introl eq_refl)). simpl default. rewrite Ei. cbn [length].
      rewrite last_numbers. f_equal. pose proof (next_first rs) as Enf. rewrite Ei in Enf. cbn [length] in Enf. lia. }
    assert (exists d1, exec (take c cr) d = Some d1 /\ joint d1 !! current rs = Some (setup_file (h_next rs)) /\
      (forall n, n <> current rs -> joint d1 !! n = joint d !! n /\ folders d1 !! n = folders d !! n) /\ strays d1 = strays d) as (d1 & E1 & Ej & Ho & Hst).
    { assert (Hne : cr <> []) by (destruct cr; [simpl in Hc; lia|done]). specialize (Hcr' Hne).
      unfold cr, create_ops in Hc |- *. rewrite next_num, (current_file rs d Hd), Hcr' in Hc |- *.
      change (virtual (h_next rs)) with v in *. pose proof (current_folder rs d Hd Hcr') as Hfo.
      pose proof (current_file rs d Hd) as Ecf. rewrite Hcr' in Ecf.
      destruct c as [|c]; [done|]. cbn [take exec apply]. rewrite Ecf. destruct v.
      - destruct c as [|[|[|c]]]; cbn [take exec apply]; [| | |simpl in Hc; lia].
        + eexists. split; [done|]. split; [apply lookup_insert|]. split; [|done]. intros n Hn. simpl. by rewrite lookup_insert_ne.
        + change (folders (set_joint (<[current rs:=setup_file (h_next rs)]>) d)) with (folders d). rewrite Hfo.
          eexists. split; [done|]. split; [apply lookup_insert|]. split; [|done]. intros n Hn. simpl. by rewrite !lookup_insert_ne.
        + change (folders (set_joint (<[current rs:=setup_file (h_next rs)]>) d)) with (folders d). rewrite Hfo.
          simpl. rewrite lookup_insert.
          eexists. split; [done|]. split; [apply lookup_insert|]. split; [|done]. intros n Hn. simpl. by rewrite !lookup_insert_ne.
      - destruct c as [|c]; cbn [take exec apply]; [|simpl in Hc; lia].
        eexists. split; [done|]. split; [apply lookup_insert|]. split; [|done]. intros n Hn. simpl. by rewrite lookup_insert_ne. }
    exists d1. split; [done|]. split; [done|]. split; [|split; [intros ->; simpl in Hc; lia|split; [lia|split; [lia|done]]]].
    intros _ _. eapply append_newest_empty; [exact Ej|done|by apply Hbound].
  - assert (exists c', c = length cr + S c') as [c' ->] by (exists (c - length cr - 1); lia).
    unfold process_ops. fold cr. rewrite take_add_app by done. rewrite exec_app, Hec, firstn_map, next_num.
    rewrite (exec_on _ _ _ f Hf), next_fwn. change (ntasks (h_next rs)) with T.
    set (vs := fun c : nat => if decide (c = wn) then total_write_num (h_next rs) else r c).
    assert (Hfull : fexec (write_fops (S (length (inset rs))) vs T) f = Some (set_file (current rs) m T (first rs) (inset rs ++ [r]))).
    { apply write_set_file; [done|apply next_fits| |]; unfold vs; [rewrite decide_True by done; apply next_first|].
      intros c Hc0. by rewrite decide_False by done. }
    destruct (write_prefix _ _ _ _ _ Hfull (S c')) as (f1 & E1 & H9 & H10 & H11). rewrite E1.
    eexists. split; [reflexivity|].
    set (d1 := set_joint (<[current rs:=f1]>) (created rs d)).
    assert (Hj1 : joint d1 !! current rs = Some f1) by apply lookup_insert.
    assert (Ho : forall n, n <> current rs -> joint d1 !! n = joint d !! n /\ folders d1 !! n = folders d !! n).
    { intros n Hn. unfold d1. simpl. rewrite lookup_insert_ne by done. by destruct (created_other rs d n Hn) as (-> & -> & _). }
    assert (Hst : strays d1 = strays d) by apply created_strays.
    pose proof (wn_writable _ _ _ _ _ _ Hw) as Hwn. rewrite Hwn in H9, H10, H11. cbn [fmap option_fmap option_map] in H10, H11.
    assert (Hlast : forall l, length l = length (inset rs) -> resize (S (length (inset rs))) 0%Z l = l ++ [0%Z]).
    { intros l Hl. rewrite resize_ge by lia. by replace (S (length (inset rs)) - length l) with 1 by lia. }
    rewrite Hlast in H10, H11 by (by rewrite map_length, seq_length).
    split; [lia|]. split; [|split; [|split; [|split; [|done]]]].
    + intros Hne Hle. eapply append_newest_empty; [exact Hj1| |by apply Hbound]. unfold dataset. rewrite H9 by lia.
      by rewrite (Hcr' Hne).
    + intros Ecr Hle. specialize (Hcr0 Ecr). rewrite <- (inset_used rs Hcr0), <- Hcur.
      eapply append_newest; [exact Hj1| |by apply Hbound]. unfold dataset. rewrite Ecr in Hle. simpl in Hle. rewrite H9 by lia. simpl default.
      pose proof (next_first rs) as Enf. destruct (inset rs) as [|x l]; [done|]. cbn [length] in *. rewrite last_numbers. f_equal. lia.
    + intros Hle. rewrite <- Hcur. eapply append_newest; [exact Hj1| |by apply Hbound]. unfold dataset. rewrite H10 by lia.
      simpl default. by rewrite last_snoc.
    + intros Hle. rewrite <- Hcur. eapply append_newest; [exact Hj1| |by apply Hbound]. unfold dataset. rewrite H11 by lia.
      simpl default. rewrite insert_app_r_alt by (by rewrite map_length, seq_length).
      rewrite map_length, seq_length, Nat.sub_diag. simpl. rewrite last_snoc. unfold vs. by rewrite decide_True by done.
Qed.

(** Which operations a prefix of a write contains. *)
Lemma executed_create rs d r c n f : Create n f ∈ take c (process_ops (h_next rs) d r) -> 
  create_ops (h_next rs) d <> [] /\ 1 <= c.
Proof.
  intros H. destruct c as [|c]; [by apply elem_of_nil in H|]. split; [|lia]. intros E. unfold process_ops in H. rewrite E, app_nil_l in H.
  apply take_subset in H. apply elem_of_list_fmap in H as (o & Ho & _). done.
Qed.
Lemma executed_create_conv rs d r c : create_ops (h_next rs) d <> [] -> 1 <= c ->
  exists n f, Create n f ∈ take c (process_ops (h_next rs) d r).
Proof.
  intros H Hc. unfold process_ops. unfold create_ops in *. destruct (joint d !! set_num (h_next rs)); [done|].
  destruct c as [|c]; [lia|]. eexists _, _. simpl. by left.
Qed.
Lemma create_not_on rs d n o : On n o ∉ create_ops (h_next rs) d.
Proof.
  unfold create_ops. destruct (joint d !! _); [apply not_elem_of_nil|]. destruct (virtual _); rewrite elem_of_list_In; simpl; intuition congruence.
Qed.

Lemma executed_touch rs d r c o n : On n o ∈ take c (process_ops (h_next rs) d r) -> touches wn o ->
  (length (create_ops (h_next rs) d) + 10 <= c /\ exists k, o = Resize wn k) \/
  (length (create_ops (h_next rs) d) + 11 <= c /\ exists i x, o = Set_ wn i x).
Proof.
  intros H Ht. unfold process_ops in H. set (cr := create_ops (h_next rs) d) in *.
  destruct (decide (c <= length cr)) as [Hc|Hc].
  { rewrite take_app_le in H by done. apply take_subset in H. by apply create_not_on in H. }
  replace c with (length cr + (c - length cr)) in H by lia. rewrite take_add_app in H by done.
  apply elem_of_app in H as [H|H]; [by apply create_not_on in H|]. rewrite firstn_map in H.
  apply elem_of_list_fmap in H as (o' & [= _ <-] & H). rewrite write_fops_split in H.
  set (k := file_write_num (h_next rs)) in *. set (vs := fun c0 : nat => if decide (c0 = wn) then total_write_num (h_next rs) else r c0) in H.
  destruct (decide (c - length cr <= 9)) as [H9|H9].
  { rewrite take_app_le in H by done. apply take_subset in H. by apply pre_ops_elem in H. }
  replace (c - length cr) with (length (pre_ops k vs) + S (c - length cr - 10)) in H by (simpl; lia).
  rewrite take_add_app in H by done. apply elem_of_app in H as [H|H]; [by apply pre_ops_elem in H|].
  cbn [take] in H. apply elem_of_cons in H as [->|H]; [left; split; [lia|by eexists]|].
  destruct (c - length cr - 10) as [|c''] eqn:Ec; [by apply elem_of_nil in H|]. cbn [take] in H.
  apply elem_of_cons in H as [->|H]; [right; split; [lia|by eexists _, _]|].
  apply take_subset in H. by apply post_ops_elem in H.
Qed.
Lemma executed_touch_conv rs d r c : length (create_ops (h_next rs) d) + 10 <= c ->
  exists n k, On n (Resize wn k) ∈ take c (process_ops (h_next rs) d r) /\
  (length (create_ops (h_next rs) d) + 11 <= c -> exists i x, On n (Set_ wn i x) ∈ take c (process_ops (h_next rs) d r)).
Proof.
  intros Hc. unfold process_ops. set (cr := create_ops (h_next rs) d) in *. rewrite write_fops_split.
  set (k := file_write_num (h_next rs)) in *. set (vs := fun c0 : nat => if decide (c0 = wn) then total_write_num (h_next rs) else r c0).
  exists (set_num (h_next rs)), k. rewrite map_app, app_assoc.
  assert (length (cr ++ map (On (set_num (h_next rs))) (pre_ops k vs)) = length cr + 9) as El by (by rewrite app_length, map_length).
  replace c with (length (cr ++ map (On (set_num (h_next rs))) (pre_ops k vs)) + S (c - length cr - 10)) by lia.
  rewrite take_add_app by done. split.
  - apply elem_of_app. right. simpl. by left.
  - intros Hc'. replace (c - length cr - 10) with (S (c - length cr - 11)) by lia. eexists _, _.
    apply elem_of_app. right. simpl. right. by left.
Qed.
End Run.

(** ** Several runs *)
Lemma concat_chunks {A} m (rs : list A) : wf_max m ->
  concat (map (fun q => chunk m q rs) (seq 0 (sets_used m (length rs)))) = rs.
Proof.
  intros Hm. induction rs as [|r rs IH] using rev_ind.
  - destruct m as [k|]; simpl; [|done]. assert (k <> 0) by (intros ->; by apply Hm). by rewrite Nat.div_small by lia.
  - assert (Hp : pos_set m (S (length rs)) + 1 = sets_used m (S (length rs))) by (by apply pos_set_used).
    rewrite app_length, Nat.add_comm. cbn [length Nat.add]. rewrite <- Hp.
    rewrite seq_app, map_app, concat_app. cbn [seq map concat Nat.add]. rewrite app_nil_r.
    rewrite (chunk_app m (pos_set m (S (length rs))) rs r Hm), decide_True by done. rewrite app_assoc. f_equal.
    transitivity (concat (map (fun q => chunk m q rs) (seq 0 (sets_used m (length rs))))); [|exact IH].
    assert (map (fun q => chunk m q (rs ++ [r])) (seq 0 (pos_set m (S (length rs)))) = map (fun q => chunk m q rs) (seq 0 (pos_set m (S (length rs))))) as ->.
    { apply map_ext_in. intros q Hq. apply in_seq in Hq. rewrite (chunk_app m q rs r Hm). by rewrite decide_False by lia. }
    destruct (decide (chunk m (pos_set m (S (length rs))) rs = [])) as [E|E].
    + rewrite E, app_nil_r.
      assert (sets_used m (length rs) = pos_set m (S (length rs))) as ->; [|done].
      assert (sets_used m (length rs) <= sets_used m (S (length rs))) by (by apply sets_used_S).
      assert (~ pos_set m (S (length rs)) < sets_used m (length rs)) as Hn by (intros Hlt; by apply (chunk_nonempty m _ rs Hm) in Hlt).
      destruct (decide (pos_set m (S (length rs)) = 0)) as [E0|E0]; [lia|].
      assert (pos_set m (S (length rs)) - 1 < sets_used m (length rs)); [|lia].
      apply (chunk_nonempty m _ rs Hm). intros E'.
      destruct m as [k|]; simpl in *; [|done]. assert (k <> 0) as Hk by (intros ->; by apply Hm).
      apply (f_equal length) in E'. rewrite take_length, drop_length in E'. simpl in E'.
      rewrite Nat.sub_0_r in *. pose proof (Nat.div_mod (length rs) k Hk). pose proof (Nat.mod_upper_bound (length rs) k Hk). nia.
    + apply (chunk_nonempty m _ rs Hm) in E. assert (sets_used m (length rs) <= sets_used m (S (length rs))) by (by apply sets_used_S).
      assert (sets_used m (length rs) = pos_set m (S (length rs)) + 1) as -> by lia.
      rewrite seq_app, map_app, concat_app. cbn [seq map concat Nat.add]. by rewrite app_nil_r.
Qed.

Lemma chunk_map {A B} (g : A -> B) m q l : chunk m q (map g l) = map g (chunk m q l).
Proof.
  destruct m as [k|]; simpl; [|by destruct (decide (q = 0))]. by rewrite skipn_map, firstn_map.
Qed.

Lemma take_seq' a n k : take k (seq a n) = seq a (k `min` n).
Proof. revert a n. induction k as [|k IH]; intros a [|n]; simpl; try done. by rewrite IH. Qed.
Lemma drop_seq' a n k : drop k (seq a n) = seq (a + k) (n - k).
Proof. revert a n. induction k as [|k IH]; intros a [|n]; simpl; rewrite ?Nat.add_0_r; try done. rewrite IH. f_equal; lia. Qed.

Lemma chunk_seq {A} m q (rs : list A) : wf_max m ->
  chunk m q (seq 0 (length rs)) = map (fun i => before m q + i) (seq 0 (length (chunk m q rs))).
Proof.
  intros Hm. assert (forall a n, map (fun i => a + i) (seq 0 n) = seq a n) as E.
  { intros a n. change (fun i => a + i) with (Nat.add a). by rewrite fmap_add_seq, Nat.add_0_r. }
  rewrite E. destruct m as [k|]; simpl; [|by destruct (decide (q = 0))].
  rewrite drop_seq', take_seq', take_length, drop_length. f_equal.
Qed.

Record runs_inv (S : nat) (all : list (nat -> Z)) (T : nat) (d : dir) : Prop := RunsInv {
  ri_joint : forall n, is_Some (joint d !! n) <-> 1 <= n <= S;
  ri_nums : forall n, n ∈ set_nums d -> 1 <= n <= S;
  ri_append : append d = Ready (S + 1) (Z.of_nat (length all));
  ri_wn : column wn S d = map Z.of_nat (seq 1 (length all));
  ri_col : forall c, c <> wn -> c < 5 + T -> column c S d = map (fun r => r c) all }.

Lemma runs_inv_start T : runs_inv 0 [] T empty_dir.
Proof.
  split; try done.
  - intros n. simpl. rewrite lookup_empty. split; [by intros [? ?]|lia].
  - intros n Hn. by apply elem_of_nil in Hn.
Qed.

Lemma column_app c S S' d d' : (forall n, 1 <= n <= S -> joint d' !! n = joint d !! n) ->
  column c (S + S') d' = column c S d ++
    concat (map (fun q => match joint d' !! (S + 1 + q) with Some f => dataset c f | None => [] end) (seq 0 S')).
Proof.
  intros H. unfold column. rewrite seq_app, map_app, concat_app. f_equal.
  - f_equal. apply map_ext_in. intros n Hn. apply in_seq in Hn. by rewrite H by lia.
  - f_equal. replace (1 + S) with (S + 1 + 0) by lia. rewrite <- (fmap_add_seq (S + 1) 0). rewrite map_map. done.
Qed.

Lemma runs_inv_step S all T d m T' v rs : wf_max m -> T <= T' -> runs_inv S all T d ->
  exists d' S', run_job d (Job Append m T' v rs) = Some d' /\ runs_inv S' (all ++ rs) T d'.
Proof.
  intros Hm HT [Hj Hn Ha Hw Hc]. unfold run_job. simpl. rewrite Ha.
  assert (Hnew : forall n, n ∈ set_nums d -> n < S + 1) by (intros n H; apply Hn in H; lia).
  destruct (write_all_inv (S + 1) (Z.of_nat (length all)) m T' v d Hm Hnew rs) as (d' & Ew & Hinv). rewrite Ew.
  exists d', (S + sets_used m (length rs)). split; [done|].
  pose proof Hinv as [(Hst & Hlow & Hjq) Hfo].
  assert (Hcolumn : forall c, c < 5 + T' -> column c (S + sets_used m (length rs)) d' = column c S d ++
     (if decide (c = wn) then map (fun i => Z.of_nat (length all) + 1 + Z.of_nat i)%Z (seq 0 (length rs)) else map (fun r => r c) rs)).
  { intros c Hc5. rewrite (column_app c S _ d d') by (intros n Hn'; apply Hlow; lia). f_equal.
    destruct (decide (c = wn)) as [->|Hcn].
    - rewrite <- (concat_chunks m (seq 0 (length rs)) Hm), seq_length, concat_map, map_map. f_equal.
      apply map_ext_in. intros q Hq. rewrite (chunk_seq m q rs Hm), map_map. rewrite Hjq.
      destruct (chunk m q rs) as [|x l] eqn:E; [done|]. rewrite <- E. unfold dataset.
      rewrite (wn_writable _ _ _ _ _ _ (or_introl eq_refl)). simpl default. apply map_ext. intros i. lia.
    - rewrite <- (concat_chunks m rs Hm) at 2. rewrite concat_map, map_map. f_equal. apply map_ext_in. intros q Hq.
      rewrite Hjq. destruct (chunk m q rs) as [|x l] eqn:E; [done|]. rewrite <- E. unfold dataset.
      rewrite (proj2 (dset_set_file _ _ _ _ _ c _) (conj Hc5 eq_refl)). by rewrite decide_False by done. }
  split.
  - intros n. destruct (decide (n < S + 1)) as [Hl|Hl].
    + destruct (Hlow n Hl) as [-> _]. rewrite Hj. lia.
    + assert (exists q, n = S + 1 + q) as [q ->] by (exists (n - S - 1); lia). rewrite Hjq.
      pose proof (chunk_nonempty m q rs Hm) as Hne. destruct (chunk m q rs) as [|x l].
      * split; [by intros [? ?]|]. intros Hq. exfalso. apply (proj2 Hne); [lia|done].
      * split; [|by eexists]. intros _. assert (q < sets_used m (length rs)) by (by apply Hne). lia.
  - intros n H. destruct (decide (n < S + 1)) as [Hl|Hl].
    + destruct (Hlow n Hl) as [Ej Ef]. apply elem_of_set_nums in H. rewrite Ej, Ef, Hst in H. apply elem_of_set_nums in H. apply Hn in H. lia.
    + apply (run_inv_bound (S + 1) (Z.of_nat (length all)) m T' d Hm Hnew rs d' n Hinv) in H. lia.
  - destruct (decide (sets_used m (length rs) = 0)) as [E|E].
    + assert (rs = []) as ->.
      { rewrite <- (concat_chunks m rs Hm), E. done. }
      rewrite app_nil_r. assert (Hsame : d' = d); [|by rewrite E, Nat.add_0_r, Hsame].
      simpl in Ew. by injection Ew.
    + set (q := sets_used m (length rs) - 1).
      assert (chunk m q rs <> []) as Hq by (apply chunk_nonempty; [done|unfold q; lia]).
      pose proof (Hjq q) as Ejq. destruct (chunk m q rs) as [|x l] eqn:Ec; [done|].
      replace (S + sets_used m (length rs) + 1) with (S + 1 + q + 1) by (unfold q; lia).
      eapply append_newest; [exact Ejq| |].
      * unfold dataset. rewrite (wn_writable _ _ _ _ _ _ (or_introl eq_refl)). cbn [from_option length]. unfold id. rewrite last_numbers. f_equal.
        assert (before m q + length (chunk m q rs) = length rs) as Hlen; [|rewrite Ec in Hlen; cbn [length] in Hlen; rewrite app_length; lia].
        unfold q in *. destruct m as [k|]; simpl in *; [|destruct (decide (length rs `min` 1 - 1 = 0)); lia].
        assert (k <> 0) as Hk by (intros ->; by apply Hm). rewrite take_length, drop_length.
        pose proof (Nat.div_mod (length rs + k - 1) k Hk). pose proof (Nat.mod_upper_bound (length rs + k - 1) k Hk). nia.
      * intros n H. apply (run_inv_bound (S + 1) (Z.of_nat (length all)) m T' d Hm Hnew rs d' n Hinv) in H. unfold q. lia.
  - rewrite Hcolumn by lia. rewrite Hw, decide_True by done. rewrite app_length, seq_app, map_app. f_equal.
    replace (1 + length all) with (length all + 1 + 0) by lia. rewrite <- (fmap_add_seq (length all + 1) 0), map_map.
    apply map_ext. intros i. lia.
  - intros c Hcn Hc5. rewrite Hcolumn by lia. rewrite (Hc c Hcn Hc5), decide_False by done. by rewrite map_app.
Qed.

Lemma append_run s t m T d0 rs d : wf_max m -> (forall n, n ∈ set_nums d0 -> n < s) -> run_inv s t m T d0 rs d -> rs <> [] ->
  append d = Ready (s + sets_used m (length rs)) (t + Z.of_nat (length rs)).
Proof.
  intros Hm Hnew Hinv Hrs. pose proof Hinv as [(Hst & Hlow & Hjq) Hfo].
  assert (sets_used m (length rs) <> 0) as E.
  { intros E. apply Hrs. by rewrite <- (concat_chunks m rs Hm), E. }
  set (q := sets_used m (length rs) - 1).
  assert (chunk m q rs <> []) as Hq by (apply chunk_nonempty; [done|unfold q; lia]).
  pose proof (Hjq q) as Ejq. destruct (chunk m q rs) as [|x l] eqn:Ec; [done|].
  replace (s + sets_used m (length rs)) with (s + q + 1) by (unfold q; lia).
  eapply append_newest; [exact Ejq| |].
  - unfold dataset. rewrite (wn_writable _ _ _ _ _ _ (or_introl eq_refl)). cbn [from_option length]. unfold id. rewrite last_numbers. f_equal.
    assert (before m q + length (chunk m q rs) = length rs) as Hlen; [|rewrite Ec in Hlen; cbn [length] in Hlen; lia].
    unfold q in *. destruct m as [k|]; simpl in *; [|destruct (decide (length rs `min` 1 - 1 = 0)); lia].
    assert (k <> 0) as Hk by (intros ->; by apply Hm). rewrite take_length, drop_length.
    pose proof (Nat.div_mod (length rs + k - 1) k Hk). pose proof (Nat.mod_upper_bound (length rs + k - 1) k Hk). nia.
  - intros n H. apply (run_inv_bound s t m T d0 Hm Hnew rs d n Hinv) in H. unfold q. lia.
Qed.

Lemma init_new md d s t d0 : init md d = (Ready s t, d0) ->
  (forall n, n ∈ set_nums d0 -> n < s) /\ append d0 = Ready s t.
Proof.
  destruct md; simpl.
  - intros [= <- <- <-]. split; [|done]. intros n Hn. by apply elem_of_nil in Hn.
  - intros [= Ha <-]. split; [|done]. intros n. by eapply append_above.
Qed.

Lemma crash_run s t m T v d0 rs r c : wf_max m -> (forall n, n ∈ set_nums d0 -> n < s) ->
  exists d, run_inv s t m T d0 rs d /\
    crash (new_handler s t m T v) d0 rs r c =
    match exec (take c (process_ops (h_next s t m T v rs) d r)) d with
    | Some d1 => Some (take c (process_ops (h_next s t m T v rs) d r), d1) | None => None end.
Proof.
  intros Hm Hnew. destruct (write_all_inv s t m T v d0 Hm Hnew rs) as (d & Ew & Hinv). exists d. split; [done|].
  unfold crash. rewrite Ew, (advance_after s t m T v _ Hm). done.
Qed.
