From stdpp Require Import list list_numbers.
From Coq Require Import Lia ZifyBool ZifyNat.
From Verif Require Import Layouts_Model Layouts_Proofs Blocks_Model.
Ltac Zify.zify_post_hook ::= Z.div_mod_to_equations.

Lemma cdiv_spec_Z a b : 0 < b -> Z.of_nat (cdiv a b) = (- (- Z.of_nat a / Z.of_nat b))%Z.
Proof. intros H. unfold cdiv. rewrite Nat2Z.inj_div. nia. Qed.

Lemma cdiv_ge a b : 0 < b -> a <= b * cdiv a b.
Proof. intros H. unfold cdiv. nia. Qed.

Lemma cdiv_exact a b : 0 < b -> cdiv (b * a) b = a.
Proof. intros H. unfold cdiv. symmetry. apply (Nat.div_unique _ _ _ (b - 1)); lia. Qed.

Lemma cdiv_pos a b : 0 < b -> 0 < a -> 0 < cdiv a b.
Proof. intros. unfold cdiv. apply Nat.div_str_pos. lia. Qed.

Lemma cdiv_lt a b : 0 < b -> b * cdiv a b < a + b.
Proof. intros. unfold cdiv. pose proof (Nat.div_mod (a + b - 1) b). pose proof (Nat.mod_upper_bound (a + b - 1) b). nia. Qed.

(** ** One axis *)
Definition nch n c := cdiv n c.
Definition ax_lo n c (loc : bool) P q :=
  if loc then 0 else Nat.min (cdiv n c) (cdiv (cdiv n c) P * q).
Definition ax_hi n c (loc : bool) P q :=
  if loc then cdiv n c else Nat.min (cdiv n c) (cdiv (cdiv n c) P * (q + 1)).

Lemma axis_chunks_seq n c loc P q :
  axis_chunks n c loc P q = seq (ax_lo n c loc P q) (ax_hi n c loc P q - ax_lo n c loc P q).
Proof. unfold axis_chunks, ax_lo, ax_hi. destruct loc; [by rewrite Nat.sub_0_r|done]. Qed.

Lemma zip_with_app' (l1 l2 k1 k2 : list nat) : length l1 = length k1 ->
  zip_with Nat.add (l1 ++ l2) (k1 ++ k2) = zip_with Nat.add l1 k1 ++ zip_with Nat.add l2 k2.
Proof. intros H. by apply zip_with_app. Qed.

Lemma chunk_seq c a : zip_with Nat.add (map (Nat.mul c) (replicate c a)) (seq 0 c) = seq (c * a) c.
Proof.
  apply list_eq. intros i. rewrite lookup_zip_with.
  destruct (decide (i < c)).
  - rewrite list_lookup_fmap, lookup_replicate_2 by lia. simpl.
    rewrite !lookup_seq_lt by lia. done.
  - rewrite (lookup_ge_None_2 (map _ _)) by (rewrite map_length, replicate_length; lia). simpl.
    rewrite lookup_ge_None_2; [done|]. rewrite seq_length. lia.
Qed.

Lemma elements_seq c s : forall a,
  zip_with Nat.add (map (Nat.mul c) (concat (map (replicate c) (seq a s))))
                   (concat (replicate s (seq 0 c))) = seq (c * a) (c * s).
Proof.
  induction s as [|s IH]; intros a; simpl.
  - by rewrite Nat.mul_0_r.
  - rewrite map_app, zip_with_app' by (rewrite map_length, replicate_length, seq_length; done).
    rewrite IH, chunk_seq. replace (c * S s) with (c + c * s) by lia.
    replace (c * S a) with (c * a + c) by lia. symmetry. apply seq_app.
Qed.

Lemma axis_elements_seq n c loc P q :
  axis_elements n c loc P q =
  seq (c * ax_lo n c loc P q) (c * (ax_hi n c loc P q - ax_lo n c loc P q)).
Proof.
  unfold axis_elements. rewrite axis_chunks_seq, seq_length. apply elements_seq.
Qed.

Lemma concat_blocks n c P k :
  concat (map (axis_elements n c false P) (seq 0 k))
  = seq 0 (c * Nat.min (cdiv n c) (cdiv (cdiv n c) P * k)).
Proof.
  induction k as [|k IH].
  - simpl. rewrite Nat.mul_0_r, Nat.min_0_r, Nat.mul_0_r. done.
  - rewrite seq_S, map_app, concat_app, IH. simpl. rewrite app_nil_r, axis_elements_seq.
    unfold ax_lo, ax_hi. set (N := cdiv n c). set (B := cdiv N P).
    replace (k + 1) with (S k) by lia.
    replace (c * Nat.min N (B * S k)) with
      (c * Nat.min N (B * k) + c * (Nat.min N (B * S k) - Nat.min N (B * k))).
    2:{ assert (Nat.min N (B * k) <= Nat.min N (B * S k)) by lia. nia. }
    rewrite seq_app. done.
Qed.

Lemma blocks_cover n c P : 0 < P -> 0 < c ->
  concat (map (axis_elements n c false P) (seq 0 P)) = seq 0 (c * cdiv n c).
Proof.
  intros HP Hc. rewrite concat_blocks. f_equal.
  rewrite Nat.min_l; [done|]. pose proof (cdiv_ge (cdiv n c) P HP). lia.
Qed.

Lemma axis_in n c P q i : 0 < P -> 0 < c -> i < n ->
  i ∈ axis_elements n c false P q <-> q = (i / c) / cdiv (cdiv n c) P.
Proof.
  intros HP Hc Hi. rewrite axis_elements_seq, elem_of_seq. unfold ax_lo, ax_hi.
  set (N := cdiv n c). set (B := cdiv N P).
  assert (0 < N) as HN by (apply cdiv_pos; lia).
  assert (0 < B) as HB by (apply cdiv_pos; lia).
  assert (n <= c * N) as Hcov by (apply cdiv_ge; lia).
  assert (i / c < N) as Hk by (apply Nat.div_lt_upper_bound; lia).
  pose proof (Nat.div_mod i c ltac:(lia)) as E. pose proof (Nat.mod_upper_bound i c ltac:(lia)) as U.
  set (k := i / c) in *. set (m := i mod c) in *.
  pose proof (Nat.div_mod k B ltac:(lia)) as E2. pose proof (Nat.mod_upper_bound k B ltac:(lia)) as U2.
  set (t := k / B) in *. set (m2 := k mod B) in *.
  clearbody k m t m2 N B. split.
  - intros [H1 H2].
    assert (Nat.min N (B * q) <= k) by nia.
    assert (k < Nat.min N (B * (q + 1))) by nia.
    nia.
  - intros ->. replace (Nat.min N (B * t)) with (B * t) by nia.
    assert (k < Nat.min N (B * (t + 1))) by nia. split; nia.
Qed.

Lemma axis_in_local n c P q i : 0 < c -> i < n -> i ∈ axis_elements n c true P q.
Proof.
  intros Hc Hi. rewrite axis_elements_seq, elem_of_seq. unfold ax_lo, ax_hi.
  pose proof (cdiv_ge n c Hc). nia.
Qed.

Lemma axis_slice_seq a s : axis_slice (seq a s) = if decide (s = 0) then (0, 0) else (a, a + s).
Proof.
  destruct s as [|s]; [done|]. simpl. f_equal.
  - assert (forall s a b, a <= b -> foldr Nat.min a (seq b s) = a) as H.
    { clear. induction s as [|s IH]; intros a b Hb; simpl; [done|]. rewrite IH by lia. lia. }
    apply H. lia.
  - assert (forall s a b, a < b -> S (foldr Nat.max a (seq b s)) = if decide (s = 0) then S a else b + s) as H.
    { clear. induction s as [|s IH]; intros a b Hb; simpl; [done|].
      specialize (IH a (S b) ltac:(lia)).
      destruct (decide (s = 0)); simpl in *; lia. }
    rewrite H by lia. destruct (decide (s = 0)); lia.
Qed.

Lemma axis_slice_elements n c loc P q i :
  let s := axis_slice (axis_elements n c loc P q) in
  (s.1 <= i /\ i < s.2) <-> i ∈ axis_elements n c loc P q.
Proof.
  cbv zeta. rewrite axis_elements_seq, axis_slice_seq, elem_of_seq. simpl.
  destruct (decide _); simpl; lia.
Qed.

Lemma axis_slice_length n c loc P q :
  let s := axis_slice (axis_elements n c loc P q) in
  axis_elements n c loc P q = seq s.1 (s.2 - s.1).
Proof.
  cbv zeta. rewrite axis_elements_seq, axis_slice_seq. simpl. destruct (decide _) as [E|]; simpl.
  - rewrite E. done.
  - f_equal. by rewrite Nat.add_comm, Nat.add_sub.
Qed.

(** ** Ranks *)
Lemma mesh_prod_gt0 dims : Forall (fun d => 0 < d) dims -> 0 < mesh_prod dims.
Proof. induction 1; simpl; [lia|]. unfold mesh_prod in *. simpl. nia. Qed.

Lemma cart_coords_length dims r : length (cart_coords dims r) = length dims.
Proof. revert r; induction dims; intros r; simpl; auto. Qed.

Definition in_local (dims : list nat) (loc : list bool) (ax : axes) (r : nat) (idx : list nat) : Prop :=
  exists els, local_elements dims loc ax r = Some els /\ Forall2 (fun i e => i ∈ e) idx els.

Lemma local_elements_ok dims loc ax r : nfalse loc = length dims ->
  exists els, local_elements dims loc ax r = Some els.
Proof.
  intros H. unfold local_elements.
  destruct (assign_masked_ok loc 1 dims H) as (e & -> & _).
  destruct (assign_masked_ok loc 0 (cart_coords dims r)) as (e' & -> & _).
  { by rewrite cart_coords_length. }
  simpl. eauto.
Qed.

Lemma in_local_true dims loc n c ax r i idx : nfalse loc = length dims ->
  in_local dims (true :: loc) ((n, c) :: ax) r (i :: idx) <->
  i ∈ axis_elements n c true 1 0 /\ in_local dims loc ax r idx.
Proof.
  intros H. unfold in_local, local_elements. simpl.
  destruct (assign_masked_ok loc 1 dims H) as (e & -> & _).
  destruct (assign_masked_ok loc 0 (cart_coords dims r)) as (e' & -> & _).
  { by rewrite cart_coords_length. }
  simpl. split.
  - intros (els & [= <-] & HF). inversion HF; subst. eauto.
  - intros (Hi & els & [= <-] & HF). eauto.
Qed.

Lemma in_local_false d dims loc n c ax r i idx : nfalse loc = length dims ->
  in_local (d :: dims) (false :: loc) ((n, c) :: ax) r (i :: idx) <->
  i ∈ axis_elements n c false d (r / mesh_prod dims) /\ in_local dims loc ax (r mod mesh_prod dims) idx.
Proof.
  intros H. unfold in_local, local_elements. simpl.
  destruct (assign_masked_ok loc 1 dims H) as (e & -> & _).
  destruct (assign_masked_ok loc 0 (cart_coords dims (r mod mesh_prod dims))) as (e' & -> & _).
  { by rewrite cart_coords_length. }
  simpl. split.
  - intros (els & [= <-] & HF). inversion HF; subst. eauto.
  - intros (Hi & els & [= <-] & HF). eauto.
Qed.

Lemma tile dims : Forall (fun d => 0 < d) dims -> forall loc ax idx,
  nfalse loc = length dims -> length loc = length ax ->
  Forall2 (fun i (x : nat * nat) => i < x.1 /\ 0 < x.2) idx ax ->
  exists r, r < mesh_prod dims /\ in_local dims loc ax r idx /\
    (forall r', r' < mesh_prod dims -> in_local dims loc ax r' idx -> r' = r).
Proof.
  intros Hd loc. revert dims Hd. induction loc as [|b loc IH]; intros dims Hd ax idx Hn Hlen HF.
  - destruct ax; [|done]. inversion HF; subst. destruct dims; [|done].
    exists 0. split; [simpl; lia|]. split.
    + exists []. split; [done|constructor].
    + unfold mesh_prod. simpl. lia.
  - destruct ax as [|[n c] ax]; [done|]. inversion HF as [|i ? idx' ? [Hi Hc] HF']; subst. simpl in Hi, Hc.
    rewrite nfalse_cons in Hn. destruct b; simpl in Hn.
    + destruct (IH dims Hd ax idx' Hn ltac:(simpl in Hlen; lia) HF') as (r & Hr & Hin & Hu).
      exists r. split; [done|]. split.
      * rewrite in_local_true by done. split; [by apply axis_in_local|done].
      * intros r' Hr' Hin'. rewrite in_local_true in Hin' by done. apply Hu; tauto.
    + destruct dims as [|d dims]; [simpl in Hn; lia|]. inversion Hd as [|? ? Hd0 Hds]; subst.
      simpl in Hn. assert (nfalse loc = length dims) as Hn' by lia.
      destruct (IH dims Hds ax idx' Hn' ltac:(simpl in Hlen; lia) HF') as (r & Hr & Hin & Hu).
      pose proof (mesh_prod_gt0 dims Hds) as Hpp.
      set (q := (i / c) / cdiv (cdiv n c) d).
      assert (q < d) as Hq.
      { unfold q. assert (0 < cdiv n c) by (apply cdiv_pos; lia).
        assert (0 < cdiv (cdiv n c) d) by (apply cdiv_pos; lia).
        apply Nat.div_lt_upper_bound; [lia|].
        pose proof (cdiv_ge (cdiv n c) d Hd0).
        assert (i / c < cdiv n c); [|nia].
        apply Nat.div_lt_upper_bound; [lia|]. pose proof (cdiv_ge n c Hc). lia. }
      assert (mesh_prod (d :: dims) = d * mesh_prod dims) as HP by done. rewrite HP.
      set (P := mesh_prod dims) in *.
      exists (q * P + r). split; [nia|].
      assert ((q * P + r) / P = q) as E1.
      { rewrite Nat.div_add_l by lia. rewrite Nat.div_small by lia. lia. }
      assert ((q * P + r) mod P = r) as E2.
      { rewrite Nat.add_comm, Nat.mod_add by lia. apply Nat.mod_small; lia. }
      split.
      * rewrite in_local_false by done. fold P. rewrite E1, E2. split; [|done].
        apply axis_in; auto.
      * intros r' Hr' Hin'. rewrite in_local_false in Hin' by done. fold P in Hin'.
        destruct Hin' as [H1 H2]. apply axis_in in H1; [|done..]. fold q in H1.
        assert (r' mod P = r) as H3 by (apply Hu; [apply Nat.mod_upper_bound; lia|done]).
        rewrite (Nat.div_mod r' P) by lia. rewrite H1, H3. lia.
Qed.

Lemma zip_elements_length ax loc ext co : length loc = length ax -> length ext = length loc ->
  length co = length loc -> length (zip_elements ax loc ext co) = length ax.
Proof.
  revert loc ext co; induction ax as [|[n c] ax IH]; intros [|b loc] [|e ext] [|q co]; simpl; try lia.
  intros. f_equal. apply IH; lia.
Qed.

Lemma slices_elements ax : forall loc ext co idx,
  Forall2 (fun s i => s.1 <= i /\ i < s.2) (slices (zip_elements ax loc ext co)) idx <->
  Forall2 (fun i e => i ∈ e) idx (zip_elements ax loc ext co).
Proof.
  induction ax as [|[n c] ax IH]; intros loc ext co idx.
  - simpl. split; intros H; inversion H; subst; constructor.
  - destruct loc as [|b loc], ext as [|e ext], co as [|q co]; simpl;
      try (split; intros H; inversion H; subst; solve [constructor]).
    split; intros H; inversion H as [|? ? ? ? H1 H2]; subst; constructor.
    + by apply axis_slice_elements.
    + by apply IH.
    + by apply axis_slice_elements.
    + by apply IH.
Qed.

Lemma local_elements_slices dims loc ax r els idx : local_elements dims loc ax r = Some els ->
  Forall2 (fun s i => s.1 <= i /\ i < s.2) (slices els) idx <-> Forall2 (fun i e => i ∈ e) idx els.
Proof.
  unfold local_elements. destruct (assign_masked loc 1 dims); [|done]. simpl.
  destruct (assign_masked loc 0 _); [|done]. simpl. intros [= <-]. apply slices_elements.
Qed.

Lemma zip_elements_slices ax : forall loc ext co,
  Forall (fun e => e = seq (axis_slice e).1 ((axis_slice e).2 - (axis_slice e).1))
    (zip_elements ax loc ext co).
Proof.
  induction ax as [|[n c] ax IH]; intros loc ext co; [constructor|].
  destruct loc as [|b loc], ext as [|e ext], co as [|q co]; simpl; try constructor.
  - apply axis_slice_length.
  - apply IH.
Qed.

Lemma local_elements_contig dims loc ax r els : local_elements dims loc ax r = Some els ->
  Forall (fun e => e = seq (axis_slice e).1 ((axis_slice e).2 - (axis_slice e).1)) els.
Proof.
  unfold local_elements. destruct (assign_masked loc 1 dims); [|done]. simpl.
  destruct (assign_masked loc 0 _); [|done]. simpl. intros [= <-]. apply zip_elements_slices.
Qed.

(** ** Round trips *)
Lemma unshift sl idx : Forall2 (fun (s : nat * nat) i => s.1 <= i /\ i < s.2) sl idx ->
  zip_with (fun s i => s.1 + i) sl (zip_with (fun (s : nat * nat) i => i - s.1) sl idx) = idx.
Proof. induction 1 as [|s i sl idx [H1 H2] HF IH]; simpl; [done|]. rewrite IH. f_equal. lia. Qed.

Section data.
  Context {A : Type} (zero : A) (add : A -> A -> A)
          (add0l : forall x, add zero x = x) (add0r : forall x, add x zero = x).

  Definition els_of dims loc ax r : list (list nat) := default [] (local_elements dims loc ax r).

  Lemma send_load els g idx :
    send_buffer zero els (load_global els g) idx =
    if in_slices (slices els) idx then g idx else zero.
  Proof.
    unfold send_buffer, load_global, take_slices, in_slices.
    destruct (bool_decide _) eqn:E; [|done]. apply bool_decide_eq_true_1 in E.
    f_equal. by apply unshift.
  Qed.

  Lemma foldr_unique (l : list nat) (f : nat -> A) r v : NoDup l -> r ∈ l -> f r = v ->
    (forall r', r' ∈ l -> r' <> r -> f r' = zero) ->
    foldr (fun b acc => add b acc) zero (map f l) = v.
  Proof.
    intros Hnd Hin Hv. revert Hin. induction Hnd as [|x l Hx Hnd IH]; intros Hin Ho.
    - inversion Hin.
    - simpl. apply elem_of_cons in Hin as [->|Hin].
      + rewrite Hv. assert (foldr (fun b acc => add b acc) zero (map f l) = zero) as E.
        { assert (forall r', r' ∈ l -> f r' = zero) as H0.
          { intros r' Hr'. apply Ho; [by apply elem_of_cons; right|]. intros ->. done. }
          clear -H0 add0l. induction l as [|y l IH]; simpl; [done|].
          rewrite H0 by (apply elem_of_cons; by left). rewrite add0l. apply IH.
          intros r' Hr'. apply H0. apply elem_of_cons; by right. }
        rewrite E. apply add0r.
      + rewrite Ho.
        * rewrite add0l. apply IH; [done|]. intros r' Hr' Hne. apply Ho; [|done]. apply elem_of_cons; by right.
        * apply elem_of_cons; by left.
        * intros ->. done.
  Qed.

  Lemma allgather_load dims loc ax g idx :
    Forall (fun d => 0 < d) dims -> nfalse loc = length dims -> length loc = length ax ->
    Forall2 (fun i (x : nat * nat) => i < x.1 /\ 0 < x.2) idx ax ->
    allgather_data zero add
      (map (fun r => send_buffer zero (els_of dims loc ax r) (load_global (els_of dims loc ax r) g))
           (seq 0 (mesh_prod dims))) idx = g idx.
  Proof.
    intros Hd Hn Hl HF. destruct (tile dims Hd loc ax idx Hn Hl HF) as (r & Hr & Hin & Hu).
    unfold allgather_data.
    assert (forall (bs : list array), foldr (fun (b : array) acc => add (b idx) acc) zero bs
      = foldr (fun b acc => add b acc) zero (map (fun b : array => b idx) bs)) as E.
    { induction bs; simpl; congruence. }
    rewrite E, map_map. apply (foldr_unique _ _ r).
    - apply NoDup_seq.
    - apply elem_of_seq. lia.
    - rewrite send_load. unfold in_slices. rewrite bool_decide_eq_true_2; [done|].
      destruct Hin as (els & He & HF'). unfold els_of. rewrite He. simpl.
      by apply (local_elements_slices dims loc ax r els idx He).
    - intros r' Hr' Hne. rewrite send_load. unfold in_slices.
      rewrite bool_decide_eq_false_2; [done|]. intros HS. apply Hne. apply Hu.
      + apply elem_of_seq in Hr'. lia.
      + destruct (local_elements_ok dims loc ax r' Hn) as [els He].
        exists els. split; [done|]. unfold els_of in HS. rewrite He in HS. simpl in HS.
        by apply (local_elements_slices dims loc ax r' els idx He).
  Qed.

End data.

Section find.
  (** locate *)
  Lemma locate_blocks n c P i : 0 < P -> 0 < c -> i < n ->
    forall k, k <= (i / c) / cdiv (cdiv n c) P ->
    locate (map (fun q => length (axis_elements n c false P q)) (seq k (P - k))) (i - c * Nat.min (cdiv n c) (cdiv (cdiv n c) P * k))
    = ((i / c) / cdiv (cdiv n c) P - k,
       i - (axis_slice (axis_elements n c false P ((i / c) / cdiv (cdiv n c) P))).1).
  Proof.
    intros HP Hc Hi.
    set (q := (i / c) / cdiv (cdiv n c) P).
    assert (i ∈ axis_elements n c false P q) as Hin by (apply axis_in; auto).
    assert (q < P) as Hq.
    { unfold q. assert (0 < cdiv n c) by (apply cdiv_pos; lia).
      assert (0 < cdiv (cdiv n c) P) by (apply cdiv_pos; lia).
      apply Nat.div_lt_upper_bound; [lia|].
      pose proof (cdiv_ge (cdiv n c) P HP).
      assert (i / c < cdiv n c); [|nia].
      apply Nat.div_lt_upper_bound; [lia|]. pose proof (cdiv_ge n c Hc). lia. }
    rewrite axis_elements_seq in Hin. rewrite elem_of_seq in Hin.
    rewrite axis_elements_seq, axis_slice_seq.
    rewrite decide_False by lia. simpl fst. simpl snd.
    unfold ax_lo, ax_hi in *. set (N := cdiv n c) in *. set (B := cdiv N P) in *.
    clearbody q.
    intros k Hk. remember (q - k) as m eqn:Em. revert k Hk Em.
    induction m as [|m IH]; intros k Hk Em.
    - assert (k = q) as -> by lia.
      replace (P - q) with (S (P - q - 1)) by lia. simpl.
      rewrite axis_elements_seq, seq_length. unfold ax_lo, ax_hi. fold N. fold B.
      rewrite decide_True by lia. done.
    - replace (P - k) with (S (P - S k)) by lia. simpl.
      rewrite axis_elements_seq, seq_length. unfold ax_lo, ax_hi. fold N. fold B.
      rewrite decide_False.
      2:{ assert (B * (k + 1) <= B * q) by nia.
          assert (Nat.min N (B * (k + 1)) <= Nat.min N (B * q)) by lia.
          assert (B * k <= B * (k + 1)) by (apply Nat.mul_le_mono_l; lia).
          assert (Nat.min N (B * k) <= Nat.min N (B * (k + 1))) by lia.
          pose proof (Nat.mul_le_mono_l (Nat.min N (B * (k + 1))) (Nat.min N (B * q)) c ltac:(lia)).
          rewrite Nat.mul_sub_distr_l. lia. }
      specialize (IH (S k) ltac:(lia) ltac:(lia)).
      replace (i - c * Nat.min N (B * k) - c * (Nat.min N (B * (k + 1)) - Nat.min N (B * k)))
        with (i - c * Nat.min N (B * S k)).
      2:{ replace (k + 1) with (S k) by lia.
          assert (B * k <= B * S k) by (apply Nat.mul_le_mono_l; lia).
          pose proof (Nat.mul_le_mono_l (Nat.min N (B * k)) (Nat.min N (B * S k)) c ltac:(lia)).
          rewrite Nat.mul_sub_distr_l. lia. }
      rewrite IH. done.
  Qed.

  Lemma gather_find dims : Forall (fun d => 0 < d) dims -> forall loc ax idx ext r els,
    nfalse loc = length dims -> length loc = length ax ->
    Forall2 (fun i (x : nat * nat) => i < x.1 /\ 0 < x.2) idx ax ->
    assign_masked loc 1 dims = Some ext ->
    r < mesh_prod dims -> local_elements dims loc ax r = Some els ->
    Forall2 (fun i e => i ∈ e) idx els ->
    let f := block_find ax loc ext idx in
    cart_rank ext (map fst f) = r /\ map snd f = zip_with (fun (s : nat * nat) i => i - s.1) (slices els) idx.
  Proof.
    intros Hd loc. revert dims Hd. induction loc as [|b loc IH]; intros dims Hd ax idx ext r els Hn Hlen HF Hext Hr Hels Hin.
    - destruct ax; [|done]. inversion HF; subst. destruct dims; [|done]. simpl in *. simplify_eq.
      unfold mesh_prod in Hr. simpl in Hr. split; [|by destruct (slices els)].
      destruct r; [done|lia].
    - destruct ax as [|[n c] ax]; [done|]. inversion HF as [|i ? idx' ? [Hi Hc] HF']; subst. simpl in Hi, Hc.
      rewrite nfalse_cons in Hn. simpl in Hlen. destruct b; simpl in Hn.
      + unfold local_elements in Hels. simpl in Hext, Hels.
        destruct (assign_masked loc 1 dims) as [ext'|] eqn:He; [|done]. simpl in Hext, Hels. simplify_eq.
        destruct (assign_masked loc 0 (cart_coords dims r)) as [co'|] eqn:Hco; [|done]. simpl in Hels. simplify_eq.
        simpl in Hin. inversion Hin as [|? ? ? ? Hin1 Hin2]; subst.
        destruct (IH dims Hd ax idx' ext' r (zip_elements ax loc ext' co') Hn ltac:(lia) HF' He Hr) as [E1 E2]; [|done|].
        { unfold local_elements. rewrite He. simpl. rewrite Hco. done. }
        simpl. rewrite decide_True.
        2:{ rewrite axis_elements_seq, elem_of_seq in Hin1. rewrite axis_elements_seq, seq_length.
            unfold ax_lo, ax_hi in *. lia. }
        simpl. split; [exact E1|]. f_equal; [|exact E2].
        rewrite axis_elements_seq, axis_slice_seq. unfold ax_lo, ax_hi. destruct (decide _); simpl; lia.
      + destruct dims as [|d dims]; [simpl in Hn; lia|]. inversion Hd as [|? ? Hd0 Hds]; subst.
        simpl in Hn. assert (nfalse loc = length dims) as Hn' by lia.
        pose proof (mesh_prod_gt0 dims Hds) as Hpp.
        unfold local_elements in Hels. simpl in Hext, Hels.
        destruct (assign_masked loc 1 dims) as [ext'|] eqn:He; [|done]. simpl in Hext, Hels. simplify_eq.
        destruct (assign_masked loc 0 (cart_coords dims (r mod mesh_prod dims))) as [co'|] eqn:Hco; [|done]. simpl in Hels. simplify_eq.
        simpl in Hin. inversion Hin as [|? ? ? ? Hin1 Hin2]; subst.
        destruct (IH dims Hds ax idx' ext' (r mod mesh_prod dims) (zip_elements ax loc ext' co') Hn' ltac:(lia) HF' He) as [E1 E2]; [|  |done|].
        { apply Nat.mod_upper_bound. lia. }
        { unfold local_elements. rewrite He. simpl. rewrite Hco. done. }
        pose proof (locate_blocks n c d i Hd0 Hc Hi 0 (Nat.le_0_l _)) as HL.
        rewrite Nat.mul_0_r, Nat.min_0_r, Nat.mul_0_r, !Nat.sub_0_r in HL.
        apply axis_in in Hin1; [|done..]. rewrite <- Hin1 in HL.
        simpl. rewrite HL. simpl.
        assert (mesh_prod ext' = mesh_prod dims) as HPe.
        { destruct (assign_masked_ok loc 1 dims Hn') as (ext2 & He2 & _ & HP2). rewrite He in He2.
          simplify_eq. rewrite decide_True in HP2 by done. unfold mesh_prod. lia. }
        split; [|f_equal; exact E2].
        rewrite E1, HPe. rewrite (Nat.div_mod r (mesh_prod dims)) at 3 by lia. lia.
  Qed.
End find.
