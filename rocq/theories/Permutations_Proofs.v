From stdpp Require Import list list_numbers sorting.
From Coq Require Import Lia.
From Verif Require Import Permutations_Model Permutations_Spec.

(** ** Sorted concatenations *)
Lemma SS_app {A} (R : relation A) l1 l2 :
  StronglySorted R l1 -> StronglySorted R l2 ->
  (forall x y, x ∈ l1 -> y ∈ l2 -> R x y) -> StronglySorted R (l1 ++ l2).
Proof.
  induction l1 as [|a l1 IH]; intros H1 H2 H; [done|]. inversion H1; subst. simpl. constructor.
  - apply IH; [done|done|]. intros x y Hx Hy. apply H; [right|]; done.
  - apply Forall_app. split; [done|]. apply Forall_forall. intros y Hy. apply H; [left|]; done.
Qed.

Lemma SS_bind {A B} (R : relation B) (S : relation A) (f : A -> list B) l :
  StronglySorted S l ->
  (forall a, a ∈ l -> StronglySorted R (f a)) ->
  (forall a b x y, S a b -> x ∈ f a -> y ∈ f b -> R x y) ->
  StronglySorted R (l ≫= f).
Proof.
  induction 1 as [|a l Hl IH Ha]; intros Hs HR; [constructor|]. simpl. apply SS_app.
  - apply Hs. left.
  - apply IH; [|done]. intros b Hb. apply Hs. by right.
  - intros x y Hx Hy. apply elem_of_list_bind in Hy as (b & Hy & Hb).
    rewrite Forall_forall in Ha. eapply HR; [by apply Ha| |]; done.
Qed.

Lemma SS_seq s n : StronglySorted lt (seq s n).
Proof.
  revert s. induction n as [|n IH]; intros s; simpl; constructor; [apply IH|].
  apply Forall_forall. intros x Hx. apply elem_of_list_In, in_seq in Hx. lia.
Qed.

Lemma SS_filter {A} (R : relation A) (P : A -> Prop) `{forall x, Decision (P x)} l :
  StronglySorted R l -> StronglySorted R (filter P l).
Proof.
  induction 1 as [|a l Hl IH Ha]; [constructor|]. rewrite filter_cons. case_decide; [|done].
  constructor; [done|]. apply Forall_forall. intros x Hx. apply elem_of_list_filter in Hx as [_ Hx].
  rewrite Forall_forall in Ha. by apply Ha.
Qed.

Lemma SS_impl {A} (R S : relation A) l :
  (forall x y, x ∈ l -> y ∈ l -> R x y -> S x y) -> StronglySorted R l -> StronglySorted S l.
Proof.
  intros H Hs. induction Hs as [|a l Hl IH Ha]; constructor.
  - apply IH. intros x y Hx Hy. apply H; by right.
  - rewrite Forall_forall in *. intros x Hx. apply H; [left|by right|by apply Ha].
Qed.

Lemma SS_irrefl_NoDup {A} (R : relation A) l :
  (forall x, ~ R x x) -> StronglySorted R l -> NoDup l.
Proof.
  intros Hi. induction 1 as [|a l Hl IH Ha]; constructor; [|done].
  intros Hin. rewrite Forall_forall in Ha. by apply (Hi a), Ha.
Qed.

Lemma SS_reverse {A} (R : relation A) l :
  StronglySorted R l -> StronglySorted (fun x y => R y x) (reverse l).
Proof.
  induction 1 as [|a l Hl IH Ha]; [constructor|]. rewrite reverse_cons. apply SS_app; [done| |].
  - repeat constructor.
  - intros x y Hx Hy. apply elem_of_list_singleton in Hy as ->. rewrite elem_of_reverse in Hx.
    rewrite Forall_forall in Ha. exact (Ha x Hx).
Qed.

Lemma SS_le_NoDup_lt l : StronglySorted le l -> NoDup l -> StronglySorted lt l.
Proof.
  induction 1 as [|a l Hl IH Ha]; intros Hn; constructor; inversion Hn; subst; [by apply IH|].
  rewrite Forall_forall in *. intros x Hx. specialize (Ha x Hx).
  assert (a <> x) by (intros ->; done). lia.
Qed.

(** ** The dictionary of indices *)
Lemma dd_append_keys dim x d k :
  k ∈ map fst (dd_append dim x d) <-> k = dim \/ k ∈ map fst d.
Proof.
  induction d as [|[k' l] d IH]; simpl.
  - rewrite elem_of_list_singleton, elem_of_nil. tauto.
  - destruct (decide (k' = dim)) as [->|]; simpl; rewrite !elem_of_cons; [tauto|]. rewrite IH. tauto.
Qed.

Lemma dd_append_NoDup dim x d : NoDup (map fst d) -> NoDup (map fst (dd_append dim x d)).
Proof.
  induction d as [|[k' l] d IH]; simpl; intros Hd.
  - apply NoDup_singleton.
  - inversion Hd as [|? ? Hn Hd']; subst. destruct (decide (k' = dim)) as [->|]; simpl; constructor;
      try done; [|by apply IH].
    rewrite dd_append_keys. intros [->|]; done.
Qed.

Lemma dd_append_get dim x d k :
  dd_get k (dd_append dim x d) = dd_get k d ++ (if decide (k = dim) then option_list x else []).
Proof.
  induction d as [|[k' l] d IH]; simpl.
  - destruct (decide (dim = k)), (decide (k = dim)); subst; done.
  - destruct (decide (k' = dim)) as [->|]; simpl.
    + destruct (decide (dim = k)) as [->|]; [by rewrite decide_True|].
      rewrite decide_False by congruence. by rewrite app_nil_r.
    + destruct (decide (k' = k)) as [->|]; [|done]. rewrite decide_False by done.
      by rewrite app_nil_r.
Qed.

Section dict.
  Context (bs : list block) (L0 : list (list (list nat))).

  Definition step_dict (d : list (nat * list nat)) (v : nat * nat * nat) :=
    let '(n1, n2, n3) := v in
    match bs !! n1 with
    | Some b => dd_append (bdim b) (subscript L0 n1 n2 n3) d
    | None => d
    end.

  Definition vdim (v : nat * nat * nat) : option nat := bdim <$> bs !! v.1.1.
  Definition vidx (v : nat * nat * nat) : option nat := subscript L0 v.1.1 v.1.2 v.2.

  Lemma by_dim_spec vs d :
    NoDup (map fst d) ->
    let r := foldl step_dict d vs in
    NoDup (map fst r) /\
    (forall k, k ∈ map fst r <-> k ∈ map fst d \/ exists v, v ∈ vs /\ vdim v = Some k) /\
    (forall k, dd_get k r = dd_get k d ++ omap vidx (filter (fun v => vdim v = Some k) vs)).
  Proof.
    revert d. induction vs as [|v vs IH]; intros d Hd; simpl.
    - split; [done|]. split.
      + intros k. split; [by left|]. intros [?|(v & Hv & _)]; [done|]. by apply elem_of_nil in Hv.
      + intros k. by rewrite app_nil_r.
    - assert (Hs : NoDup (map fst (step_dict d v))).
      { destruct v as [[n1 n2] n3]. simpl. destruct (bs !! n1); [by apply dd_append_NoDup|done]. }
      destruct (IH (step_dict d v) Hs) as (H1 & H2 & H3). split; [done|]. split.
      + intros k. rewrite H2. destruct v as [[n1 n2] n3]. simpl.
        destruct (bs !! n1) as [b|] eqn:Hb.
        * rewrite dd_append_keys. split.
          -- intros [[->|]|(v & Hv & Hk)]; [|by left|].
             ++ right. exists (n1, n2, n3). split; [left|]. unfold vdim. simpl. by rewrite Hb.
             ++ right. exists v. split; [by right|done].
          -- intros [?|(v & Hv & Hk)]; [left; by right|]. apply elem_of_cons in Hv as [->|Hv].
             ++ unfold vdim in Hk. simpl in Hk. rewrite Hb in Hk. simpl in Hk. left. left. congruence.
             ++ right. by exists v.
        * split.
          -- intros [?|(v & Hv & Hk)]; [by left|]. right. exists v. split; [by right|done].
          -- intros [?|(v & Hv & Hk)]; [by left|]. apply elem_of_cons in Hv as [->|Hv].
             ++ unfold vdim in Hk. simpl in Hk. rewrite Hb in Hk. done.
             ++ right. by exists v.
      + intros k. rewrite H3. destruct v as [[n1 n2] n3]. simpl. rewrite filter_cons.
        assert (vdim (n1, n2, n3) = bdim <$> bs !! n1) as Hv by done.
        destruct (bs !! n1) as [b|] eqn:Hb; simpl in Hv.
        * rewrite dd_append_get. rewrite <-app_assoc. f_equal.
          destruct (decide (k = bdim b)) as [->|].
          -- rewrite (decide_True (P := vdim (n1, n2, n3) = Some (bdim b))) by done.
             cbn [omap list_omap].
             assert (vidx (n1, n2, n3) = subscript L0 n1 n2 n3) as -> by done.
             by destruct (subscript L0 n1 n2 n3).
          -- rewrite (decide_False (P := vdim (n1, n2, n3) = Some k)) by congruence. done.
        * rewrite (decide_False (P := vdim (n1, n2, n3) = Some k)) by congruence. done.
  Qed.
End dict.

Lemma indices_by_dim_fold bs L0 vs : indices_by_dim bs L0 vs = foldl (step_dict bs L0) [] vs.
Proof. reflexivity. Qed.

(** ** The hierarchy *)
Lemma hierarchy_length i bs : length (hierarchy i bs) = length bs.
Proof.
  revert i. induction bs as [|b bs IH]; intros i; simpl; [done|].
  destruct (decide _); simpl; by rewrite IH.
Qed.

Lemma hierarchy_subscript i bs e c m :
  subscript (hierarchy i bs) e c m =
    match bs !! e with
    | Some b => if decide (c < bcomps b /\ m < bmodes b)
                then Some (i + total (take e bs) + c * bmodes b + m) else None
    | None => None
    end.
Proof.
  revert i e. induction bs as [|b bs IH]; intros i e; [done|].
  cbn [hierarchy]. destruct e as [|e].
  - cbn [lookup list_lookup take total sum_list_with]. unfold subscript.
    destruct (decide (bcomps b = 0)) as [Hz|Hz]; simpl.
    + rewrite decide_False by lia. destruct c; simpl; [|done]. by destruct m.
    + rewrite list_lookup_fmap. destruct (decide (c < bcomps b)) as [Hc|Hc].
      * rewrite lookup_seq_lt by done. simpl. destruct (decide (m < bmodes b)) as [Hm|Hm].
        -- rewrite lookup_seq_lt by done. rewrite decide_True by done. f_equal. lia.
        -- rewrite lookup_seq_ge by lia. rewrite decide_False by tauto. done.
      * rewrite lookup_seq_ge by lia. simpl. rewrite decide_False by tauto. done.
  - simpl. destruct (decide (bcomps b = 0)) as [Hz|Hz]; simpl.
    + change (subscript ([[]] :: hierarchy i bs) (S e) c m) with (subscript (hierarchy i bs) e c m).
      rewrite IH. unfold total. simpl. unfold bsize at 2. rewrite Hz. simpl. done.
    + match goal with |- subscript (?x :: ?h) (S e) c m = _ =>
        change (subscript (x :: h) (S e) c m) with (subscript h e c m) end.
      rewrite IH. destruct (bs !! e); [|done]. destruct (decide _); [|done]. f_equal.
      unfold total. simpl. unfold bsize at 2. lia.
Qed.

Lemma py_max_ge l m x : py_max l = Some m -> x ∈ l -> x <= m.
Proof.
  revert m. induction l as [|y l IH]; intros m; simpl; [done|]. intros [= <-].
  rewrite elem_of_cons. intros [->|Hx].
  - destruct (py_max l); lia.
  - destruct (py_max l) as [k|] eqn:E; [|destruct l; [by apply elem_of_nil in Hx|done]].
    specialize (IH k eq_refl Hx). lia.
Qed.

Lemma py_max_Some l : l <> [] -> exists m, py_max l = Some m.
Proof. destruct l; [done|]. simpl. eauto. Qed.

Lemma hierarchy_subscript_bounds i bs e c m n2 n3 x :
  py_max (map length (hierarchy i bs)) = Some n2 ->
  py_max (map length (concat (hierarchy i bs))) = Some n3 ->
  subscript (hierarchy i bs) e c m = Some x -> e < length bs /\ c < n2 /\ m < n3.
Proof.
  intros H2 H3 Hx. unfold subscript in Hx.
  destruct (hierarchy i bs !! e) as [L1|] eqn:E1; [|done]. simpl in Hx.
  destruct (L1 !! c) as [L2|] eqn:E2; [|done]. simpl in Hx.
  split; [|split].
  - rewrite <-(hierarchy_length i). by eapply lookup_lt_Some.
  - assert (c < length L1) by (by eapply lookup_lt_Some).
    assert (length L1 <= n2); [|lia]. eapply py_max_ge; [done|]. apply elem_of_list_fmap.
    exists L1. split; [done|]. by eapply elem_of_list_lookup_2.
  - assert (m < length L2) by (by eapply lookup_lt_Some).
    assert (length L2 <= n3); [|lia]. eapply py_max_ge; [done|]. apply elem_of_list_fmap.
    exists L2. split; [done|]. apply elem_of_list_In, in_concat. exists L1.
    split; apply elem_of_list_In; by eapply elem_of_list_lookup_2.
Qed.

(** ** Visiting order *)
Definition to_dof (v : nat * nat * nat) : dof := Dof v.1.1 v.1.2 v.2.

Lemma elem_of_visits il a b c e m k :
  (e, m, k) ∈ visits il a b c <-> e < a /\ m < b /\ k < c.
Proof.
  unfold visits. destruct il; rewrite elem_of_list_bind.
  - split.
    + intros (x & H & Hx). apply elem_of_list_bind in H as (y & H & Hy).
      apply elem_of_list_bind in H as (z & H & Hz). apply elem_of_list_singleton in H as [= -> -> ->].
      apply elem_of_list_In, in_seq in Hx, Hy, Hz. lia.
    + intros (H1 & H2 & H3). exists k. split; [|apply elem_of_list_In, in_seq; lia].
      apply elem_of_list_bind. exists m. split; [|apply elem_of_list_In, in_seq; lia].
      apply elem_of_list_bind. exists e. split; [|apply elem_of_list_In, in_seq; lia].
      by apply elem_of_list_singleton.
  - split.
    + intros (x & H & Hx). apply elem_of_list_bind in H as (y & H & Hy).
      apply elem_of_list_bind in H as (z & H & Hz). apply elem_of_list_singleton in H as [= -> -> ->].
      apply elem_of_list_In, in_seq in Hx, Hy, Hz. lia.
    + intros (H1 & H2 & H3). exists k. split; [|apply elem_of_list_In, in_seq; lia].
      apply elem_of_list_bind. exists e. split; [|apply elem_of_list_In, in_seq; lia].
      apply elem_of_list_bind. exists m. split; [|apply elem_of_list_In, in_seq; lia].
      by apply elem_of_list_singleton.
Qed.

Ltac elem_binds :=
  repeat match goal with
  | H : _ ∈ (_ ≫= _) |- _ => apply elem_of_list_bind in H as (? & ? & ?)
  | H : _ ∈ [_] |- _ => apply elem_of_list_singleton in H; subst
  end.

Lemma visits_sorted il a b c :
  StronglySorted (fun v w => mode_before il (to_dof v) (to_dof w)) (visits il a b c).
Proof.
  unfold visits. destruct il.
  - eapply SS_bind; [apply SS_seq| |].
    + intros k _. eapply SS_bind; [apply SS_seq| |].
      * intros m _. eapply SS_bind; [apply SS_seq| |].
        -- intros e _. repeat constructor.
        -- intros e e' x y He Hx Hy. elem_binds. unfold mode_before; simpl. lia.
      * intros m m' x y Hm Hx Hy. elem_binds. unfold mode_before; simpl. lia.
    + intros k k' x y Hk Hx Hy. elem_binds. unfold mode_before; simpl. lia.
  - eapply SS_bind; [apply SS_seq| |].
    + intros k _. eapply SS_bind; [apply SS_seq| |].
      * intros m _. eapply SS_bind; [apply SS_seq| |].
        -- intros e _. repeat constructor.
        -- intros e e' x y He Hx Hy. elem_binds. unfold mode_before; simpl. lia.
      * intros m m' x y Hm Hx Hy. elem_binds. unfold mode_before; simpl. lia.
    + intros k k' x y Hk Hx Hy. elem_binds. unfold mode_before; simpl. lia.
Qed.

(** ** Positions *)
Lemma position_subscript bs v x :
  subscript (hierarchy 0 bs) v.1.1 v.1.2 v.2 = Some x <->
  is_dof bs (to_dof v) /\ position bs (to_dof v) = x.
Proof.
  rewrite hierarchy_subscript. unfold is_dof, position. destruct v as [[e c] m]. simpl.
  destruct (bs !! e) as [b|]; simpl.
  - destruct (decide _) as [Hd|Hd]; split.
    + intros [= <-]. split; [by exists b|done].
    + intros [_ <-]. done.
    + done.
    + intros [(b' & [= <-] & Hd') _]. tauto.
  - split; [done|]. intros [(b' & Hb & _) _]. done.
Qed.

Lemma total_app l1 l2 : total (l1 ++ l2) = total l1 + total l2.
Proof. unfold total. induction l1 as [|b l1 IH]; simpl; [done|]. lia. Qed.

Lemma position_onto bs n : n < total bs -> exists x, is_dof bs x /\ position bs x = n.
Proof.
  revert n. induction bs as [|b bs IH]; intros n Hn; [unfold total in Hn; simpl in Hn; lia|].
  assert (Ht : total (b :: bs) = bsize b + total bs) by done.
  destruct (decide (n < bsize b)) as [Hlt|Hge].
  - unfold bsize in Hlt. assert (bmodes b <> 0) by (intros E; rewrite E in Hlt; lia).
    exists (Dof 0 (n / bmodes b) (n mod bmodes b)). split.
    + exists b. simpl. split; [done|]. split.
      * apply Nat.div_lt_upper_bound; [done|]. lia.
      * by apply Nat.mod_upper_bound.
    + unfold position. simpl. pose proof (Nat.div_mod n (bmodes b)). unfold total; simpl. lia.
  - destruct (IH (n - bsize b)) as ([e c m] & (b' & Hb & Hc & Hm) & Hp); [lia|].
    exists (Dof (S e) c m). split; [exists b'; done|]. unfold position in *. simpl in *.
    rewrite Hb in *. change (total (b :: take e bs)) with (bsize b + total (take e bs)). lia.
Qed.

Lemma position_lt bs x : is_dof bs x -> position bs x < total bs.
Proof.
  intros (b & Hb & Hc & Hm). unfold position. rewrite Hb.
  rewrite <-(take_drop_middle _ _ _ Hb) at 2. rewrite total_app.
  change (total (b :: ?l)) with (bsize b + total l). unfold bsize. nia.
Qed.

Lemma take_total_mono bs i j : i <= j -> total (take i bs) <= total (take j bs).
Proof.
  revert i j. induction bs as [|b bs IH]; intros i j Hij; [by rewrite !take_nil|].
  destruct i as [|i]; [unfold total at 1; simpl; lia|]. destruct j as [|j]; [lia|]. simpl.
  change (total (b :: ?l)) with (bsize b + total l). specialize (IH i j). lia.
Qed.

Lemma take_S_total bs e b : bs !! e = Some b -> total (take (S e) bs) = total (take e bs) + bsize b.
Proof.
  intros Hb. erewrite take_S_r by done. rewrite total_app. unfold total at 2. simpl. lia.
Qed.

Lemma position_inj bs x y :
  is_dof bs x -> is_dof bs y -> position bs x = position bs y -> x = y.
Proof.
  assert (Hle : forall x y, is_dof bs x -> is_dof bs y -> de x < de y -> position bs x < position bs y).
  { intros u v (b & Hb & Hc & Hm) (b' & Hb' & _) Hlt. unfold position. rewrite Hb, Hb'.
    pose proof (take_S_total _ _ _ Hb) as Ht. pose proof (take_total_mono bs (S (de u)) (de v) Hlt).
    unfold bsize in Ht. nia. }
  intros Hx Hy He.
  assert (de x = de y) as Hde.
  { destruct (lt_eq_lt_dec (de x) (de y)) as [[H|H]|H]; [|done|].
    - specialize (Hle x y Hx Hy H). lia.
    - specialize (Hle y x Hy Hx H). lia. }
  destruct Hx as (b & Hb & Hc & Hm), Hy as (b' & Hb' & Hc' & Hm').
  unfold position in He. rewrite Hb, Hb' in He. rewrite <-Hde in Hb'. simplify_eq.
  rewrite Hde in He. destruct x as [e c m], y as [e' c' m']. simpl in *. subst.
  assert (c = c') by nia. subst. f_equal. lia.
Qed.

(** ** The orderings *)
Definition ordered_dofs (bs : list block) (vs : list (nat * nat * nat)) (dims : list nat)
  : list dof :=
  dims ≫= fun d => to_dof <$> filter (fun v => is_Some (subscript (hierarchy 0 bs) v.1.1 v.1.2 v.2))
                                     (filter (fun v => vdim bs v = Some d) vs).

Lemma omap_positions bs (vs : list (nat * nat * nat)) :
  omap (vidx (hierarchy 0 bs)) vs =
  position bs <$> (to_dof <$> filter (fun v => is_Some (subscript (hierarchy 0 bs) v.1.1 v.1.2 v.2)) vs).
Proof.
  induction vs as [|v vs IH]; [done|]. cbn [omap list_omap]. rewrite filter_cons.
  assert (vidx (hierarchy 0 bs) v = subscript (hierarchy 0 bs) v.1.1 v.1.2 v.2) as -> by done.
  case_decide as H.
  - destruct H as [x E]. rewrite E. cbn [fmap list_fmap]. rewrite <-IH.
    apply position_subscript in E as [_ <-]. done.
  - destruct (subscript _ _ _ _) as [x|] eqn:E; [|done]. exfalso. apply H. by eexists.
Qed.

Lemma permutation_dofs bs first il :
  bs <> [] ->
  exists ds, permutation bs first il = Some (position bs <$> ds) /\
    StronglySorted (before bs first il) ds /\ (forall x, x ∈ ds <-> is_dof bs x).
Proof.
  intros Hne. unfold permutation.
  destruct (py_max_Some (map length (hierarchy 0 bs))) as [n2 Hn2].
  { intros E. apply fmap_nil_inv in E. pose proof (hierarchy_length 0 bs) as Hl. rewrite E in Hl.
    destruct bs; done. }
  destruct (py_max_Some (map length (concat (hierarchy 0 bs)))) as [n3 Hn3].
  { destruct bs as [|b bs']; [done|]. simpl. destruct (decide (bcomps b = 0)); simpl; [done|].
    destruct (bcomps b); done. }
  rewrite Hn2. cbn [mbind option_bind]. rewrite Hn3. cbn [mbind option_bind].
  set (vs := visits il (length (hierarchy 0 bs)) n2 n3).
  rewrite indices_by_dim_fold.
  destruct (by_dim_spec bs (hierarchy 0 bs) vs [] ltac:(constructor)) as (Hnd & Hk & Hg).
  set (r := foldl (step_dict bs (hierarchy 0 bs)) [] vs) in *.
  set (dims := if first then merge_sort le (map fst r) else reverse (merge_sort le (map fst r))).
  assert (Hdk : forall d, d ∈ dims <-> exists v, v ∈ vs /\ vdim bs v = Some d).
  { intros d. assert (d ∈ dims <-> d ∈ map fst r) as ->.
    { unfold dims. destruct first; rewrite ?elem_of_reverse; by rewrite (merge_sort_Permutation le). }
    rewrite Hk. simpl. rewrite elem_of_nil. tauto. }
  assert (Hds : StronglySorted (fun x y => if first then x < y else y < x) dims).
  { assert (StronglySorted lt (merge_sort le (map fst r))) as Hs.
    { apply SS_le_NoDup_lt.
      - apply (StronglySorted_merge_sort le).
      - by rewrite (merge_sort_Permutation le). }
    unfold dims. destruct first; [done|]. by apply SS_reverse in Hs. }
  exists (ordered_dofs bs vs dims). split; [|split].
  - f_equal. unfold ordered_dofs. clear Hdk Hds. induction dims as [|d ds IH]; [done|].
    cbn [map concat mbind list_bind]. rewrite fmap_app. rewrite IH. f_equal.
    rewrite Hg. simpl. apply omap_positions.
  - unfold ordered_dofs. eapply SS_bind; [apply Hds| |].
    + intros d Hd. clear Hd.
      assert (StronglySorted (fun v w => mode_before il (to_dof v) (to_dof w))
        (filter (fun v => is_Some (subscript (hierarchy 0 bs) v.1.1 v.1.2 v.2))
           (filter (fun v => vdim bs v = Some d) vs))) as Hs
        by (apply SS_filter, SS_filter, visits_sorted).
      assert (Forall (fun v => vdim bs v = Some d) (filter (fun v => is_Some (subscript (hierarchy 0 bs) v.1.1 v.1.2 v.2))
           (filter (fun v => vdim bs v = Some d) vs))) as Hd.
      { apply Forall_forall. intros v Hv. apply elem_of_list_filter in Hv as [_ Hv].
        by apply elem_of_list_filter in Hv as [Hv _]. }
      revert Hs Hd. generalize (filter (fun v => is_Some (subscript (hierarchy 0 bs) v.1.1 v.1.2 v.2))
           (filter (fun v => vdim bs v = Some d) vs)). intros l Hs Hd.
      induction Hs as [|v l Hs IH Hv]; [constructor|]. simpl. inversion Hd as [|? ? Hdv Hdl]; subst.
      constructor; [by apply IH|]. apply Forall_fmap. rewrite Forall_forall in *. intros w Hw. simpl.
      right. specialize (Hdl w Hw). unfold vdim in *. split; [|by apply Hv].
      unfold dof_dim. simpl. destruct (bs !! v.1.1), (bs !! w.1.1); simpl in *; congruence.
    + intros d d' x y Hdd Hx Hy. left.
      apply elem_of_list_fmap in Hx as (v & -> & Hv), Hy as (w & -> & Hw).
      apply elem_of_list_filter in Hv as [_ Hv], Hw as [_ Hw].
      apply elem_of_list_filter in Hv as [Hv _], Hw as [Hw _].
      unfold vdim in *. unfold dof_dim. simpl.
      destruct (bs !! v.1.1), (bs !! w.1.1); simpl in *; simplify_eq. by destruct first.
  - intros x. unfold ordered_dofs. rewrite elem_of_list_bind. split.
    + intros (d & Hx & _). apply elem_of_list_fmap in Hx as (v & -> & Hv).
      apply elem_of_list_filter in Hv as [[i Hi] _]. by apply position_subscript in Hi as [Hi _].
    + intros Hx. destruct x as [e c m].
      assert (subscript (hierarchy 0 bs) e c m = Some (position bs (Dof e c m))) as Hs.
      { apply (position_subscript bs (e, c, m)). done. }
      destruct Hx as (b & Hb & Hc & Hm). simpl in *.
      assert ((e, c, m) ∈ vs) as Hv.
      { unfold vs. apply elem_of_visits. rewrite hierarchy_length.
        eapply hierarchy_subscript_bounds; done. }
      exists (bdim b). split.
      * apply elem_of_list_fmap. exists (e, c, m). split; [done|].
        apply elem_of_list_filter. split; [by eexists|].
        apply elem_of_list_filter. split; [|done]. unfold vdim. simpl. by rewrite Hb.
      * apply Hdk. exists (e, c, m). split; [done|]. unfold vdim. simpl. by rewrite Hb.
Qed.

Lemma before_irrefl bs first il x : ~ before bs first il x x.
Proof. unfold before, mode_before. destruct first, il; lia. Qed.

Lemma permutation_perm bs first il p :
  permutation bs first il = Some p -> p ≡ₚ seq 0 (total bs).
Proof.
  destruct bs as [|b bs']; [by destruct il|]. set (bs := b :: bs').
  destruct (permutation_dofs bs first il) as (ds & Hp & Hs & Hd); [done|].
  rewrite Hp. intros [= <-].
  apply NoDup_Permutation.
  - assert (NoDup ds) as Hn by (eapply SS_irrefl_NoDup; [apply before_irrefl|done]).
    assert (Forall (is_dof bs) ds) as Hf by (apply Forall_forall; intros x Hx; by apply Hd).
    clear Hp Hs Hd. induction Hn as [|x ds Hx Hn IH]; [constructor|]. inversion Hf; subst.
    simpl. constructor; [|by apply IH].
    intros Hin. apply elem_of_list_fmap in Hin as (y & Hxy & Hy).
    rewrite Forall_forall in *. assert (x = y) as ->; [|done]. eapply position_inj; eauto.
  - apply NoDup_ListNoDup, seq_NoDup.
  - intros n. rewrite elem_of_list_fmap. split.
    + intros (x & -> & Hx). apply elem_of_list_In, in_seq. apply Hd, position_lt in Hx. lia.
    + intros Hn. apply elem_of_list_In, in_seq in Hn. destruct (position_onto bs n) as (x & Hx & <-); [lia|].
      exists x. split; [done|]. by apply Hd.
Qed.

Lemma permutation_succeeds bs first il : bs <> [] <-> is_Some (permutation bs first il).
Proof.
  split.
  - intros H. destruct (permutation_dofs bs first il H) as (ds & Hp & _). by eexists.
  - intros [p Hp] ->. by destruct il.
Qed.

Lemma permutation_sorted bs first il p i j x y :
  permutation bs first il = Some p -> i < j ->
  is_dof bs x -> is_dof bs y ->
  p !! i = Some (position bs x) -> p !! j = Some (position bs y) ->
  before bs first il x y.
Proof.
  intros Hp Hij Hx Hy Hi Hj. assert (bs <> []) as Hne.
  { apply (permutation_succeeds bs first il). by eexists. }
  destruct (permutation_dofs bs first il Hne) as (ds & Hp' & Hs & Hd).
  rewrite Hp' in Hp. injection Hp as <-.
  rewrite list_lookup_fmap in Hi, Hj.
  destruct (ds !! i) as [x'|] eqn:Hxi; [|done]. destruct (ds !! j) as [y'|] eqn:Hyj; [|done].
  simpl in Hi, Hj. injection Hi as Hi. injection Hj as Hj.
  assert (x' = x) as ->.
  { eapply position_inj; [|done|done]. apply Hd. by eapply elem_of_list_lookup_2. }
  assert (y' = y) as ->.
  { eapply position_inj; [|done|done]. apply Hd. by eapply elem_of_list_lookup_2. }
  clear Hp' Hd Hi Hj. revert i j Hij Hxi Hyj. induction Hs as [|a l Hs IH Ha]; intros i j Hij Hxi Hyj; [done|].
  destruct j as [|j]; [lia|]. simpl in Hyj. destruct i as [|i].
  - simpl in Hxi. injection Hxi as ->. rewrite Forall_forall in Ha. apply Ha. by eapply elem_of_list_lookup_2.
  - simpl in Hxi. eapply IH; [|done|done]. lia.
Qed.
