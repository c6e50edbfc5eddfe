From stdpp Require Import gmap strings list sorting.
From Verif Require Import Domains_Model Domains_Spec.

(** ** Lists *)
Lemma remove_dups_length {X} `{EqDecision X} (l : list X) : length (remove_dups l) <= length l.
Proof. induction l as [|x l IH]; [done|]. cbn [remove_dups]. destruct (decide_rel _ x l); cbn [length]; lia. Qed.
Lemma remove_dups_nodup {X} `{EqDecision X} (l : list X) : length (remove_dups l) < length l <-> ~ NoDup l.
Proof.
  induction l as [|x l IH]; cbn [remove_dups].
  - cbn. split; [lia|]. intros H. destruct H. constructor.
  - pose proof (remove_dups_length l). rewrite NoDup_cons. destruct (decide_rel _ x l) as [Hx|Hx]; cbn [length].
    + split; [tauto|]. intros _. lia.
    + split; [|intros H'; assert (~ NoDup l) as F by tauto; apply IH in F; lia]. intros Hl [_ Hn]. apply (proj1 IH); [lia|done].
Qed.
Lemma ordered_set_spec l : NoDup (ordered_set l) /\ forall b, b ∈ ordered_set l <-> b ∈ l.
Proof.
  unfold ordered_set. assert (forall acc, NoDup acc -> NoDup (foldl (fun acc b => if decide (b ∈ acc) then acc else acc ++ [b]) acc l) /\
    forall b, b ∈ foldl (fun acc b => if decide (b ∈ acc) then acc else acc ++ [b]) acc l <-> b ∈ acc \/ b ∈ l) as H.
  { induction l as [|x l IH]; intros acc Hacc; cbn [foldl].
    - split; [done|]. intros b. split; [by left|]. intros [?|F]; [done|by apply elem_of_nil in F].
    - destruct (decide (x ∈ acc)) as [Hx|Hx].
      + destruct (IH acc Hacc) as [H1 H2]. split; [done|]. intros b. rewrite H2, elem_of_cons. split; [tauto|]. intros [?|[->|?]]; tauto.
      + destruct (IH (acc ++ [x])) as [H1 H2].
        { apply NoDup_app. split; [done|]. split; [|apply NoDup_singleton]. intros y Hy ->%elem_of_list_singleton. done. }
        split; [done|]. intros b. rewrite H2, elem_of_app, elem_of_list_singleton, elem_of_cons. tauto. }
  destruct (H [] ltac:(constructor)) as [H1 H2]. split; [done|]. intros b. rewrite H2. split; [|by right]. intros [F|?]; [by apply elem_of_nil in F|done].
Qed.
Lemma ordered_set_id l : NoDup l -> ordered_set l = l.
Proof.
  unfold ordered_set. assert (forall acc, NoDup (acc ++ l) -> foldl (fun acc b => if decide (b ∈ acc) then acc else acc ++ [b]) acc l = acc ++ l) as H.
  { induction l as [|x l IH]; intros acc Hacc; cbn [foldl]; [by rewrite app_nil_r|]. rewrite decide_False.
    - rewrite IH, <- app_assoc; [done|]. by rewrite <- app_assoc.
    - intros Hx. apply NoDup_app in Hacc as (_ & F & _). apply (F x Hx). by left. }
  intros Hl. by apply (H []).
Qed.

(** ** Stable sorting *)
Section Sort.
  Context {X : Type} (key : X -> nat).
  Lemma insert_perm x l : insert_key key x l ≡ₚ x :: l.
  Proof. induction l as [|y l IH]; [done|]. cbn [insert_key]. destruct (decide _); [done|]. rewrite IH. constructor. Qed.
  Lemma sort_perm l : sort_key key l ≡ₚ l.
  Proof. induction l as [|x l IH]; [done|]. cbn. rewrite insert_perm. by constructor. Qed.
  Lemma insert_sorted x l : StronglySorted (fun a b => key a <= key b) l -> StronglySorted (fun a b => key a <= key b) (insert_key key x l).
  Proof.
    induction 1 as [|y l Hl IH Hy]; cbn [insert_key]; [repeat constructor|]. destruct (decide _) as [Hle|Hgt].
    - constructor; [by constructor|]. constructor; [done|]. eapply Forall_impl; [exact Hy|]. cbn. intros z ?. lia.
    - constructor; [done|]. rewrite insert_perm. constructor; [lia|done].
  Qed.
  Lemma sort_sorted l : StronglySorted (fun a b => key a <= key b) (sort_key key l).
  Proof. induction l as [|x l IH]; [constructor|]. by apply insert_sorted. Qed.
  Lemma sort_id l : StronglySorted (fun a b => key a <= key b) l -> sort_key key l = l.
  Proof.
    induction 1 as [|x l Hl IH Hx]; [done|]. cbn. change (foldr (insert_key key) [] l) with (sort_key key l). rewrite IH.
    destruct Hx as [|y l Hy Hx]; [done|]. cbn. by rewrite decide_True.
  Qed.
  Lemma sorted_unique l : forall l', StronglySorted (fun a b => key a <= key b) l -> StronglySorted (fun a b => key a <= key b) l' -> l ≡ₚ l' ->
    (forall x y, x ∈ l -> y ∈ l -> key x = key y -> x = y) -> l = l'.
  Proof.
    induction l as [|x l IH]; intros l' Hl Hl' Hp Hk; [by apply Permutation_nil_l in Hp|].
    destruct l' as [|y l']; [by apply Permutation_nil_r in Hp|].
    apply StronglySorted_inv in Hl as [Hl Hx], Hl' as [Hl' Hy].
    assert (x = y) as <-.
    { assert (y ∈ x :: l) as Hyl by (rewrite Hp; by left). assert (x ∈ y :: l') as Hxl by (rewrite <- Hp; by left).
      apply Hk; [by left|done|]. rewrite Forall_forall in Hx, Hy.
      assert (key x <= key y) by (apply elem_of_cons in Hyl as [->|F]; [done|by apply Hx]).
      assert (key y <= key x) by (apply elem_of_cons in Hxl as [->|F]; [done|by apply Hy]). lia. }
    f_equal. apply IH; [done|done|by apply Permutation_cons_inv in Hp|]. intros a b Ha Hb. apply Hk; by right.
  Qed.
End Sort.

(** ** Axes *)
Lemma coord_index_Some coords c i : coord_index coords c = Some i <-> coords !! i = Some c /\ forall j, j < i -> coords !! j <> Some c.
Proof.
  unfold coord_index. split.
  - intros ([k x] & Hf & Hi)%fmap_Some. cbn in Hi. subst k. apply list_find_Some in Hf as (Hl & -> & Hj). split; [done|]. intros j Hlt Hc. by apply (Hj j c Hc Hlt).
  - intros [Hl Hj]. assert (list_find (fun c' => c' = c) coords = Some (i, c)) as ->; [|done]. apply list_find_Some. split; [done|]. split; [done|].
    intros j y Hy Hlt ->. by apply (Hj j Hlt).
Qed.
Lemma coord_index_nodup coords c i : NoDup coords -> coords !! i = Some c -> coord_index coords c = Some i.
Proof.
  intros Hn Hi. apply coord_index_Some. split; [done|]. intros j Hlt Hj. pose proof (NoDup_lookup _ _ _ _ Hn Hi Hj). lia.
Qed.
Lemma coord_index_None coords c : coord_index coords c = None <-> c ∉ coords.
Proof.
  unfold coord_index. split.
  - intros H%fmap_None Hin. apply list_find_None in H. rewrite Forall_forall in H. by apply (H c Hin).
  - intros H. apply fmap_None, list_find_None, Forall_forall. by intros x Hx ->.
Qed.
Lemma basis_axis_starts coords b ax : basis_axis coords b = Some ax <-> starts_at coords b ax.
Proof.
  unfold basis_axis, get_axis, starts_at. split.
  - intros (c & Hc & Hi)%bind_Some. apply coord_index_Some in Hi. exists c. tauto.
  - intros (c & Hc & Hi). rewrite Hc. cbn. by apply coord_index_Some.
Qed.

(** ** Preprocessing *)
Lemma keyed_Some coords l r : mapM (fun b => axis ← basis_axis coords b; Some (axis, b)) l = Some r ->
  map snd r = l /\ forall x, x ∈ r -> basis_axis coords x.2 = Some x.1.
Proof.
  intros H%mapM_Some. induction H as [|b x l r Hx _ [IH1 IH2]]; [split; [done|]; intros x Hx; by apply elem_of_nil in Hx|].
  apply bind_Some in Hx as (ax & Hax & [= <-]). cbn. split; [by rewrite IH1|]. intros y [->|Hy]%elem_of_cons; [done|by apply IH2].
Qed.
Lemma keyed_None coords l : mapM (fun b => axis ← basis_axis coords b; Some (axis, b)) l = None <-> exists b, b ∈ l /\ basis_axis coords b = None.
Proof.
  rewrite eq_None_not_Some, mapM_is_Some. split.
  - intros H. apply not_Forall_Exists in H; [|intros x; apply _]. apply Exists_exists in H as (b & Hb & F). exists b. split; [done|].
    destruct (basis_axis coords b) eqn:Eb; [|done]. exfalso. apply F. cbn. rewrite Eb. by eexists.
  - intros (b & Hb & F) H. rewrite Forall_forall in H. destruct (H b Hb) as [x Hx]. cbn in Hx. by rewrite F in Hx.
Qed.
Lemma omap_id_elem {X} (l : list (option X)) b : b ∈ omap id l <-> Some b ∈ l.
Proof. rewrite elem_of_list_omap. split; [intros (x & Hx & Hxb); cbn in Hxb; by subst|]. intros H. by exists (Some b). Qed.
Lemma omap_id_Some {X} (l : list X) : omap id (map Some l) = l.
Proof. induction l as [|x l IH]; [done|]. cbn. by f_equal. Qed.
Definition distinct_systems (l : list (option basis)) : Prop := forall b b', Some b ∈ l -> Some b' ∈ l -> b_cs b = b_cs b' -> b = b'.
Lemma overlap_iff l : NoDup (map b_cs (ordered_set (omap id l))) <-> distinct_systems l.
Proof.
  destruct (ordered_set_spec (omap id l)) as [Hn He]. set (s := ordered_set (omap id l)) in *. split.
  - intros H b b' Hb Hb' E. rewrite <- omap_id_elem, <- He in Hb, Hb'. apply elem_of_list_lookup in Hb as [i Hi], Hb' as [j Hj].
    assert (i = j) as <-.
    { eapply (NoDup_lookup _ i j (b_cs b) H); rewrite list_lookup_fmap; [by rewrite Hi|rewrite Hj; cbn; by rewrite E]. }
    congruence.
  - intros H. apply NoDup_fmap_2_strong; [|done]. intros x y Hx Hy. apply H; by rewrite <- omap_id_elem, <- He.
Qed.
Inductive args_cases coords l : domain_result -> Prop :=
  | Args_overlap : ~ distinct_systems l -> args_cases coords l Overlapping
  | Args_missing : distinct_systems l -> (exists b, Some b ∈ l /\ basis_axis coords b = None) -> args_cases coords l NotInDistributor
  | Args_bases bs : distinct_systems l -> (forall b, Some b ∈ l -> exists ax, basis_axis coords b = Some ax) ->
      NoDup bs -> (forall b, b ∈ bs <-> Some b ∈ l) ->
      (exists r, bs = map snd r /\ (forall x, x ∈ r -> basis_axis coords x.2 = Some x.1) /\ StronglySorted (fun a b : nat * basis => a.1 <= b.1) r) ->
      args_cases coords l (Bases bs).
Lemma domain_args_cases coords l : args_cases coords l (domain_args coords l).
Proof.
  unfold domain_args. cbn zeta. pose proof (overlap_iff l) as Ho. destruct (ordered_set_spec (omap id l)) as [Hn He].
  set (s := ordered_set (omap id l)) in *. destruct (decide _) as [H|H]; rewrite remove_dups_nodup in H.
  { constructor. by rewrite <- Ho. }
  assert (distinct_systems l) as Hd by (rewrite <- Ho; by destruct (decide (NoDup (map b_cs s)))).
  destruct (mapM _ s) as [r|] eqn:E.
  - destruct (keyed_Some _ _ _ E) as [H1 H2].
    assert (map snd (sort_key fst r) ≡ₚ s) as Hp by (rewrite <- H1; by apply fmap_Permutation, sort_perm).
    constructor.
    + done.
    + intros b Hb. rewrite <- omap_id_elem, <- He, <- H1 in Hb. apply elem_of_list_fmap in Hb as (x & -> & Hx). eexists. by apply H2.
    + by rewrite Hp.
    + intros b. by rewrite Hp, He, omap_id_elem.
    + exists (sort_key fst r). split; [done|]. split; [intros x Hx; apply H2; by rewrite (sort_perm fst) in Hx|apply sort_sorted].
  - apply keyed_None in E as (b & Hb & Hax). constructor; [done|]. exists b. split; [|done]. by rewrite <- omap_id_elem, <- He.
Qed.
Lemma domain_args_order coords l l' : (forall b, Some b ∈ l <-> Some b ∈ l') ->
  (forall b b' ax, Some b ∈ l -> Some b' ∈ l -> basis_axis coords b = Some ax -> basis_axis coords b' = Some ax -> b = b') ->
  domain_args coords l = domain_args coords l'.
Proof.
  intros He Hk. assert (distinct_systems l <-> distinct_systems l') as Hd by (unfold distinct_systems; split; intros H b b' Hb Hb'; apply He in Hb, Hb'; by apply H).
  destruct (domain_args_cases coords l) as [H1|H1 (b & Hb & H2)|bs H1 H2 H3 H4 (r & -> & H6 & H7)], (domain_args_cases coords l') as [H1'|H1' (b' & Hb' & H2')|bs' H1' H2' H3' H4' (r' & -> & H6' & H7')]; try done; try tauto.
  - exfalso. apply He in Hb. destruct (H2' b Hb). congruence.
  - exfalso. apply He in Hb'. destruct (H2 b' Hb'). congruence.
  - do 2 f_equal. apply (sorted_unique fst); [done|done| |].
    + apply NoDup_Permutation; [by eapply NoDup_fmap_1|by eapply NoDup_fmap_1|]. intros [ax b]. split; intros Hx.
      * pose proof (H6 _ Hx) as F. assert (b ∈ map snd r') as (y & Hy & Hyr)%elem_of_list_fmap by (apply H4', He, H4, elem_of_list_fmap; by eexists (_, _)).
        pose proof (H6' _ Hyr) as F'. rewrite <- Hy in F'. cbn in F, F'. rewrite F in F'. injection F' as ->. by destruct y; cbn in *; subst.
      * pose proof (H6' _ Hx) as F. assert (b ∈ map snd r) as (y & Hy & Hyr)%elem_of_list_fmap by (apply H4, He, H4', elem_of_list_fmap; by eexists (_, _)).
        pose proof (H6 _ Hyr) as F'. rewrite <- Hy in F'. cbn in F, F'. rewrite F in F'. injection F' as ->. by destruct y; cbn in *; subst.
    + intros x y Hx Hy E. assert (x.2 = y.2).
      { apply (Hk x.2 y.2 x.1); [apply H4, elem_of_list_fmap; by eexists|apply H4, elem_of_list_fmap; by eexists|by apply H6|rewrite E; by apply H6]. }
      destruct x, y; cbn in *; by subst.
Qed.
Lemma sorted_axes coords l bs : domain_args coords l = Bases bs -> forall i j b b' ax ax', i < j -> bs !! i = Some b -> bs !! j = Some b' ->
  basis_axis coords b = Some ax -> basis_axis coords b' = Some ax' -> ax <= ax'.
Proof.
  intros H i j b b' ax ax' Hlt Hi Hj Hax Hax'. pose proof (domain_args_cases coords l) as Hc. rewrite H in Hc.
  inversion Hc as [| |? H1 H2 H3 H4 (r & -> & H6 & H7)]; subst.
  apply list_lookup_fmap_Some in Hi as (x & Hx & ->). apply list_lookup_fmap_Some in Hj as (y & Hy & ->).
  pose proof (H6 x (elem_of_list_lookup_2 _ _ _ Hx)). pose proof (H6 y (elem_of_list_lookup_2 _ _ _ Hy)).
  assert (x.1 <= y.1); [|congruence]. clear -H7 Hx Hy Hlt. revert i j Hx Hy Hlt. induction H7 as [|z r Hr IH Hz]; intros i j Hx Hy Hlt; [done|].
  destruct i as [|i], j as [|j]; [lia| |lia|].
  - injection Hx as ->. rewrite Forall_lookup in Hz. by apply (Hz j).
  - apply (IH i j Hx Hy). lia.
Qed.
Lemma domain_args_id coords l bs : domain_args coords l = Bases bs -> domain_args coords (map Some bs) = Bases bs.
Proof.
  intros H. pose proof (domain_args_cases coords l) as Hc. rewrite H in Hc. inversion Hc as [| |? H1 H2 H3 H4 (r & Hr & H6 & H7)]; subst.
  unfold domain_args. cbn zeta. rewrite omap_id_Some, ordered_set_id by done.
  rewrite decide_False.
  2:{ rewrite remove_dups_nodup. intros F. apply F. apply NoDup_fmap_2_strong; [|done]. intros x y Hx Hy. apply H1; by apply H4. }
  assert (mapM (fun b => axis ← basis_axis coords b; Some (axis, b)) (map snd r) = Some r) as ->.
  { apply mapM_Some. clear -H6. induction r as [|x r IH]; cbn; [constructor|]. constructor; [|apply IH; intros y Hy; apply H6; by right].
    rewrite H6 by (by left). cbn. by destruct x. }
  by rewrite sort_id.
Qed.

(** ** Arrays over axes *)
Lemma placed_axis coords b : NoDup coords -> placed coords b ->
  exists ax, basis_axis coords b = Some ax /\ forall i c, cs_coords (b_cs b) !! i = Some c -> coords !! (ax + i) = Some c.
Proof.
  intros Hn (Hne & Hd & l1 & l2 & Hc). exists (length l1). split.
  - unfold basis_axis, get_axis. destruct (cs_coords (b_cs b)) as [|c cs] eqn:E; [done|]. cbn. apply coord_index_nodup; [done|].
    rewrite Hc, lookup_app_r by done. by rewrite Nat.sub_diag.
  - intros i c Hi. rewrite Hc, lookup_app_r by lia. replace (length l1 + i - length l1) with i by lia.
    rewrite lookup_app_l; [done|]. by eapply lookup_lt_Some.
Qed.
Lemma covered coords b ax i : NoDup coords -> placed coords b -> basis_axis coords b = Some ax -> i < b_dim b ->
  exists c, has_coord b c /\ coords !! (ax + i) = Some c /\ cs_coords (b_cs b) !! i = Some c.
Proof.
  intros Hn Hp Hax Hi. destruct (placed_axis coords b Hn Hp) as (ax' & Hax' & H). assert (ax' = ax) as -> by congruence.
  destruct Hp as (_ & Hd & _). rewrite Hd in Hi. apply lookup_lt_is_Some in Hi as [c Hc]. exists c. split; [by eapply elem_of_list_lookup_2|]. split; [by apply H|done].
Qed.
Section Fill.
  Context {V : Type} (coords : list coord) (d : V) (value : basis -> nat -> V).
  Hypothesis Hn : NoDup coords.
  Lemma fill_one b ax : basis_axis coords b = Some ax -> forall n r, ax + n <= length r ->
    exists r', foldl (fun acc sub => r ← acc; axis ← basis_axis coords b; if decide (axis + sub < length r) then Some (<[axis + sub := value b sub]> r) else None) (Some r) (seq 0 n) = Some r' /\
      length r' = length r /\ (forall i, i < n -> r' !! (ax + i) = Some (value b i)) /\ (forall k, k < ax \/ ax + n <= k -> r' !! k = r !! k).
  Proof using.
    intros Hax n. induction n as [|n IH]; intros r Hr.
    { exists r. split; [done|]. split; [done|]. split; [lia|done]. }
    destruct (IH r ltac:(lia)) as (r' & H1 & H2 & H3 & H4). rewrite seq_S, foldl_app, H1. cbn [foldl]. rewrite Hax. cbn [mbind option_bind Nat.add].
    rewrite decide_True by lia. eexists. split; [done|]. split; [by rewrite insert_length|]. split.
    - intros i Hi. destruct (decide (i = n)) as [->|]; [by apply list_lookup_insert; lia|]. rewrite list_lookup_insert_ne by lia. apply H3. lia.
    - intros k Hk. rewrite list_lookup_insert_ne by lia. apply H4. lia.
  Qed.
  Lemma fill_spec l : (forall b, b ∈ l -> placed coords b) -> separate l ->
    exists r, fill coords d value l = Some r /\ length r = length coords /\
      (forall b i c, b ∈ l -> cs_coords (b_cs b) !! i = Some c -> exists ax, coord_index coords c = Some ax /\ r !! ax = Some (value b i)) /\
      (forall c ax, coord_index coords c = Some ax -> (forall b, b ∈ l -> ~ has_coord b c) -> r !! ax = Some d).
  Proof using Hn.
    unfold fill. induction l as [|b l IH] using rev_ind; intros Hp Hs.
    - exists (replicate (length coords) d). split; [done|]. split; [apply replicate_length|]. split; [intros b i c Hb; by apply elem_of_nil in Hb|].
      intros c ax Hax _. apply lookup_replicate_2. apply coord_index_Some in Hax as [Hax _]. by eapply lookup_lt_Some.
    - destruct IH as (r & H1 & H2 & H3 & H4).
      { intros b' Hb'. apply Hp. rewrite elem_of_app. by left. }
      { intros b1 b2 c Hb1 Hb2. apply Hs; rewrite elem_of_app; by left. }
      rewrite foldl_app, H1. cbn [foldl]. assert (placed coords b) as Hpb by (apply Hp; rewrite elem_of_app, elem_of_list_singleton; by right).
      destruct (placed_axis coords b Hn Hpb) as (ax & Hax & Hc). pose proof Hpb as (Hne & Hd & l1 & l2 & Hcoords).
      assert (ax + b_dim b <= length r) as Hle.
      { rewrite H2, Hd. destruct (decide (length (cs_coords (b_cs b)) = 0)) as [E|E]; [by apply nil_length_inv in E|].
        destruct (lookup_lt_is_Some_2 (cs_coords (b_cs b)) (length (cs_coords (b_cs b)) - 1) ltac:(lia)) as [c Hcl].
        apply Hc, lookup_lt_Some in Hcl. lia. }
      destruct (fill_one b ax Hax (b_dim b) r Hle) as (r' & F1 & F2 & F3 & F4). exists r'. split; [done|]. split; [congruence|]. split.
      + intros b' i c Hb' Hi. rewrite elem_of_app, elem_of_list_singleton in Hb'.
        destruct (decide (b' = b)) as [->|Hne'].
        * exists (ax + i). split; [by apply coord_index_nodup, Hc|]. apply F3. rewrite Hd. by eapply lookup_lt_Some.
        * destruct Hb' as [Hb'|]; [|done]. destruct (H3 b' i c Hb' Hi) as (ax' & Hax' & Hr). exists ax'. split; [done|]. rewrite F4; [done|].
          destruct (decide (ax <= ax' < ax + b_dim b)) as [Hin|]; [|lia]. exfalso. apply Hne'.
          destruct (covered coords b ax (ax' - ax) Hn Hpb Hax ltac:(lia)) as (c' & Hc' & Hl & _). replace (ax + (ax' - ax)) with ax' in Hl by lia.
          apply coord_index_Some in Hax' as [Hl' _]. assert (c' = c) as -> by congruence.
          apply (Hs b' b c); [rewrite elem_of_app; by left|rewrite elem_of_app, elem_of_list_singleton; by right|by eapply elem_of_list_lookup_2|done].
      + intros c ax' Hax' Hno. rewrite F4.
        * apply (H4 c ax' Hax'). intros b' Hb'. apply Hno. rewrite elem_of_app. by left.
        * destruct (decide (ax <= ax' < ax + b_dim b)) as [Hin|]; [|lia]. exfalso.
          destruct (covered coords b ax (ax' - ax) Hn Hpb Hax ltac:(lia)) as (c' & Hc' & Hl & _). replace (ax + (ax' - ax)) with ax' in Hl by lia.
          apply coord_index_Some in Hax' as [Hl' _]. assert (c' = c) as -> by congruence.
          apply (Hno b); [rewrite elem_of_app, elem_of_list_singleton; by right|done].
  Qed.
End Fill.
Lemma get_basis_spec coords l : NoDup coords -> (forall b, b ∈ l -> placed coords b) -> separate l ->
  forall c, c ∈ coords -> (forall b, b ∈ l -> has_coord b c -> get_basis coords l c = Some (Some b)) /\
    ((forall b, b ∈ l -> ~ has_coord b c) -> get_basis coords l c = Some None).
Proof.
  intros Hn Hp Hs c Hc. unfold get_basis, full_bases. destruct (fill_spec coords None (fun b (_ : nat) => Some b) Hn l Hp Hs) as (r & H1 & H2 & H3 & H4).
  rewrite H1. cbn. split.
  - intros b Hb Hbc. apply elem_of_list_lookup in Hbc as [i Hi]. destruct (H3 b i c Hb Hi) as (ax & -> & Hr). done.
  - intros Hno. destruct (coord_index coords c) as [ax|] eqn:E; [|by apply coord_index_None in E]. cbn. by eapply H4.
Qed.
Lemma remove_first_elem x l : NoDup l -> forall b, b ∈ remove_first x l <-> b ∈ l /\ b <> x.
Proof.
  induction l as [|y l IH]; intros Hn b; cbn [remove_first].
  - rewrite !elem_of_nil. tauto.
  - apply NoDup_cons in Hn as [Hy Hn]. destruct (decide (y = x)) as [->|Hne].
    + rewrite elem_of_cons. split; [intros H; split; [by right|]; by intros ->|]. intros [[->|H] F]; done.
    + rewrite !elem_of_cons, IH by done. split; [intros [->|[? ?]]; [by split; [left|]|by split; [right|]]|]. intros [[->|?] ?]; [by left|by right].
Qed.

(** ** Systems by axis *)
Lemma cs_by_axis_spec systems : NoDup (dist_coords systems) -> (forall cs, cs ∈ systems -> cs_coords cs <> []) ->
  exists d, cs_by_axis systems = Some d /\ forall cs c ax, cs ∈ systems -> c ∈ cs_coords cs -> dist_coords systems !! ax = Some c -> d !! ax = Some cs.
Proof.
  intros Hn Hne. unfold cs_by_axis.
  assert (forall pre post, systems = pre ++ post -> exists d,
    foldl (fun (acc : option (gmap nat coordsys)) cs => d ← acc; foldl (fun (acc : option (gmap nat coordsys)) sub => d ← acc; axis ← get_axis (dist_coords systems) (cs_coords cs); Some (<[axis + sub := cs]> d)) (Some d) (seq 0 (cs_dim cs))) (Some ∅) pre = Some d /\
    forall cs c ax, cs ∈ pre -> c ∈ cs_coords cs -> dist_coords systems !! ax = Some c -> d !! ax = Some cs) as H.
  2:{ destruct (H systems [] ltac:(by rewrite app_nil_r)) as (d & H1 & H2). by exists d. }
  intros pre. induction pre as [|cs pre IH] using rev_ind; intros post Hsys.
  { exists ∅. split; [done|]. intros cs c ax Hcs. by apply elem_of_nil in Hcs. }
  destruct (IH (cs :: post) ltac:(by rewrite <- app_assoc in Hsys)) as (d & H1 & H2). rewrite foldl_app, H1. cbn [foldl mbind option_bind].
  assert (dist_coords systems = dist_coords pre ++ cs_coords cs ++ dist_coords post) as Hsplit.
  { rewrite Hsys. unfold dist_coords. rewrite !map_app, !concat_app. cbn. by rewrite app_nil_r, <- app_assoc. }
  set (k := length (dist_coords pre)) in *.
  assert (get_axis (dist_coords systems) (cs_coords cs) = Some k) as Hax.
  { unfold get_axis. destruct (cs_coords cs) as [|c l] eqn:E; [exfalso; apply (Hne cs); [rewrite Hsys; rewrite !elem_of_app, elem_of_list_singleton; tauto|done]|].
    cbn. apply coord_index_nodup; [done|]. rewrite Hsplit, lookup_app_r by done. by rewrite Nat.sub_diag. }
  assert (forall n, exists d', foldl (fun (acc : option (gmap nat coordsys)) sub => d ← acc; axis ← get_axis (dist_coords systems) (cs_coords cs); Some (<[axis + sub := cs]> d)) (Some d) (seq 0 n) = Some d' /\
    (forall i, i < n -> d' !! (k + i) = Some cs) /\ (forall i, i < k \/ k + n <= i -> d' !! i = d !! i)) as Hin.
  { induction n as [|n (d' & F1 & F2 & F3)]; [exists d; split; [done|]; split; [lia|done]|].
    rewrite seq_S, foldl_app, F1. cbn [foldl mbind option_bind]. rewrite Hax. cbn [mbind option_bind Nat.add]. eexists. split; [done|]. split.
    - intros i Hi. destruct (decide (i = n)) as [->|]; [by rewrite lookup_insert|]. rewrite lookup_insert_ne by lia. apply F2. lia.
    - intros i Hi. rewrite lookup_insert_ne by lia. apply F3. lia. }
  destruct (Hin (cs_dim cs)) as (d' & F1 & F2 & F3). exists d'. split; [done|]. intros cs' c ax Hcs' Hc Hl.
  assert (k <= ax < k + cs_dim cs <-> c ∈ cs_coords cs) as Hiff.
  { unfold cs_dim. split.
    - intros Hlt. rewrite Hsplit, lookup_app_r in Hl by lia. fold k in Hl. rewrite lookup_app_l in Hl by lia. by eapply elem_of_list_lookup_2.
    - intros (i & Hi)%elem_of_list_lookup. assert (dist_coords systems !! (k + i) = Some c) as Hl2.
      { rewrite Hsplit, lookup_app_r by lia. fold k. replace (k + i - k) with i by lia. rewrite lookup_app_l; [done|]. by eapply lookup_lt_Some. }
      pose proof (NoDup_lookup _ _ _ _ Hn Hl Hl2) as ->. apply lookup_lt_Some in Hi. lia. }
  destruct (decide (k <= ax < k + cs_dim cs)) as [Hr|Hr].
  - replace ax with (k + (ax - k)) by lia. rewrite F2 by lia. f_equal. apply elem_of_app in Hcs' as [Hcs'|Hcs']; [|by apply elem_of_list_singleton in Hcs'].
    exfalso. apply Hiff in Hr. rewrite Hsplit in Hn. apply NoDup_app in Hn as (_ & Hn & _). apply (Hn c).
    + unfold dist_coords. apply elem_of_list_In, in_concat. exists (cs_coords cs'). split; [apply in_map; by apply elem_of_list_In|by apply elem_of_list_In].
    + rewrite elem_of_app. by left.
  - rewrite F3 by lia. apply elem_of_app in Hcs' as [Hcs'|Hcs']; [by eapply H2|]. apply elem_of_list_singleton in Hcs'. subst. tauto.
Qed.
