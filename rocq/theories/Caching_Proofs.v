From stdpp Require Import gmap strings list.
From Verif Require Import Caching_Model Caching_Spec.

Section Functions.
  Context {R : Type}.
  Implicit Types (f : func R) (c : cache R).

  Lemma cache_get_set c k k' r : cache_get (cache_set k r c) k' = if decide (k = k') then Some r else cache_get c k'.
  Proof.
    induction c as [|[k0 r0] c IH]; cbn [cache_set cache_get]; [by destruct (decide (k = k'))|].
    destruct (decide (k0 = k)) as [->|Hne]; cbn [cache_get].
    - by destruct (decide (k = k')).
    - destruct (decide (k0 = k')) as [->|]; [|done]. destruct (decide (k = k')) as [->|]; done.
  Qed.
  Lemma cache_get_suffix (c1 c2 : cache R) k r : NoDup (map fst (c1 ++ c2)) -> cache_get c2 k = Some r -> cache_get (c1 ++ c2) k = Some r.
  Proof.
    induction c1 as [|[k0 r0] c1 IH]; intros Hnd H; [done|]. cbn [app cache_get map] in *. apply NoDup_cons in Hnd as [Hk Hnd].
    destruct (decide (k0 = k)) as [->|]; [|by apply IH]. destruct Hk. cbn. rewrite map_app. apply elem_of_app. right.
    clear -H. induction c2 as [|[k' r'] c2 IH]; [done|]. cbn [cache_get map] in *. destruct (decide (k' = k)) as [->|]; [by left|right; by apply IH].
  Qed.
  Lemma cache_set_keys c k r : forall k', k' ∈ map fst (cache_set k r c) <-> k' = k \/ k' ∈ map fst c.
  Proof.
    induction c as [|[k0 r0] c IH]; intros k'; cbn [cache_set map]; [rewrite elem_of_cons; done|].
    destruct (decide (k0 = k)) as [->|]; cbn [map fst]; rewrite !elem_of_cons, ?IH; tauto.
  Qed.
  Lemma cache_set_nodup c k r : NoDup (map fst c) -> NoDup (map fst (cache_set k r c)).
  Proof.
    induction c as [|[k0 r0] c IH]; intros H; cbn [cache_set map]; [constructor; [apply not_elem_of_nil|constructor]|].
    cbn [map fst] in H. apply NoDup_cons in H as [H1 H2]. destruct (decide (k0 = k)) as [->|Hne]; cbn [map fst]; constructor; [done|done| |by apply IH].
    rewrite cache_set_keys. intros [->|?]; done.
  Qed.
  Lemma cache_set_length c k r : length (cache_set k r c) <= S (length c).
  Proof. induction c as [|[k0 r0] c IH]; cbn [cache_set length]; [done|]. destruct (decide (k0 = k)); cbn [length]; lia. Qed.

  Lemma reduce_suffix m c c' : reduce m c = Some c' -> exists c1, c = c1 ++ c'.
  Proof.
    induction c as [|x c IH]; cbn [reduce]; destruct m as [m|]; cbn [length].
    - destruct (decide (0 < m)); [|done]. intros [= <-]. by exists [].
    - intros [= <-]. by exists [].
    - destruct (decide _); [intros [= <-]; by exists []|]. intros H. apply IH in H as [c1 ->]. by exists (x :: c1).
    - intros [= <-]. by exists [].
  Qed.
  Lemma reduce_positive m c : m <> Some 0 -> is_Some (reduce m c).
  Proof.
    intros Hm. induction c as [|x c IH]; cbn [reduce]; destruct m as [m|]; [|by eexists| |by eexists].
    - cbn. destruct (decide (0 < m)); [by eexists|]. destruct Hm. f_equal. lia.
    - destruct (decide _); [by eexists|done].
  Qed.
  Lemma reduce_length m c c' : reduce (Some m) c = Some c' -> length c' < m.
  Proof. induction c as [|x c IH]; cbn [reduce]; destruct (decide _) as [H|H]; intros E; [by injection E as <-|done|by injection E as <-|by apply IH]. Qed.
  Lemma reduce_get m c c' k r : NoDup (map fst c) -> reduce m c = Some c' -> cache_get c' k = Some r -> cache_get c k = Some r.
  Proof. intros Hn Hr. destruct (reduce_suffix _ _ _ Hr) as [c1 ->]. by apply cache_get_suffix. Qed.
  Lemma reduce_nodup m c c' : NoDup (map fst c) -> reduce m c = Some c' -> NoDup (map fst c').
  Proof. intros Hn Hr. destruct (reduce_suffix _ _ _ Hr) as [c1 ->]. rewrite map_app in Hn. by apply NoDup_app in Hn as (_ & _ & ?). Qed.

  Lemma direct_call_inj args kw args' kw' : direct_call args kw = direct_call args' kw' -> args = args' /\ kw = kw'.
  Proof.
    unfold direct_call. intros H. assert (args = args') as -> by congruence. split; [done|].
    assert (map (fun p : string * val => Tup [Str p.1; p.2]) kw = map (fun p => Tup [Str p.1; p.2]) kw') as E by congruence. clear H.
    revert kw' E. induction kw as [|[n v] kw IH]; intros [|[n' v'] kw'] E; [done..|]. cbn in E. injection E as -> -> E. f_equal. by apply IH.
  Qed.
  Lemma bind_serialize f args kw b : py_bind f args kw = Some b -> serialize_call f args kw = Some b.
  Proof. unfold py_bind, serialize_call. by destruct (decide _). Qed.
  Lemma bind_length f args kw b : py_bind f args kw = Some b -> length b = length (names f).
  Proof.
    unfold py_bind. destruct (decide _) as [[Hl _]|]; [|done]. intros (rest & Hr & [= <-])%bind_Some.
    apply mapM_length in Hr. rewrite app_length, <- Hr, drop_length. lia.
  Qed.

  (** ** Values *)
  Section Inv.
    Variables (f : func R) (m : option nat) (fine : list val -> Prop).
    Hypothesis Hfine : forall b args kw, fine b -> Tup b <> direct_call args kw.
    Hypothesis Hm : m <> Some 0.
    Record cinv c : Prop := Cinv {
      c_nodup : NoDup (map fst c);
      c_values : forall k r, cache_get c k = Some r -> exists args kw b, py_bind f args kw = Some b /\ fine b /\ body f b = Val r /\ (k = direct_call args kw \/ k = Tup b) }.
    Lemma cinv_set c args kw b k r : cinv c -> py_bind f args kw = Some b -> fine b -> body f b = Val r -> k = direct_call args kw \/ k = Tup b ->
      cinv (cache_set k r c).
    Proof using. 
      intros [H1 H2] Hb Hf Hv Hk. split; [by apply cache_set_nodup|]. intros k' r'. rewrite cache_get_set. destruct (decide (k = k')) as [<-|]; [|apply H2].
      intros [= <-]. by exists args, kw, b.
    Qed.
    Lemma cached_call_value c args kw b : cinv c -> py_bind f args kw = Some b -> fine b ->
      let '(c', o, _) := cached_call f m c args kw in cinv c' /\ o = body f b.
    Proof using Hfine Hm.
      intros Hc Hb Hf. unfold cached_call. destruct (cache_get c (direct_call args kw)) as [r|] eqn:E1.
      { split; [done|]. destruct (c_values _ Hc _ _ E1) as (args' & kw' & b' & Hb' & Hf' & Hv' & [F|F]).
        - apply direct_call_inj in F as [<- <-]. congruence.
        - by destruct (Hfine b' args kw Hf'). }
      rewrite (bind_serialize _ _ _ _ Hb). destruct (cache_get c (Tup b)) as [r|] eqn:E2.
      { destruct (c_values _ Hc _ _ E2) as (args' & kw' & b' & Hb' & Hf' & Hv' & [F|F]); [by destruct (Hfine b args' kw' Hf)|].
        injection F as <-. split; [|done]. eapply cinv_set; [done|exact Hb|done|done|by left]. }
      destruct (reduce_positive m c Hm) as [c1 Hc1]. rewrite Hc1.
      assert (cinv c1) as H1.
      { split; [by eapply reduce_nodup; [apply Hc|]|]. intros k r Hk. eapply (c_values _ Hc), reduce_get; [apply Hc|done|done]. }
      unfold py_call. rewrite Hb. destruct (body f b) as [r|e] eqn:Ev; [|done]. split; [|done].
      eapply cinv_set; [|exact Hb|done|done|by right]. eapply cinv_set; [done|exact Hb|done|done|by left].
    Qed.
    Lemma cinv_nil : cinv [].
    Proof using. split; [constructor|done]. Qed.
    Lemma calls_values h : forall c, cinv c -> (forall x, x ∈ h -> exists b, py_bind f x.1 x.2 = Some b /\ fine b) ->
      let '(c', os, _) := calls f m c h in cinv c' /\ os = map (fun x => py_call f x.1 x.2) h.
    Proof using Hfine Hm.
      induction h as [|x h IH]; intros c Hc Hh; cbn [calls]; [done|]. destruct (Hh x ltac:(by left)) as (b & Hb & Hf).
      pose proof (cached_call_value c x.1 x.2 b Hc Hb Hf) as Hx. destruct (cached_call f m c x.1 x.2) as [[c1 o] computed]. destruct Hx as [H1 ->].
      specialize (IH c1 H1 ltac:(intros y Hy; apply Hh; by right)). destruct (calls f m c1 h) as [[c2 os] log]. destruct IH as [H2 ->].
      split; [done|]. cbn [map]. f_equal. unfold py_call. by rewrite Hb.
    Qed.
  End Inv.

  Lemma fine_length f b args kw : length (names f) <> 2 -> length b = length (names f) -> Tup b <> direct_call args kw.
  Proof. intros Hl Hb E. injection E as ->. cbn in Hb. lia. Qed.
  Lemma fine_second b args kw : ~ second_is_tuple b -> Tup b <> direct_call args kw.
  Proof. intros Hb E. injection E as ->. apply Hb. by eexists _, _. Qed.

  (** ** Unlimited caches compute once *)
  Lemma cached_call_grows f c args kw k : is_Some (cache_get c k) -> is_Some (cache_get (cached_call f None c args kw).1.1 k).
  Proof.
    intros H. unfold cached_call. destruct (cache_get c (direct_call args kw)) as [r|]; [done|].
    destruct (serialize_call f args kw) as [b|]; [|done]. destruct (cache_get c (Tup b)) as [r|].
    { cbn. rewrite cache_get_set. destruct (decide _); [by eexists|done]. }
    assert (reduce None c = Some c) as -> by (by destruct c). destruct (py_call f args kw); [|done]. cbn. rewrite !cache_get_set.
    destruct (decide _); [by eexists|]. destruct (decide _); [by eexists|done].
  Qed.
  Lemma calls_once f h : forall c, (forall b, exists r, body f b = Val r) -> (forall x, x ∈ h -> accepted f x) ->
    NoDup (omap (fun x => py_bind f x.1 x.2) (calls f None c h).2) /\
    forall b, b ∈ omap (fun x => py_bind f x.1 x.2) (calls f None c h).2 -> cache_get c (Tup b) = None.
  Proof.
    induction h as [|x h IH]; intros c Hb Hh; cbn [calls].
    { split; [constructor|]. intros b H. by apply elem_of_nil in H. }
    destruct (Hh x ltac:(by left)) as [b Hx].
    pose proof (cached_call_grows f c x.1 x.2) as Hg.
    assert (forall c' o, cached_call f None c x.1 x.2 = (c', o, true) -> cache_get c (Tup b) = None /\ is_Some (cache_get c' (Tup b))) as Hcomp.
    { intros c' o. unfold cached_call. destruct (cache_get c (direct_call x.1 x.2)); [done|]. rewrite (bind_serialize _ _ _ _ Hx).
      destruct (cache_get c (Tup b)); [done|]. assert (reduce None c = Some c) as -> by (by destruct c).
      unfold py_call. rewrite Hx. destruct (Hb b) as [r ->]. intros [= <- <-]. split; [done|]. rewrite cache_get_set, decide_True by done. by eexists. }
    destruct (cached_call f None c x.1 x.2) as [[c1 o] computed]. cbn [fst] in Hg.
    destruct (IH c1 Hb ltac:(intros y Hy; apply Hh; by right)) as [I1 I2]. destruct (calls f None c1 h) as [[c2 os] log]. cbn [snd] in *.
    assert (forall b', b' ∈ omap (fun x => py_bind f x.1 x.2) log -> cache_get c (Tup b') = None) as H2.
    { intros b' Hb'. specialize (I2 b' Hb'). destruct (cache_get c (Tup b')) as [r|] eqn:E; [|done]. destruct (Hg (Tup b')) as [r' Hr']; [by eexists|congruence]. }
    destruct computed; [|done]. destruct (Hcomp c1 o eq_refl) as [F1 F2]. cbn [omap list_omap]. rewrite Hx. split.
    - constructor; [|done]. intros Hin. specialize (I2 b Hin). destruct F2. congruence.
    - intros b' [->|H]%elem_of_cons; [done|by apply H2].
  Qed.
End Functions.

(** ** Methods *)
Lemma method_calls_values {R} (methods : string -> func R) m h : m <> Some 0 ->
  (forall i name args kw, (i, name, args, kw) ∈ h -> is_Some (py_bind (methods name) (Atom (Z.of_nat i) :: args) kw)) ->
  (method_calls methods m ∅ h).2 = map (fun x : method_call_t => let '(i, name, args, kw) := x in py_call (methods name) (Atom (Z.of_nat i) :: args) kw) h.
Proof.
  intros Hm. set (fine := fun b : list val => exists i l, b = Atom i :: l).
  assert (forall b args kw, fine b -> Tup b <> direct_call args kw) as Hfine by (intros b args kw (i & l & ->); done).
  assert (forall st, (forall i name c, st !! (i, name) = Some c -> cinv (methods name) fine c) ->
    (forall i name args kw, (i, name, args, kw) ∈ h -> is_Some (py_bind (methods name) (Atom (Z.of_nat i) :: args) kw)) ->
    (method_calls methods m st h).2 = map (fun x : method_call_t => let '(i, name, args, kw) := x in py_call (methods name) (Atom (Z.of_nat i) :: args) kw) h) as H.
  { induction h as [|[[[i name] args] kw] h IH]; intros st Hst Hh; cbn [method_calls map]; [done|].
    destruct (Hh i name args kw ltac:(by left)) as [b Hb]. unfold method_call.
    assert (fine b) as Hf.
    { unfold py_bind in Hb. destruct (decide _); [|done]. apply bind_Some in Hb as (rest & _ & [= <-]). by eexists _, _. }
    pose proof (cached_call_value (methods name) m fine Hfine Hm (default [] (st !! (i, name))) (Atom (Z.of_nat i) :: args) kw b) as Hx.
    specialize (Hx ltac:(destruct (st !! (i, name)) as [c|] eqn:E; [by eapply Hst|apply cinv_nil]) Hb Hf).
    destruct (cached_call (methods name) m (default [] (st !! (i, name))) (Atom (Z.of_nat i) :: args) kw) as [[c o] computed]. destruct Hx as [H1 ->].
    specialize (IH (<[(i, name) := c]> st)). destruct (method_calls methods m (<[(i, name):=c]> st) h) as [st' os]. cbn [snd] in *.
    rewrite IH.
    - f_equal. unfold py_call. by rewrite Hb.
    - intros i' name' c' Hl. unfold method_state in *. apply lookup_insert_Some in Hl as [[E1 E2]|[_ E]]; [|by eapply Hst].
      injection E1 as <- <-. by subst.
    - intros i' name' args' kw' Hin. apply Hh. by right. }
  intros Hh. apply H; [|done]. intros i name c Hl. unfold method_state in *. by rewrite lookup_empty in Hl.
Qed.

(** ** Classes *)
Record classinv (st : class_state) : Prop := ClassInv {
  ci_fresh : forall i k, made st !! i = Some k -> i < next_id st;
  ci_made : forall k i, (k, i) ∈ instances st -> made st !! i = Some k;
  ci_keys : forall k i i', (k, i) ∈ instances st -> (k, i') ∈ instances st -> i = i' }.
Lemma instance_get_Some l k i : instance_get l k = Some i -> (k, i) ∈ l.
Proof.
  unfold instance_get. destruct (list_find _ l) as [[n x]|] eqn:E; [|done]. intros [= <-]. apply list_find_Some in E as (E & Hx & _).
  destruct x as [k' i]. cbn in *. subst. by eapply elem_of_list_lookup_2.
Qed.
Lemma instance_get_None l k i : instance_get l k = None -> (k, i) ∉ l.
Proof.
  unfold instance_get. destruct (list_find _ l) as [[n x]|] eqn:E; [done|]. intros _. apply list_find_None in E. rewrite Forall_forall in E.
  intros Hin. by apply (E (k, i) Hin).
Qed.
Lemma collect_inv ids st : classinv st -> classinv (collect ids st).
Proof.
  intros [H1 H2 H3]. split; [exact H1|intros k i Hin|intros k i i' Hi Hi']; cbn [instances collect] in *; rewrite elem_of_list_filter in *.
  - apply H2. by destruct Hin.
  - eapply H3; [by destruct Hi|by destruct Hi'].
Qed.
Lemma construct_spec c st args kw gc : classinv st -> let '(st', o) := construct c st args kw gc in
  classinv st' /\ (forall i k, made st !! i = Some k -> made st' !! i = Some k) /\
  (forall i, o = Val i -> exists k, full_args c args kw = Val k /\ made st' !! i = Some k /\ (k, i) ∈ instances st') /\
  (forall k i, (k, i) ∈ instances st -> i ∉ gc -> (k, i) ∈ instances st' /\ (full_args c args kw = Val k -> o = Val i)).
Proof.
  intros Hs. unfold construct, full_args. destruct (py_bind (init c) args kw) as [full|]; [|done].
  destruct (preprocess c full) as [key|e]; [|done].
  destruct (instance_get (instances st) key) as [i0|] eqn:E.
  - destruct (instance_get (instances (collect gc st)) key) as [i|] eqn:E2.
    + assert ((key, i) ∈ instances (collect gc st)) as Hin by (by apply instance_get_Some).
      assert (classinv (collect gc st)) as Hc by (by apply collect_inv).
      split; [done|]. split; [done|]. split.
      * intros i' [= <-]. exists key. split; [done|]. split; [by apply (ci_made _ Hc)|done].
      * intros k i' Hk Hgc. assert ((k, i') ∈ instances (collect gc st)) as Hk' by (cbn; by apply elem_of_list_filter).
        split; [done|]. intros [= <-]. f_equal. by eapply (ci_keys _ Hc).
    + split; [by apply collect_inv|]. split; [done|]. split; [done|]. intros k i' Hk Hgc.
      assert ((k, i') ∈ instances (collect gc st)) as Hk' by (cbn; by apply elem_of_list_filter). split; [done|].
      intros [= <-]. by apply (instance_get_None _ _ i') in E2.
  - cbn zeta. assert (classinv (collect gc st)) as Hc by (by apply collect_inv). cbn [next_id collect].
    assert (forall i k, made st !! i = Some k -> i <> next_id st) as Hlt by (intros i k Hi; apply (ci_fresh _ Hs) in Hi; lia).
    split; [split|split; [|split]].
    + cbn. intros i k [[<- _]|[_ Hi]]%lookup_insert_Some; [lia|]. apply (ci_fresh _ Hs) in Hi. lia.
    + cbn [instances made collect]. intros k i [[= -> ->]|Hin]%elem_of_cons; [by rewrite lookup_insert|].
      assert (made st !! i = Some k) as Hi by (by apply (ci_made _ Hc)). rewrite lookup_insert_ne; [done|]. intros F. by apply (Hlt i k).
    + cbn [instances]. intros k i i' H1 H2. apply elem_of_cons in H1 as [H1|H1], H2 as [H2|H2].
      * congruence.
      * injection H1 as -> ->. cbn in H2. apply elem_of_list_filter in H2 as [_ H2]. by apply (instance_get_None _ _ i') in E.
      * injection H2 as -> ->. cbn in H1. apply elem_of_list_filter in H1 as [_ H1]. by apply (instance_get_None _ _ i) in E.
      * by eapply (ci_keys _ Hc).
    + intros i k Hi. cbn. rewrite lookup_insert_ne; [done|]. intros F. by apply (Hlt i k).
    + intros i [= <-]. exists key. split; [done|]. cbn. rewrite lookup_insert. split; [done|]. by left.
    + intros k i Hk Hgc. split; [cbn; right; by apply elem_of_list_filter|]. intros [= <-]. by apply (instance_get_None _ _ i) in E.
Qed.
Lemma class_run_spec c es : forall st, classinv st ->
  classinv (class_run c st es) /\ (forall i k, made st !! i = Some k -> made (class_run c st es) !! i = Some k) /\
  (forall k i, (k, i) ∈ instances st -> (forall e, e ∈ es -> i ∉ collected e) -> (k, i) ∈ instances (class_run c st es)).
Proof.
  induction es as [|e es IH]; intros st Hs; [done|]. cbn [class_run foldl].
  assert (classinv (class_step c st e) /\ (forall i k, made st !! i = Some k -> made (class_step c st e) !! i = Some k) /\
    (forall k i, (k, i) ∈ instances st -> i ∉ collected e -> (k, i) ∈ instances (class_step c st e))) as (H1 & H2 & H3).
  { destruct e as [args kw gc|ids]; cbn [class_step collected].
    - pose proof (construct_spec c st args kw gc Hs) as H. destruct (construct c st args kw gc) as [st' o]. destruct H as (A & B & _ & D).
      split; [done|]. split; [done|]. intros k i Hk Hg. by apply D.
    - split; [by apply collect_inv|]. split; [done|]. intros k i Hk Hi. cbn. by apply elem_of_list_filter. }
  destruct (IH _ H1) as (I1 & I2 & I3). split; [done|]. split; [auto|]. intros k i Hk He. apply I3; [|intros e' He'; apply He; by right].
  apply H3; [done|]. apply He. by left.
Qed.

(** ** Overridden methods *)
Lemma layered_single {R} (layers : list (layer R)) bottom : length layers <= 1 \/ (exists l rest, layers = l :: rest /\ calls_super l = false) ->
  forall h c, (forall b r, (b, r) ∈ c -> r = chain_value layers bottom b) ->
  layered_calls layers bottom (Some (0, c)) h = map (chain_value layers bottom) h.
Proof.
  intros Hl. assert (forall b c, run_layer layers 0 b bottom (Some (0, c)) = (chain_value layers bottom b, Some (0, c))) as Hrun.
  { intros b c. destruct Hl as [Hl|(l & rest & -> & Hs)]; [|cbn; by rewrite Hs]. destruct layers as [|l [|l' layers]]; [done| |cbn in Hl; lia].
    cbn. by destruct (calls_super l). }
  induction h as [|b h IH]; intros c Hc; cbn [layered_calls map]; [done|]. unfold layered_call.
  destruct (list_find _ c) as [[n [b' r]]|] eqn:E.
  - apply list_find_Some in E as (E & Hb & _). cbn in Hb. subst b'. apply elem_of_list_lookup_2, Hc in E as ->. f_equal. by apply IH.
  - rewrite drop_0, Hrun. rewrite decide_True by done. f_equal. apply IH. intros b' r [[= -> ->]|H]%elem_of_cons; [done|by apply Hc].
Qed.
