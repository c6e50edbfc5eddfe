From stdpp Require Import list sorting sets.
From Verif Require Import Dispatch_Model Dispatch_Spec.

Section Filters.
  Context {X : Type} (p : X -> bool).
  Lemma filter_nil l : List.filter p l = [] <-> forall x, x ∈ l -> p x = false.
  Proof.
    induction l as [|x l IH]; cbn.
    - split; [|done]. intros _ y Hy. by apply elem_of_nil in Hy.
    - destruct (p x) eqn:E.
      + split; [done|]. intros H. specialize (H x ltac:(by left)). congruence.
      + rewrite IH. split; [|intros H y Hy; apply H; by right]. intros H y [->|Hy]%elem_of_cons; auto.
  Qed.
  Lemma filter_elem x l : x ∈ List.filter p l <-> x ∈ l /\ p x = true.
  Proof. rewrite !elem_of_list_In. apply filter_In. Qed.
  Lemma filter_cons_inv l x acc : List.filter p l = x :: acc -> exists l1 l2, l = l1 ++ x :: l2 /\ p x = true /\ (forall y, y ∈ l1 -> p y = false) /\ List.filter p l2 = acc.
  Proof.
    induction l as [|y l IH]; cbn; [done|]. destruct (p y) eqn:E.
    - intros [= -> <-]. exists [], l. split; [done|]. split; [done|]. split; [|done]. intros z Hz. by apply elem_of_nil in Hz.
    - intros H. destruct (IH H) as (l1 & l2 & -> & Hx & H1 & H2). exists (y :: l1), l2. split; [done|]. split; [done|]. split; [|done].
      intros z [->|Hz]%elem_of_cons; auto.
  Qed.
  Lemma filter_single l x : List.filter p l = [x] <-> exists l1 l2, l = l1 ++ x :: l2 /\ p x = true /\ forall y, y ∈ l1 ++ l2 -> p y = false.
  Proof.
    split.
    - intros (l1 & l2 & -> & Hx & H1 & H2)%filter_cons_inv. exists l1, l2. split; [done|]. split; [done|].
      rewrite filter_nil in H2. intros y [Hy|Hy]%elem_of_app; auto.
    - intros (l1 & l2 & -> & Hx & H). rewrite List.filter_app. cbn. rewrite Hx.
      assert (List.filter p l1 = []) as -> by (apply filter_nil; intros y Hy; apply H, elem_of_app; by left).
      assert (List.filter p l2 = []) as -> by (apply filter_nil; intros y Hy; apply H, elem_of_app; by right). done.
  Qed.
  Lemma filter_several l : (exists x y acc, List.filter p l = x :: y :: acc) <-> exists l1 x l2 y l3, l = l1 ++ x :: l2 ++ y :: l3 /\ p x = true /\ p y = true.
  Proof.
    split.
    - intros (x & y & acc & (l1 & l2 & -> & Hx & _ & (l3 & l4 & -> & Hy & _ & _)%filter_cons_inv)%filter_cons_inv). by exists l1, x, l3, y, l4.
    - intros (l1 & x & l2 & y & l3 & -> & Hx & Hy). rewrite List.filter_app. cbn [List.filter]. rewrite Hx, List.filter_app. cbn [List.filter]. rewrite Hy.
      destruct (List.filter p l1) as [|z [|z' r]]; cbn; [|by eexists _, _, _..].
      destruct (List.filter p l2) as [|z r]; cbn; by eexists _, _, _.
  Qed.
  Lemma filter_perm l l' : l ≡ₚ l' -> List.filter p l ≡ₚ List.filter p l'.
  Proof.
    induction 1 as [|x l l' _ IH|x y l|l l' l'' _ IH1 _ IH2]; cbn; [done| | |by etrans].
    - destruct (p x); [by constructor|done].
    - destruct (p x), (p y); try done. constructor.
  Qed.
End Filters.

Section Proofs.
  Context {A O E : Type}.
  Notation cls := (cls A O E).
  Implicit Types (t s : cls).

  Lemma cls_ind' (P : cls -> Prop) : (forall t, (forall s, s ∈ cls_subs t -> P s) -> P t) -> forall t, P t.
  Proof.
    intros H. fix IH 1. intros [n st pre check post make subs]. apply H. cbn.
    apply Forall_forall. induction subs as [|s subs IHs]; constructor; [apply IH|apply IHs].
  Qed.

  Definition starts s := negb (cls_stop s).
  Definition accepts (b : A) s := match cls_check s b with Ret true => true | _ => false end.
  Definition chosen (b : A) s := starts s && accepts b s.
  Fixpoint verdict (l : list cls) (b : A) : step O E (list cls) :=
    match l with
    | [] => Ret []
    | s :: l => match cls_check s b with
      | Skip o => Skip o | Raised e => Raised e
      | Ret r => match verdict l b with Ret acc => Ret (if (r : bool) then s :: acc else acc) | Skip o => Skip o | Raised e => Raised e end
      end
    end.
  Definition outcome_of (l : list cls) (b : A) : result A O E :=
    match verdict l b with
    | Skip o => Output o | Raised e => Error e
    | Ret [] => NoSubclass | Ret [s] => dispatch s (cls_post s b) | Ret _ => Degenerate
    end.
  Definition make_leaf t (b : A) : result A O E :=
    match cls_check t b with
    | Ret true => match cls_make t b with Ret _ => Instance (cls_name t) b | Skip o => Output o | Raised e => Error e end
    | Ret false => CheckFailed | Skip o => Output o | Raised e => Error e
    end.

  Lemma passlist_verdict (l : list cls) b :
    passlist (map snd (map (fun s => (cls_stop s, (cls_check s, fun a => dispatch s (cls_post s a)))) l)) b =
    match verdict l b with Ret acc => Ret (map (fun s a => dispatch s (cls_post s a)) acc) | Skip o => Skip o | Raised e => Raised e end.
  Proof.
    induction l as [|s l IH]; [done|]. cbn. destruct (cls_check s b) as [[|]| |]; [|done..| |done|done]; cbn in IH; rewrite IH; by destruct (verdict l b).
  Qed.
  Lemma dispatch_unfold t a : dispatch t a =
    match cls_pre t a with
    | Skip o => Output o | Raised e => Error e
    | Ret b => match List.filter starts (cls_subs t) with [] => make_leaf t b | l => outcome_of l b end
    end.
  Proof.
    destruct t as [n st pre check post make subs]. cbn [dispatch cls_pre cls_subs]. destruct (pre a) as [b| |]; [|done..].
    assert (forall l, List.filter (fun x : bool * ((A -> step O E bool) * (A -> result A O E)) => negb x.1)
      (map (fun s => (cls_stop s, (cls_check s, fun a => dispatch s (cls_post s a)))) l) =
      map (fun s => (cls_stop s, (cls_check s, fun a => dispatch s (cls_post s a)))) (List.filter starts l)) as Hf.
    { induction l as [|s l IH]; [done|]. cbn. unfold starts at 1. destruct (negb (cls_stop s)); cbn; by rewrite IH. }
    rewrite Hf. destruct (List.filter starts subs) as [|s l] eqn:El; [done|]. rewrite <- El. unfold outcome_of.
    pose proof (passlist_verdict (List.filter starts subs) b) as Hp. rewrite El in Hp |- *. cbn [map] in Hp |- *. rewrite Hp.
    destruct (verdict (s :: l) b) as [[|x [|y acc]]| |]; done.
  Qed.

  Lemma verdict_cases l b :
    (exists s, s ∈ l /\ (forall r, cls_check s b <> Ret r) /\ verdict l b = match cls_check s b with Ret r => Ret [] | Skip o => Skip o | Raised e => Raised e end) \/
    ((forall s, s ∈ l -> exists r, cls_check s b = Ret r) /\ verdict l b = Ret (List.filter (accepts b) l)).
  Proof.
    induction l as [|s l IH]; cbn [verdict].
    { right. split; [|done]. intros s Hs. by apply elem_of_nil in Hs. }
    destruct (cls_check s b) as [r|o|e] eqn:Es.
    - destruct IH as [(s' & Hs' & Ha & ->)|[Hr ->]].
      + left. exists s'. split; [by right|]. split; [done|]. destruct (cls_check s' b) as [r'| |]; [by destruct (Ha r')|done..].
      + right. split; [intros s' [->|Hs']%elem_of_cons; [by eexists|by apply Hr]|]. cbn. assert (accepts b s = r) as -> by (unfold accepts; rewrite Es; by destruct r). by destruct r.
    - left. exists s. split; [by left|]. rewrite Es. by split.
    - left. exists s. split; [by left|]. rewrite Es. by split.
  Qed.
  Lemma filter_chosen b (l : list cls) : List.filter (accepts b) (List.filter starts l) = List.filter (chosen b) l.
  Proof.
    induction l as [|s l IH]; [done|]. cbn. unfold chosen at 1. destruct (starts s); cbn; [|done]. destruct (accepts b s); [by f_equal|done].
  Qed.
  Lemma starts_true s : starts s = true <-> cls_stop s = false.
  Proof. unfold starts. by destruct (cls_stop s). Qed.
  Lemma accepts_true b s : accepts b s = true <-> cls_check s b = Ret true.
  Proof. unfold accepts. destruct (cls_check s b) as [[|]| |]; done. Qed.
  Lemma chosen_true b s : chosen b s = true <-> cls_stop s = false /\ cls_check s b = Ret true.
  Proof. unfold chosen. by rewrite andb_true_iff, starts_true, accepts_true. Qed.
  Lemma leaf_filter t : leaf t <-> List.filter starts (cls_subs t) = [].
  Proof.
    rewrite filter_nil. unfold leaf, starts. split; intros H s Hs; specialize (H s Hs); by destruct (cls_stop s).
  Qed.
  Lemma live_filter t s : live t s <-> s ∈ List.filter starts (cls_subs t).
  Proof. rewrite filter_elem. by rewrite starts_true. Qed.

  (** One level, as in the specification. *)
  Lemma one_choice t b l1 s l2 : cls_subs t = l1 ++ s :: l2 -> cls_stop s = false -> cls_check s b = Ret true ->
    (forall s', s' ∈ l1 ++ l2 -> cls_stop s' = false -> cls_check s' b = Ret false) ->
    exists x l, List.filter starts (cls_subs t) = x :: l /\ outcome_of (x :: l) b = dispatch s (cls_post s b).
  Proof.
    intros Hl Hs Hc Ho. destruct (List.filter starts (cls_subs t)) as [|x l] eqn:EE.
    { apply (proj2 (leaf_filter t)) in EE. specialize (EE s ltac:(rewrite Hl; set_solver)). congruence. }
    exists x, l. split; [done|]. rewrite <- EE. unfold outcome_of.
    destruct (verdict_cases (List.filter starts (cls_subs t)) b) as [(s' & Hs' & Ha & _)|[_ ->]].
    - exfalso. apply filter_elem in Hs' as [Hs' Hst]. apply starts_true in Hst. rewrite Hl, elem_of_app, elem_of_cons in Hs'.
      destruct Hs' as [H|[->|H]]; [|by destruct (Ha true)|]; (destruct (Ha false); apply Ho; [apply elem_of_app; auto|done]).
    - rewrite filter_chosen. assert (List.filter (chosen b) (cls_subs t) = [s]) as ->; [|done]. apply filter_single. exists l1, l2. split; [done|].
      split; [by apply chosen_true|]. intros y Hy. destruct (chosen b y) eqn:Ey; [|done]. apply chosen_true in Ey as [F1 F2]. rewrite (Ho y Hy F1) in F2. congruence.
  Qed.
  Lemma choice_inv t b acc : verdict (List.filter starts (cls_subs t)) b = Ret acc ->
    (forall s, live t s -> exists r, cls_check s b = Ret r) /\ acc = List.filter (chosen b) (cls_subs t).
  Proof.
    intros H. destruct (verdict_cases (List.filter starts (cls_subs t)) b) as [(s' & Hs' & Ha & Hv)|[Hr Hv]]; rewrite Hv in H.
    - destruct (cls_check s' b) as [r| |]; [by destruct (Ha r)|done..].
    - rewrite filter_chosen in H. split; [|congruence]. intros s Hs. apply Hr. by apply live_filter.
  Qed.
  Lemma unique_others t b s l1 l2 : (forall s, live t s -> exists r, cls_check s b = Ret r) -> cls_subs t = l1 ++ s :: l2 ->
    (forall y, y ∈ l1 ++ l2 -> chosen b y = false) -> forall s', s' ∈ l1 ++ l2 -> cls_stop s' = false -> cls_check s' b = Ret false.
  Proof.
    intros Hr Hl Hy s' Hs' Hst. destruct (Hr s') as [[|] F]; [split; [rewrite Hl; set_solver|done]| |done].
    exfalso. specialize (Hy s' Hs'). assert (chosen b s' = true) by (by apply chosen_true). congruence.
  Qed.

  Lemma resolves_dispatch t a n c : resolves t a n c -> dispatch t a = Instance n c.
  Proof.
    induction 1 as [t a b Hp Hl Hc Hm|t a b l1 s l2 n c Hp Hl Hs Hc Ho _ IH]; rewrite dispatch_unfold, Hp.
    - apply leaf_filter in Hl. rewrite Hl. unfold make_leaf. by rewrite Hc, Hm.
    - destruct (one_choice t b l1 s l2 Hl Hs Hc Ho) as (x & l & -> & ->). done.
  Qed.
  Lemma dispatch_resolves t : forall a n c, dispatch t a = Instance n c -> resolves t a n c.
  Proof.
    induction t as [t IH] using cls_ind'. intros a n c. rewrite dispatch_unfold. destruct (cls_pre t a) as [b| |] eqn:Hp; [|done..].
    destruct (List.filter starts (cls_subs t)) as [|x l] eqn:EE.
    - unfold make_leaf. destruct (cls_check t b) as [[|]| |] eqn:Hc; [|done..]. destruct (cls_make t b) as [[]| |] eqn:Hm; [|done..].
      intros [= <- <-]. apply Resolves_leaf; try done. by apply leaf_filter.
    - rewrite <- EE. unfold outcome_of. destruct (verdict _ b) as [[|s [|s' acc]]| |] eqn:Hv; [done| |done..].
      intros Hd. destruct (choice_inv t b _ Hv) as [Hr Hf]. symmetry in Hf. apply filter_single in Hf as (l1 & l2 & Hl & Hs & Ho).
      apply chosen_true in Hs as [Hs1 Hs2]. eapply Resolves_sub; [done|exact Hl|done|done|by eapply unique_others|].
      apply IH; [rewrite Hl; set_solver|done].
  Qed.

  Lemma stuck_dispatch several t a : stuck several t a -> dispatch t a = if several then Degenerate else NoSubclass.
  Proof.
    induction 1 as [t a b Hp Hl Hr Hc|t a b l1 s l2 Hp Hl Hs Hc Ho _ IH]; rewrite dispatch_unfold, Hp.
    - destruct (List.filter starts (cls_subs t)) as [|x l] eqn:EE; [by destruct Hl; apply leaf_filter|]. rewrite <- EE. unfold outcome_of.
      destruct (verdict_cases (List.filter starts (cls_subs t)) b) as [(s' & Hs' & Ha & _)|[_ ->]].
      { exfalso. destruct (Hr s') as [r Hr']; [by apply live_filter|]. by destruct (Ha r). }
      rewrite filter_chosen. destruct several.
      + destruct Hc as (l1 & s1 & l2 & s2 & l3 & Hs & H1 & H2 & H3 & H4).
        destruct (proj2 (filter_several (chosen b) (cls_subs t))) as (y & z & acc & ->); [|done].
        exists l1, s1, l2, s2, l3. by rewrite !chosen_true.
      + assert (List.filter (chosen b) (cls_subs t) = []) as ->; [|done]. apply filter_nil. intros y Hy. destruct (chosen b y) eqn:Ey; [|done].
        apply chosen_true in Ey as [F1 F2]. rewrite (Hc y) in F2; [done|by split].
    - destruct (one_choice t b l1 s l2 Hl Hs Hc Ho) as (x & l & -> & ->). done.
  Qed.
  Lemma dispatch_stuck (several : bool) t : forall a, dispatch t a = (if several then Degenerate else NoSubclass) -> stuck several t a.
  Proof.
    induction t as [t IH] using cls_ind'. intros a. rewrite dispatch_unfold. destruct (cls_pre t a) as [b| |] eqn:Hp; [|by destruct several..].
    destruct (List.filter starts (cls_subs t)) as [|x l] eqn:EE.
    { unfold make_leaf. destruct (cls_check t b) as [[|]| |]; [destruct (cls_make t b)|..]; by destruct several. }
    assert (~ leaf t) as Hl by (rewrite leaf_filter, EE; done).
    rewrite <- EE. unfold outcome_of. destruct (verdict _ b) as [acc| |] eqn:Hv; [|by destruct several..].
    destruct (choice_inv t b _ Hv) as [Hr Hf]. destruct acc as [|s [|s' acc]].
    - destruct several; [done|]. intros _. eapply Stuck_here; try done. intros s Hs. destruct (Hr s Hs) as [[|] F]; [|done].
      exfalso. symmetry in Hf. apply (proj1 (filter_nil _ _)) with (x := s) in Hf; [|by destruct Hs]. assert (chosen b s = true) by (apply chosen_true; split; [by destruct Hs|done]). congruence.
    - intros Hd. symmetry in Hf. apply filter_single in Hf as (l1 & l2 & Hl' & Hs & Ho). apply chosen_true in Hs as [Hs1 Hs2].
      eapply Stuck_sub; [done|exact Hl'|done|done|by eapply unique_others|]. apply IH; [rewrite Hl'; set_solver|done].
    - destruct several; [|done]. intros _. eapply Stuck_here; try done.
      destruct (proj1 (filter_several (chosen b) (cls_subs t))) as (l1 & s1 & l2 & s2 & l3 & Hs & F1 & F2); [by eexists _, _, _|].
      rewrite chosen_true in F1, F2. exists l1, s1, l2, s2, l3. tauto.
  Qed.

  (** ** Order *)
  Definition alike (s s' : cls) : Prop := cls_stop s = cls_stop s' /\ cls_check s = cls_check s' /\ cls_post s = cls_post s' /\ forall a, dispatch s a = dispatch s' a.
  Lemma filter_alike l l' : Forall2 alike l l' -> Forall2 alike (List.filter starts l) (List.filter starts l').
  Proof.
    induction 1 as [|s s' l l' Hs _ IH]; [constructor|]. cbn.
    assert (starts s = starts s') as -> by (unfold starts; destruct Hs as [H1 _]; by rewrite H1). destruct (starts s'); [by constructor|done].
  Qed.
  Lemma outcome_alike l l' b : Forall2 alike l l' -> outcome_of l b = outcome_of l' b.
  Proof.
    intros H. assert (match verdict l b, verdict l' b with Ret x, Ret y => Forall2 alike x y | Skip o, Skip o' => o = o' | Raised e, Raised e' => e = e' | _, _ => False end) as Hv.
    { induction H as [|s s' l l' Hs Hl IH]; cbn [verdict]; [constructor|]. destruct Hs as (H1 & H2 & H3 & H4). rewrite <- H2.
      destruct (cls_check s b) as [r| |]; [|done..]. destruct (verdict l b), (verdict l' b); try done. destruct r; [|done]. constructor; [done|done]. }
    unfold outcome_of. destruct (verdict l b) as [acc| |], (verdict l' b) as [acc'| |]; try done; [|congruence..].
    destruct Hv as [|s s' acc acc' Hs Hacc]; [done|]. destruct Hacc; [|done]. destruct Hs as (H1 & H2 & H3 & H4). by rewrite H3, H4.
  Qed.
  Lemma outcome_perm l l' b : l ≡ₚ l' ->
    (forall s s', s ∈ l -> s' ∈ l -> (forall r, cls_check s b <> Ret r) -> (forall r, cls_check s' b <> Ret r) -> cls_check s b = cls_check s' b) ->
    outcome_of l b = outcome_of l' b.
  Proof.
    intros Hp Ha. unfold outcome_of. destruct (verdict_cases l b) as [(s & Hs & As & ->)|[Hr ->]], (verdict_cases l' b) as [(s' & Hs' & As' & ->)|[Hr' ->]].
    - rewrite <- Hp in Hs'. by rewrite (Ha s s' Hs Hs' As As').
    - rewrite Hp in Hs. destruct (Hr' s Hs) as [r F]. by destruct (As r).
    - rewrite <- Hp in Hs'. destruct (Hr s' Hs') as [r F]. by destruct (As' r).
    - pose proof (filter_perm (accepts b) _ _ Hp) as Hf. destruct (List.filter (accepts b) l) as [|s [|s1 acc]].
      + apply Permutation_nil_l in Hf. by rewrite <- Hf.
      + apply Permutation_singleton_l in Hf. by rewrite <- Hf.
      + destruct (List.filter (accepts b) l') as [|s' [|s2 acc']]; [|apply Permutation_length in Hf; done|done].
        by apply Permutation_nil_r in Hf.
  Qed.
  Lemma reordered_dispatch t : forall t' a, reordered t t' -> agreeing t -> dispatch t a = dispatch t' a.
  Proof.
    induction t as [t IH] using cls_ind'. intros t' a Hr Hg. inversion Hr as [n st pre check post make l l' l'' Hf Hp E1 E2]. subst t t'.
    inversion Hg as [t Hag Hsub Et]. subst t. cbn [cls_subs] in *.
    assert (Forall2 alike l l') as Ha.
    { clear Hr Hp Hg Hag. revert Hsub IH. induction Hf as [|s s' l l' Hs Hl IHl]; intros Hsub IH; [constructor|]. constructor.
      - assert (forall a, dispatch s a = dispatch s' a) as F by (intros a'; apply IH; [by left|done|apply Hsub; by left]).
        inversion Hs; subst. split; [done|]. split; [done|]. by split.
      - apply IHl; intros s0 Hs0; [apply Hsub|apply IH]; by right. }
    apply filter_alike in Ha. pose proof (filter_perm starts _ _ Hp) as Hpf.
    rewrite !dispatch_unfold. cbn [cls_pre cls_subs]. destruct (pre a) as [b| |]; [|done..].
    assert (outcome_of (List.filter starts l) b = outcome_of (List.filter starts l'') b) as Ho.
    { rewrite (outcome_alike _ _ b Ha). apply outcome_perm; [done|]. intros s s' Hs Hs'.
      destruct (proj1 (elem_of_list_lookup _ _) Hs) as [i Hi]. destruct (proj1 (elem_of_list_lookup _ _) Hs') as [j Hj].
      destruct (Forall2_lookup_r _ _ _ _ _ Ha Hi) as (x & Hx & X1 & X2 & _). destruct (Forall2_lookup_r _ _ _ _ _ Ha Hj) as (y & Hy & Y1 & Y2 & _).
      rewrite <- X2, <- Y2. apply Hag; apply live_filter; by eapply elem_of_list_lookup_2. }
    destruct Ha as [|x x' r r' Hx Hr'].
    - apply Permutation_nil_l in Hpf. rewrite <- Hpf. done.
    - destruct (List.filter starts l'') as [|y r'']; [by apply Permutation_nil_r in Hpf|]. done.
  Qed.
End Proofs.
