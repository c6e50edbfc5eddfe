From stdpp Require Import list list_numbers relations.
From Verif Require Import Futures_Model Futures_Spec.

Section Proofs.
  Context {V : Type}.
  Implicit Types (g : list (node V)) (u w : nat -> V) (s : state V).

  Lemma fields_of_all (l : list arg) : (forall k j, l !! k <> Some (AN j)) ->
    exists fs, l = map AF fs /\ fields_of l = fs.
  Proof.
    induction l as [|a l IH]; intros H; [by exists []|].
    destruct (IH ltac:(intros k; apply (H (S k)))) as (fs & -> & E).
    destruct a as [f|j]; [|by destruct (H 0 j)]. exists (f :: fs). split; [done|]. unfold fields_of in *. cbn. by rewrite E.
  Qed.

  Lemma enforce_layouts_value (o : op V) fs s f : value (enforce_layouts o fs s) f = value s f.
  Proof.
    unfold enforce_layouts. generalize (zip fs (enforce o (map (layout s) fs))). intros l. revert s.
    induction l as [|p l IH]; intros s; simpl; [done|]. by rewrite IH.
  Qed.
  Lemma enforce_layouts_args (o : op V) fs s i : args (enforce_layouts o fs s) i = args s i.
  Proof.
    unfold enforce_layouts. generalize (zip fs (enforce o (map (layout s) fs))). intros l. revert s.
    induction l as [|p l IH]; intros s; simpl; [done|]. by rewrite IH.
  Qed.
  Lemma enforce_layouts_last (o : op V) fs s i : last_id (enforce_layouts o fs s) i = last_id s i.
  Proof.
    unfold enforce_layouts. generalize (zip fs (enforce o (map (layout s) fs))). intros l. revert s.
    induction l as [|p l IH]; intros s; simpl; [done|]. by rewrite IH.
  Qed.
  Lemma enforce_layouts_calls (o : op V) fs s : calls (enforce_layouts o fs s) = calls s.
  Proof.
    unfold enforce_layouts. generalize (zip fs (enforce o (map (layout s) fs))). intros l. revert s.
    induction l as [|p l IH]; intros s; simpl; [done|]. by rewrite IH.
  Qed.

  (** Operate, field by field. *)
  Lemma operate_value (nd : node V) i id s f :
    value (operate nd i id s) f = if decide (f = O i) then func (n_op nd) (map (value s) (fields_of (args s i))) else value s f.
  Proof. unfold operate. by destruct id. Qed.
  Lemma operate_args (nd : node V) i id s p :
    args (operate nd i id s) p = if decide (p = i) then original_args nd else args s p.
  Proof. unfold operate. by destruct id. Qed.
  Lemma operate_last (nd : node V) i id s p :
    last_id (operate nd i id s) p = match id with Some a => if decide (p = i) then Some a else last_id s p | None => last_id s p end.
  Proof. unfold operate. by destruct id. Qed.
  Lemma operate_layout (nd : node V) i id s f :
    layout (operate nd i id s) f = if decide (f = O i) then out_layout (n_op nd) (map (layout s) (fields_of (args s i))) else layout s f.
  Proof. unfold operate. by destruct id. Qed.
  Lemma operate_calls (nd : node V) i id s : calls (operate nd i id s) = (i, id) :: calls s.
  Proof. unfold operate. by destruct id. Qed.

  (** ** Values *)
  Definition arg_ok w s (a o : arg) : Prop := a = o \/ exists j, o = AN j /\ a = AF (O j) /\ value s (O j) = w j.
  Record good g u w (ok : nat -> Prop) s : Prop := Good {
    good_user : forall v, value s (U v) = u v;
    good_args : forall i nd, g !! i = Some nd -> Forall2 (arg_ok w s) (args s i) (original_args nd);
    good_last : forall i a, last_id s i = Some a -> ok a -> value s (O i) = w i }.

  Lemma good_lt g u w ok s i k j : wf g -> good g u w ok s -> i < length g -> args s i !! k = Some (AN j) -> j < i.
  Proof.
    intros Hwf [_ Hg _] Hi Hk. destruct (lookup_lt_is_Some_2 g i Hi) as [nd Hnd].
    destruct (Forall2_lookup_l _ _ _ _ _ (Hg i nd Hnd) Hk) as (o & Ho & [<-|(j' & _ & ? & _)]); [|done].
    pose proof (Hwf i nd (AN j) Hnd (elem_of_list_lookup_2 _ _ _ Ho)). done.
  Qed.

  (** Changes of the state that keep it good. *)
  Lemma good_weaken g u w ok s s' : good g u w ok s -> (forall i, args s' i = args s i) -> (forall i, last_id s' i = last_id s i \/ last_id s' i = None) ->
    (forall f, value s' f = value s f) -> good g u w ok s'.
  Proof.
    intros [Hu Ha Hl] E1 E2 E3. split.
    - intros v. by rewrite E3.
    - intros i nd Hnd. rewrite E1. eapply Forall2_impl; [by apply Ha|]. intros a o [->|(j & -> & -> & Hv)]; [by left|]. right. exists j. by rewrite E3.
    - intros i a Hi Ho. rewrite E3. destruct (E2 i) as [E|E]; rewrite E in Hi; [by eapply Hl|done].
  Qed.
  Lemma good_subst g u w ok s i k j : good g u w ok s -> args s i !! k = Some (AN j) -> value s (O j) = w j ->
    good g u w ok (set_args i (<[k := AF (O j)]> (args s i)) s).
  Proof.
    intros [Hu Ha Hl] Hk Hv. split; [done| |done]. intros p nd Hnd. cbn [args set_args]. case_decide as E; [subst p|by apply Ha].
    specialize (Ha i nd Hnd). destruct (Forall2_lookup_l _ _ _ _ _ Ha Hk) as (o & Ho & Hok).
    assert (o = AN j) as -> by (by destruct Hok as [<-|(j' & _ & ? & _)]).
    apply Forall2_same_length_lookup. split; [rewrite insert_length; by eapply Forall2_length|].
    intros k' a o Hka Hko. destruct (decide (k' = k)) as [->|Hne].
    - rewrite list_lookup_insert in Hka by (by eapply lookup_lt_Some). injection Hka as <-.
      rewrite Ho in Hko. injection Hko as <-. right. by exists j.
    - rewrite list_lookup_insert_ne in Hka by done. by apply (Forall2_lookup_lr _ _ _ _ _ _ Ha Hka Hko).
  Qed.

  (** The loop over the operands, for any invariant [I] of states. *)
  Section Loop.
    Variables (g : list (node V)) (i : nat) (force : bool) (ev : nat -> state V -> state V * option fid) (I : state V -> Prop).
    Hypothesis Hlt : forall s k j, I s -> args s i !! k = Some (AN j) -> j < i.
    Hypothesis Hev : forall j s, j < i -> I s -> let '(s', r) := ev j s in
      I s' /\ (forall p, j < p -> args s' p = args s p) /\ (force = true -> r <> None) /\
      (forall f, r = Some f -> f = O j /\ forall k, args s' i !! k = Some (AN j) -> I (set_args i (<[k := AF (O j)]> (args s' i)) s')).
    Lemma eval_args_inv : forall ks s, I s -> let '(s', b) := eval_args ev i ks s in
      I s' /\
      (b = true -> forall k, k ∈ ks -> forall j, args s' i !! k <> Some (AN j)) /\ (force = true -> b = true) /\
      (forall p, i < p -> args s' p = args s p) /\ length (args s' i) = length (args s i) /\
      (forall k j, args s' i !! k = Some (AN j) -> args s i !! k = Some (AN j)).
    Proof using Hlt Hev.
      induction ks as [|k ks IH]; intros s Hs; cbn [eval_args].
      { split; [done|]. split; [|done]. intros _ k Hk. by apply elem_of_nil in Hk. }
      destruct (args s i !! k) as [[f|j]|] eqn:Ek.
      - specialize (IH s Hs). destruct (eval_args ev i ks s) as [s' b]. destruct IH as (H1 & H3 & H4 & H5 & H6 & H7).
        split; [done|]. split; [|done]. intros Hb k' Hk' j' E. apply elem_of_cons in Hk' as [->|Hk']; [|by eapply H3].
        apply H7 in E. congruence.
      - assert (j < i) as Hj by (by eapply Hlt). pose proof (Hev j s Hj Hs) as He. destruct (ev j s) as [s1 r].
        destruct He as (G1 & G2 & G3 & G4). destruct r as [f|].
        + destruct (G4 f eq_refl) as [-> Hsub]. set (s2 := set_args i (<[k:=AF (O j)]> (args s1 i)) s1).
          assert (I s2) as Hs2 by (apply Hsub; by rewrite G2).
          specialize (IH s2 Hs2). destruct (eval_args ev i ks s2) as [s' b]. destruct IH as (H1 & H3 & H4 & H5 & H6 & H7).
          assert (args s2 i = <[k:=AF (O j)]> (args s i)) as E2.
          { cbn. rewrite decide_True by done. by rewrite G2. }
          split; [done|]. split; [|split; [done|split; [|split]]].
          * intros Hb k' Hk' j' E. apply elem_of_cons in Hk' as [->|Hk']; [|by eapply H3].
            apply H7 in E. rewrite E2 in E. rewrite list_lookup_insert in E by (by eapply lookup_lt_Some). done.
          * intros p Hp. rewrite H5 by done. cbn. rewrite decide_False by lia. apply G2. lia.
          * rewrite H6, E2. apply insert_length.
          * intros k' j' E. apply H7 in E. rewrite E2 in E. destruct (decide (k' = k)) as [->|]; [|by rewrite list_lookup_insert_ne in E].
            rewrite list_lookup_insert in E by (by eapply lookup_lt_Some). done.
        + specialize (IH s1 G1). destruct (eval_args ev i ks s1) as [s' b]. destruct IH as (H1 & H3 & H4 & H5 & H6 & H7).
          split; [done|]. split; [done|]. split; [intros Hf; by destruct (G3 Hf)|].
          split; [intros p Hp; rewrite H5 by done; apply G2; lia|]. rewrite <- (G2 i) by lia. done.
      - specialize (IH s Hs). destruct (eval_args ev i ks s) as [s' b]. destruct IH as (H1 & H3 & H4 & H5 & H6 & H7).
        split; [done|]. split; [|done]. intros Hb k' Hk' j' E. apply elem_of_cons in Hk' as [->|Hk']; [|by eapply H3].
        apply H7 in E. congruence.
    Qed.
  End Loop.

  Definition post g u w ok force (i : nat) s s' (r : option fid) : Prop :=
    good g u w ok s' /\ (forall p, i < p -> args s' p = args s p) /\ (force = true -> r <> None) /\
    (forall f, r = Some f -> f = O i /\ value s' (O i) = w i).

  Lemma operands_values u w (l l' : list arg) s : (forall v, value s (U v) = u v) -> Forall2 (arg_ok w s) l l' -> (forall a, a ∈ l' -> match a with AF (O _) => False | _ => True end) ->
    (forall k j, l !! k <> Some (AN j)) -> map (value s) (fields_of l) = map (operand_value u w) l'.
  Proof.
    intros Hu H. induction H as [|a o l l' Ho H IH]; intros Hf Hk; [done|].
    assert (fields_of (a :: l) = match a with AF f => [f] | AN _ => [] end ++ fields_of l) as -> by (by destruct a).
    rewrite map_app, IH; [| |intros k; apply (Hk (S k))]; [|intros x Hx; apply Hf; by right].
    destruct Ho as [->|(j & -> & -> & Hv)].
    - destruct o as [f|j]; [|by destruct (Hk 0 j)]. destruct f as [v|j]; [cbn; by rewrite Hu|]. destruct (Hf (AF (O j))). by left.
    - cbn. by rewrite Hv.
  Qed.

  Lemma evaluate_good g u w (ok : nat -> Prop) id force : wf g -> (forall a, id = Some a -> ok a) -> values_on g u w ->
    forall n i s, i < n -> i < length g -> good g u w ok s ->
      let '(s', r) := evaluate g n id force i s in post g u w ok force i s s' r.
  Proof.
    intros Hwf Hid Hw. induction n as [|n IH]; intros i s Hn Hi Hs; [lia|].
    destruct (lookup_lt_is_Some_2 g i Hi) as [nd Hnd]. cbn [evaluate]. rewrite Hnd.
    destruct (match id with Some a => bool_decide (last_id s i = Some a) | None => false end) eqn:Ec.
    { destruct id as [a|]; [|done]. apply bool_decide_eq_true in Ec. split; [done|]. split; [done|]. split; [done|].
      intros f [= <-]. split; [done|]. apply (good_last _ _ _ _ _ Hs i a); [done|by apply Hid]. }
    set (s1 := match id with Some _ => set_last i None s | None => s end).
    assert (good g u w ok s1) as Hs1.
    { unfold s1. destruct id as [a|]; [|done]. eapply good_weaken; [exact Hs|done| |done].
      intros p. cbn [last_id set_last]. destruct (decide (p = i)); [by right|by left]. }
    assert (args s1 = args s) as Ea by (unfold s1; by destruct id).
    pose proof (eval_args_inv i force (evaluate g n id force) (good g u w ok)) as Hloop.
    assert (forall s k j, good g u w ok s -> args s i !! k = Some (AN j) -> j < i) as Hlt by (intros; by eapply good_lt).
    specialize (Hloop Hlt).
    specialize (Hloop ltac:(intros j s' Hj Hg; pose proof (IH j s' ltac:(lia) ltac:(lia) Hg) as H;
      destruct (evaluate g n id force j s') as [s'' r]; destruct H as (H1 & H2 & H3 & H4); split; [done|]; split; [done|]; split; [done|];
      intros f Hf; destruct (H4 f Hf) as [-> Hv]; split; [done|]; intros k Hk; by apply good_subst)).
    rewrite Ea.
    specialize (Hloop (seq 0 (length (args s i))) s1 Hs1).
    destruct (eval_args _ i (seq 0 (length (args s i))) s1) as [s2 b]. destruct Hloop as (H1 & H3 & H4 & H5 & H6 & H7).
    assert (forall p, i < p -> args s2 p = args s p) as Ea2 by (intros p Hp; rewrite H5 by done; by rewrite Ea).
    destruct b; [|split; [done|]; split; [done|]; split; [intros Hf; by specialize (H4 Hf)|done]].
    assert (forall k j, args s2 i !! k <> Some (AN j)) as Hall.
    { intros k j E. eapply (H3 eq_refl k); [|exact E]. apply elem_of_list_In, in_seq. rewrite Ea in H6. apply lookup_lt_Some in E. lia. }
    assert (forall s3, (forall f, value s3 f = value s2 f) -> (forall p, args s3 p = args s2 p) -> (forall p, last_id s3 p = last_id s2 p) ->
       post g u w ok force i s (operate nd i id s3) (Some (O i))) as Hop.
    { intros s3 Ev3 Ea3 El3.
      assert (func (n_op nd) (map (value s3) (fields_of (args s3 i))) = w i) as Ew.
      { rewrite Ea3. rewrite (map_ext _ (value s2)) by done.
        rewrite (operands_values u w (args s2 i) (original_args nd) s2); [by rewrite (Hw i nd Hnd)|apply H1|by apply (good_args _ _ _ _ _ H1)| |done].
        intros a Ha. specialize (Hwf i nd a Hnd Ha). by destruct a as [[v|q]|q]. }
      assert (forall p, value (operate nd i id s3) (O p) = if decide (p = i) then w i else value s2 (O p)) as Ev4.
      { intros p. rewrite operate_value, Ew. destruct (decide (p = i)) as [->|Hne]; [by rewrite decide_True|].
        rewrite decide_False by congruence. apply Ev3. }
      split; [split|split; [|split]].
      - intros v. rewrite operate_value, decide_False by done. rewrite Ev3. apply H1.
      - intros p pd Hp. rewrite operate_args. case_decide as E.
        + subst p. rewrite Hnd in Hp. injection Hp as <-. apply Forall2_same_length_lookup. split; [done|]. intros k a o E1 E2. left. congruence.
        + rewrite Ea3. eapply Forall2_impl; [by apply (good_args _ _ _ _ _ H1)|].
          intros a o [->|(j & -> & -> & Hv)]; [by left|]. right. exists j. rewrite Ev4. split; [done|]. split; [done|]. case_decide; congruence.
      - intros p a Hp Hok. rewrite Ev4. case_decide as E; [by subst|]. rewrite operate_last in Hp.
        apply (good_last _ _ _ _ _ H1 p a); [|done]. destruct id; [rewrite decide_False in Hp by done|]; by rewrite <- El3.
      - intros p Hp. rewrite operate_args, decide_False by lia. rewrite Ea3. by apply Ea2.
      - done.
      - intros f [= <-]. split; [done|]. rewrite Ev4. by rewrite decide_True. }
    destruct force.
    - apply Hop; intros.
      + apply enforce_layouts_value.
      + apply enforce_layouts_args.
      + apply enforce_layouts_last.
    - destruct (check _ _); [by apply Hop|]. split; [done|]. split; [done|]. split; [done|]. done.
  Qed.

  (** ** The values exist and are unique *)
  Lemma operand_ext u w w' a : (forall j, a = AN j \/ a = AF (O j) -> w j = w' j) -> operand_value u w a = operand_value u w' a.
  Proof. intros H. destruct a as [[v|j]|j]; cbn; [done| |]; apply H; [by right|by left]. Qed.

  Lemma values_exist g u : wf g -> exists w, values_on g u w.
  Proof.
    induction g as [|nd g IH] using rev_ind; intros Hwf; [exists u; by intros i nd|].
    destruct IH as [w Hw].
    { intros i nd' a Hi Ha. apply (Hwf i nd' a); [by apply lookup_app_l_Some|done]. }
    set (x := func (n_op nd) (map (operand_value u w) (original_args nd))).
    set (w' := fun i => if decide (i = length g) then x else w i).
    exists w'. intros i nd' Hi.
    assert (forall a, a ∈ original_args nd' -> operand_value u w' a = operand_value u w a) as Eo.
    { intros a Ha. apply operand_ext. intros j Hj. specialize (Hwf i nd' a Hi Ha).
      assert (i < length (g ++ [nd])) as Hl by (by eapply lookup_lt_Some). rewrite app_length in Hl. cbn in Hl.
      destruct Hj as [->| ->]; [|done]. unfold w'. rewrite decide_False by lia. done. }
    rewrite (map_ext_in _ (operand_value u w)) by (intros a Ha; apply Eo; by apply elem_of_list_In).
    apply lookup_app_Some in Hi as [Hi|[Hle Hi]].
    - unfold w'. rewrite decide_False; [by apply Hw|]. apply lookup_lt_Some in Hi. lia.
    - apply list_lookup_singleton_Some in Hi as [Hz <-]. unfold w'. rewrite decide_True by lia. done.
  Qed.

  Lemma values_unique g u w w' : wf g -> values_on g u w -> values_on g u w' -> forall i, i < length g -> w i = w' i.
  Proof.
    intros Hwf Hw Hw' i. induction (lt_wf i) as [i _ IH]. intros Hi.
    destruct (lookup_lt_is_Some_2 g i Hi) as [nd Hnd]. rewrite (Hw i nd Hnd), (Hw' i nd Hnd). f_equal.
    apply map_ext_in. intros a Ha. apply elem_of_list_In in Ha. specialize (Hwf i nd a Hnd Ha). apply operand_ext.
    intros j [->| ->]; [|done]. apply IH; lia.
  Qed.
  Lemma values_on_ext g u u' w : (forall v, u v = u' v) -> values_on g u w -> values_on g u' w.
  Proof.
    intros E H i nd Hi. rewrite (H i nd Hi). f_equal. apply map_ext. intros [[v|j]|j]; cbn; [apply E|done|done].
  Qed.

  (** ** Identification numbers that occur *)
  Lemma evaluate_ids g id force : forall n i s (known : nat -> Prop), (forall a, id = Some a -> known a) ->
    (forall p a, last_id s p = Some a -> known a) -> forall p a, last_id (evaluate g n id force i s).1 p = Some a -> known a.
  Proof.
    induction n as [|n IH]; intros i s known Hid Hk; cbn [evaluate]; [done|]. destruct (g !! i) as [nd|]; [|done].
    destruct (match id with Some a => bool_decide (last_id s i = Some a) | None => false end); [done|].
    set (s1 := match id with Some _ => set_last i None s | None => s end).
    assert (forall p a, last_id s1 p = Some a -> known a) as Hk1.
    { unfold s1. destruct id; [|done]. intros p a. cbn [last_id set_last]. destruct (decide (p = i)); [done|apply Hk]. }
    assert (forall ks s, (forall p a, last_id s p = Some a -> known a) ->
      forall p a, last_id (eval_args (evaluate g n id force) i ks s).1 p = Some a -> known a) as Hloop.
    { clear s1 Hk1 Hk s. intros ks. induction ks as [|k ks IHk]; intros s Hk; cbn [eval_args]; [done|].
      destruct (args s i !! k) as [[f|j]|]; [by apply IHk| |by apply IHk].
      pose proof (IH j s known Hid Hk) as Hj. destruct (evaluate g n id force j s) as [s' [f|]]; [by apply IHk|].
      pose proof (IHk s' Hj) as Hj'. by destruct (eval_args _ i ks s'). }
    specialize (Hloop (seq 0 (length (args s1 i))) s1 Hk1). destruct (eval_args _ i _ s1) as [s2 b]. cbn [fst] in Hloop.
    assert (forall s3, (forall p, last_id s3 p = last_id s2 p) -> forall p a, last_id (operate nd i id s3) p = Some a -> known a) as Hop.
    { intros s3 E p a. rewrite operate_last. destruct id as [b'|].
      - destruct (decide (p = i)); [|rewrite E; apply Hloop]. intros [= <-]. by apply Hid.
      - rewrite E. apply Hloop. }
    destruct b; [|done]. destruct force; cbn [fst].
    - apply Hop. intros p. apply enforce_layouts_last.
    - destruct (check _ _); [by apply Hop|done].
  Qed.

  (** ** Careful histories *)
  Record inv g (used retired : list nat) s : Prop := Inv {
    inv_good : exists w, values_on g (user_data s) w /\ good g (user_data s) w (fun a => a ∉ retired) s;
    inv_ids : forall p a, last_id s p = Some a -> a ∈ used ++ retired }.

  Lemma good_user_ext g u u' w ok s : (forall v, u v = u' v) -> good g u w ok s -> good g u' w ok s.
  Proof. intros E [H1 H2 H3]. split; [intros v; by rewrite H1|done|done]. Qed.
  Lemma good_clean g s w (ok : nat -> Prop) : (forall p, restored g s p) -> (forall p a, last_id s p = Some a -> ~ ok a) ->
    good g (user_data s) w ok s.
  Proof.
    intros Hr Hk. split; [done| |].
    - intros p nd Hp. rewrite (Hr p nd Hp). apply Forall2_same_length_lookup. split; [done|]. intros k a o E1 E2. left. congruence.
    - intros p a Hp Ho. by destruct (Hk p a Hp).
  Qed.
  Lemma inv_start g lay val : wf g -> inv g [] [] (start g lay val).
  Proof.
    intros Hwf. split; [|done]. destruct (values_exist g (user_data (start g lay val)) Hwf) as [w Hw]. exists w. split; [done|].
    apply good_clean; [|done]. intros p nd Hp. unfold start. cbn. by rewrite Hp.
  Qed.

  Lemma inv_eval g used retired s i id force : wf g -> i < length g -> inv g used retired s -> (forall a, id = Some a -> a ∉ retired) ->
    inv g (match id with Some a => a :: used | None => used end) retired (evaluate g (length g) id force i s).1.
  Proof.
    intros Hwf Hi [(w & Hw & Hg) Hids] Hid.
    pose proof (evaluate_good g (user_data s) w _ id force Hwf Hid Hw (length g) i s Hi Hi Hg) as H.
    pose proof (evaluate_ids g id force (length g) i s (fun a => a ∈ match id with Some a => a :: used | None => used end ++ retired)) as Hids'.
    destruct (evaluate g (length g) id force i s) as [s' r]. destruct H as (H1 & _). cbn [fst] in *. split.
    - exists w. assert (forall v, user_data s v = user_data s' v) as E by (intros v; symmetry; apply H1).
      split; [by eapply values_on_ext|by eapply good_user_ext].
    - apply Hids'.
      + intros a ->. by left.
      + intros p a Hp. specialize (Hids p a Hp). destruct id; [by right|done].
  Qed.

  Lemma inv_history g hs : wf g -> forall used retired s, inv g used retired s -> careful g used retired hs s ->
    exists used' retired', inv g used' retired' (history g hs s) /\
      (forall hs', careful g used retired (hs ++ hs') s -> careful g used' retired' hs' (history g hs s)).
  Proof.
    intros Hwf. induction hs as [|h hs IH]; intros used retired s Hinv Hc; [by exists used, retired|].
    destruct h as [i id force|v x|f l]; cbn [careful] in Hc.
    - destruct Hc as [Hi Hc].
      destruct (IH (match id with Some a => a :: used | None => used end) retired (act g (Eval i id force) s)) as (u' & r' & H1 & H2).
      { apply inv_eval; [done|done|done|]. intros a ->. apply Hc. }
      { destruct id; [apply Hc|apply Hc]. }
      exists u', r'. split; [done|]. intros hs' Hc'. apply H2. cbn [app careful] in Hc'. destruct id; apply Hc'.
    - destruct Hc as [Hr Hc]. destruct (IH [] (used ++ retired) (act g (SetData v x) s)) as (u' & r' & H1 & H2); [|done|].
      { split.
        - destruct (values_exist g (user_data (act g (SetData v x) s)) Hwf) as [w Hw]. exists w. split; [done|].
          apply good_clean; [exact Hr|]. intros p a Hp. cbn in Hp. specialize (inv_ids _ _ _ _ Hinv p a Hp). tauto.
        - intros p a Hp. apply (inv_ids _ _ _ _ Hinv p a Hp). }
      exists u', r'. split; [done|]. intros hs' Hc'. apply H2. apply Hc'.
    - destruct (IH used retired (act g (Move f l) s)) as (u' & r' & H1 & H2); [|done|].
      { destruct Hinv as [(w & Hw & Hg) Hids]. split; [|done]. exists w. split; [done|]. eapply good_weaken; [exact Hg|done| |done]. by left. }
      exists u', r'. split; [done|]. intros hs' Hc'. apply H2. apply Hc'.
  Qed.

  (** ** Successful evaluations restore *)
  Lemma evaluate_restores g u w (ok : nat -> Prop) id force : wf g -> (forall a, id = Some a -> ok a) -> values_on g u w ->
    forall n i s, i < n -> i < length g -> good g u w ok s -> (forall p, p <= i -> restored g s p) ->
    forall s' f, evaluate g n id force i s = (s', Some f) -> forall p, p <= i -> restored g s' p.
  Proof.
    intros Hwf Hid Hw. induction n as [|n IH]; intros i s Hn Hi Hg Hr s' f; [lia|].
    destruct (lookup_lt_is_Some_2 g i Hi) as [nd Hnd]. cbn [evaluate]. rewrite Hnd.
    destruct (match id with Some a => bool_decide (last_id s i = Some a) | None => false end) eqn:Ec; [by intros [= <- <-]|].
    set (s1 := match id with Some _ => set_last i None s | None => s end).
    assert (args s1 = args s) as Ea by (unfold s1; by destruct id).
    assert (good g u w ok s1) as Hs1.
    { unfold s1. destruct id as [a|]; [|done]. eapply good_weaken; [exact Hg|done| |done].
      intros p. cbn [last_id set_last]. destruct (decide (p = i)); [by right|by left]. }
    assert (forall ks s s', good g u w ok s -> (forall p, p < i -> restored g s p) ->
      eval_args (evaluate g n id force) i ks s = (s', true) -> forall p, p < i -> restored g s' p) as Hloop.
    { clear s1 Ea Ec Hr Hg Hs1 s s'. intros ks. induction ks as [|k ks IHk]; intros s s' Hg Hr; cbn [eval_args]; [by intros [= <-]|].
      destruct (args s i !! k) as [[f'|j]|] eqn:Ek; [by apply IHk| |by apply IHk].
      assert (j < i) as Hj by (by eapply good_lt).
      pose proof (evaluate_good g u w ok id force Hwf Hid Hw n j s ltac:(lia) ltac:(lia) Hg) as HG.
      pose proof (IH j s ltac:(lia) ltac:(lia) Hg ltac:(intros p Hp; apply Hr; lia)) as HR.
      destruct (evaluate g n id force j s) as [s2 [f'|]]; [|by destruct (eval_args _ i ks s2)].
      destruct HG as (G1 & G2 & G3 & G4). destruct (G4 f' eq_refl) as [-> Hv]. apply IHk.
      - apply good_subst; [done| |done]. by rewrite G2.
      - intros p Hp nd' Hp'. cbn [args set_args]. rewrite decide_False by lia. destruct (decide (p <= j)); [by apply (HR s2 (O j))|].
        rewrite G2 by lia. by apply Hr. }
    specialize (Hloop (seq 0 (length (args s1 i))) s1).
    destruct (eval_args _ i _ s1) as [s2 b]. destruct b; [|done].
    specialize (Hloop s2 Hs1 ltac:(intros p Hp nd'; rewrite Ea; apply Hr; lia) eq_refl).
    assert (forall s3, (forall p, args s3 p = args s2 p) -> forall p, p <= i -> restored g (operate nd i id s3) p) as Hop.
    { intros s3 E p Hp nd' Hp'. rewrite operate_args. destruct (decide (p = i)) as [->|]; [congruence|]. rewrite E. apply Hloop; [lia|done]. }
    destruct force.
    - intros [= <- <-]. apply Hop. intros p. apply enforce_layouts_args.
    - destruct (check _ _); [|done]. intros [= <- <-]. by apply Hop.
  Qed.

  (** ** Attempts with one identification number *)
  Definition arg_single (a : nat) s (x o : arg) : Prop := x = o \/ exists j, o = AN j /\ x = AF (O j) /\ last_id s j = Some a.
  Record single g (a : nat) (c0 : list (nat * option nat)) s : Prop := Single {
    s_args : forall i nd, g !! i = Some nd -> Forall2 (arg_single a s) (args s i) (original_args nd);
    s_rest : forall i, last_id s i = Some a -> restored g s i;
    s_down : forall i j, last_id s i = Some a -> child g i j -> last_id s j = Some a;
    s_calls : exists c, calls s = c ++ c0 /\ NoDup c /\ forall p x, (p, x) ∈ c <-> x = Some a /\ last_id s p = Some a }.

  Lemma single_lt g a c0 s i k j : wf g -> single g a c0 s -> i < length g -> args s i !! k = Some (AN j) -> j < i.
  Proof.
    intros Hwf Hs Hi Hk. destruct (lookup_lt_is_Some_2 g i Hi) as [nd Hnd].
    destruct (Forall2_lookup_l _ _ _ _ _ (s_args _ _ _ _ Hs i nd Hnd) Hk) as (o & Ho & [<-|(j' & _ & ? & _)]); [|done].
    pose proof (Hwf i nd (AN j) Hnd (elem_of_list_lookup_2 _ _ _ Ho)). done.
  Qed.
  Lemma single_unlast g a c0 s i : single g a c0 s -> last_id s i <> Some a -> single g a c0 (set_last i None s).
  Proof.
    intros [H1 H2 H3 (c & H4 & H5 & H6)] Hi.
    assert (forall p, last_id (set_last i None s) p = Some a <-> last_id s p = Some a) as E.
    { intros p. cbn [last_id set_last]. destruct (decide (p = i)) as [->|]; [|done]. split; [done|]. congruence. }
    split.
    - intros p nd Hp. eapply Forall2_impl; [by apply H1|]. intros x o [->|(j & -> & -> & Hj)]; [by left|]. right. exists j. by rewrite E.
    - intros p Hp. apply E in Hp. by apply H2.
    - intros p j Hp Hc. apply E. apply E in Hp. by eapply H3.
    - exists c. split; [done|]. split; [done|]. intros p x. by rewrite E.
  Qed.
  Lemma single_layout g a c0 s s' : single g a c0 s -> args s' = args s -> last_id s' = last_id s -> calls s' = calls s -> single g a c0 s'.
  Proof.
    intros [H1 H2 H3 H4] E1 E2 E3. split; unfold restored, arg_single in *; rewrite ?E1, ?E2, ?E3; done.
  Qed.
  Lemma single_subst g a c0 s i k j : single g a c0 s -> last_id s i <> Some a -> args s i !! k = Some (AN j) -> last_id s j = Some a ->
    single g a c0 (set_args i (<[k := AF (O j)]> (args s i)) s).
  Proof.
    intros [H1 H2 H3 H4] Hi Hk Hj. split.
    - intros p nd Hnd. cbn [args set_args]. destruct (decide (p = i)) as [->|]; [|by apply H1].
      specialize (H1 i nd Hnd). destruct (Forall2_lookup_l _ _ _ _ _ H1 Hk) as (o & Ho & Hok).
      assert (o = AN j) as -> by (by destruct Hok as [<-|(j' & _ & ? & _)]).
      apply Forall2_same_length_lookup. split; [rewrite insert_length; by eapply Forall2_length|].
      intros k' x o Hka Hko. destruct (decide (k' = k)) as [->|Hne].
      + rewrite list_lookup_insert in Hka by (by eapply lookup_lt_Some). injection Hka as <-.
        rewrite Ho in Hko. injection Hko as <-. right. by exists j.
      + rewrite list_lookup_insert_ne in Hka by done. by apply (Forall2_lookup_lr _ _ _ _ _ _ H1 Hka Hko).
    - intros p Hp nd Hnd. cbn [args set_args]. rewrite decide_False by (intros ->; done). by apply H2.
    - exact H3.
    - exact H4.
  Qed.
  Lemma single_operate g a c0 s s3 i nd : g !! i = Some nd -> single g a c0 s -> last_id s i <> Some a -> (forall k j, args s i !! k <> Some (AN j)) ->
    args s3 = args s -> last_id s3 = last_id s -> calls s3 = calls s -> single g a c0 (operate nd i (Some a) s3).
  Proof.
    intros Hnd Hs Hi Hall E1 E2 E3.
    assert (forall p, last_id (operate nd i (Some a) s3) p = if decide (p = i) then Some a else last_id s p) as EL.
    { intros p. by rewrite operate_last, E2. }
    assert (forall p, last_id s p = Some a -> last_id (operate nd i (Some a) s3) p = Some a) as EM.
    { intros p Hp. rewrite EL. by destruct (decide (p = i)). }
    destruct Hs as [H1 H2 H3 (c & H4 & H5 & H6)]. split.
    - intros p pd Hp. rewrite operate_args. destruct (decide (p = i)) as [->|].
      + rewrite Hnd in Hp. injection Hp as <-. apply Forall2_same_length_lookup. split; [done|]. intros k x o F1 F2. left. congruence.
      + rewrite E1. eapply Forall2_impl; [by apply H1|]. intros x o [->|(j & -> & -> & Hj)]; [by left|]. right. exists j. auto.
    - intros p Hp pd Hpd. rewrite operate_args. destruct (decide (p = i)) as [->|]; [congruence|].
      rewrite E1. apply H2; [|done]. rewrite EL in Hp. by rewrite decide_False in Hp.
    - intros p j Hp Hc. rewrite EL in Hp. apply EM. destruct (decide (p = i)) as [->|]; [|by eapply H3].
      destruct Hc as (nd' & Hnd' & Hj). rewrite Hnd in Hnd'. injection Hnd' as <-. apply elem_of_list_lookup in Hj as (k & Hk).
      destruct (Forall2_lookup_r _ _ _ _ _ (H1 i nd Hnd) Hk) as (x & Hx & [->|(j' & F & -> & Hj')]); [by destruct (Hall k j)|].
      by injection F as ->.
    - exists ((i, Some a) :: c). rewrite operate_calls, E3, H4. split; [done|]. split.
      + constructor; [|done]. intros Hin. apply H6 in Hin. tauto.
      + intros p x. rewrite elem_of_cons, H6, EL. destruct (decide (p = i)) as [->|Hne].
        * split; [intros [F|F]; [by injection F as ->|split; [apply F|done]]|]. intros [-> _]. by left.
        * split; [intros [F|F]; [congruence|done]|]. intros F. by right.
  Qed.

  Lemma enforce_layouts_same (o : op V) fs s :
    args (enforce_layouts o fs s) = args s /\ last_id (enforce_layouts o fs s) = last_id s /\ value (enforce_layouts o fs s) = value s.
  Proof.
    unfold enforce_layouts. generalize (zip fs (enforce o (map (layout s) fs))). intros l. revert s.
    induction l as [|p l IH]; intros s; simpl; [done|]. by destruct (IH (set_layout p.1 p.2 s)) as (-> & -> & ->).
  Qed.

  Lemma evaluate_single g a c0 force : wf g -> forall n i s, i < n -> i < length g -> single g a c0 s ->
    let '(s', r) := evaluate g n (Some a) force i s in
    single g a c0 s' /\ (forall p, i < p -> args s' p = args s p) /\ (forall p, i < p -> last_id s' p = last_id s p) /\
    (forall p, last_id s p = Some a -> last_id s' p = Some a) /\
    (force = true -> r <> None) /\ (forall f, r = Some f -> f = O i /\ last_id s' i = Some a).
  Proof.
    intros Hwf. induction n as [|n IH]; intros i s Hn Hi Hs; [lia|].
    destruct (lookup_lt_is_Some_2 g i Hi) as [nd Hnd]. cbn [evaluate]. rewrite Hnd.
    destruct (bool_decide (last_id s i = Some a)) eqn:Ec.
    { apply bool_decide_eq_true in Ec. split; [done|]. split; [done|]. split; [done|]. split; [done|]. split; [done|]. by intros f [= <-]. }
    apply bool_decide_eq_false in Ec. set (s1 := set_last i None s).
    assert (single g a c0 s1) as Hs1 by (by apply single_unlast).
    set (I := fun s' => single g a c0 s' /\ last_id s' i = None /\ (forall p, i < p -> last_id s' p = last_id s1 p) /\ forall p, last_id s1 p = Some a -> last_id s' p = Some a).
    assert (I s1) as HI1.
    { split; [done|]. split; [cbn [last_id set_last s1]; by rewrite decide_True|done]. }
    pose proof (eval_args_inv i force (evaluate g n (Some a) force) I) as Hloop.
    specialize (Hloop ltac:(intros s' k j [Hs' _]; by eapply single_lt)).
    match type of Hloop with ?A -> _ => assert A as Hev end.
    { intros j s' Hj (J1 & J2 & J3 & J4). pose proof (IH j s' ltac:(lia) ltac:(lia) J1) as H.
      destruct (evaluate g n (Some a) force j s') as [s'' r]. destruct H as (H1 & H2 & H3 & H4 & H5 & H6).
      assert (I s'') as HI.
      { split; [done|]. split; [by rewrite H3|]. split; [intros p Hp; rewrite H3 by lia; by apply J3|auto]. }
      split; [done|]. split; [done|]. split; [done|]. intros f Hf. destruct (H6 f Hf) as [-> Hl]. split; [done|]. intros k Hk.
      destruct HI as (HI1' & HI2 & HI3 & HI4). split; [|done]. apply single_subst; [done|by rewrite HI2|done|done]. }
    specialize (Hloop Hev (seq 0 (length (args s1 i))) s1 HI1).
    destruct (eval_args _ i (seq 0 (length (args s1 i))) s1) as [s2 b].
    destruct Hloop as ((J1 & J2 & J3 & J4) & H3 & H4 & H5 & H6 & H7).
    assert (forall p, i < p -> last_id s2 p = last_id s p) as EL2.
    { intros p Hp. rewrite J3 by done. cbn [last_id set_last s1]. rewrite decide_False by lia. done. }
    assert (forall p, last_id s p = Some a -> last_id s2 p = Some a) as EM2.
    { intros p Hp. apply J4. cbn [last_id set_last s1]. rewrite decide_False; [done|]. intros ->. done. }
    destruct b.
    2: { split; [done|]. split; [exact H5|]. split; [done|]. split; [done|]. split; [intros Hf; by specialize (H4 Hf)|done]. }
    assert (forall k j, args s2 i !! k <> Some (AN j)) as Hall.
    { intros k j E. eapply (H3 eq_refl k); [|exact E]. apply elem_of_list_In, in_seq. apply lookup_lt_Some in E. lia. }
    assert (forall s3, args s3 = args s2 -> last_id s3 = last_id s2 -> calls s3 = calls s2 ->
       let s' := operate nd i (Some a) s3 in
       single g a c0 s' /\ (forall p, i < p -> args s' p = args s p) /\ (forall p, i < p -> last_id s' p = last_id s p) /\
       (forall p, last_id s p = Some a -> last_id s' p = Some a) /\ last_id s' i = Some a) as Hop.
    { intros s3 E1 E2 E3. split; [eapply single_operate; [done|exact J1|by rewrite J2|done..]|].
      split; [intros p Hp; rewrite operate_args, decide_False by lia; rewrite E1; by apply H5|].
      split; [intros p Hp; rewrite operate_last, decide_False by lia; rewrite E2; by apply EL2|].
      split; [intros p Hp; rewrite operate_last; destruct (decide (p = i)); [done|]; rewrite E2; by apply EM2|].
      rewrite operate_last. by rewrite decide_True. }
    destruct force.
    - destruct (enforce_layouts_same (n_op nd) (fields_of (args s2 i)) s2) as (E1 & E2 & _).
      destruct (Hop _ E1 E2 (enforce_layouts_calls _ _ _)) as (K1 & K2 & K3 & K4 & K5).
      split; [done|]. split; [done|]. split; [done|]. split; [done|]. split; [done|]. by intros f [= <-].
    - destruct (check _ _).
      + destruct (Hop _ eq_refl eq_refl eq_refl) as (K1 & K2 & K3 & K4 & K5).
        split; [done|]. split; [done|]. split; [done|]. split; [done|]. split; [done|]. by intros f [= <-].
      + split; [done|]. split; [exact H5|]. by repeat split.
  Qed.

  Lemma single_start g a s : (forall p, restored g s p) -> (forall p, last_id s p <> Some a) -> single g a (calls s) s.
  Proof.
    intros Hr Hl. split.
    - intros i nd Hnd. rewrite (Hr i nd Hnd). apply Forall2_same_length_lookup. split; [done|]. intros k x o F1 F2. left. congruence.
    - intros i Hi. by destruct (Hl i).
    - intros i j Hi. by destruct (Hl i).
    - exists []. split; [done|]. split; [constructor|]. intros p x. split; [by intros ?%elem_of_nil|]. intros [_ F]. by destruct (Hl p).
  Qed.
  Lemma single_below g a c0 s i j : single g a c0 s -> last_id s i = Some a -> below g i j -> last_id s j = Some a.
  Proof. intros Hs Hi Hb. induction Hb as [|i k j Hc Hb IH]; [done|]. apply IH. by eapply (s_down _ _ _ _ Hs). Qed.

  (** ** One round of attempts *)
  Section Round.
    Variables (g : list (node V)) (a : nat) (c0 : list (nat * option nat)) (rel E C : nat -> Prop) (ll : fid -> nat).
    Definition lay_of (x : arg) : nat := match x with AF f => ll f | AN j => ll (O j) end.
    Hypothesis Hwf : wf g.
    Hypothesis Hrel : forall i j, rel i -> child g i j -> rel j.
    Hypothesis Hlen : forall i, rel i -> i < length g.
    Hypothesis HC : forall i nd, g !! i = Some nd -> rel i ->
      C i <-> E i \/ ((forall j, AN j ∈ original_args nd -> C j) /\ check (n_op nd) (map lay_of (original_args nd)) = true).
    Hypothesis HL : forall i nd, g !! i = Some nd -> rel i -> out_layout (n_op nd) (map lay_of (original_args nd)) = ll (O i).

    Record mid s : Prop := Mid {
      m_single : single g a c0 s;
      m_sound : forall p, rel p -> last_id s p = Some a -> C p;
      m_before : forall p, rel p -> E p -> last_id s p = Some a;
      m_layout : forall p x, rel p -> last_id s p <> Some a -> x ∈ args s p ->
        match x with AF f => layout s f = ll f | AN j => last_id s j = Some a -> layout s (O j) = ll (O j) end }.
    Definition settled s p : Prop := last_id s p <> Some a -> forall j, AN j ∈ args s p -> ~ C j.
    Definition finished s i : Prop := forall p, below g i p -> (C p -> last_id s p = Some a) /\ settled s p.

    Lemma finished_mono s s' i : (forall p, last_id s p = Some a -> last_id s' p = Some a) -> (forall p, settled s p -> settled s' p) ->
      finished s i -> finished s' i.
    Proof using. intros H1 H2 H p Hp. destruct (H p Hp) as [F1 F2]. auto. Qed.
    Lemma finished_done s i : single g a c0 s -> last_id s i = Some a -> finished s i.
    Proof using. intros Hs Hi p Hp. pose proof (single_below _ _ _ _ _ _ Hs Hi Hp) as H. split; [done|]. by intros []. Qed.

    Lemma rel_arg s i k j nd : single g a c0 s -> g !! i = Some nd -> rel i -> args s i !! k = Some (AN j) -> AN j ∈ original_args nd /\ rel j.
    Proof using Hrel.
      intros Hs Hnd Hi Hk. destruct (Forall2_lookup_l _ _ _ _ _ (s_args _ _ _ _ Hs i nd Hnd) Hk) as (o & Ho & [<-|(j' & _ & ? & _)]); [|done].
      apply elem_of_list_lookup_2 in Ho. split; [done|]. apply (Hrel i j Hi). by exists nd.
    Qed.

    Lemma mid_subst s i k j : mid s -> rel i -> last_id s i <> Some a -> args s i !! k = Some (AN j) -> last_id s j = Some a ->
      mid (set_args i (<[k := AF (O j)]> (args s i)) s).
    Proof using.
      intros [H1 H2 H3 H4] Hr Hi Hk Hj. split; [by apply single_subst|exact H2|exact H3|].
      intros p x Hp Hl Hx. cbn [args set_args] in Hx. destruct (decide (p = i)) as [->|]; [|by apply (H4 p)].
      apply elem_of_list_lookup in Hx as (k' & Hx). destruct (decide (k' = k)) as [->|].
      - rewrite list_lookup_insert in Hx by (by eapply lookup_lt_Some). injection Hx as <-. cbn [layout set_args].
        by apply (H4 i (AN j) Hr Hl (elem_of_list_lookup_2 _ _ _ Hk)).
      - rewrite list_lookup_insert_ne in Hx by done. by apply (H4 i x Hr Hl (elem_of_list_lookup_2 _ _ _ Hx)).
    Qed.
    Lemma settled_subst s i k j p : settled s p -> settled (set_args i (<[k := AF (O j)]> (args s i)) s) p.
    Proof using.
      intros H Hl j' Hj'. apply (H Hl). cbn [args set_args] in Hj'. destruct (decide (p = i)) as [->|]; [|done].
      apply elem_of_list_lookup in Hj' as (k' & Hx). destruct (decide (k' = k)) as [->|].
      - destruct (decide (k < length (args s i))); [rewrite list_lookup_insert in Hx by done; done|].
        rewrite list_insert_ge in Hx by lia. by apply elem_of_list_lookup_2 in Hx.
      - rewrite list_lookup_insert_ne in Hx by done. by apply elem_of_list_lookup_2 in Hx.
    Qed.

    Lemma evaluate_round : forall n i s, i < n -> rel i -> mid s ->
      let '(s', r) := evaluate g n (Some a) false i s in
      mid s' /\ (forall p, last_id s p = Some a -> last_id s' p = Some a) /\ (forall p, settled s p -> settled s' p) /\
      (r <> None <-> C i) /\ finished s' i.
    Proof using Hwf Hrel Hlen HC HL.
      induction n as [|n IH]; intros i s Hn Hi Hs; [lia|].
      destruct (lookup_lt_is_Some_2 g i (Hlen i Hi)) as [nd Hnd]. cbn [evaluate]. rewrite Hnd.
      destruct (bool_decide (last_id s i = Some a)) eqn:Ec.
      { apply bool_decide_eq_true in Ec. split; [done|]. split; [done|]. split; [done|]. split.
        - split; [|done]. intros _. by apply (m_sound _ Hs).
        - apply finished_done; [apply (m_single _ Hs)|done]. }
      apply bool_decide_eq_false in Ec. set (s1 := set_last i None s).
      assert (forall p, last_id s1 p = Some a <-> last_id s p = Some a) as EL1.
      { intros p. cbn [last_id set_last s1]. destruct (decide (p = i)) as [->|]; [|done]. split; [done|]. congruence. }
      assert (mid s1) as Hs1.
      { destruct Hs as [M1 M2 M3 M4]. split; [by apply single_unlast| | |].
        - intros p Hp Hl. apply EL1 in Hl. auto.
        - intros p Hp He. apply EL1. auto.
        - intros p x Hp Hl Hx. rewrite EL1 in Hl. specialize (M4 p x Hp Hl Hx). destruct x as [f|j]; [done|]. rewrite EL1. done. }
      assert (forall p, settled s p -> settled s1 p) as Hset1 by (intros p H Hl; apply H; by rewrite <- EL1).
      assert (last_id s1 i = None) as Hn1 by (cbn [last_id set_last s1]; by rewrite decide_True).
      assert (forall ks s, mid s -> last_id s i = None -> let '(s', b) := eval_args (evaluate g n (Some a) false) i ks s in
        mid s' /\ last_id s' i = None /\ (forall p, last_id s p = Some a -> last_id s' p = Some a) /\ (forall p, settled s p -> settled s' p) /\
        (b = true <-> forall k j, k ∈ ks -> args s i !! k = Some (AN j) -> C j) /\
        (forall k j, k ∈ ks -> args s i !! k = Some (AN j) -> finished s' j) /\
        (forall k j, k ∈ ks -> args s' i !! k = Some (AN j) -> ~ C j) /\
        (forall k j, args s' i !! k = Some (AN j) -> args s i !! k = Some (AN j)) /\ length (args s' i) = length (args s i)) as Hloop.
      { clear s1 EL1 Hs1 Hset1 Hn1 Ec Hs s. induction ks as [|k ks IHk]; intros s Hs Hn0; cbn [eval_args].
        { split; [done|]. split; [done|]. split; [done|]. split; [done|].
          split; [split; [|done]; intros _ k j Hk; by apply elem_of_nil in Hk|].
          split; [intros k j Hk; by apply elem_of_nil in Hk|]. split; [intros k j Hk; by apply elem_of_nil in Hk|]. done. }
        assert ((forall j, args s i !! k <> Some (AN j)) -> let '(s', b) := eval_args (evaluate g n (Some a) false) i ks s in
          mid s' /\ last_id s' i = None /\ (forall p, last_id s p = Some a -> last_id s' p = Some a) /\ (forall p, settled s p -> settled s' p) /\
          (b = true <-> forall k' j, k' ∈ k :: ks -> args s i !! k' = Some (AN j) -> C j) /\
          (forall k' j, k' ∈ k :: ks -> args s i !! k' = Some (AN j) -> finished s' j) /\
          (forall k' j, k' ∈ k :: ks -> args s' i !! k' = Some (AN j) -> ~ C j) /\
          (forall k j, args s' i !! k = Some (AN j) -> args s i !! k = Some (AN j)) /\ length (args s' i) = length (args s i)) as Hskip.
        { intros Hk. specialize (IHk s Hs Hn0). destruct (eval_args _ i ks s) as [s' b].
          destruct IHk as (I1 & I2 & I3 & I4 & I5 & I6 & I7 & I8 & I9). split; [done|]. split; [done|]. split; [done|]. split; [done|].
          split; [rewrite I5; split|split; [|split; [|done]]].
          - intros H k' j Hk' Ek. apply elem_of_cons in Hk' as [->|Hk']; [by destruct (Hk j)|by eapply H].
          - intros H k' j Hk' Ek. eapply H; [by right|done].
          - intros k' j Hk' Ek. apply elem_of_cons in Hk' as [->|Hk']; [by destruct (Hk j)|by eapply I6].
          - intros k' j Hk' Ek. apply elem_of_cons in Hk' as [->|Hk']; [by destruct (Hk j); apply I8|by eapply I7]. }
        destruct (args s i !! k) as [[f|j]|] eqn:Ek; [by apply Hskip| |by apply Hskip]. clear Hskip.
        destruct (rel_arg s i k j nd (m_single _ Hs) Hnd Hi Ek) as [Hjo Hjr].
        assert (j < i) as Hj by (eapply single_lt; [done|apply (m_single _ Hs)|by apply Hlen|done]).
        pose proof (IH j s ltac:(lia) Hjr Hs) as HR.
        pose proof (evaluate_single g a c0 false Hwf n j s ltac:(lia) (Hlen j Hjr) (m_single _ Hs)) as HS.
        destruct (evaluate g n (Some a) false j s) as [s2 r]. destruct HR as (R1 & R2 & R3 & R4 & R5).
        destruct HS as (S1 & S2 & S3 & S4 & _ & S6).
        assert (last_id s2 i = None) as Hn2 by (by rewrite S3).
        assert (args s2 i = args s i) as Ea2 by (by apply S2).
        destruct r as [f|].
        - destruct (S6 f eq_refl) as [-> Hl2]. set (s3 := set_args i (<[k := AF (O j)]> (args s2 i)) s2).
          assert (mid s3) as Hs3 by (apply mid_subst; [done|done|by rewrite Hn2|by rewrite Ea2|done]).
          assert (args s3 i = <[k := AF (O j)]> (args s i)) as Ea3 by (cbn; rewrite decide_True by done; by rewrite Ea2).
          assert (k < length (args s i)) as Hkl by (by eapply lookup_lt_Some).
          assert (forall p, settled s2 p -> settled s3 p) as Hset3 by (intros p; apply settled_subst).
          specialize (IHk s3 Hs3 Hn2). destruct (eval_args _ i ks s3) as [s' b].
          destruct IHk as (I1 & I2 & I3 & I4 & I5 & I6 & I7 & I8 & I9). split; [done|]. split; [done|].
          split; [intros p Hp; apply I3; cbn [last_id set_args s3]; by apply R2|]. split; [auto|].
          assert (C j) as HCj by (by apply R4).
          split; [rewrite I5; split|split; [|split; [|split]]].
          + intros H k' j' Hk' Ek'. apply elem_of_cons in Hk' as [->|Hk']; [congruence|]. destruct (decide (k' = k)) as [->|]; [congruence|].
            apply (H k'); [done|]. rewrite Ea3. by rewrite list_lookup_insert_ne.
          + intros H k' j' Hk' Ek'. rewrite Ea3 in Ek'. destruct (decide (k' = k)) as [->|]; [by rewrite list_lookup_insert in Ek'|].
            rewrite list_lookup_insert_ne in Ek' by done. eapply H; [by right|done].
          + intros k' j' Hk' Ek'. destruct (decide (k' = k)) as [->|].
            * assert (j' = j) as -> by congruence. eapply finished_mono; [exact I3|exact I4|]. by eapply finished_mono; [|exact Hset3|exact R5].
            * apply elem_of_cons in Hk' as [->|Hk']; [done|]. apply (I6 k'); [done|]. rewrite Ea3. by rewrite list_lookup_insert_ne.
          + intros k' j' Hk' Ek'. apply elem_of_cons in Hk' as [->|Hk']; [|by eapply I7].
            apply I8 in Ek'. rewrite Ea3 in Ek'. by rewrite list_lookup_insert in Ek'.
          + intros k' j' Ek'. apply I8 in Ek'. rewrite Ea3 in Ek'. destruct (decide (k' = k)) as [->|]; [by rewrite list_lookup_insert in Ek'|].
            by rewrite list_lookup_insert_ne in Ek'.
          + rewrite I9, Ea3. apply insert_length.
        - specialize (IHk s2 R1 Hn2). destruct (eval_args _ i ks s2) as [s' b].
          destruct IHk as (I1 & I2 & I3 & I4 & I5 & I6 & I7 & I8 & I9). rewrite Ea2 in *. split; [done|]. split; [done|].
          assert (~ C j) as HCj by (rewrite <- R4; by intros []).
          split; [auto|]. split; [auto|]. split; [split; [done|]; intros H; destruct HCj; apply (H k); [by left|done]|].
          split; [|split; [|done]].
          + intros k' j' Hk' Ek'. apply elem_of_cons in Hk' as [->|Hk']; [|by eapply I6]. assert (j' = j) as -> by congruence.
            by eapply finished_mono.
          + intros k' j' Hk' Ek'. apply elem_of_cons in Hk' as [->|Hk']; [|by eapply I7]. apply I8 in Ek'. congruence. }
      specialize (Hloop (seq 0 (length (args s1 i))) s1 Hs1 Hn1).
      destruct (eval_args _ i (seq 0 (length (args s1 i))) s1) as [s2 b].
      destruct Hloop as (I1 & I2 & I3 & I4 & I5 & I6 & I7 & I8 & I9).
      assert (forall k x, args s1 i !! k = Some x -> k ∈ seq 0 (length (args s1 i))) as Hin.
      { intros k x E'. apply elem_of_list_In, in_seq. apply lookup_lt_Some in E'. lia. }
      assert (forall k x, args s2 i !! k = Some x -> k ∈ seq 0 (length (args s1 i))) as Hin2.
      { intros k x E'. apply elem_of_list_In, in_seq. apply lookup_lt_Some in E'. lia. }
      assert (forall p, last_id s p = Some a -> last_id s2 p = Some a) as EM2 by (intros p Hp; apply I3; by apply EL1).
      assert (forall p, settled s p -> settled s2 p) as Hset2 by auto.
      assert (forall j p, child g i j -> below g j p -> (C p -> last_id s2 p = Some a) /\ settled s2 p) as Hbelow.
      { intros j p (nd' & Hnd' & Hj). rewrite Hnd in Hnd'. injection Hnd' as <-. apply elem_of_list_lookup in Hj as (k & Hk).
        destruct (Forall2_lookup_r _ _ _ _ _ (s_args _ _ _ _ (m_single _ Hs1) i nd Hnd) Hk) as (x & Hx & [->|(j' & F & -> & Hj')]).
        - intros Hp. by apply (I6 k j (Hin _ _ Hx) Hx).
        - injection F as <-. intros Hp. apply (finished_done s2 j); [apply (m_single _ I1)|by apply I3|done]. }
      assert (~ E i) as HnE by (intros He; pose proof (m_before _ Hs i Hi He); done).
      assert (settled s2 i) as Hseti.
      { intros Hl j Hj. apply elem_of_list_lookup in Hj as (k & Hk). by eapply I7; [eapply Hin2|]. }
      assert (forall p, below g i p -> p = i \/ exists j, child g i j /\ below g j p) as Hcase.
      { intros p Hp. inversion Hp; subst; [by left|right; eauto]. }
      destruct b.
      2: { assert (~ C i) as HnC.
           { intros HCi. apply (HC i nd Hnd Hi) in HCi as [?|[Hall _]]; [done|]. assert (false = true); [|done]. apply I5. intros k j _ Ek.
             apply Hall. by destruct (rel_arg s1 i k j nd (m_single _ Hs1) Hnd Hi Ek). }
           split; [done|]. split; [done|]. split; [done|]. split; [by split|]. intros p Hp. destruct (Hcase p Hp) as [->|(j & Hj & Hb)]; [done|by apply (Hbelow j)]. }
      assert (forall j, AN j ∈ original_args nd -> C j) as HCall.
      { intros j Hj. apply elem_of_list_lookup in Hj as (k & Hk).
        destruct (Forall2_lookup_r _ _ _ _ _ (s_args _ _ _ _ (m_single _ Hs1) i nd Hnd) Hk) as (x & Hx & [->|(j' & F & -> & Hj')]).
        - by eapply (proj1 I5 eq_refl k j (Hin _ _ Hx)).
        - injection F as <-. apply (m_sound _ Hs1); [|done]. apply (Hrel i j Hi). exists nd. split; [done|by eapply elem_of_list_lookup_2]. }
      assert (forall k j, args s2 i !! k <> Some (AN j)) as Hall.
      { intros k j Ek. apply (I7 k j (Hin2 _ _ Ek) Ek). apply HCall. by destruct (rel_arg s2 i k j nd (m_single _ I1) Hnd Hi Ek). }
      assert (map (layout s2) (fields_of (args s2 i)) = map lay_of (original_args nd)) as Elay.
      { pose proof (s_args _ _ _ _ (m_single _ I1) i nd Hnd) as HF. pose proof (m_layout _ I1 i) as ML.
        assert (forall x, x ∈ args s2 i -> match x with AF f => layout s2 f = ll f | AN _ => False end) as Hx.
        { intros x Hx. assert (last_id s2 i <> Some a) as Hl by (by rewrite I2). specialize (ML x Hi Hl Hx). destruct x as [f|j]; [done|].
          apply elem_of_list_lookup in Hx as (k & Hk). by destruct (Hall k j). }
        clear -HF Hx. induction HF as [|x o l l' Hxo HF IH]; [done|].
        assert (fields_of (x :: l) = match x with AF f => [f] | AN _ => [] end ++ fields_of l) as -> by (by destruct x).
        rewrite map_app, IH by (intros y Hy; apply Hx; by right). specialize (Hx x ltac:(by left)).
        destruct x as [f|j]; [|done]. cbn. rewrite Hx. f_equal. destruct Hxo as [<-|(j & -> & F & _)]; [done|]. by injection F as ->. }
      cbn [fst snd]. rewrite Elay. destruct (check (n_op nd) (map lay_of (original_args nd))) eqn:Echk.
      2: { assert (~ C i) as HnC.
           { intros HCi. apply (HC i nd Hnd Hi) in HCi as [?|[_ ?]]; [done|]. congruence. }
           split; [done|]. split; [done|]. split; [done|]. split; [by split|]. intros p Hp. destruct (Hcase p Hp) as [->|(j & Hj & Hb)]; [done|by apply (Hbelow j)]. }
      assert (C i) as HCi by (apply (HC i nd Hnd Hi); by right).
      set (s3 := operate nd i (Some a) s2).
      assert (forall p, last_id s3 p = if decide (p = i) then Some a else last_id s2 p) as EL3 by (intros p; unfold s3; by rewrite operate_last).
      assert (forall f, layout s3 f = if decide (f = O i) then ll (O i) else layout s2 f) as ELay3.
      { intros f. unfold s3. rewrite operate_layout, Elay, (HL i nd Hnd Hi). done. }
      assert (forall p, last_id s2 p = Some a -> last_id s3 p = Some a) as EM3 by (intros p Hp; rewrite EL3; by destruct (decide (p = i))).
      assert (forall p, settled s2 p -> settled s3 p) as Hset3.
      { intros p H Hl j Hj. rewrite EL3 in Hl. unfold s3 in Hj. rewrite operate_args in Hj. destruct (decide (p = i)); [done|]. by apply H. }
      assert (mid s3) as Hs3.
      { split.
        - eapply single_operate; [done|apply (m_single _ I1)|by rewrite I2|done..].
        - intros p Hp Hl. rewrite EL3 in Hl. destruct (decide (p = i)) as [->|]; [done|]. by apply (m_sound _ I1).
        - intros p Hp He. apply EM3. by apply (m_before _ I1).
        - intros p x Hp Hl Hx. rewrite EL3 in Hl. unfold s3 in Hx. rewrite operate_args in Hx. destruct (decide (p = i)) as [->|]; [done|].
          pose proof (m_layout _ I1 p x Hp Hl Hx) as ML. destruct x as [f|j].
          + rewrite ELay3. destruct (decide (f = O i)); [by subst|done].
          + rewrite ELay3, EL3. destruct (decide (O j = O i)) as [F|F]; [by injection F as ->|].
            destruct (decide (j = i)) as [->|]; [done|exact ML]. }
      split; [done|]. split; [auto|]. split; [auto|]. split; [by split|].
      intros p Hp. destruct (Hcase p Hp) as [->|(j & Hj & Hb)].
      - split; [intros _; rewrite EL3; by rewrite decide_True|]. intros []. rewrite EL3. by rewrite decide_True.
      - destruct (Hbelow j p Hj Hb) as [F1 F2]. auto.
    Qed.

    (** All the tasks of a round. *)
    Lemma attempt_tasks_round : forall tasks s, (forall r, r ∈ tasks -> rel r) -> mid s ->
      let '(s', todo) := attempt_tasks g (Some a) tasks s in
      mid s' /\ (forall p, last_id s p = Some a -> last_id s' p = Some a) /\ (forall p, settled s p -> settled s' p) /\
      (forall r, r ∈ todo <-> r ∈ tasks /\ ~ C r) /\ (forall r, r ∈ tasks -> finished s' r) /\ (forall r, r ∈ tasks -> r ∈ todo \/ C r).
    Proof using Hwf Hrel Hlen HC HL.
      induction tasks as [|i tasks IH]; intros s Ht Hs; cbn [attempt_tasks].
      { split; [done|]. split; [done|]. split; [done|]. split; [intros r; split; [by intros ?%elem_of_nil|by intros [?%elem_of_nil _]]|].
        split; by intros r ?%elem_of_nil. }
      assert (rel i) as Hi by (apply Ht; by left).
      pose proof (evaluate_round (length g) i s (Hlen i Hi) Hi Hs) as H.
      destruct (evaluate g (length g) (Some a) false i s) as [s1 r]. destruct H as (H1 & H2 & H3 & H4 & H5).
      specialize (IH s1 ltac:(intros r' Hr'; apply Ht; by right) H1). destruct (attempt_tasks g (Some a) tasks s1) as [s2 todo].
      destruct IH as (I1 & I2 & I3 & I4 & I5 & I6). split; [done|]. split; [auto|]. split; [auto|]. split; [|split].
      - intros r'. destruct r as [f|].
        + rewrite I4, elem_of_cons. assert (C i) as HCi by (by apply H4). split; [intros [F1 F2]; split; [by right|done]|].
          intros [[->|F1] F2]; [done|by split].
        + rewrite !elem_of_cons, I4. assert (~ C i) as HCi by (rewrite <- H4; by intros []).
          split; [intros [->|[F1 F2]]; split; [by left|done|by right|done]|]. intros [[->|F1] F2]; [by left|by right].
      - intros r' Hr'. apply elem_of_cons in Hr' as [->|Hr']; [by eapply finished_mono|by apply I5].
      - intros r' Hr'. apply elem_of_cons in Hr' as [->|Hr'].
        + destruct r; [right; by apply H4|left; by left].
        + destruct (I6 r' Hr'); [|by right]. left. destruct r; [done|by right].
    Qed.
  End Round.

  (** ** Changes of layout *)
  Definition relaid s s' : Prop := args s' = args s /\ last_id s' = last_id s /\ calls s' = calls s /\ value s' = value s.
  Lemma relaid_trans s1 s2 s3 : relaid s1 s2 -> relaid s2 s3 -> relaid s1 s3.
  Proof. intros (A1 & A2 & A3 & A4) (B1 & B2 & B3 & B4). unfold relaid. by rewrite B1, B2, B3, B4. Qed.
  Lemma set_layouts_spec l (fs : list fid) : forall s, let s' := foldl (fun s f => set_layout f l s) s fs in
    relaid s s' /\ forall f, layout s' f = if decide (f ∈ fs) then l else layout s f.
  Proof.
    induction fs as [|f0 fs IH]; intros s; cbn [foldl].
    { split; [done|]. intros f. destruct (decide (f ∈ [])) as [F|]; [by apply elem_of_nil in F|done]. }
    destruct (IH (set_layout f0 l s)) as [H1 H2]. split; [by eapply relaid_trans; [|exact H1]|].
    intros f. rewrite H2. cbn [layout set_layout].
    destruct (decide (f ∈ fs)) as [F|F], (decide (f = f0)) as [->|G], (decide (_ ∈ _ :: fs)) as [H|H]; try done;
      rewrite elem_of_cons in H; tauto.
  Qed.
  Lemma increment_spec index fs s : (forall f, f ∈ fs -> layout s f = index) ->
    exists s', increment index fs s = Some s' /\ relaid s s' /\ forall f, layout s' f = if decide (f ∈ fs) then index + 1 else layout s f.
  Proof.
    intros H. unfold increment. destruct (decide (Forall _ fs)) as [|F]; [|destruct F; by apply Forall_forall].
    eexists. split; [done|]. apply set_layouts_spec.
  Qed.
  Lemma decrement_spec index fs s : (forall f, f ∈ fs -> layout s f = index + 1) ->
    exists s', decrement index fs s = Some s' /\ relaid s s' /\ forall f, layout s' f = if decide (f ∈ fs) then index else layout s f.
  Proof.
    intros H. unfold decrement. destruct (decide (Forall _ fs)) as [|F]; [|destruct F; by apply Forall_forall].
    eexists. split; [done|]. apply set_layouts_spec.
  Qed.

  Lemma coeff_loop_spec fs s0 : forall top current s,
    (forall f, f ∈ current <-> f ∈ fs /\ top < layout s0 f) -> (forall f, f ∈ current -> layout s f = top) ->
    (forall f, f ∉ current -> layout s f = layout s0 f) ->
    exists s', coeff_loop top (fun l => filter (fun f => layout s0 f = l) fs) current s = Some s' /\ relaid s s' /\
      forall f, layout s' f = if decide (f ∈ fs) then 0 else layout s0 f.
  Proof.
    induction top as [|m IH]; intros current s H1 H2 H3; cbn [coeff_loop].
    { exists s. split; [done|]. split; [done|]. intros f. destruct (decide (f ∈ current)) as [F|F].
      - rewrite decide_True by (by apply H1). by apply H2.
      - rewrite (H3 f F). destruct (decide (f ∈ fs)) as [G|G]; [|done]. destruct (layout s0 f) eqn:El; [done|]. destruct F. apply H1. split; [done|lia]. }
    set (cur := current ++ filter (fun f => layout s0 f = S m) fs).
    assert (forall f, f ∈ cur <-> f ∈ fs /\ m < layout s0 f) as Hcur.
    { intros f. unfold cur. rewrite elem_of_app, H1, elem_of_list_filter. split; [intros [[F1 F2]|[F1 F2]]; split; [done|lia|done|lia]|].
      intros [F1 F2]. destruct (decide (layout s0 f = S m)); [by right|left]. split; [done|lia]. }
    destruct (decrement_spec m cur s) as (s1 & -> & Hr & Hl).
    { intros f Hf. destruct (decide (f ∈ current)) as [F|F]; [rewrite (H2 f F); lia|]. rewrite (H3 f F). apply elem_of_app in Hf as [?|Hf]; [done|].
      apply elem_of_list_filter in Hf as [-> _]. lia. }
    destruct (IH cur s1) as (s2 & E2 & Hr2 & Hl2); [done| | |].
    - intros f Hf. rewrite Hl. by rewrite decide_True.
    - intros f Hf. rewrite Hl, decide_False by done. apply H3. intros F. apply Hf. by apply elem_of_app; left.
    - exists s2. split; [done|]. split; [by eapply relaid_trans|done].
  Qed.
  Lemma require_coeff_space_spec fs s : exists s', require_coeff_space fs s = Some s' /\ relaid s s' /\
    forall f, layout s' f = if decide (f ∈ fs) then 0 else layout s f.
  Proof.
    unfold require_coeff_space. destruct (decide (Forall _ fs)) as [F|F].
    { exists s. split; [done|]. split; [done|]. intros f. destruct (decide (f ∈ fs)); [|done]. rewrite Forall_forall in F. by apply F. }
    apply coeff_loop_spec; [|by intros f ?%elem_of_nil|done].
    intros f. split; [by intros ?%elem_of_nil|]. intros [F1 F2].
    assert (layout s f <= max_list (map (layout s) fs)); [|lia]. apply max_list_elem_of_le. by apply (elem_of_list_fmap_1 (layout s)).
  Qed.

  (** ** The sweep *)
  Section Sweep.
    Variables (g : list (node V)) (a : nat) (c0 : list (nat * option nat)) (roots : list nat).
    Hypothesis Hwf : wf g.
    Hypothesis Hroots : forall r, r ∈ roots -> r < length g.
    Definition relevant (p : nat) : Prop := exists r, r ∈ roots /\ below g r p.
    Lemma child_lt i j : child g i j -> j < i.
    Proof using Hwf. intros (nd & Hnd & Hj). exact (Hwf i nd (AN j) Hnd Hj). Qed.
    Lemma below_le i j : below g i j -> j <= i.
    Proof using Hwf. intros H. induction H as [|i k j Hc H IH]; [done|]. apply child_lt in Hc. lia. Qed.
    Lemma relevant_child i j : relevant i -> child g i j -> relevant j.
    Proof using. intros (r & Hr & Hb) Hc. exists r. split; [done|]. by eapply rtc_r. Qed.
    Lemma relevant_lt i : relevant i -> i < length g.
    Proof using Hwf Hroots. intros (r & Hr & Hb). apply below_le in Hb. specialize (Hroots r Hr). lia. Qed.

    Record between (D : nat -> Prop) (ll : fid -> nat) (tasks : list nat) s : Prop := Between {
      b_single : single g a c0 s;
      b_done : forall p, relevant p -> last_id s p = Some a <-> D p;
      b_tasks : forall r, r ∈ tasks <-> r ∈ roots /\ ~ D r;
      b_dec : forall r, r ∈ roots -> r ∈ tasks \/ D r;
      b_args : forall p x, relevant p -> ~ D p -> x ∈ args s p -> match x with AF f => layout s f = ll f | AN j => ~ D j end }.

    Lemma between_relay D ll ll' tasks s s' : between D ll tasks s -> relaid s s' ->
      (forall p f, relevant p -> ~ D p -> AF f ∈ args s p -> layout s' f = ll' f) -> between D ll' tasks s'.
    Proof using.
      intros [H1 H2 H3 H4 H5] (E1 & E2 & E3 & E4) Hl. split; [by eapply single_layout|by rewrite E2|done|done|].
      intros p x Hp HD Hx. rewrite E1 in Hx. pose proof (H5 p x Hp HD Hx) as F. destruct x as [f|j]; [by eapply Hl|done].
    Qed.

    (** The fields that are moved. *)
    Lemma relevant_arg D ll tasks s p j : between D ll tasks s -> relevant p -> AN j ∈ args s p -> relevant j.
    Proof using Hwf Hroots.
      intros HB Hp Hx. destruct (lookup_lt_is_Some_2 g p (relevant_lt p Hp)) as [nd Hnd]. apply elem_of_list_lookup in Hx as (k & Hk).
      destruct (Forall2_lookup_l _ _ _ _ _ (s_args _ _ _ _ (b_single _ _ _ _ HB) p nd Hnd) Hk) as (o & Ho & [<-|(j' & _ & ? & _)]); [|done].
      eapply relevant_child; [done|]. exists nd. split; [done|by eapply elem_of_list_lookup_2].
    Qed.
    Lemma atoms_layout D ll tasks s : between D ll tasks s -> forall n p f, relevant p -> ~ D p -> f ∈ atoms n s p -> layout s f = ll f.
    Proof using Hwf Hroots.
      intros HB. induction n as [|n IH]; intros p f Hp HD Hf; cbn [atoms] in Hf; [by apply elem_of_nil in Hf|].
      apply elem_of_list_bind in Hf as (x & Hf & Hx). pose proof (b_args _ _ _ _ HB p x Hp HD Hx) as Hb. destruct x as [f'|j].
      - apply elem_of_list_singleton in Hf as ->. done.
      - apply (IH j f); [|done|done]. by eapply relevant_arg.
    Qed.
    Lemma atoms_all D ll tasks s : between D ll tasks s -> forall n i p f, i < n -> relevant i -> below g i p -> ~ D p ->
      AF f ∈ args s p -> f ∈ atoms n s i.
    Proof using Hwf Hroots.
      intros HB. induction n as [|n IH]; intros i p f Hn Hi Hb HD Hf; [lia|]. cbn [atoms]. apply elem_of_list_bind.
      inversion Hb as [|? j ? Hc Hb']; subst; [exists (AF f); split; [by apply elem_of_list_singleton|done]|].
      assert (relevant j) as Hj by (by eapply relevant_child).
      assert (last_id s j <> Some a) as Hlj.
      { intros Hl. apply HD. apply (b_done _ _ _ _ HB p).
        - destruct Hj as (r & Hr & Hbr). exists r. split; [done|]. by eapply rtc_transitive.
        - eapply single_below; [apply (b_single _ _ _ _ HB)|exact Hl|done]. }
      exists (AN j). pose proof (child_lt _ _ Hc). split; [apply (IH j p); [lia|done..]|].
      destruct Hc as (nd & Hnd & Hjo). apply elem_of_list_lookup in Hjo as (k & Hk).
      destruct (Forall2_lookup_r _ _ _ _ _ (s_args _ _ _ _ (b_single _ _ _ _ HB) i nd Hnd) Hk) as (x & Hx & [->|(j' & F & -> & Hj')]).
      - by eapply elem_of_list_lookup_2.
      - by injection F as <-.
    Qed.
    Lemma get_fields_layout D ll tasks s f : between D ll tasks s -> f ∈ get_fields (length g) s tasks -> layout s f = ll f.
    Proof using Hwf Hroots.
      intros HB Hf. unfold get_fields in Hf. rewrite elem_of_remove_dups in Hf. apply elem_of_list_bind in Hf as (i & Hf & Hi).
      apply (b_tasks _ _ _ _ HB) in Hi as [Hr HD]. eapply (atoms_layout _ _ _ _ HB _ i); [|done|done]. exists i. split; [done|]. constructor.
    Qed.
    Lemma get_fields_all D ll tasks s p f : between D ll tasks s -> relevant p -> ~ D p -> AF f ∈ args s p -> f ∈ get_fields (length g) s tasks.
    Proof using Hwf Hroots.
      intros HB (r & Hr & Hb) HD Hf. unfold get_fields. rewrite elem_of_remove_dups. apply elem_of_list_bind. exists r. split.
      - eapply (atoms_all _ _ _ _ HB); [by apply Hroots|by exists r; split; [|constructor]|done..].
      - apply (b_tasks _ _ _ _ HB). split; [done|]. intros HDr. apply HD. apply (b_done _ _ _ _ HB p); [by exists r|].
        eapply single_below; [apply (b_single _ _ _ _ HB)| |exact Hb]. apply (b_done _ _ _ _ HB); [|done]. exists r. split; [done|constructor].
    Qed.

    (** A round of attempts in given layouts, after the operators [E] have been done. *)
    Section OneRound.
      Variables (E C : nat -> Prop) (ll : fid -> nat).
      Hypothesis HC : forall i nd, g !! i = Some nd -> relevant i ->
        C i <-> E i \/ ((forall j, AN j ∈ original_args nd -> C j) /\ check (n_op nd) (map (lay_of ll) (original_args nd)) = true).
      Hypothesis HL : forall i nd, g !! i = Some nd -> relevant i -> out_layout (n_op nd) (map (lay_of ll) (original_args nd)) = ll (O i).

      Lemma between_round tasks s : between E ll tasks s ->
        let '(s', todo) := attempt_tasks g (Some a) tasks s in between C ll todo s'.
      Proof using Hwf Hroots HC HL.
        intros HB.
        assert (forall i, relevant i -> E i -> C i) as HEC.
        { intros i Hi He. destruct (lookup_lt_is_Some_2 g i (relevant_lt i Hi)) as [nd Hnd]. apply (HC i nd Hnd Hi). by left. }
        assert (mid g a c0 relevant E C ll s) as HM.
        { destruct HB as [H1 H2 H3 H4 H5]. split; [done| | |].
          - intros p Hp Hl. apply HEC; [done|]. by apply H2.
          - intros p Hp He. by apply H2.
          - intros p x Hp Hl Hx. assert (~ E p) as HnE by (intros He; by apply H2 in He). pose proof (H5 p x Hp HnE Hx) as F.
            destruct x as [f|j]; [done|]. intros Hj. destruct F. apply H2; [|done].
            eapply relevant_arg; [by split|done|done]. }
        pose proof (attempt_tasks_round g a c0 relevant E C ll Hwf relevant_child relevant_lt HC HL tasks s
          ltac:(intros r Hr; apply (b_tasks _ _ _ _ HB) in Hr as [Hr _]; exists r; split; [done|constructor]) HM) as HR.
        destruct (attempt_tasks g (Some a) tasks s) as [s' todo]. destruct HR as (R1 & R2 & R3 & R4 & R5 & R6).
        assert (forall p, relevant p -> (C p -> last_id s' p = Some a) /\ settled a C s' p) as Hfin.
        { intros p (r & Hr & Hb). destruct (b_dec _ _ _ _ HB r Hr) as [Ht|HE]; [by apply (R5 r)|].
          assert (last_id s' r = Some a) as Hl.
          { apply R2. apply (b_done _ _ _ _ HB); [|done]. exists r. split; [done|constructor]. }
          eapply finished_done; [apply (m_single _ _ _ _ _ _ _ _ R1)|exact Hl|done]. }
        split.
        - apply (m_single _ _ _ _ _ _ _ _ R1).
        - intros p Hp. split; [by apply (m_sound _ _ _ _ _ _ _ _ R1)|by apply Hfin].
        - intros r. rewrite R4, (b_tasks _ _ _ _ HB). split; [tauto|]. intros [Hr HnC]. split; [|done]. split; [done|].
          intros He. apply HnC. apply HEC; [|done]. exists r. split; [done|constructor].
        - intros r Hr. destruct (b_dec _ _ _ _ HB r Hr) as [Ht|HE]; [by apply R6|]. right. apply HEC; [|done]. exists r. split; [done|constructor].
        - intros p x Hp HnC Hx. assert (last_id s' p <> Some a) as Hl.
          { intros Hl. apply HnC. by apply (m_sound _ _ _ _ _ _ _ _ R1). }
          pose proof (m_layout _ _ _ _ _ _ _ _ R1 p x Hp Hl Hx) as F. destruct x as [f|j]; [done|].
          by apply (proj2 (Hfin p Hp)).
      Qed.
    End OneRound.

    Variables (initially : nat -> Prop) (osc : list nat).
    Notation index := (fun t => nth t osc 0).
    Notation D := (done_by g initially index).
    Hypothesis Hosc : forall t, S t < length osc -> index (S t) = index t + 1 \/ index t = index (S t) + 1.
    Hypothesis Hkeep : forall i nd, g !! i = Some nd -> relevant i -> keeps_layout nd.

    Lemma round_uniform l E tasks s : between E (fun _ => l) tasks s ->
      let '(s', todo) := attempt_tasks g (Some a) tasks s in between (evaluable g (fun _ nd => accepts nd l) E) (fun _ => l) todo s'.
    Proof using Hwf Hroots Hkeep.
      assert (forall os, map (lay_of (fun _ => l)) os = map (fun _ => l) os) as Em by (intros os; apply map_ext; by intros []).
      intros HB. apply (between_round E _ (fun _ => l)); [| |done].
      - intros i nd Hnd Hi. rewrite Em. split.
        + intros H. inversion H as [|? nd' Hnd' Hall Hok]; subst; [by left|]. rewrite Hnd in Hnd'. injection Hnd' as <-. by right.
        + intros [H|[H1 H2]]; [by constructor|by eapply ev_now].
      - intros i nd Hnd Hi. rewrite Em. apply (Hkeep i nd Hnd Hi).
    Qed.
    Lemma done_by_mono t p : D t p -> D (S t) p.
    Proof using. intros H. cbn [done_by]. by constructor. Qed.

    Lemma sweep_spec : forall rest t tasks s, t + S rest = length osc -> between (D t) (fun _ => index t) tasks s ->
      match sweep g (Some a) (drop (S t) osc) (index t) t tasks s with
      | Done s' k => t <= k /\ k < length osc /\ between (D k) (fun _ => index k) [] s' /\ (forall t', t <= t' -> t' < k -> exists r, r ∈ roots /\ ~ D t' r)
      | StopIteration s' => exists r, r ∈ roots /\ ~ D (length osc - 1) r
      | Corrupt => False
      end.
    Proof using Hwf Hroots Hosc Hkeep.
      assert (forall d t s, between (D t) (fun _ => index t) [] s ->
        match sweep g (Some a) d (index t) t [] s with
        | Done s' k => t <= k /\ k < length osc /\ between (D k) (fun _ => index k) [] s' /\ (forall t', t <= t' -> t' < k -> exists r, r ∈ roots /\ ~ D t' r)
        | StopIteration s' => exists r, r ∈ roots /\ ~ D (length osc - 1) r
        | Corrupt => False
        end \/ length osc <= t) as Hnil.
      { intros d t s HB. destruct (decide (length osc <= t)); [by right|left]. destruct d; cbn [sweep]; (split; [done|]; split; [lia|]; split; [done|]; intros; lia). }
      induction rest as [|rest IH]; intros t tasks s Ht HB; (destruct tasks as [|r0 tasks]; [destruct (Hnil (drop (S t) osc) t s HB); [done|lia]|]).
      - rewrite drop_ge by lia. cbn [sweep]. exists r0. assert (length osc - 1 = t) as -> by lia. apply (b_tasks _ _ _ _ HB). by left.
      - assert (S t < length osc) as Hlt by lia. specialize (Hosc t Hlt).
        assert (drop (S t) osc = index (S t) :: drop (S (S t)) osc) as ->.
        { apply drop_S. rewrite nth_lookup. destruct (lookup_lt_is_Some_2 osc (S t) Hlt) as [x Hx]; by rewrite Hx. }
        cbn [sweep]. set (fields := get_fields (length g) s (r0 :: tasks)).
        assert (exists s1, (if decide (index t < index (S t)) then increment (index t) fields s else decrement (index (S t)) fields s) = Some s1 /\
          relaid s s1 /\ forall f, f ∈ fields -> layout s1 f = index (S t)) as (s1 & E1 & Hr1 & Hl1).
        { destruct (decide (index t < index (S t))).
          - destruct (increment_spec (index t) fields s) as (s1 & E1 & Hr1 & Hl1); [intros f Hf; by eapply get_fields_layout in Hf; [|exact HB]|].
            exists s1. split; [done|]. split; [done|]. intros f Hf. rewrite Hl1, decide_True by done. lia.
          - destruct (decrement_spec (index (S t)) fields s) as (s1 & E1 & Hr1 & Hl1).
            { intros f Hf. eapply get_fields_layout in Hf; [|exact HB]. rewrite Hf. lia. }
            exists s1. split; [done|]. split; [done|]. intros f Hf. by rewrite Hl1, decide_True. }
        rewrite E1.
        assert (between (D t) (fun _ => index (S t)) (r0 :: tasks) s1) as HB1.
        { eapply between_relay; [exact HB|done|]. intros p f Hp HD Hf. apply Hl1. by eapply get_fields_all. }
        pose proof (round_uniform (index (S t)) (D t) (r0 :: tasks) s1 HB1) as HB2.
        destruct (attempt_tasks g (Some a) (r0 :: tasks) s1) as [s2 todo].
        specialize (IH (S t) todo s2 ltac:(lia) HB2). replace (t + 1) with (S t) by lia.
        destruct (sweep g (Some a) (drop (S (S t)) osc) (index (S t)) (S t) todo s2) as [s' k|s'|]; [|done|done].
        destruct IH as (I1 & I2 & I3 & I4). split; [lia|]. split; [done|]. split; [done|]. intros t' H1 H2.
        destruct (decide (t' = t)) as [->|]; [|apply I4; lia]. exists r0. apply (b_tasks _ _ _ _ HB). by left.
    Qed.
  End Sweep.

  (** ** Invariants of the whole evaluation *)
  Section Whole.
    Variables (g : list (node V)) (id : nat) (roots : list nat) (P : state V -> Prop).
    Hypothesis Hroots : forall r, r ∈ roots -> r < length g.
    Hypothesis Hrelay : forall s s', relaid s s' -> P s -> P s'.
    Hypothesis Hev : forall i s, i < length g -> P s -> P (evaluate g (length g) (Some id) false i s).1.
    Lemma attempt_tasks_whole : forall tasks s, (forall r, r ∈ tasks -> r ∈ roots) -> P s ->
      P (attempt_tasks g (Some id) tasks s).1 /\ forall r, r ∈ (attempt_tasks g (Some id) tasks s).2 -> r ∈ roots.
    Proof using Hroots Hev.
      induction tasks as [|i tasks IH]; intros s Ht Hs; cbn [attempt_tasks]; [done|].
      pose proof (Hev i s (Hroots i (Ht i ltac:(by left))) Hs) as H. destruct (evaluate g (length g) (Some id) false i s) as [s1 r]. cbn [fst] in H.
      destruct (IH s1 ltac:(intros r' Hr'; apply Ht; by right) H) as [I1 I2]. destruct (attempt_tasks g (Some id) tasks s1) as [s2 todo].
      split; [done|]. cbn [snd] in *. destruct r; [done|]. intros r Hr. apply elem_of_cons in Hr as [->|Hr]; [apply Ht; by left|by apply I2].
    Qed.
    Lemma sweep_whole : forall indices current steps tasks s, (forall r, r ∈ tasks -> r ∈ roots) -> P s ->
      match sweep g (Some id) indices current steps tasks s with Done s' _ | StopIteration s' => P s' | Corrupt => True end.
    Proof using Hroots Hrelay Hev.
      induction indices as [|next indices IH]; intros current steps tasks s Ht Hs; destruct tasks as [|r0 tasks]; cbn [sweep]; [done..|].
      set (fields := get_fields (length g) s (r0 :: tasks)).
      assert (forall s1, (if decide (current < next) then increment current fields s else decrement next fields s) = Some s1 -> P s1) as H1.
      { intros s1. destruct (decide (current < next)); unfold increment, decrement;
          (destruct (decide (Forall _ fields)); [|done]; intros [= <-]; eapply Hrelay; [|exact Hs]; apply set_layouts_spec). }
      destruct (if decide (current < next) then _ else _) as [s1|]; [|done]. specialize (H1 s1 eq_refl).
      destruct (attempt_tasks_whole (r0 :: tasks) s1 Ht H1) as [A1 A2]. destruct (attempt_tasks g (Some id) (r0 :: tasks) s1) as [s2 todo]. by apply IH.
    Qed.
    Lemma handlers_whole n s : P s ->
      match evaluate_handlers g n id roots s with Done s' _ | StopIteration s' => P s' | Corrupt => True end.
    Proof using Hroots Hrelay Hev.
      intros Hs. unfold evaluate_handlers. destruct (attempt_tasks_whole roots s ltac:(done) Hs) as [A1 A2].
      destruct (attempt_tasks g (Some id) roots s) as [s1 todo]. cbn [fst snd] in *.
      destruct (require_coeff_space_spec (get_fields (length g) s1 todo) s1) as (s2 & -> & Hr & _).
      destruct (attempt_tasks_whole todo s2 A2 (Hrelay _ _ Hr A1)) as [B1 B2].
      destruct (attempt_tasks g (Some id) todo s2) as [s3 todo']. cbn [fst snd] in *.
      destruct (oscillate n 10) as [|current indices]; [done|].
      pose proof (sweep_whole indices current 0 todo' s3 B2 B1) as H. destruct (sweep g (Some id) indices current 0 todo' s3) as [s4 k|s4|]; [|done|done].
      destruct (require_coeff_space_spec (remove_dups (map O roots)) s4) as (s5 & -> & Hr5 & _). by eapply Hrelay.
    Qed.
  End Whole.

  Lemma handlers_good g u w n id roots s : wf g -> values_on g u w -> (forall r, r ∈ roots -> r < length g) -> good g u w (fun a => a = id) s ->
    match evaluate_handlers g n id roots s with Done s' _ | StopIteration s' => good g u w (fun a => a = id) s' | Corrupt => True end.
  Proof.
    intros Hwf Hw Hroots Hs. apply handlers_whole; [done| | |done].
    - intros s1 s2 (E1 & E2 & E3 & E4) H. eapply good_weaken; [exact H|by rewrite E1|intros i; left; by rewrite E2|by rewrite E4].
    - intros i s1 Hi H1. pose proof (evaluate_good g u w (fun a => a = id) (Some id) false Hwf ltac:(by intros a [= ->]) Hw (length g) i s1 Hi Hi H1) as H.
      destruct (evaluate g (length g) (Some id) false i s1) as [s2 r]. apply H.
  Qed.

  (** ** The oscillating indices *)
  Lemma concat_replicate_lookup {A} (l : list A) k : forall t, t < k * length l -> concat (replicate k l) !! t = l !! (t mod length l).
  Proof.
    induction k as [|k IH]; intros t Ht; [lia|]. cbn [replicate concat]. destruct (decide (t < length l)) as [Hl|Hl].
    - rewrite lookup_app_l by done. by rewrite Nat.mod_small.
    - rewrite lookup_app_r by lia. rewrite IH by lia. f_equal.
      assert (t = (t - length l) + 1 * length l) as E by lia. rewrite E at 2. rewrite Nat.mod_add by lia. done.
  Qed.
  Lemma concat_replicate_length {A} (l : list A) k : length (concat (replicate k l)) = k * length l.
  Proof. induction k as [|k IH]; [done|]. cbn [replicate concat]. rewrite app_length, IH. lia. Qed.
  Lemma period_length n : 2 <= n -> length (seq 0 n ++ reverse (seq 1 (n - 2))) = 2 * (n - 1).
  Proof. intros Hn. rewrite app_length, reverse_length, !seq_length. lia. Qed.
  Lemma oscillate_length n k : 2 <= n -> length (oscillate n k) = k * (2 * (n - 1)).
  Proof. intros Hn. unfold oscillate. by rewrite concat_replicate_length, period_length. Qed.
  Lemma oscillate_index n k t : 2 <= n -> t < length (oscillate n k) ->
    nth t (oscillate n k) 0 = let m := t mod (2 * (n - 1)) in if decide (m < n) then m else 2 * (n - 1) - m.
  Proof.
    intros Hn Ht. rewrite oscillate_length in Ht by done. cbv zeta. set (m := t mod (2 * (n - 1))).
    assert (m < 2 * (n - 1)) as Hm by (apply Nat.mod_upper_bound; lia).
    rewrite nth_lookup. unfold oscillate. rewrite concat_replicate_lookup; rewrite period_length by done; [|done]. fold m.
    destruct (decide (m < n)) as [Hl|Hl].
    - rewrite lookup_app_l by (by rewrite seq_length). by rewrite lookup_seq_lt.
    - rewrite lookup_app_r by (rewrite seq_length; lia). rewrite seq_length, reverse_lookup by (rewrite seq_length; lia).
      rewrite seq_length, lookup_seq_lt by lia. cbn. lia.
  Qed.
  Lemma oscillate_neighbours n k t : 2 <= n -> S t < length (oscillate n k) ->
    nth (S t) (oscillate n k) 0 = nth t (oscillate n k) 0 + 1 \/ nth t (oscillate n k) 0 = nth (S t) (oscillate n k) 0 + 1.
  Proof.
    intros Hn Ht. rewrite !oscillate_index by (done || lia). cbv zeta.
    pose proof (Nat.div_mod t (2 * (n - 1)) ltac:(lia)) as E. pose proof (Nat.mod_upper_bound t (2 * (n - 1)) ltac:(lia)) as Hm.
    set (m := t mod (2 * (n - 1))) in *. destruct (decide (S m = 2 * (n - 1))) as [Hw|Hw].
    - assert (S t mod (2 * (n - 1)) = 0) as ->.
      { assert (S t = (t / (2 * (n - 1)) + 1) * (2 * (n - 1))) as -> by nia. apply Nat.mod_mul. lia. }
      rewrite decide_True by lia. destruct (decide (m < n)); lia.
    - assert (S t mod (2 * (n - 1)) = S m) as ->.
      { symmetry. apply (Nat.mod_unique _ _ (t / (2 * (n - 1)))); [lia|lia]. }
      destruct (decide (S m < n)), (decide (m < n)); lia.
  Qed.
  (** Half a pass visits all layouts. *)
  Lemma oscillate_visits n k h l : 2 <= n -> l < n -> h * (n - 1) + (n - 1) < length (oscillate n k) ->
    exists t, h * (n - 1) <= t <= h * (n - 1) + (n - 1) /\ nth t (oscillate n k) 0 = l.
  Proof.
    intros Hn Hl Hh. destruct (Nat.Even_or_Odd h) as [[q ->]|[q ->]].
    - exists (2 * q * (n - 1) + l). split; [lia|]. rewrite oscillate_index by (done || lia). cbv zeta.
      assert ((2 * q * (n - 1) + l) mod (2 * (n - 1)) = l) as ->.
      { symmetry. apply (Nat.mod_unique _ _ q); [lia|nia]. }
      rewrite decide_True by done. done.
    - exists ((2 * q + 1) * (n - 1) + (n - 1 - l)). split; [lia|]. rewrite oscillate_index by (done || lia). cbv zeta.
      destruct (decide (l = 0)) as [->|Hne].
      + assert (((2 * q + 1) * (n - 1) + (n - 1 - 0)) mod (2 * (n - 1)) = 0) as ->.
        { assert ((2 * q + 1) * (n - 1) + (n - 1 - 0) = (q + 1) * (2 * (n - 1))) as -> by nia. apply Nat.mod_mul. lia. }
        rewrite decide_True by lia. done.
      + assert (((2 * q + 1) * (n - 1) + (n - 1 - l)) mod (2 * (n - 1)) = 2 * (n - 1) - l) as ->.
        { symmetry. apply (Nat.mod_unique _ _ q); [lia|]. nia. }
        destruct (decide (2 * (n - 1) - l < n)); lia.
  Qed.

  (** ** The whole evaluation *)
  Lemma handlers_spec g n id roots s ll : wf g -> 2 <= n -> (forall r, r ∈ roots -> r < length g) ->
    (forall i nd, g !! i = Some nd -> keeps_layout nd) ->
    (forall p, restored g s p) -> (forall p, last_id s p <> Some id) -> layouts_from g (fun v => layout s (U v)) ll ->
    let D := done_by g (done_initially g (fun v => layout s (U v)) ll) (fun t => nth t (oscillate n 10) 0) in
    match evaluate_handlers g n id roots s with
    | Done s' k => k < length (oscillate n 10) /\ (forall r, r ∈ roots -> D k r) /\ (forall t, t < k -> exists r, r ∈ roots /\ ~ D t r) /\
        single g id (calls s) s' /\ (forall r, r ∈ roots -> last_id s' r = Some id /\ layout s' (O r) = 0)
    | StopIteration _ => exists r, r ∈ roots /\ ~ D (length (oscillate n 10) - 1) r
    | Corrupt => False
    end.
  Proof.
    intros Hwf Hn Hroots Hkeep Hr Hl [Hll1 Hll2] D.
    assert (between g id (calls s) roots (fun _ => False) ll roots s) as HB0.
    { split; [by apply single_start|intros p Hp; split; [apply Hl|done]|intros r; tauto|by left|].
      intros p x Hp _ Hx. destruct (lookup_lt_is_Some_2 g p (relevant_lt g roots Hwf Hroots p Hp)) as [nd Hnd].
      rewrite (Hr p nd Hnd) in Hx. pose proof (Hwf p nd x Hnd Hx) as F. destruct x as [[v|j]|j]; [by rewrite Hll1|done|tauto]. }
    pose proof (between_round g id (calls s) roots Hwf Hroots (fun _ => False) (done_initially g (fun v => layout s (U v)) ll) ll) as HR.
    specialize (HR ltac:(intros i nd Hnd Hi; split;
      [intros H; inversion H as [|? nd' Hnd' Hall Hok]; subst; [done|]; rewrite Hnd in Hnd'; injection Hnd' as <-; by right
      |intros [H|[H1 H2]]; [done|by eapply ev_now]])).
    specialize (HR ltac:(intros i nd Hnd Hi; by rewrite (Hll2 i nd Hnd)) roots s HB0).
    unfold evaluate_handlers. destruct (attempt_tasks g (Some id) roots s) as [s1 todo].
    destruct (require_coeff_space_spec (get_fields (length g) s1 todo) s1) as (s2 & -> & Hr2 & Hl2).
    assert (between g id (calls s) roots (done_initially g (fun v => layout s (U v)) ll) (fun _ => 0) todo s2) as HB2.
    { eapply between_relay; [exact HR|done|]. intros p f Hp HD Hf. rewrite Hl2, decide_True; [done|]. by eapply get_fields_all. }
    pose proof (round_uniform g id (calls s) roots Hwf Hroots ltac:(intros i nd Hnd _; by apply (Hkeep i)) 0 _ todo s2 HB2) as HB3.
    destruct (attempt_tasks g (Some id) todo s2) as [s3 todo'].
    pose proof (oscillate_length n 10 Hn) as Hlen.
    assert (nth 0 (oscillate n 10) 0 = 0) as E0.
    { rewrite oscillate_index by lia. cbv zeta. rewrite Nat.mod_0_l by lia. by rewrite decide_True by lia. }
    assert (oscillate n 10 = 0 :: drop 1 (oscillate n 10)) as Eo.
    { destruct (oscillate n 10) as [|x l]; [cbn in Hlen; lia|]. cbn in E0. subst. by rewrite skipn_cons, drop_0. }
    assert (match oscillate n 10 with [] => StopIteration s3
      | current :: indices => match sweep g (Some id) indices current 0 todo' s3 with
          | Done s steps => match require_coeff_space (remove_dups (map O roots)) s with Some s => Done s steps | None => Corrupt end
          | o => o end end =
      match sweep g (Some id) (drop 1 (oscillate n 10)) (nth 0 (oscillate n 10) 0) 0 todo' s3 with
          | Done s steps => match require_coeff_space (remove_dups (map O roots)) s with Some s => Done s steps | None => Corrupt end
          | o => o end) as ->.
    { rewrite E0. rewrite Eo at 1. done. }
    pose proof (sweep_spec g id (calls s) roots Hwf Hroots (done_initially g (fun v => layout s (U v)) ll) (oscillate n 10)
      ltac:(intros t Ht; by apply oscillate_neighbours) ltac:(intros i nd Hnd _; by apply (Hkeep i)) (length (oscillate n 10) - 1) 0 todo' s3
      ltac:(lia)) as HS.
    specialize (HS ltac:(cbn [done_by]; rewrite E0; exact HB3)).
    destruct (sweep g (Some id) (drop 1 (oscillate n 10)) (nth 0 (oscillate n 10) 0) 0 todo' s3) as [s4 k|s4|]; [|done|done].
    destruct HS as (S1 & S2 & S3 & S4).
    destruct (require_coeff_space_spec (remove_dups (map O roots)) s4) as (s5 & -> & Hr5 & Hl5).
    assert (forall r, r ∈ roots -> D k r) as HD.
    { intros r Hr'. by destruct (b_dec _ _ _ _ _ _ _ _ S3 r Hr') as [?%elem_of_nil|]. }
    split; [done|]. split; [done|]. split; [intros t Ht; apply S4; lia|].
    destruct Hr5 as (E1 & E2 & E3 & E4). split; [eapply single_layout; [apply (b_single _ _ _ _ _ _ _ _ S3)|done..]|].
    intros r Hr'. split.
    - rewrite E2. apply (b_done _ _ _ _ _ _ _ _ S3); [exists r; split; [done|constructor]|by apply HD].
    - rewrite Hl5, decide_True; [done|]. apply elem_of_remove_dups. by apply elem_of_list_fmap_1.
  Qed.

  (** ** Nesting *)
  Lemma done_by_le g init index t t' p : t <= t' -> done_by g init index t p -> done_by g init index t' p.
  Proof. induction 1 as [|t' Ht IH]; [done|]. intros H. cbn [done_by]. constructor. by apply IH. Qed.
  Lemma depth_done g init n k d : 2 <= n -> (forall i nd, g !! i = Some nd -> exists l, l < n /\ accepts nd l) ->
    d * (n - 1) < length (oscillate n k) -> forall i, i < length g -> (forall j p, child g j p -> p < length g) -> depth_at_most g d i ->
    done_by g init (fun t => nth t (oscillate n k) 0) (d * (n - 1)) i.
  Proof.
    intros Hn Hacc. induction d as [|d IH]; intros Hd i Hi Hch Hdep; [done|].
    destruct (lookup_lt_is_Some_2 g i Hi) as [nd Hnd]. destruct (Hacc i nd Hnd) as (l & Hl & Ha).
    destruct (oscillate_visits n k d l Hn Hl ltac:(lia)) as (t & Ht & El). apply (done_by_le _ _ _ t); [lia|].
    cbn [depth_at_most] in Hdep.
    assert (forall j, AN j ∈ original_args nd -> done_by g init (fun t => nth t (oscillate n k) 0) t j) as Hc.
    { intros j Hj. assert (child g i j) as Hij by (by exists nd). apply (done_by_le _ _ _ (d * (n - 1))); [lia|].
      apply IH; [lia|by eapply Hch|done|by apply Hdep]. }
    destruct t as [|t]; cbn [done_by] in *; (eapply ev_now; [done|done|]); by rewrite El.
  Qed.

  (** The layouts from given ones exist. *)
  Lemma layouts_exist g lay : wf g -> exists ll, layouts_from g lay ll.
  Proof.
    intros Hwf. assert (exists w : nat -> nat, forall i nd, g !! i = Some nd ->
      w i = out_layout (n_op nd) (map (fun x => match x with AF (U v) => lay v | AF (O j) => w j | AN j => w j end) (original_args nd))) as [w Hw].
    { clear -Hwf. induction g as [|nd g IH] using rev_ind; [exists (fun _ => 0); by intros i nd|].
      destruct IH as [w Hw].
      { intros i nd' a Hi Ha. apply (Hwf i nd' a); [by apply lookup_app_l_Some|done]. }
      set (f := fun (w : nat -> nat) (x : arg) => match x with AF (U v) => lay v | AF (O j) => w j | AN j => w j end).
      set (x := out_layout (n_op nd) (map (f w) (original_args nd))).
      set (w' := fun i => if decide (i = length g) then x else w i).
      exists w'. intros i nd' Hi. change (w' i = out_layout (n_op nd') (map (f w') (original_args nd'))).
      assert (forall a, a ∈ original_args nd' -> f w' a = f w a) as Eo.
      { intros a Ha. specialize (Hwf i nd' a Hi Ha).
        assert (i < length (g ++ [nd])) as Hl by (by eapply lookup_lt_Some). rewrite app_length in Hl. cbn in Hl.
        destruct a as [[v|j]|j]; [done|done|]. cbn. unfold w'. rewrite decide_False by lia. done. }
      rewrite (map_ext_in _ (f w)) by (intros a Ha; apply Eo; by apply elem_of_list_In).
      apply lookup_app_Some in Hi as [Hi|[Hle Hi]].
      - unfold w'. rewrite decide_False; [by apply Hw|]. apply lookup_lt_Some in Hi. lia.
      - apply list_lookup_singleton_Some in Hi as [Hz <-]. unfold w'. rewrite decide_True by lia. done. }
    exists (fun f => match f with U v => lay v | O j => w j end). split; [done|]. intros i nd Hnd. rewrite (Hw i nd Hnd).
    apply (f_equal (out_layout (n_op nd))), map_ext. by intros [[v|j]|j].
  Qed.
End Proofs.
