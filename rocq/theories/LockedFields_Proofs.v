(** Proofs about locked fields. *)
From stdpp Require Import list.
From Verif Require Import Layouts_Model Layouts_Spec Layouts_Proofs LockedFields_Model LockedFields_Spec.

Definition within (A : list allowed) (k : nat) : Prop := One k ∈ A.
Lemma is_allowed_true A k : is_allowed A k = true <-> within A k.
Proof.
  unfold is_allowed, within. rewrite existsb_exists. split.
  - intros ([l|l] & H & E); [|done]. apply Nat.eqb_eq in E. subst. by apply elem_of_list_In.
  - intros H. exists (One k). split; [by apply elem_of_list_In|]. apply Nat.eqb_refl.
Qed.
Lemma is_allowed_false A k : is_allowed A k = false <-> ~ within A k.
Proof. rewrite <- is_allowed_true. destruct (is_allowed A k); split; congruence. Qed.

Section chain_moves.
  Context (D R : nat) (ls : list layout) (ps : list path) (C : chain D R ls ps) (A : list allowed).
  Notation up := (towards_grid ls ps A).
  Notation down := (towards_coeff ls ps A).
  Lemma up_allowed i : i < D + R -> within A (S i) -> up i = Some (S i).
  Proof. intros H W. unfold towards_grid. rewrite decide_True by (rewrite (ch_len _ _ _ _ C); lia). rewrite (proj2 (is_allowed_true _ _) W). by eapply tg. Qed.
  Lemma up_refused i : ~ within A (S i) -> up i = None.
  Proof. intros W. unfold towards_grid. destruct (decide _); [|done]. by rewrite (proj2 (is_allowed_false _ _) W). Qed.
  Lemma down_allowed i : i < D + R -> within A i -> down (S i) = Some i.
  Proof. intros H W. unfold towards_coeff. rewrite (proj2 (is_allowed_true _ _) W). by eapply tc. Qed.
  Lemma down_refused i : ~ within A i -> down (S i) = None.
  Proof. intros W. unfold towards_coeff. by rewrite (proj2 (is_allowed_false _ _) W). Qed.
  Lemma within_dec k : within A k \/ ~ within A k.
  Proof. destruct (is_allowed A k) eqn:E; [left; by apply is_allowed_true|right; by apply is_allowed_false]. Qed.

  Definition decides (cond : nat -> option bool) (wanted : nat -> Prop) : Prop := forall k, k <= D + R -> (cond k = Some true /\ wanted k) \/ (cond k = Some false /\ ~ wanted k).
  Lemma loop_up cond wanted fuel : decides cond wanted -> forall i j, i <= j -> j <= D + R -> wanted j -> j - i <= fuel -> ascent (within A) wanted i (loop fuel cond up i).
  Proof.
    intros Hc. induction fuel as [|fuel IH]; intros i j Hij Hj Hw Hf; cbn [loop].
    - assert (i = j) as -> by lia. destruct (Hc j Hj) as [[-> W]|[-> W]]; [|done]. cbn. repeat split; [lia|exact W|lia|lia].
    - destruct (Hc i ltac:(lia)) as [[-> W]|[-> W]]; [cbn; repeat split; [lia|exact W|lia|lia]|]. assert (i <> j) by (intros ->; done).
      destruct (within_dec (S i)) as [Wi|Wi].
      + rewrite up_allowed by (try exact Wi; lia). specialize (IH (S i) j ltac:(lia) Hj Hw ltac:(lia)). destruct (loop fuel cond up (S i)) as [k|k|]; [| |done]; cbn in *.
        * destruct IH as (H1 & H2 & H3 & H4). repeat split; [lia|exact H2| |].
          -- intros m Hm. destruct (decide (m = i)) as [->|]; [exact W|]. apply H3. lia.
          -- intros m Hm. destruct (decide (m = S i)) as [->|]; [exact Wi|]. apply H4. lia.
        * destruct IH as (H1 & H2 & H3 & H4). repeat split; [lia| | |exact H4].
          -- intros m Hm. destruct (decide (m = i)) as [->|]; [exact W|]. apply H2. lia.
          -- intros m Hm. destruct (decide (m = S i)) as [->|]; [exact Wi|]. apply H3. lia.
      + rewrite up_refused by exact Wi. cbn. repeat split; [lia| |lia|exact Wi]. intros m Hm. assert (m = i) as -> by lia. exact W.
  Qed.
  Lemma loop_down cond wanted fuel : decides cond wanted -> forall i j, j <= i -> i <= D + R -> wanted j -> i - j <= fuel -> descent (within A) wanted i (loop fuel cond down i).
  Proof.
    intros Hc. induction fuel as [|fuel IH]; intros i j Hij Hj Hw Hf; cbn [loop].
    - assert (i = j) as -> by lia. destruct (Hc j Hj) as [[-> W]|[-> W]]; [|done]. cbn. repeat split; [lia|exact W|lia|lia].
    - destruct (Hc i ltac:(lia)) as [[-> W]|[-> W]]; [cbn; repeat split; [lia|exact W|lia|lia]|]. assert (i <> j) by (intros ->; done). destruct i as [|i]; [lia|].
      destruct (within_dec i) as [Wi|Wi].
      + rewrite down_allowed by (try exact Wi; lia). specialize (IH i j ltac:(lia) ltac:(lia) Hw ltac:(lia)). destruct (loop fuel cond down i) as [k|k|]; [| |done]; cbn in *.
        * destruct IH as (H1 & H2 & H3 & H4). repeat split; [lia|exact H2| |].
          -- intros m Hm. destruct (decide (m = S i)) as [->|]; [exact W|]. apply H3. lia.
          -- intros m Hm. destruct (decide (m = i)) as [->|]; [exact Wi|]. apply H4. lia.
        * destruct IH as (H0 & H1 & H2 & H3 & H4). repeat split; [lia|lia| | |exact H4].
          -- intros m Hm. destruct (decide (m = S i)) as [->|]; [exact W|]. apply H2. lia.
          -- intros m Hm. destruct (decide (m = i)) as [->|]; [exact Wi|]. apply H3. lia.
      + rewrite down_refused by exact Wi. cbn. rewrite Nat.sub_0_r. repeat split; [lia|lia| |lia|exact Wi]. intros m Hm. assert (m = S i) as -> by lia. exact W.
  Qed.

  (** ** What requests want *)
  Lemma decides_test c wanted : (forall k l, ls !! k = Some l -> (c l = true /\ wanted k) \/ (c l = false /\ ~ wanted k)) -> decides (test ls c) wanted.
  Proof. intros H k Hk. destruct (lookup_ls D R ls ps C k Hk) as [l Hl]. unfold test. rewrite Hl. cbn. destruct (H k l Hl) as [[-> W]|[-> W]]; auto. Qed.
  Lemma forallb_grid l : forallb id l = true <-> forall a b, l !! a = Some b -> b = true.
  Proof.
    rewrite forallb_forall. split.
    - intros H a b Hb. apply (H b). apply elem_of_list_In. by eapply elem_of_list_lookup_2.
    - intros H x Hx. apply elem_of_list_In, elem_of_list_lookup in Hx as [a Ha]. exact (H a x Ha).
  Qed.
  Lemma existsb_grid l : existsb id l = false <-> forall a b, l !! a = Some b -> b = false.
  Proof.
    split.
    - intros H a b Hb. destruct b; [|done]. exfalso. assert (X : existsb id l = true); [|congruence]. apply existsb_exists. exists true. split; [|done]. apply elem_of_list_In. by eapply elem_of_list_lookup_2.
    - intros H. destruct (existsb id l) eqn:E; [|done]. apply existsb_exists in E as (x & Hx & Ex). apply elem_of_list_In, elem_of_list_lookup in Hx as [a Ha]. apply H in Ha. subst. done.
  Qed.
  Lemma wants_grid axis : (forall a, axis = Some a -> a < D) ->
    decides (match axis with None => test ls (fun l => forallb id (grid l)) | Some a => test ls (fun l => flag a (grid l) true) end) (fun k => forall a, axes_of D axis a -> axis_in_grid ls a k).
  Proof.
    intros Ha. destruct axis as [a|]; apply decides_test; intros k l Hl.
    - destruct (grid_flag D R ls ps C k l a Hl (Ha a eq_refl)) as [b Hb]. rewrite (flag_some _ _ _ _ Hb). destruct b; [left|right]; (split; [done|]).
      + intros ? ->. by exists l.
      + intros H. destruct (H a eq_refl) as (l' & Hl' & Hg). congruence.
    - destruct (ch_flags _ _ _ _ C k l Hl) as [_ L]. destruct (forallb id (grid l)) eqn:E; [left|right]; (split; [done|]).
      + intros a Ha'. exists l. split; [done|]. destruct (grid_flag D R ls ps C k l a Hl Ha') as [b Hb]. rewrite Hb. f_equal. exact (proj1 (forallb_grid _) E a b Hb).
      + intros H. assert (X : forallb id (grid l) = true); [|congruence]. apply forallb_grid. intros a b Hb. destruct (H a) as (l' & Hl' & Hg); [cbn; rewrite <- L; by eapply lookup_lt_Some|]. congruence.
  Qed.
  Lemma wants_coeff axis : (forall a, axis = Some a -> a < D) ->
    decides (match axis with None => test ls (fun l => negb (existsb id (grid l))) | Some a => test ls (fun l => negb (flag a (grid l) false)) end) (fun k => forall a, axes_of D axis a -> axis_in_coeff ls a k).
  Proof.
    intros Ha. destruct axis as [a|]; apply decides_test; intros k l Hl.
    - destruct (grid_flag D R ls ps C k l a Hl (Ha a eq_refl)) as [b Hb]. rewrite (flag_some _ _ _ _ Hb). destruct b; [right|left]; (split; [done|]).
      + intros H. destruct (H a eq_refl) as (l' & Hl' & Hg). congruence.
      + intros ? ->. by exists l.
    - destruct (ch_flags _ _ _ _ C k l Hl) as [_ L]. destruct (existsb id (grid l)) eqn:E; [right|left]; (split; [done|]).
      + intros H. assert (X : existsb id (grid l) = false); [|congruence]. apply existsb_grid. intros a b Hb. destruct (H a) as (l' & Hl' & Hg); [cbn; rewrite <- L; by eapply lookup_lt_Some|]. congruence.
      + intros a Ha'. exists l. split; [done|]. destruct (grid_flag D R ls ps C k l a Hl Ha') as [b Hb]. rewrite Hb. f_equal. exact (proj1 (existsb_grid _) E a b Hb).
  Qed.
  Lemma wants_local a : a < D -> decides (test ls (fun l => flag a (local l) true)) (axis_local ls a).
  Proof.
    intros Ha. apply decides_test. intros k l Hl. destruct (ch_flags _ _ _ _ C k l Hl) as [L _]. destruct (lookup_lt_is_Some_2 (local l) a ltac:(lia)) as [b Hb]. rewrite (flag_some _ _ _ _ Hb). destruct b; [left|right]; (split; [done|]).
    - by exists l.
    - intros (l' & Hl' & Hg). congruence.
  Qed.
  Lemma perform_answers fuel r i : D + R <= fuel -> i <= D + R -> proper D R r -> answers D ls (within A) r i (perform ls ps A fuel r i).
  Proof.
    intros Hf Hi Hp. destruct r as [t|axis|axis|a]; cbn [proper answers] in *.
    - split; intros H; cbn [perform].
      + destruct (decide (i < t)).
        * apply loop_up with (j := t); [|lia|lia|lia|lia]. intros k Hk. destruct (decide (t <= k)); [left|right]; (split; [f_equal; by case_bool_decide|lia]).
        * rewrite decide_False by lia. assert (i = t) as -> by lia. cbn. repeat split; lia.
      + rewrite decide_False by lia. destruct (decide (t < i)).
        * apply loop_down with (j := t); [|lia|lia|lia|lia]. intros k Hk. destruct (decide (k <= t)); [left|right]; (split; [f_equal; by case_bool_decide|lia]).
        * assert (i = t) as -> by lia. cbn. repeat split; lia.
    - pose proof (wants_grid axis Hp) as W. replace (perform ls ps A fuel (RequireGrid axis) i) with (loop fuel (match axis with None => test ls (fun l => forallb id (grid l)) | Some a => test ls (fun l => flag a (grid l) true) end) up i) by (by destruct axis).
      apply loop_up with (j := D + R); [exact W|lia|lia| |lia]. intros a Ha. destruct axis as [b|]; cbn in Ha; [subst; specialize (Hp b eq_refl)|]; by eapply last_grid.
    - pose proof (wants_coeff axis Hp) as W. replace (perform ls ps A fuel (RequireCoeff axis) i) with (loop fuel (match axis with None => test ls (fun l => negb (existsb id (grid l))) | Some a => test ls (fun l => negb (flag a (grid l) false)) end) down i) by (by destruct axis).
      apply loop_down with (j := 0); [exact W|lia|lia| |lia]. intros a Ha. destruct axis as [b|]; cbn in Ha; [subst; specialize (Hp b eq_refl)|]; by eapply first_grid.
    - pose proof (wants_local a Hp) as W. cbn [perform]. split; intros (l & Hl & Hg); rewrite Hl; rewrite (flag_some _ _ _ _ Hg).
      + destruct (local_below D R ls ps C i l a Hl Hg Hp) as (j & lj & Hj & Hlj & Hloc). apply loop_down with (j := j); [exact W|lia|lia|by exists lj|lia].
      + destruct (local_above D R ls ps C _ i l a eq_refl Hl Hg Hp) as (j & lj & Hj & Hj2 & Hlj & Hloc). apply loop_up with (j := j); [exact W|lia|lia|by exists lj|lia].
  Qed.
  Lemma answers_stay r i o : D + R >= i -> proper D R r -> answers D ls (within A) r i o -> within A i -> exists k, layout_after o = Some k /\ within A k.
  Proof.
    assert (U : forall w, ascent (within A) w i o -> within A i -> exists k, layout_after o = Some k /\ within A k).
    { intros w H Hi. destruct o as [k|k|]; [| |done]; cbn in H; exists k; (split; [done|]); destruct (decide (k = i)) as [->|]; try exact Hi; destruct H as (H1 & H2 & H3 & H4); [apply H4|apply H3]; lia. }
    assert (V : forall w, descent (within A) w i o -> within A i -> exists k, layout_after o = Some k /\ within A k).
    { intros w H Hi. destruct o as [k|k|]; [| |done]; cbn in H; exists k; (split; [done|]); destruct (decide (k = i)) as [->|]; try exact Hi; [destruct H as (H1 & H2 & H3 & H4); apply H4; lia|destruct H as (H0 & H1 & H2 & H3 & H4); apply H3; lia]. }
    intros Hi Hp H Wi. destruct r as [t|axis|axis|a]; cbn in H; [|eapply U; eauto|eapply V; eauto|].
    - destruct (decide (i <= t)); [eapply U; [apply H; lia|done]|eapply V; [apply H; lia|done]].
    - destruct (lookup_ls D R ls ps C i ltac:(lia)) as [l Hl]. destruct (grid_flag D R ls ps C i l a Hl Hp) as [b Hb]. destruct b; [eapply V; [apply H; by exists l|done]|eapply U; [apply H; by exists l|done]].
  Qed.

  (** ** Grid flags grow along the chain *)
  Lemma grid_grows a n : forall i, axis_in_grid ls a i -> i + n <= D + R -> axis_in_grid ls a (i + n).
  Proof.
    induction n as [|n IH]; intros i H Hn; [by rewrite Nat.add_0_r|]. rewrite Nat.add_succ_r. destruct (IH i H ltac:(lia)) as (l & Hl & Hg).
    destruct (lookup_lt_is_Some_2 ps (i + n)) as [p Hp]; [rewrite (ch_paths _ _ _ _ C); lia|]. destruct (ch_step _ _ _ _ C _ _ Hp) as (l1 & l2 & H1 & H2 & Nb). assert (l1 = l) as -> by congruence. exists l2. split; [done|].
    destruct Nb as [b Hb1 Hb2|b loc' ? ? ? ? ? ?]; cbn; [|done]. destruct (decide (a = b)) as [->|Nab]; [congruence|]. by rewrite list_lookup_insert_ne.
  Qed.
  Lemma within_axis a k : a < D -> within (lock_axis_to_grid ls a) k <-> axis_in_grid ls a k.
  Proof.
    intros Ha. unfold within, lock_axis_to_grid. rewrite elem_of_list_In, in_map_iff. split.
    - intros (x & E & Hx). injection E as ->. apply filter_In in Hx as [_ Hx]. destruct (ls !! k) as [l|] eqn:Hl; [|done]. exists l. split; [done|]. eapply flag_true; [exact Hx|]. destruct (ch_flags _ _ _ _ C k l Hl). lia.
    - intros (l & Hl & Hg). exists k. split; [done|]. apply filter_In. split; [apply in_seq; apply lookup_lt_Some in Hl; lia|]. rewrite Hl. by apply flag_some.
  Qed.
End chain_moves.

(** ** The closest layout *)
Lemma argmin_least i l : forall best, let r := argmin i best l in r ∈ best :: l /\ forall k, k ∈ best :: l -> distance i r <= distance i k.
Proof.
  induction l as [|x l IH]; intros best; cbn [argmin].
  - split; [left|]. intros k Hk. apply elem_of_list_singleton in Hk. subst. lia.
  - destruct (IH (if decide (distance i x < distance i best) then x else best)) as [H1 H2]. cbv zeta in *. set (r := argmin _ _ _) in *. split.
    + apply elem_of_cons in H1 as [->|H1]; [destruct (decide _); [right; left|left]|right; by right].
    + intros k Hk. assert (Hd : distance i r <= distance i (if decide (distance i x < distance i best) then x else best)) by (apply H2; left). destruct (decide (distance i x < distance i best)); apply elem_of_cons in Hk as [->|Hk]; try lia; apply elem_of_cons in Hk as [->|Hk]; try lia; apply H2; by right.
Qed.
