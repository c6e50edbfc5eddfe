From stdpp Require Import list list_numbers sorting.
From Verif Require Import Assignments_Model Assignments_Spec.

Lemma insert_sorted_perm {A} (key : A -> nat) x l : insert_sorted key x l ≡ₚ x :: l.
Proof.
  induction l as [|y l IH]; simpl; [done|]. case_decide; [done|]. rewrite IH. constructor.
Qed.
Lemma natural_sort_perm {A} (key : A -> nat) l : natural_sort key l ≡ₚ l.
Proof. induction l as [|x l IH]; simpl; [done|]. rewrite insert_sorted_perm. by constructor. Qed.

Lemma insert_sorted_hd {A} (key : A -> nat) x y l : key y <= key x -> HdRel (fun a b => key a <= key b) y l ->
  HdRel (fun a b => key a <= key b) y (insert_sorted key x l).
Proof. destruct l as [|z l]; simpl; [by constructor|]. case_decide; intros; constructor; [done|]. by inversion H1. Qed.
Lemma natural_sort_sorted {A} (key : A -> nat) l : Sorted (fun a b => key a <= key b) (natural_sort key l).
Proof.
  induction l as [|x l IH]; simpl; [constructor|]. revert IH. generalize (natural_sort key l). intros l' H.
  induction l' as [|y l' IH]; simpl; [by repeat constructor|]. case_decide as Hd; [constructor; [exact H|by constructor]|].
  inversion H as [|? ? Hs Hh]; subst. constructor; [by apply IH|]. apply insert_sorted_hd; [lia|done].
Qed.
Lemma natural_sort_id {A} (key : A -> nat) l : Sorted (fun a b => key a <= key b) l -> natural_sort key l = l.
Proof.
  induction l as [|x l IH]; intros H; simpl; [done|]. inversion H as [|? ? Hs Hh]; subst. rewrite IH by done.
  destruct l as [|y l]; simpl; [done|]. inversion Hh; subst. by rewrite decide_True.
Qed.
Lemma natural_sort_idemp {A} (key : A -> nat) l : natural_sort key (natural_sort key l) = natural_sort key l.
Proof. apply natural_sort_id, natural_sort_sorted. Qed.

(** The ends of the sets are the partial sums. *)
Lemma cumsum_length s l : length (cumsum s l) = length l.
Proof. revert s. induction l; intros; simpl; [done|]. by rewrite IHl. Qed.
Lemma cumsum_lookup s l i : i < length l -> cumsum s l !! i = Some (s + sum_list (take (S i) l)).
Proof.
  revert s i. induction l as [|x l IH]; intros s i Hi; simpl in *; [lia|].
  destruct i as [|i]; cbn [lookup list_lookup]; [f_equal; cbn; rewrite take_0; cbn; lia|]. rewrite IH by lia. f_equal. cbn. lia.
Qed.
Lemma sum_take_S l i x : l !! i = Some x -> sum_list (take (S i) l) = sum_list (take i l) + x.
Proof.
  intros H. rewrite (take_S_r _ _ _ H). rewrite sum_list_with_app. simpl. lia.
Qed.

(** Set [i] begins at write [off l i] of all writes. *)
Definition off (l : list nat) (i : nat) : nat := sum_list (take i l).

Lemma assigned_lookup {A} (key writes : A -> nat) size rank paths i p :
  let q := natural_sort key paths in let ws := map writes q in
  let block := (sum_list ws + size - 1) `div` size in
  q !! i = Some p ->
  get_assigned_writes key writes size rank paths !! i =
  Some (clip (rank * block) (off ws i) (off ws (S i)) - off ws i,
        clip (rank * block + block) (off ws i) (off ws (S i)) - clip (rank * block) (off ws i) (off ws (S i))).
Proof.
  intros q ws block Hp. unfold get_assigned_writes, get_all_writes. rewrite natural_sort_idemp.
  cbv zeta. fold q. fold ws. fold block.
  assert (ws !! i = Some (writes p)) as Hw by (unfold ws; by rewrite list_lookup_fmap, Hp).
  assert (i < length ws) as Hi by (by eapply lookup_lt_Some).
  assert (zip_with Nat.sub (cumsum 0 ws) ws !! i = Some (off ws i)) as Es.
  { rewrite lookup_zip_with, cumsum_lookup, Hw by done. simpl. f_equal. unfold off.
    pose proof (sum_take_S ws i _ Hw). simpl in *. lia. }
  assert (cumsum 0 ws !! i = Some (off ws (S i))) as Ee by (by rewrite cumsum_lookup).
  assert (forall x, zip_with (clip x) (zip_with Nat.sub (cumsum 0 ws) ws) (cumsum 0 ws) !! i = Some (clip x (off ws i) (off ws (S i)))) as Ec.
  { intros x. rewrite lookup_zip_with, Es. cbn. by rewrite Ee. }
  assert (forall (a b : list nat) x y, a !! i = Some x -> b !! i = Some y -> zip_with Nat.sub a b !! i = Some (x - y)) as Hsub.
  { intros a b x y Ha Hb. by rewrite lookup_zip_with, Ha, Hb. }
  assert (forall (a b : list nat) x y, a !! i = Some x -> b !! i = Some y -> zip a b !! i = Some (x, y)) as Hzip.
  { intros a b x y Ha Hb. by rewrite lookup_zip_with, Ha, Hb. }
  apply Hzip; apply Hsub; (apply Ec || apply Es).
Qed.

Lemma assigned_length {A} (key writes : A -> nat) size rank paths :
  length (get_assigned_writes key writes size rank paths) = length paths.
Proof.
  unfold get_assigned_writes, get_all_writes.
  rewrite zip_with_length, !zip_with_length, !cumsum_length, !map_length.
  rewrite !(Permutation_length (natural_sort_perm key _)). lia.
Qed.

Lemma off_S ws i w : ws !! i = Some w -> off ws (S i) = off ws i + w.
Proof. apply sum_take_S. Qed.
Lemma off_total ws i : off ws i <= sum_list ws.
Proof. unfold off. rewrite <- (take_drop i ws) at 2. rewrite sum_list_with_app. lia. Qed.

Section Visits.
  Context {A : Type} (key writes : A -> nat) (size : nat) (paths : list A).
  Notation q := (natural_sort key paths).
  Notation ws := (map writes q).
  Notation block := ((sum_list ws + size - 1) `div` size).

  Lemma visit_elem rank p s c :
    (p, s, c) ∈ visit_writes key writes size rank paths <->
    c <> 0 /\ exists i, q !! i = Some p /\
      s = clip (rank * block) (off ws i) (off ws (S i)) - off ws i /\
      c = clip (rank * block + block) (off ws i) (off ws (S i)) - clip (rank * block) (off ws i) (off ws (S i)).
  Proof.
    unfold visit_writes. rewrite elem_of_list_filter. cbn [snd]. split; intros [Hc H]; (split; [done|]).
    - apply elem_of_lookup_zip_with in H as (i & p' & x & E & Hp & Hx). exists i. 
      assert (q !! i = Some p') as Hq by done.
      rewrite (assigned_lookup key writes size rank q i p') in Hx by (by rewrite natural_sort_idemp).
      rewrite natural_sort_idemp in Hx. injection Hx as <-. cbn [fst snd] in E. by injection E as -> -> ->.
    - destruct H as (i & Hp & -> & ->). apply elem_of_lookup_zip_with. exists i, p.
      rewrite (assigned_lookup key writes size rank q i p) by (by rewrite natural_sort_idemp).
      rewrite natural_sort_idemp. eexists (_, _). split; [reflexivity|]. done.
  Qed.

  Lemma covers_iff rank p w : covers (visit_writes key writes size rank paths) p w <->
    exists i, q !! i = Some p /\ w < writes p /\ rank * block <= off ws i + w < rank * block + block.
  Proof.
    unfold covers. setoid_rewrite visit_elem. split.
    - intros (s & c & (Hc & i & Hp & -> & ->) & Hw). exists i. split; [done|].
      rewrite (off_S ws i (writes p)) in * by (by rewrite list_lookup_fmap, Hp). unfold clip in *. lia.
    - intros (i & Hp & Hw & Hr). eexists _, _. split; [split; [|exists i; split; [done|split; reflexivity]]|];
      rewrite (off_S ws i (writes p)) by (by rewrite list_lookup_fmap, Hp); unfold clip; lia.
  Qed.
End Visits.

Fixpoint counts (b e s : nat) (ws : list nat) : list nat :=
  match ws with [] => [] | w :: ws => (clip e s (s + w) - clip b s (s + w)) :: counts b e (s + w) ws end.
Lemma counts_sum b e s ws : b <= e -> sum_list (counts b e s ws) = clip e s (s + sum_list ws) - clip b s (s + sum_list ws).
Proof.
  intros Hbe. revert s. induction ws as [|w ws IH]; intros s; simpl; [unfold clip; lia|]. rewrite IH. unfold clip. lia.
Qed.
Lemma counts_length b e s ws : length (counts b e s ws) = length ws.
Proof. revert s. induction ws; intros; simpl; [done|]. by rewrite IHws. Qed.
Lemma counts_lookup b e s ws i : i < length ws ->
  counts b e s ws !! i = Some (clip e (s + off ws i) (s + off ws (S i)) - clip b (s + off ws i) (s + off ws (S i))).
Proof.
  revert s i. induction ws as [|w ws IH]; intros s i Hi; simpl in Hi; [lia|].
  destruct i as [|i].
  - unfold off. cbn. by rewrite !Nat.add_0_r.
  - cbn [counts lookup list_lookup]. rewrite IH by lia. unfold off. cbn. by rewrite !Nat.add_assoc.
Qed.

Lemma load_filter {A} (l : list (A * nat * nat)) : load (filter (fun x : A * nat * nat => x.2 <> 0) l) = load l.
Proof.
  unfold load. induction l as [|x l IH]; [done|]. rewrite filter_cons. case_decide; simpl; rewrite IH; [done|]. lia.
Qed.

Lemma visit_load {A} (key writes : A -> nat) size rank paths :
  let total := sum_list (map writes paths) in let block := (total + size - 1) `div` size in
  load (visit_writes key writes size rank paths) = (rank * block + block) `min` total - (rank * block) `min` total.
Proof.
  intros total block. unfold visit_writes. rewrite load_filter.
  set (q := natural_sort key paths).
  assert (sum_list (map writes q) = total) as Et.
  { unfold total. apply sum_list_with_perm || (unfold q; clear; induction (natural_sort_perm key paths); simpl; lia). }
  assert (map snd (zip_with (fun p (x : nat * nat) => (p, x.1, x.2)) q (get_assigned_writes key writes size rank q)) =
    counts (rank * block) (rank * block + block) 0 (map writes q)) as E.
  { apply list_eq. intros i. rewrite list_lookup_fmap, lookup_zip_with.
    destruct (q !! i) as [p|] eqn:Hp.
    - assert (natural_sort key q = q) as Eq by apply natural_sort_idemp.
      rewrite (assigned_lookup key writes size rank q i p) by (by rewrite Eq). rewrite Eq, Et. fold block. cbn.
      rewrite counts_lookup by (rewrite map_length; by eapply lookup_lt_Some). done.
    - cbn. symmetry. apply lookup_ge_None_2. rewrite counts_length, map_length. by apply lookup_ge_None. }
  unfold load. rewrite E, counts_sum by lia. rewrite Et. unfold clip. lia.
Qed.

(** Strides. *)
Lemma stride_elem {A} rank size (l : list A) x : x ∈ stride rank size l <-> exists i, l !! i = Some x /\ i `mod` size = rank.
Proof.
  unfold stride. rewrite elem_of_list_omap. split.
  - intros (i & Hi & E). case_decide; [|done]. eauto.
  - intros (i & Hx & Hm). exists i. rewrite decide_True by done. split; [|done].
    apply elem_of_list_In, in_seq. apply lookup_lt_Some in Hx. lia.
Qed.

Lemma stride_length {A} rank size (l : list A) : 0 < size -> rank < size ->
  length (stride rank size l) = (length l + size - 1 - rank) `div` size.
Proof.
  intros Hs Hr. induction l as [|x l IH] using rev_ind.
  - simpl. rewrite Nat.div_small; [done|]. lia.
  - unfold stride in *. rewrite app_length. simpl. rewrite seq_app, omap_app, app_length.
    assert (forall L, (forall i, In i L -> i < length l) ->
       omap (fun i => if decide (i `mod` size = rank) then (l ++ [x]) !! i else None) L =
       omap (fun i => if decide (i `mod` size = rank) then l !! i else None) L) as E.
    { induction L as [|i L IHL]; intros HL; [done|]. cbn [omap list_omap]. rewrite lookup_app_l by (apply HL; by left).
      rewrite IHL; [done|]. intros; apply HL; by right. }
    rewrite E by (intros i Hi%in_seq; lia). rewrite IH. cbn [seq omap list_omap].
    rewrite lookup_app_r by lia. replace (0 + length l - length l) with 0 by lia. cbn [lookup list_lookup].
    replace (0 + length l) with (length l) by lia.
    pose proof (Nat.div_mod (length l) size ltac:(lia)) as D. pose proof (Nat.mod_upper_bound (length l) size ltac:(lia)) as B.
    set (k := length l `div` size) in *. set (m := length l `mod` size) in *.
    case_decide as Hm; simpl.
    + assert ((length l + 1 + size - 1 - rank) `div` size = k + 1) as ->.
      { symmetry. apply (Nat.div_unique _ _ _ 0); nia. }
      assert ((length l + size - 1 - rank) `div` size = k) as ->; [|lia].
      symmetry. apply (Nat.div_unique _ _ _ (size - 1)); nia.
    + rewrite Nat.add_0_r. destruct (decide (m < rank)).
      * transitivity k; [symmetry; apply (Nat.div_unique _ _ _ (m + size - 1 - rank)); nia|apply (Nat.div_unique _ _ _ (m + size - rank)); nia].
      * transitivity (k + 1); [symmetry; apply (Nat.div_unique _ _ _ (m - 1 - rank)); nia|apply (Nat.div_unique _ _ _ (m - rank)); nia].
Qed.
