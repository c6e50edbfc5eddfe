(** Proofs about tuples and tensor operators. *)
From Coq Require Import List Arith Bool ZArith Lia FinFun Permutation.
Import ListNotations.
From Verif Require Import TupleTools_Model TupleTools_Spec.
Local Open Scope nat_scope.

Lemma all_forall2 {A B} (f : A -> result B) l r : all f l = Ok r <-> Forall2 (fun x y => f x = Ok y) l r.
Proof.
  revert r. induction l as [|x l IH]; intros r; cbn.
  - split; [intros [= <-]; constructor|intros H; inversion H; reflexivity].
  - destruct (f x) as [y|e] eqn:E; cbn.
    + destruct (all f l) as [ys|e] eqn:E2; cbn.
      * split; [intros [= <-]; constructor; [exact E|apply IH; reflexivity]|]. intros H. inversion H as [|? y' ? ys' H1 H2]; subst. rewrite E in H1. injection H1 as <-. apply IH in H2. injection H2 as <-. reflexivity.
      * split; [discriminate|]. intros H. inversion H as [|? y' ? ys' H1 H2]; subst. apply IH in H2. discriminate.
    + split; [discriminate|]. intros H. inversion H; subst. congruence.
Qed.
Lemma all_map {A B} (f : A -> result B) g l : (forall x, In x l -> f x = Ok (g x)) -> all f l = Ok (map g l).
Proof. induction l as [|x l IH]; intros H; cbn; [reflexivity|]. rewrite H by (left; reflexivity). cbn. rewrite IH by (intros y Hy; apply H; right; exact Hy). reflexivity. Qed.
Lemma item_nth {A} (t : list A) i : i < List.length t -> exists x, nth_error t i = Some x /\ item t (Z.of_nat i) = Ok x.
Proof.
  intros H. destruct (nth_error t i) as [x|] eqn:E; [|apply nth_error_None in E; lia]. exists x. split; [reflexivity|]. unfold item. destruct (Z.ltb_spec (Z.of_nat i) 0) as [|_]; [lia|].
  destruct (Z.ltb_spec (Z.of_nat i) 0) as [|_]; [lia|]. rewrite Nat2Z.id, E. reflexivity.
Qed.

(** ** Positions *)
Lemma find_in indexing s : In s indexing -> exists i, find_index indexing s = Ok i /\ nth_error indexing i = Some s.
Proof.
  induction indexing as [|x l IH]; intros H; [contradiction|]. cbn. destruct (Z.eqb_spec x s) as [->|N]; [exists 0; split; reflexivity|]. destruct H as [H|H]; [contradiction|].
  destruct (IH H) as (i & E & V). rewrite E. exists (S i). split; [reflexivity|exact V].
Qed.
Lemma find_lt indexing s i : find_index indexing s = Ok i -> nth_error indexing i = Some s.
Proof.
  revert i. induction indexing as [|x l IH]; intros i; cbn; [discriminate|]. destruct (Z.eqb_spec x s) as [->|N]; [intros [= <-]; reflexivity|]. destruct (find_index l s) as [j|] eqn:E; cbn; [|discriminate].
  intros [= <-]. cbn. apply IH. reflexivity.
Qed.
Lemma find_nth indexing i s : NoDup indexing -> nth_error indexing i = Some s -> find_index indexing s = Ok i.
Proof.
  revert i. induction indexing as [|x l IH]; intros i Hn H; [destruct i; discriminate|]. inversion Hn; subst. cbn. destruct i as [|i]; cbn in H.
  - injection H as ->. rewrite Z.eqb_refl. reflexivity.
  - destruct (Z.eqb_spec x s) as [->|N]; [exfalso; apply nth_error_In in H; contradiction|]. rewrite (IH i) by assumption. reflexivity.
Qed.
Lemma nth_lt {A} (l : list A) i x : nth_error l i = Some x -> i < List.length l.
Proof. intros H. apply nth_error_Some. congruence. Qed.
Definition value (b : nat) (ds : list nat) : nat := fold_left (fun v d => v * b + d) ds 0.
Lemma value_from b ds : forall v, fold_left (fun v d => v * b + d) ds v = v * b ^ List.length ds + value b ds.
Proof.
  unfold value. induction ds as [|d ds IH]; intros v; cbn [fold_left List.length Nat.pow]; [lia|]. rewrite (IH (v * b + d)), (IH (0 * b + d)). ring.
Qed.
Lemma value_cons b d ds : value b (d :: ds) = d * b ^ List.length ds + value b ds.
Proof. unfold value at 1. cbn [fold_left]. rewrite value_from. ring. Qed.
Lemma value_lt b ds : Forall (fun d => d < b) ds -> value b ds < b ^ List.length ds.
Proof.
  induction 1 as [|d ds Hd _ IH]; [cbn; lia|]. rewrite value_cons. cbn [List.length Nat.pow]. assert ((d + 1) * b ^ List.length ds <= b * b ^ List.length ds) by (apply Nat.mul_le_mono_r; lia). lia.
Qed.
Definition digits (indexing : list Z) (t : tuple) (ds : list nat) : Prop := Forall2 (fun s i => nth_error indexing i = Some s) t ds.
Lemma digits_lt indexing t ds : digits indexing t ds -> Forall (fun d => d < List.length indexing) ds.
Proof. induction 1; constructor; [eapply nth_lt; eassumption|assumption]. Qed.
Lemma digits_exist indexing t : Forall (fun s => In s indexing) t -> exists ds, digits indexing t ds.
Proof. induction 1 as [|s t Hs _ (ds & IH)]; [exists []; constructor|]. destruct (In_nth_error _ _ Hs) as [i Hi]. exists (i :: ds). constructor; assumption. Qed.
Lemma decimal_small i : i < 10 -> decimal (S i) i = [i].
Proof. intros H. change (decimal (S i) i) with (if i <? 10 then [i] else decimal i (i / 10) ++ [i mod 10]). apply Nat.ltb_lt in H. rewrite H. reflexivity. Qed.
Lemma index_value indexing t ds : good indexing -> digits indexing t ds -> tuple2index t indexing = Ok (value (List.length indexing) ds).
Proof.
  intros [Hn Hl] H. unfold tuple2index.
  replace (all _ t) with (Ok (map (fun d => [d]) ds)).
  - cbn [bind]. assert (E : concat (map (fun d => [d]) ds) = ds) by (clear; induction ds as [|d ds IH]; cbn; [reflexivity|rewrite IH; reflexivity]). rewrite E. unfold to_int.
    replace ((List.length indexing <? 2) || (36 <? List.length indexing)) with false by (symmetry; apply orb_false_iff; split; apply Nat.ltb_ge; lia).
    replace (forallb (fun d => d <? List.length indexing) (0 :: ds)) with true; [cbn [fold_left Nat.mul Nat.add]; reflexivity|]. symmetry. apply forallb_forall. intros d [<-|Hd]; apply Nat.ltb_lt; [lia|].
    pose proof (digits_lt _ _ _ H) as F. rewrite Forall_forall in F. apply F. exact Hd.
  - symmetry. apply all_forall2. clear - H Hn Hl. induction H as [|s i t ds H1 _ IH]; cbn; constructor; [|exact IH]. rewrite (find_nth _ _ _ Hn H1). cbn [bind]. f_equal. apply decimal_small. pose proof (nth_lt _ _ _ H1). lia.
Qed.
Lemma nodup_app {A} (l l' : list A) : NoDup l -> NoDup l' -> (forall x, In x l -> In x l' -> False) -> NoDup (l ++ l').
Proof.
  induction 1 as [|x l Hx Hl IH]; intros H' Hd; cbn; [exact H'|]. constructor; [|apply IH; [exact H'|intros y Hy; apply Hd; right; exact Hy]].
  intros Hi. apply in_app_or in Hi. destruct Hi as [Hi|Hi]; [contradiction|]. apply (Hd x); [left; reflexivity|exact Hi].
Qed.
Lemma range_length indexing r : List.length (range indexing r) = List.length indexing ^ r.
Proof.
  induction r as [|r IH]; cbn [range Nat.pow]; [reflexivity|]. rewrite <- IH. clear IH. generalize (range indexing r) as R. intros R. induction indexing as [|s l IHl]; cbn; [reflexivity|]. rewrite app_length, map_length, IHl. lia.
Qed.
Lemma flat_cons_nth (R : list tuple) l : forall i k s t, nth_error l i = Some s -> nth_error R k = Some t -> nth_error (flat_map (fun s => map (cons s) R) l) (i * List.length R + k) = Some (s :: t).
Proof.
  induction l as [|x l IH]; intros i k s t Hi Hk; [destruct i; discriminate|]. cbn [flat_map]. destruct i as [|i]; cbn in Hi.
  - injection Hi as ->. cbn. rewrite nth_error_app1 by (rewrite map_length; eapply nth_lt; exact Hk). apply map_nth_error. exact Hk.
  - rewrite nth_error_app2 by (rewrite map_length; cbn; lia). rewrite map_length. replace (S i * List.length R + k - List.length R) with (i * List.length R + k) by (cbn; lia). apply IH; assumption.
Qed.
Lemma range_nth indexing t ds : digits indexing t ds -> nth_error (range indexing (List.length t)) (value (List.length indexing) ds) = Some t.
Proof.
  induction 1 as [|s i t ds H1 H2 IH]; [reflexivity|]. cbn [range List.length]. rewrite value_cons. assert (E : List.length ds = List.length t) by (clear - H2; induction H2; cbn; congruence).
  rewrite E, <- range_length. apply flat_cons_nth; assumption.
Qed.
Lemma in_range indexing r t : In t (range indexing r) <-> tuples indexing r t.
Proof.
  revert t. induction r as [|r IH]; intros t; cbn [range].
  - unfold tuples. split; [intros [<-|[]]; split; [reflexivity|constructor]|]. intros [H _]. destruct t; [left; reflexivity|discriminate].
  - rewrite in_flat_map. split.
    + intros (s & Hs & H). apply in_map_iff in H. destruct H as (u & <- & Hu). apply IH in Hu. destruct Hu as [Hu1 Hu2]. split; [cbn; congruence|constructor; assumption].
    + intros [H1 H2]. destruct t as [|s t]; [discriminate|]. inversion H2; subst. exists s. split; [assumption|]. apply in_map. apply IH. split; [cbn in H1; congruence|assumption].
Qed.
Lemma index_of_tuple indexing r t : good indexing -> tuples indexing r t -> exists i, tuple2index t indexing = Ok i /\ i < List.length indexing ^ r /\ nth_error (range indexing r) i = Some t.
Proof.
  intros Hg [<- H]. destruct (digits_exist _ _ H) as (ds & Hd). exists (value (List.length indexing) ds). split; [apply index_value; assumption|]. pose proof (range_nth _ _ _ Hd) as Hn. split; [|exact Hn].
  rewrite <- range_length. eapply nth_lt. exact Hn.
Qed.
Lemma range_index indexing r i t : good indexing -> nth_error (range indexing r) i = Some t -> tuples indexing r t /\ tuple2index t indexing = Ok i.
Proof.
  intros Hg H. assert (Ht : tuples indexing r t) by (apply in_range; eapply nth_error_In; exact H). split; [exact Ht|]. destruct (index_of_tuple _ _ _ Hg Ht) as (j & E & L & N). rewrite E. f_equal.
  assert (ND : NoDup (range indexing r)).
  { clear - Hg. destruct Hg as [Hn _]. induction r as [|r IH]; cbn [range]; [repeat constructor; intros []|]. revert Hn. induction indexing as [|s l IHl] at 1 3; intros Hn; cbn; [constructor|]. inversion Hn; subst.
    apply nodup_app; [|apply IHl; assumption|].
    - apply Injective_map_NoDup; [intros a b [= E]; exact E|exact IH].
    - intros u H1' H2'. apply in_map_iff in H1'. destruct H1' as (v & <- & _). apply in_flat_map in H2'. destruct H2' as (s' & Hs' & H2'). apply in_map_iff in H2'. destruct H2' as (v' & E & _). injection E as -> _. contradiction. }
  eapply NoDup_nth_error; [exact ND|rewrite range_length; exact L|congruence].
Qed.
Lemma digits_fun indexing t ds es : NoDup indexing -> digits indexing t ds -> digits indexing t es -> ds = es.
Proof.
  intros Hn H. revert es. induction H as [|s i t ds H1 _ IH]; intros es He; inversion He; subst; [reflexivity|]. f_equal; [|apply IH; assumption].
  eapply NoDup_nth_error; [exact Hn|eapply nth_lt; exact H1|congruence].
Qed.
Lemma digits_length indexing t ds : digits indexing t ds -> List.length ds = List.length t.
Proof. induction 1; cbn; congruence. Qed.
Lemma lex_value indexing s t i j : good indexing -> List.length s = List.length t -> tuple2index s indexing = Ok i -> tuple2index t indexing = Ok j -> Forall (fun x => In x indexing) s -> Forall (fun x => In x indexing) t ->
  before indexing s t -> i < j.
Proof.
  intros Hg HL Hi Hj Hs Ht H. destruct (digits_exist _ _ Hs) as (ds & Ds). destruct (digits_exist _ _ Ht) as (es & Es). rewrite (index_value _ _ _ Hg Ds) in Hi. rewrite (index_value _ _ _ Hg Es) in Hj.
  injection Hi as <-. injection Hj as <-. clear Hs Ht. revert ds es Ds Es. induction H as [a b s t i j Ha Hb Lij|a s t H IH]; intros ds es Ds Es; inversion Ds as [|? d ? ds' D1 D2]; inversion Es as [|? e ? es' E1 E2]; subst; rewrite !value_cons.
  - destruct Hg as [Hn _]. assert (d = i) by (eapply NoDup_nth_error; [exact Hn|eapply nth_lt; exact D1|congruence]). assert (e = j) by (eapply NoDup_nth_error; [exact Hn|eapply nth_lt; exact E1|congruence]). subst.
    rewrite (digits_length _ _ _ D2), (digits_length _ _ _ E2). cbn in HL. injection HL as HL. rewrite HL. pose proof (value_lt _ _ (digits_lt _ _ _ D2)) as V. rewrite (digits_length _ _ _ D2), HL in V.
    assert ((i + 1) * List.length indexing ^ List.length t <= j * List.length indexing ^ List.length t) by (apply Nat.mul_le_mono_r; lia). lia.
  - destruct Hg as [Hn Hg]. assert (d = e) by (eapply NoDup_nth_error; [exact Hn|eapply nth_lt; exact D1|congruence]). subst e. cbn in HL. injection HL as HL. specialize (IH HL _ _ D2 E2).
    rewrite (digits_length _ _ _ D2), (digits_length _ _ _ E2), HL. lia.
Qed.
Lemma lex_total indexing s t : NoDup indexing -> List.length s = List.length t -> Forall (fun x => In x indexing) s -> Forall (fun x => In x indexing) t -> s = t \/ before indexing s t \/ before indexing t s.
Proof.
  intros Hn. revert t. induction s as [|a s IH]; intros [|b t] HL Hs Ht; try discriminate; [left; reflexivity|]. inversion Hs; inversion Ht; subst.
  destruct (In_nth_error indexing a) as [i Hi]; [assumption|]. destruct (In_nth_error indexing b) as [j Hj]; [assumption|]. destruct (Nat.lt_trichotomy i j) as [L|[->|L]].
  - right. left. eapply before_head; eassumption.
  - rewrite Hi in Hj. injection Hj as ->. destruct (IH t) as [->|[H|H]]; [cbn in HL; congruence|assumption|assumption|left; reflexivity|right; left; constructor; exact H|right; right; constructor; exact H].
  - right. right. eapply before_head; eassumption.
Qed.

(** ** Numerals *)
Lemma numerals_value b : 2 <= b -> forall fuel n, n <= fuel -> value b (rev (numerals fuel n b)) = n /\ Forall (fun d => d < b) (numerals fuel n b).
Proof.
  intros Hb. induction fuel as [|fuel IH]; intros n Hn; cbn [numerals]; [split; [cbn; lia|constructor]|]. destruct (Nat.eqb_spec n 0) as [->|N]; [split; [reflexivity|constructor]|].
  assert (n / b < n) by (apply Nat.div_lt; lia). destruct (IH (n / b)) as [V F]; [lia|]. cbn [rev]. split; [|constructor; [apply Nat.mod_upper_bound; lia|exact F]].
  unfold value in *. rewrite fold_left_app, V. cbn [fold_left]. pose proof (Nat.div_mod n b ltac:(lia)). lia.
Qed.
Lemma value_app b ds es : value b (ds ++ es) = value b ds * b ^ List.length es + value b es.
Proof. unfold value at 1. rewrite fold_left_app, value_from. reflexivity. Qed.
Lemma value_inj b ds : forall es, List.length ds = List.length es -> Forall (fun d => d < b) ds -> Forall (fun d => d < b) es -> value b ds = value b es -> ds = es.
Proof.
  induction ds as [|d ds IH]; intros [|e es] HL Hd He HV; try discriminate; [reflexivity|]. inversion Hd; inversion He; subst. cbn in HL. injection HL as HL. rewrite !value_cons, HL in HV.
  pose proof (value_lt b ds ltac:(assumption)) as L1. pose proof (value_lt b es ltac:(assumption)) as L2. rewrite HL in L1. set (M := b ^ List.length es) in *.
  assert (E : d = e) by nia. subst e. f_equal. apply IH; try assumption. lia.
Qed.
Lemma value_zeros b n : value b (repeat 0 n) = 0.
Proof. induction n as [|n IH]; [reflexivity|]. cbn [repeat]. rewrite value_cons, IH. lia. Qed.
Lemma rev_zeros n : rev (repeat 0 n) = repeat 0 n.
Proof. induction n as [|n IH]; [reflexivity|]. cbn [repeat rev]. rewrite IH. clear IH. induction n as [|n IH]; [reflexivity|]. cbn. rewrite IH. reflexivity. Qed.
Lemma last_digits b ds r : Forall (fun d => d < b) ds -> r <= List.length ds -> value b (skipn (List.length ds - r) ds) = value b ds mod b ^ r.
Proof.
  intros Hd Hr. replace (value b ds) with (value b (firstn (List.length ds - r) ds ++ skipn (List.length ds - r) ds)) by (rewrite firstn_skipn; reflexivity). rewrite value_app. assert (E : List.length (skipn (List.length ds - r) ds) = r) by (rewrite skipn_length; lia). rewrite E.
  assert (L : value b (skipn (List.length ds - r) ds) < b ^ r).
  { rewrite <- E at 2. apply value_lt. apply Forall_forall. intros x Hx. rewrite Forall_forall in Hd. apply Hd. rewrite <- (firstn_skipn (List.length ds - r) ds). apply in_or_app. right. exact Hx. }
  rewrite Nat.add_comm, Nat.mod_add by lia. symmetry. apply Nat.mod_small. exact L.
Qed.
Lemma index2tuple_value indexing r i : good indexing -> i < List.length indexing ^ r -> exists ds t, index2tuple_with true i r indexing = Ok t /\ digits indexing t ds /\ List.length ds = r /\ value (List.length indexing) ds = i.
Proof.
  intros [Hn Hl] Hi. set (b := List.length indexing) in *. unfold index2tuple_with, base_repr. cbn [negb]. fold b.
  replace ((36 <? b) || (b <? 2)) with false by (symmetry; apply orb_false_iff; split; apply Nat.ltb_ge; lia). cbn [bind].
  destruct (numerals_value b ltac:(lia) i i (le_n i)) as [V F]. set (N := numerals i i b) in *.
  set (s := rev (N ++ repeat 0 r)). assert (Es : s = repeat 0 r ++ rev N) by (unfold s; rewrite rev_app_distr, rev_zeros; reflexivity).
  assert (Fs : Forall (fun d => d < b) s) by (rewrite Es; apply Forall_app; split; [apply Forall_forall; intros x Hx; apply repeat_spec in Hx; lia|apply Forall_rev; exact F]).
  assert (Vs : value b s = i) by (rewrite Es, value_app, value_zeros, V; lia).
  assert (K : exists ds, (if r =? 0 then skipn 1 (match s with [] => [0] | _ => s end) else skipn (List.length (match s with [] => [0] | _ => s end) - r) (match s with [] => [0] | _ => s end)) = ds
    /\ List.length ds = r /\ value b ds = i /\ Forall (fun d => d < b) ds).
  { destruct r as [|r].
    - cbn in Hi. assert (I0 : i = 0) by lia. assert (S0 : s = []) by (unfold s, N; rewrite I0; reflexivity). rewrite S0. exists []. rewrite I0. repeat split; constructor.
    - assert (Ls : S r <= List.length s) by (rewrite Es, app_length, repeat_length; lia). destruct s as [|d0 s0] eqn:E0; [cbn in Ls; lia|]. rewrite <- E0 in *. cbn [Nat.eqb]. eexists. split; [reflexivity|].
      split; [rewrite skipn_length; lia|]. split; [rewrite last_digits, Vs by assumption; apply Nat.mod_small; exact Hi|]. apply Forall_forall. intros x Hx. rewrite Forall_forall in Fs. apply Fs. rewrite <- (firstn_skipn (List.length s - S r) s). apply in_or_app. right. exact Hx. }
  destruct K as (ds & Ed & Ld & Vd & Fd). replace (match s with [] => [0] | n :: l => n :: l end) with (match s with [] => [0] | _ => s end) by (destruct s; reflexivity). rewrite Ed.
  assert (X : exists t, all (fun d => if d <? 10 then item indexing (Z.of_nat d) else Raises ValueError) ds = Ok t /\ digits indexing t ds).
  { clear - Fd Hl. subst b. induction Fd as [|d ds Hd _ IH]; [exists []; split; [reflexivity|constructor]|]. destruct IH as (t & E & D). destruct (item_nth indexing d Hd) as (x & X1 & X2). exists (x :: t). cbn [all].
    replace (d <? 10) with true by (symmetry; apply Nat.ltb_lt; lia). rewrite X2. cbn [bind]. rewrite E. cbn [bind]. split; [reflexivity|constructor; assumption]. }
  destruct X as (t & E & D). exists ds, t. repeat split; assumption.
Qed.

(** ** Arrays *)
Lemma array_value indexing (e : entry) (f : tuple -> tuple -> Z) r0 r1 : (forall s t, tuples indexing r0 s -> tuples indexing r1 t -> e s t = Ok (f s t)) ->
  array indexing e r0 r1 = Ok (map (fun s => map (f s) (range indexing r1)) (range indexing r0)).
Proof. intros H. apply all_map. intros s Hs. apply all_map. intros t Ht. apply H; apply in_range; assumption. Qed.
Lemma nth_ext_list {A} (l l' : list A) : List.length l = List.length l' -> (forall i x, nth_error l i = Some x -> nth_error l' i = Some x) -> l = l'.
Proof.
  revert l'. induction l as [|x l IH]; intros [|y l'] HL H; try discriminate; [reflexivity|]. pose proof (H 0 x eq_refl) as E. cbn in E. injection E as ->. f_equal. apply IH; [cbn in HL; congruence|]. intros i z. apply (H (S i) z).
Qed.
Lemma listed_range indexing r v x : good indexing -> listed indexing r v x <-> x = map v (range indexing r).
Proof.
  intros Hg. split.
  - intros [HL H]. symmetry. apply nth_ext_list; [rewrite map_length, range_length; congruence|]. intros i y Hy. rewrite nth_error_map in Hy. destruct (nth_error (range indexing r) i) as [t|] eqn:E; [|discriminate]. cbn in Hy. injection Hy as <-.
    destruct (range_index _ _ _ _ Hg E) as [Ht Hi]. apply H; assumption.
  - intros ->. split; [rewrite map_length; apply range_length|]. intros t j Ht Hj. destruct (index_of_tuple _ _ _ Hg Ht) as (i & E & _ & N). rewrite E in Hj. injection Hj as <-. rewrite nth_error_map, N. reflexivity.
Qed.
Lemma combine_maps {A B C} (f : A -> B) (g : A -> C) l : combine (map f l) (map g l) = map (fun a => (f a, g a)) l.
Proof. induction l as [|a l IH]; cbn; [reflexivity|]. rewrite IH. reflexivity. Qed.
Lemma acts_array indexing f r0 r1 v w : good indexing -> (forall s, tuples indexing r0 s -> zsum (map (fun t => (f s t * v t)%Z) (range indexing r1)) = w s) ->
  acts indexing r1 r0 (map (fun s => map (f s) (range indexing r1)) (range indexing r0)) v w.
Proof.
  intros Hg H. split; [rewrite map_length; apply range_length|]. split; [apply Forall_forall; intros row Hr; apply in_map_iff in Hr; destruct Hr as (s & <- & _); rewrite map_length; apply range_length|].
  intros x Hx. apply listed_range in Hx; [|exact Hg]. subst x. apply listed_range; [exact Hg|]. unfold times. rewrite map_map. apply map_ext_in. intros s Hs. rewrite combine_maps, map_map. cbn [fst snd]. apply H. apply in_range. exact Hs.
Qed.
(** A sum with a single term. *)
Lemma zsum_cons x l : zsum (x :: l) = (x + zsum l)%Z. Proof. reflexivity. Qed.
Lemma zsum_app l l' : zsum (l ++ l') = (zsum l + zsum l')%Z.
Proof. induction l as [|x l IH]; [reflexivity|]. cbn [app]. rewrite !zsum_cons, IH. ring. Qed.
Lemma range_nodup indexing r : NoDup indexing -> NoDup (range indexing r).
Proof.
  intros Hn. induction r as [|r IH]; cbn [range]; [repeat constructor; intros []|]. revert Hn. induction indexing as [|s l IHl] at 1 3; intros Hn; cbn; [constructor|]. inversion Hn; subst.
  apply nodup_app; [|apply IHl; assumption|].
  - apply Injective_map_NoDup; [intros a b [= E]; exact E|exact IH].
  - intros u H1' H2'. apply in_map_iff in H1'. destruct H1' as (v & <- & _). apply in_flat_map in H2'. destruct H2' as (s' & Hs' & H2'). apply in_map_iff in H2'. destruct H2' as (v' & E & _). injection E as -> _. contradiction.
Qed.
Lemma zsum_zero {A} (l : list A) g : (forall x, In x l -> g x = 0%Z) -> zsum (map g l) = 0%Z.
Proof. induction l as [|x l IH]; intros H; [reflexivity|]. cbn [map]. rewrite zsum_cons, H, IH by (intros; (apply H; right; assumption) || (left; reflexivity)). reflexivity. Qed.
Lemma zsum_single {A} (l : list A) g a : NoDup l -> In a l -> (forall x, In x l -> x <> a -> g x = 0%Z) -> zsum (map g l) = g a.
Proof.
  induction 1 as [|x l Hx Hl IH]; intros Ha H; [contradiction|]. cbn [map]. rewrite zsum_cons. destruct Ha as [->|Ha].
  - rewrite zsum_zero; [ring|]. intros y Hy. apply H; [right; exact Hy|]. intros ->. contradiction.
  - rewrite (H x); [|left; reflexivity|intros ->; contradiction]. rewrite IH; [ring|exact Ha|]. intros y Hy Ny. apply H; [right; exact Hy|exact Ny].
Qed.
Lemma tuple_eqb_spec s t : tuple_eqb s t = true <-> s = t.
Proof. unfold tuple_eqb. destruct (list_eq_dec Z.eq_dec s t); split; congruence. Qed.
(** If exactly one [t] has [s = g t], its component is selected. *)
Lemma select indexing r (g : tuple -> tuple) s t v : NoDup indexing -> tuples indexing r t -> s = g t -> (forall u, tuples indexing r u -> s = g u -> u = t) ->
  zsum (map (fun t => (int (tuple_eqb s (g t)) * v t)%Z) (range indexing r)) = v t.
Proof.
  intros Hn Ht E U. rewrite (zsum_single _ _ t).
  - replace (tuple_eqb s (g t)) with true by (symmetry; apply tuple_eqb_spec; exact E). cbn [int]. ring.
  - apply range_nodup. exact Hn.
  - apply in_range. exact Ht.
  - intros u Hu Nu. destruct (tuple_eqb s (g u)) eqn:Eu; [|reflexivity]. exfalso. apply Nu. apply U; [apply in_range; exact Hu|apply tuple_eqb_spec; exact Eu].
Qed.
Lemma zsum_add {A} (f g : A -> Z) l : zsum (map (fun x => (f x + g x)%Z) l) = (zsum (map f l) + zsum (map g l))%Z.
Proof. induction l as [|x l IH]; [reflexivity|]. cbn [map]. rewrite !zsum_cons, IH. ring. Qed.
Lemma zsum_ext {A} (f g : A -> Z) l : (forall x, In x l -> f x = g x) -> zsum (map f l) = zsum (map g l).
Proof. intros H. f_equal. apply map_ext_in. exact H. Qed.
Lemma zsum_image {A} (h : A -> tuple) L l : NoDup L -> NoDup l -> (forall a b, h a = h b -> a = b) -> (forall a, In a l -> In (h a) L) ->
  forall F, (forall x, In x L -> ~ In x (map h l) -> F x = 0%Z) -> zsum (map F L) = zsum (map (fun a => F (h a)) l).
Proof.
  intros HL Hl Hh. induction Hl as [|a l Ha Hl IH]; intros Hi F HF.
  - cbn. apply zsum_zero. intros x Hx. apply HF; [exact Hx|intros []].
  - set (F1 := fun x => if tuple_eqb x (h a) then F x else 0%Z). set (F2 := fun x => if tuple_eqb x (h a) then 0%Z else F x).
    rewrite (zsum_ext F (fun x => (F1 x + F2 x)%Z)) by (intros x _; unfold F1, F2; destruct (tuple_eqb x (h a)); ring). rewrite zsum_add. cbn [map]. rewrite zsum_cons. f_equal.
    + rewrite (zsum_single L F1 (h a) HL); [unfold F1; replace (tuple_eqb (h a) (h a)) with true by (symmetry; apply tuple_eqb_spec; reflexivity); reflexivity|apply Hi; left; reflexivity|].
      intros x _ Nx. unfold F1. destruct (tuple_eqb x (h a)) eqn:E; [apply tuple_eqb_spec in E; contradiction|reflexivity].
    + rewrite IH.
      * apply zsum_ext. intros b Hb. unfold F2. destruct (tuple_eqb (h b) (h a)) eqn:E; [|reflexivity]. apply tuple_eqb_spec in E. apply Hh in E. subst b. contradiction.
      * intros b Hb. apply Hi. right. exact Hb.
      * intros x Hx Nx. unfold F2. destruct (tuple_eqb x (h a)) eqn:E; [reflexivity|]. apply HF; [exact Hx|]. intros [Ex|Ex]; [|contradiction]. subst x. enough (tuple_eqb (h a) (h a) = true) by congruence. apply tuple_eqb_spec. reflexivity.
Qed.

(** ** Operators *)
Lemma tuples_dual indexing r t : (forall s, In s indexing -> In (- s)%Z indexing) -> tuples indexing r t -> tuples indexing r (dual t).
Proof. intros Hs [HL H]. split; [unfold dual; rewrite map_length; exact HL|]. unfold dual. apply Forall_map. eapply Forall_impl; [|exact H]. exact Hs. Qed.
Lemma dual_dual t : dual (dual t) = t.
Proof. unfold dual. rewrite map_map. etransitivity; [|apply map_id]. apply map_ext. intros a. apply Z.opp_involutive. Qed.
(** [remove] and [sum_] at two different places. *)
Lemma enumerate_app {A} (s t : list A) k : combine (seq k (List.length (s ++ t))) (s ++ t) = combine (seq k (List.length s)) s ++ combine (seq (k + List.length s) (List.length t)) t.
Proof. revert k. induction s as [|x s IH]; intros k; cbn; [rewrite Nat.add_0_r; reflexivity|]. rewrite IH. replace (S k + List.length s) with (k + S (List.length s)) by lia. reflexivity. Qed.
Definition kept (ks : list Z) (k : nat) (t : tuple) : tuple := map snd (filter (fun p => negb (existsb (Z.eqb (Z.of_nat (fst p))) ks)) (combine (seq k (List.length t)) t)).
Lemma kept_app ks k s t : kept ks k (s ++ t) = kept ks k s ++ kept ks (k + List.length s) t.
Proof. unfold kept. rewrite enumerate_app, filter_app, map_app. reflexivity. Qed.
Lemma kept_all ks t : forall k, (forall i, k <= i < k + List.length t -> ~ In (Z.of_nat i) ks) -> kept ks k t = t.
Proof.
  induction t as [|x t IH]; intros k H; [reflexivity|]. unfold kept. cbn [List.length seq combine filter fst]. replace (existsb (Z.eqb (Z.of_nat k)) ks) with false.
  - cbn [negb map snd]. f_equal. apply IH. intros i Hi. apply H. cbn. lia.
  - symmetry. apply not_true_is_false. intros E. apply existsb_exists in E. destruct E as (z & Hz & E). apply Z.eqb_eq in E. subst z. apply (H k); [cbn; lia|exact Hz].
Qed.
Lemma kept_drop ks k x : In (Z.of_nat k) ks -> kept ks k [x] = [].
Proof. intros H. unfold kept. cbn. replace (existsb (Z.eqb (Z.of_nat k)) ks) with true; [reflexivity|]. symmetry. apply existsb_exists. exists (Z.of_nat k). split; [exact H|apply Z.eqb_refl]. Qed.
Lemma remove_two pre a mid b post : let j := Z.of_nat (List.length pre) in let k := Z.of_nat (List.length pre + 1 + List.length mid) in
  remove [j; k] (pre ++ a :: mid ++ b :: post) = pre ++ mid ++ post.
Proof.
  intros j k. change (remove [j; k] (pre ++ a :: mid ++ b :: post)) with (kept [j; k] 0 (pre ++ [a] ++ mid ++ [b] ++ post)). rewrite !kept_app. cbn [List.length].
  rewrite (kept_all _ pre), (kept_drop _ _ a), (kept_all _ mid), (kept_drop _ _ b), (kept_all _ post); [reflexivity|..].
  - intros i Hi [E|[E|[]]]; subst j k; lia.
  - right. left. subst k. lia.
  - intros i Hi [E|[E|[]]]; subst j k; lia.
  - left. subst j. lia.
  - intros i Hi [E|[E|[]]]; subst j k; lia.
Qed.
Lemma sum_two pre a mid b post : let j := Z.of_nat (List.length pre) in let k := Z.of_nat (List.length pre + 1 + List.length mid) in
  sum_ [j; k] (pre ++ a :: mid ++ b :: post) = (a + b)%Z.
Proof.
  intros j k. unfold sum_. cbn [filter]. set (n := Z.of_nat (List.length (pre ++ a :: mid ++ b :: post))).
  assert (En : n = Z.of_nat (List.length pre + 1 + List.length mid + 1 + List.length post)) by (unfold n; f_equal; rewrite app_length; cbn; rewrite app_length; cbn; lia).
  replace ((0 <=? j)%Z && (j <? n)%Z) with true by (symmetry; apply andb_true_iff; split; [apply Z.leb_le|apply Z.ltb_lt]; subst j; lia).
  replace ((0 <=? k)%Z && (k <? n)%Z) with true by (symmetry; apply andb_true_iff; split; [apply Z.leb_le|apply Z.ltb_lt]; subst k; lia).
  cbn [map fold_left]. subst j k. rewrite !Nat2Z.id. rewrite app_nth2, Nat.sub_diag by lia. cbn [nth].
  replace (pre ++ a :: mid ++ b :: post) with ((pre ++ a :: mid) ++ b :: post) by (rewrite <- app_assoc; reflexivity).
  rewrite app_nth2 by (rewrite app_length; cbn; lia). rewrite app_length. cbn [List.length]. replace (List.length pre + 1 + List.length mid - (List.length pre + S (List.length mid))) with 0 by lia. reflexivity.
Qed.
Lemma split_two (t : tuple) j m : j + 1 + m < List.length t -> exists pre a mid b post, t = pre ++ a :: mid ++ b :: post /\ List.length pre = j /\ List.length mid = m.
Proof.
  intros H. destruct (nth_split t 0%Z (n := j)) as (pre & r & E & L); [lia|]. assert (Lr : List.length t = j + S (List.length r)) by (rewrite E, app_length; cbn; lia).
  destruct (nth_split r 0%Z (n := m)) as (mid & post & E2 & L2); [lia|]. exists pre, (nth j t 0%Z), mid, (nth m r 0%Z), post. split; [rewrite <- E2; exact E|]. split; assumption.
Qed.
Lemma apply_value q (t : tuple) : Forall (fun i => i < List.length t) q -> apply (map Z.of_nat q) t = Ok (permuted q t).
Proof.
  intros H. unfold apply. induction H as [|i q Hi _ IH]; [reflexivity|]. cbn [map all permuted]. destruct (item_nth t i Hi) as (x & X1 & X2). rewrite X2. cbn [bind]. rewrite IH. cbn [bind]. f_equal. cbn. f_equal.
  symmetry. apply nth_error_nth. exact X1.
Qed.
Section Permutation.
Context (indexing : list Z) (r : nat) (q : list nat) (Hn : NoDup indexing) (Hq : Permutation q (seq 0 r)).
Lemma perm_in i : In i q <-> i < r.
Proof. split; intros H; [apply (Permutation_in _ Hq) in H; apply in_seq in H; lia|]. apply (Permutation_in _ (Permutation_sym Hq)). apply in_seq. lia. Qed.
Lemma permuted_tuples t : tuples indexing r t -> tuples indexing r (permuted q t).
Proof.
  intros [HL H]. split; [unfold permuted; rewrite map_length, (Permutation_length Hq), seq_length; reflexivity|]. unfold permuted. apply Forall_map. apply Forall_forall. intros i Hi. apply perm_in in Hi.
  rewrite Forall_forall in H. apply H. apply nth_In. lia.
Qed.
Lemma permuted_inj t u : List.length t = r -> List.length u = r -> permuted q t = permuted q u -> t = u.
Proof.
  intros Ht Hu E. apply (nth_ext t u 0%Z 0%Z); [congruence|]. intros i Hi. assert (Hin : In i q) by (apply perm_in; lia). unfold permuted in E. clear - E Hin. induction q as [|x l IH]; [contradiction|]. cbn in E. injection E as E1 E2.
  destruct Hin as [->|Hin]; [exact E1|apply IH; assumption].
Qed.
Lemma permuted_surj s : tuples indexing r s -> exists t, tuples indexing r t /\ s = permuted q t.
Proof.
  intros Hs. assert (I : incl (range indexing r) (map (permuted q) (range indexing r))).
  { apply NoDup_length_incl; [|rewrite map_length; lia|].
    - assert (ND := range_nodup indexing r Hn). assert (A : forall t, In t (range indexing r) -> List.length t = r) by (intros t Ht; apply in_range in Ht; apply Ht). revert ND A. generalize (range indexing r). intros L ND A. induction ND as [|x L Hx HL IH]; cbn; constructor.
      + intros Hi. apply in_map_iff in Hi. destruct Hi as (y & E & Hy). apply Hx. replace x with y; [exact Hy|]. apply permuted_inj; [apply A; right; exact Hy|apply A; left; reflexivity|exact E].
      + apply IH. intros t Ht. apply A. right. exact Ht.
    - intros s' H. apply in_map_iff in H. destruct H as (t & <- & Ht). apply in_range. apply permuted_tuples. apply in_range. exact Ht. }
  specialize (I s (proj2 (in_range _ _ _) Hs)). apply in_map_iff in I. destruct I as (t & E & Ht). exists t. split; [apply in_range; exact Ht|symmetry; exact E].
Qed.
End Permutation.
Lemma inserted_app pre a mid b post : inserted (List.length pre) a (List.length mid) b (pre ++ mid ++ post) = pre ++ a :: mid ++ b :: post.
Proof.
  unfold inserted. rewrite firstn_app, firstn_all, Nat.sub_diag. cbn [firstn]. rewrite app_nil_r. rewrite skipn_app, skipn_all, Nat.sub_diag. cbn [app]. change (skipn 0 (mid ++ post)) with (mid ++ post).
  rewrite firstn_app, firstn_all, Nat.sub_diag. cbn [firstn]. rewrite app_nil_r, skipn_app, skipn_all, Nat.sub_diag. reflexivity.
Qed.
Lemma split_at (s : tuple) j m : j + m <= List.length s -> exists pre mid post, s = pre ++ mid ++ post /\ List.length pre = j /\ List.length mid = m.
Proof.
  intros H. exists (firstn j s), (firstn m (skipn j s)), (skipn m (skipn j s)). rewrite !firstn_skipn. split; [reflexivity|]. split; [apply firstn_length_le; lia|]. apply firstn_length_le. rewrite skipn_length. lia.
Qed.
Lemma app_eq_app_ {A} (a b c d : list A) : List.length a = List.length c -> a ++ b = c ++ d -> a = c /\ b = d.
Proof. revert c. induction a as [|x a IH]; intros [|y c] HL E; try discriminate; [split; [reflexivity|exact E]|]. cbn in HL, E. injection E as -> E. destruct (IH c) as [-> ->]; [congruence|exact E|]. split; reflexivity. Qed.
