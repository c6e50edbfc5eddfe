(** Proofs about the matrices of left-hand sides. *)
From Coq Require Import List Arith Bool Lia Field.
Import ListNotations.
From Verif Require Import CSR_Spec MatSolvers_Model MatSolvers_Proofs LHS_Model LHS_Spec.

(** ** Expressions *)
Section Induction.
Context (P : expr -> Prop)
  (HF : forall x, P (Field x)) (HA : forall a b, P a -> P b -> P (Add a b)) (HS : forall c a, P a -> P (Scale c a))
  (HP : forall n a, P a -> P (Prod n a)) (HL : forall L a, P a -> P (Lin L a))
  (HK : forall op args, P op -> Forall P args -> P (Stack op args)) (HW : forall op arg, P op -> P arg -> P (Wrap op arg))
  (HC : forall op arg, P op -> P arg -> P (Curl op arg)) (HN : forall f a, P a -> P (Nonlinear f a)).
Fixpoint expr_rect' (e : expr) : P e :=
  match e with
  | Field x => HF x
  | Add a b => HA a b (expr_rect' a) (expr_rect' b)
  | Scale c a => HS c a (expr_rect' a)
  | Prod n a => HP n a (expr_rect' a)
  | Lin L a => HL L a (expr_rect' a)
  | Stack op args => HK op args (expr_rect' op) ((fix all l : Forall P l := match l with [] => Forall_nil P | a :: l => Forall_cons a (expr_rect' a) (all l) end) args)
  | Wrap op arg => HW op arg (expr_rect' op) (expr_rect' arg)
  | Curl op arg => HC op arg (expr_rect' op) (expr_rect' arg)
  | Nonlinear f a => HN f a (expr_rect' a)
  end.
End Induction.

Lemma same_eq e : forall f, same e f = true <-> e = f.
Proof.
  induction e using expr_rect'; intros g; destruct g; cbn [same]; try (split; [discriminate|intros [=]; fail]);
    try (rewrite ?andb_true_iff, ?Nat.eqb_eq, ?IHe, ?IHe1, ?IHe2; split; [intros; intuition congruence|intros [=]; auto]).
  rewrite andb_true_iff, IHe. revert args0. assert (X : forall args0, (fix all (l l' : list expr) : bool := match l, l' with [], [] => true | e0 :: l, e' :: l' => same e0 e' && all l l' | _, _ => false end) args args0 = true <-> args = args0).
  { induction H as [|a l Ha Hl IH]; intros [|b m]; try (split; [discriminate|intros [=]]); [tauto|]. rewrite andb_true_iff, Ha, IH. split; [intros []; congruence|intros [=]; auto]. }
  intros m. rewrite X. split; [intros []; congruence|intros [=]; auto].
Qed.
Lemma same_refl e : same e e = true. Proof. apply same_eq. reflexivity. Qed.
Lemma same_dec e f : same e f = true /\ e = f \/ same e f = false /\ e <> f.
Proof. destruct (same e f) eqn:E; [left|right]; split; auto. - apply same_eq; exact E. - intros ->. rewrite same_refl in E. discriminate. Qed.
Lemma mem_In e vars : mem e vars = true <-> In e vars.
Proof. unfold mem. rewrite existsb_exists. split. - intros (f & Hf & X). apply same_eq in X. subst. exact Hf. - intros H. exists e. split; [exact H|apply same_refl]. Qed.
Lemma mem_dec e vars : mem e vars = true /\ In e vars \/ mem e vars = false /\ ~ In e vars.
Proof. destruct (mem e vars) eqn:E; [left|right]; split; auto. - apply mem_In; exact E. - intros H. apply mem_In in H. congruence. Qed.
Lemma same_list_refl l : same_list l l = true. Proof. induction l; cbn; [reflexivity|]. rewrite same_refl. exact IHl. Qed.
Lemma same_list_eq l : forall l', same_list l l' = true -> l = l'.
Proof. induction l as [|e l IH]; intros [|e' l']; cbn; try discriminate; [reflexivity|]. rewrite andb_true_iff, same_eq. intros []. f_equal; auto. Qed.

Fixpoint weight (e : expr) : nat :=
  match e with
  | Field _ => 1
  | Add a b => 1 + weight a + weight b
  | Scale _ a | Prod _ a | Lin _ a | Nonlinear _ a => 1 + weight a
  | Stack op args => 1 + weight op + list_sum (map weight args)
  | Wrap op arg | Curl op arg => 1 + weight op + weight arg
  end.
Lemma weight_arg a args : In a args -> weight a <= list_sum (map weight args).
Proof. induction args as [|b l IH]; [intros []|]. change (list_sum (map weight (b :: l))) with (weight b + list_sum (map weight l)). intros [->|H]; [lia|]. apply IH in H. lia. Qed.

(** An expression built from variables is no smaller than one of them, and larger unless it is one. *)
Lemma built_weight pr e : forall vars, built pr vars e -> exists v, In v vars /\ (e = v \/ weight v < weight e).
Proof.
  induction e using expr_rect'; intros vars B; inversion B; subst; try (eexists; split; [eassumption|left; reflexivity]);
    match goal with IH : forall vars, built pr vars ?a -> _, H : built pr _ ?a |- _ => solve [destruct (IH _ H) as (v & Hv & [->|?]); exists v; split; auto; right; cbn; lia] end.
Qed.
Lemma weight_pos e : 1 <= weight e. Proof. destruct e; cbn; lia. Qed.
Lemma built_plain pr op : built pr [op] op -> plain op.
Proof.
  intros B. destruct op; try exact I; exfalso; inversion B as [? ? ? X| | | | | | |? ? ? X]; subst; try exact X.
  apply built_weight in X. destruct X as (v & [<-|[]] & [X|X]); [apply (f_equal weight) in X|]; cbn in X; lia.
Qed.

(** ** Lists *)
Lemma select_more p dim n g : select dim p (S n) g = select dim p n g ++ (if matches dim p (g n) then [n] else []).
Proof. unfold select. rewrite seq_S, filter_app. cbn [filter Nat.add]. destruct (matches dim p (g n)); reflexivity. Qed.
Lemma select_ext p dim n g h : (forall i a, i < n -> a < dim -> g i a = h i a) -> select dim p n g = select dim p n h.
Proof.
  intros H. induction n as [|n IH]; [reflexivity|]. rewrite !select_more, IH by (intros; apply H; lia). f_equal.
  replace (matches dim p (h n)) with (matches dim p (g n)); [reflexivity|]. unfold matches.
  assert (X : forall l, (forall a, In a l -> a < dim) -> forallb (fun a => match nth a p None with Some k => g n a =? k | None => true end) l = forallb (fun a => match nth a p None with Some k => h n a =? k | None => true end) l).
  { induction l as [|a l IHl]; intros Hl; cbn; [reflexivity|]. rewrite IHl by (intros; apply Hl; cbn; auto). rewrite (H n a) by (try lia; apply Hl; cbn; auto). reflexivity. }
  apply X. intros a Ha. apply in_seq in Ha. lia.
Qed.
Lemma filter_map_ {A B} (P : B -> bool) (f : A -> B) l : filter P (map f l) = map f (filter (fun x => P (f x)) l).
Proof. induction l as [|x l IH]; cbn; [reflexivity|]. destruct (P (f x)); cbn; rewrite IH; reflexivity. Qed.
Lemma select_app p dim m n g h : select dim p (m + n) (fun i => if i <? m then g i else h (i - m)) = select dim p m g ++ map (Nat.add m) (select dim p n h).
Proof.
  induction n as [|n IH].
  - rewrite Nat.add_0_r. cbn [select seq filter map]. rewrite app_nil_r. apply select_ext. intros i a Hi _. replace (i <? m) with true by (symmetry; apply Nat.ltb_lt; lia). reflexivity.
  - replace (m + S n) with (S (m + n)) by lia. rewrite !select_more, IH, map_app, app_assoc. f_equal.
    replace (m + n <? m) with false by (symmetry; apply Nat.ltb_ge; lia). replace (m + n - m) with n by lia. destruct (matches dim p (h n)); reflexivity.
Qed.
Lemma select_in p dim n g i : In i (select dim p n g) <-> i < n /\ matches dim p (g i) = true.
Proof. unfold select. rewrite filter_In, in_seq. split; intros []; split; auto; lia. Qed.
Lemma matches_at p dim g a k : matches dim p g = true -> a < dim -> nth a p None = Some k -> g a = k.
Proof.
  unfold matches. rewrite forallb_forall. intros H Ha E. specialize (H a). rewrite E in H. apply Nat.eqb_eq. apply H. apply in_seq. lia.
Qed.

(** ** Dictionaries and matrices *)
Section Field_.
Context {K : Type} (k0 k1 : K) (kadd kmul ksub kdiv : K -> K -> K) (kopp kinv : K -> K).
Context (Hf : field_theory k0 k1 kadd kmul ksub kopp kdiv kinv eq).
Add Field Kf : Hf.
Notation total := (CSR_Spec.total k0 kadd).
Notation mat := (MatSolvers_Model.mat K).
Infix "+k" := kadd (at level 50, left associativity). Infix "*k" := kmul (at level 40, left associativity).
Local Notation T_ext := (total_ext k0 k1 kadd kmul ksub kdiv kopp kinv Hf).
Local Notation T_S := (total_S k0 k1 kadd kmul ksub kdiv kopp kinv Hf).
Local Notation T_zero := (total_zero k0 k1 kadd kmul ksub kdiv kopp kinv Hf).
Local Notation T_swap := (total_swap k0 k1 kadd kmul ksub kdiv kopp kinv Hf).
Local Notation T_single := (total_single k0 k1 kadd kmul ksub kdiv kopp kinv Hf).
Local Notation T_mul_l := (total_mul_l k0 k1 kadd kmul ksub kdiv kopp kinv Hf).
Local Notation T_mul_r := (total_mul_r k0 k1 kadd kmul ksub kdiv kopp kinv Hf).
Local Notation T_add := (total_add k0 k1 kadd kmul ksub kdiv kopp kinv Hf).
Notation dict := (dict (K := K)).

Lemma msum_total n f : msum k0 kadd n f = total n f. Proof. reflexivity. Qed.

(** What a dictionary of matrices does to given values of its keys. *)
Definition dsum (d : dict) (w : expr -> nat -> K) (i : nat) : K :=
  fold_right (fun vA s => total (nc (snd vA)) (fun j => at_ (snd vA) i j *k w (fst vA) j) +k s) k0 d.
Definition keys (d : dict) := map fst d.
Lemma dsum_cons v A d y i : dsum ((v, A) :: d) y i = total (nc A) (fun j => at_ A i j *k y v j) +k dsum d y i. Proof. reflexivity. Qed.

Lemma accumulate_ok v (A : mat) d r : (forall w B, In (w, B) d -> w = v -> nr B = nr A /\ nc B = nc A) -> nr A = r ->
  (forall w B, In (w, B) d -> nr B = r) ->
  NoDup (keys d) -> exists d', accumulate kadd v A d = Some d' /\ NoDup (keys d') /\ (forall w, In w (keys d') <-> w = v \/ In w (keys d)) /\
    (forall w B, In (w, B) d' -> nr B = r /\ (w = v /\ nc B = nc A \/ exists C, In (w, C) d /\ nc B = nc C)) /\
    forall y i, dsum d' y i = dsum d y i +k total (nc A) (fun j => at_ A i j *k y v j).
Proof.
  intros Hs Hr Hd ND. induction d as [|[w B] d IH]; cbn [accumulate].
  - exists [(v, A)]. split; [reflexivity|]. split; [cbn; constructor; [intros []|constructor]|]. split; [cbn; intuition|]. split.
    + intros u B [[= <- <-]|[]]. auto.
    + intros y i. cbn. ring.
  - cbn [keys map fst] in ND. inversion ND as [|? ? Hn ND']; subst. destruct (same_dec v w) as [[E ->]|[E Hne]]; rewrite E.
    + destruct (Hs w B (or_introl eq_refl) eq_refl) as [E1 E2]. unfold matadd. rewrite E1, E2, !Nat.eqb_refl. cbn [andb option_map].
      eexists. split; [reflexivity|]. split; [exact ND|]. split; [cbn; intuition|]. split.
      * intros u C [[= <- <-]|HC]; [cbn; auto|]. split; [apply (Hd u C); cbn; auto|]. right. exists C. cbn. auto.
      * intros y i. cbn [dsum fold_right fst snd madd nc at_]. rewrite (T_ext _ _ (fun j => at_ B i j *k y w j +k at_ A i j *k y w j)) by (intros; ring). rewrite T_add, E2. cbn [fst snd]. fold (dsum d y i). ring.
    + destruct IH as (d' & -> & N' & Hk & Hsh & Hv); [intros u C HC; apply Hs; cbn; auto|intros u C HC; apply (Hd u C); cbn; auto|exact ND'|].
      cbn [option_map]. eexists. split; [reflexivity|]. split.
      { cbn. constructor; [|exact N']. intros HI. apply Hk in HI. destruct HI as [->|HI]; [congruence|contradiction]. }
      split; [intros u; cbn; rewrite (Hk u); cbn; intuition|]. split.
      * intros u C [[= <- <-]|HC]; [split; [apply (Hd w B); cbn; auto|right; exists B; cbn; auto]|]. destruct (Hsh u C HC) as [? [?|(C' & ? & ?)]]; split; auto. right. exists C'. cbn. auto.
      * intros y i. cbn [dsum fold_right]. fold (dsum d' y i). fold (dsum d y i). rewrite Hv. cbn [fst snd]. ring.
Qed.

(** A dictionary for an expression with [r] coefficients over [vars], [cnt] giving the columns. *)
Definition fits_ (cnt : expr -> nat) (vars : list expr) (r : nat) (d : dict) : Prop :=
  NoDup (keys d) /\ d <> [] /\ forall v A, In (v, A) d -> In v vars /\ nr A = r /\ nc A = cnt v.
Lemma merge_ok cnt vars r new : forall d, (NoDup (keys d) /\ forall v A, In (v, A) d -> In v vars /\ nr A = r /\ nc A = cnt v) ->
  (forall v A, In (v, A) new -> In v vars /\ nr A = r /\ nc A = cnt v) -> d <> [] \/ new <> [] ->
  exists d', merge kadd d new = Some d' /\ fits_ cnt vars r d' /\ forall y i, dsum d' y i = dsum d y i +k dsum new y i.
Proof.
  induction new as [|[v A] new IH]; intros d [ND Hd] Hn Hne; cbn [merge].
  - exists d. split; [reflexivity|]. split; [split; [exact ND|split; [tauto|exact Hd]]|]. intros y i. cbn. ring.
  - destruct (Hn v A (or_introl eq_refl)) as (HA1 & HA2 & HA3).
    destruct (accumulate_ok v A d r) as (d' & -> & ND' & Hk & Hsh & Hv); auto.
    { intros w B HB ->. destruct (Hd _ _ HB) as (? & ? & ?). split; congruence. }
    { intros w B HB. apply (Hd w B HB). }
    destruct (IH d') as (d2 & E & F & V).
    + split; [exact ND'|]. intros w B HB. destruct (Hsh w B HB) as [E1 [[-> E2]|(C & HC & E2)]].
      * split; [exact HA1|]. split; [exact E1|congruence].
      * destruct (Hd _ _ HC) as (? & ? & ?). split; [assumption|]. split; [exact E1|congruence].
    + intros w B HB. apply Hn. cbn. auto.
    + left. intros ->. destruct (proj2 (Hk v)); [left; reflexivity].
    + exists d2. split; [exact E|]. split; [exact F|]. intros y i. rewrite V, Hv. cbn [dsum fold_right fst snd]. fold (dsum new y i). ring.
Qed.
Lemma each_ok cnt vars r r' (f : mat -> option mat) d : fits_ cnt vars r d ->
  (forall v A, In (v, A) d -> exists B, f A = Some B /\ nr B = r' /\ nc B = nc A) ->
  exists d', each f d = Some d' /\ fits_ cnt vars r' d' /\ Forall2 (fun vA vB => fst vA = fst vB /\ f (snd vA) = Some (snd vB)) d d'.
Proof.
  intros (ND & NE & Hd) H.
  assert (X : exists d', each f d = Some d' /\ keys d' = keys d /\ (forall v B, In (v, B) d' -> exists A, In (v, A) d /\ nr B = r' /\ nc B = nc A) /\ Forall2 (fun vA vB => fst vA = fst vB /\ f (snd vA) = Some (snd vB)) d d').
  { clear ND NE Hd. induction d as [|[v A] d IH]; cbn [each].
    - exists []. split; [reflexivity|]. split; [reflexivity|]. split; [intros ? ? []|constructor].
    - destruct (H v A (or_introl eq_refl)) as (B & E & ? & ?). rewrite E. destruct IH as (d' & -> & Hk & Hs & F); [intros; eapply H; cbn; eauto|].
      eexists. split; [reflexivity|]. split; [cbn; f_equal; exact Hk|]. split; [|constructor; [cbn; auto|exact F]].
      intros w C [[= <- <-]|HC]; [exists A; cbn; auto|]. destruct (Hs w C HC) as (A' & ? & ? & ?). exists A'. cbn. auto. }
  destruct X as (d' & E & Hk & Hs & F). exists d'. split; [exact E|]. split; [|exact F]. split; [rewrite Hk; exact ND|]. split.
  - intros ->. inversion F. congruence.
  - intros v B HB. destruct (Hs v B HB) as (A & HA & ? & ?). destruct (Hd v A HA) as (? & ? & ?). split; [assumption|]. split; congruence.
Qed.
Lemma each_scale c d d' : Forall2 (fun vA vB => fst vA = fst vB /\ Some (mscale kmul c (snd vA)) = Some (snd vB)) d d' -> forall y i, dsum d' y i = c *k dsum d y i.
Proof.
  intros F y i. induction F as [|[v A] [w B] d d' [E1 E2] F IH]; cbn [dsum fold_right fst snd] in *; [ring|]. fold (dsum d y i) (dsum d' y i). injection E2 as <-. subst w. rewrite IH.
  cbn [mscale nc at_]. rewrite (T_ext _ _ (fun j => c *k (at_ A i j *k y v j))) by (intros; ring). rewrite T_mul_l. ring.
Qed.
Lemma each_mul (M : mat) d d' : Forall2 (fun vA vB => fst vA = fst vB /\ matmul k0 kadd kmul M (snd vA) = Some (snd vB)) d d' -> forall y i, dsum d' y i = total (nc M) (fun k => at_ M i k *k dsum d y k).
Proof.
  intros F y i. induction F as [|[v A] [w B] d d' [E1 E2] F IH].
  - symmetry. apply T_zero. intros. cbn. ring.
  - cbn [fst snd] in E1, E2. rewrite dsum_cons, IH. unfold matmul in E2. destruct (nc M =? nr A); [|discriminate]. injection E2 as <-. subst w. cbn [mmul nc at_].
    rewrite (T_ext (nc M) (fun k => at_ M i k *k dsum ((v, A) :: d) y k) (fun k => at_ M i k *k total (nc A) (fun j => at_ A k j *k y v j) +k at_ M i k *k dsum d y k)) by (intros k _; rewrite dsum_cons; ring).
    rewrite T_add. f_equal. rewrite (T_ext (nc A) _ (fun j => total (nc M) (fun k => at_ M i k *k (at_ A k j *k y v j)))).
    + rewrite T_swap. apply T_ext. intros k _. apply T_mul_l.
    + intros j _. rewrite msum_total, <- T_mul_r. apply T_ext. intros. ring.
Qed.

(** Rows on top of each other. *)
Lemma vstack_ok c l : l <> [] -> Forall (fun A : mat => nc A = c) l ->
  exists B, vstack l = Some B /\ nc B = c /\ nr B = list_sum (map nr l) /\ forall i j, i < nr B -> at_ B i j = stacked (fun _ => k0) (map (fun A => (nr A, at_ A)) l) i j.
Proof.
  intros NE F. induction l as [|A l IH]; [congruence|]. clear NE. inversion F as [|? ? HA Hl]; subst. destruct l as [|A' l].
  - exists A. split; [reflexivity|]. split; [reflexivity|]. split; [cbn; lia|]. intros i j Hi. cbn [map stacked]. replace (i <? nr A) with true by (symmetry; apply Nat.ltb_lt; exact Hi). reflexivity.
  - destruct IH as (B & E & H1 & H2 & H3); [discriminate|exact Hl|]. cbn [vstack] in *. rewrite E, H1, Nat.eqb_refl. eexists. split; [reflexivity|]. cbn [nr nc at_]. split; [reflexivity|].
    split; [rewrite H2; reflexivity|]. intros i j Hi. change (map (fun A0 => (nr A0, at_ A0)) (A :: A' :: l)) with ((nr A, at_ A) :: map (fun A0 => (nr A0, at_ A0)) (A' :: l)). cbn [stacked]. destruct (i <? nr A) eqn:Ei; [reflexivity|]. apply H3. apply Nat.ltb_ge in Ei. lia.
Qed.

(** ** The discretisation *)
Context (dim : nat) (msize : expr -> nat) (group : expr -> nat -> nat -> nat).
Context (number : nat -> K) (G N : nat -> expr -> nat -> nat -> K) (phi : nat -> (nat -> K) -> nat -> K).
Context (op_couples ncc_couples : nat -> expr -> nat -> bool).
Context (HG : separate k0 dim msize group op_couples Lin G) (HN : separate k0 dim msize group ncc_couples Prod N).
Context (p : pattern).
Notation positions := (positions dim msize group p).
Notation count := (count dim msize group p).
Notation restriction := (restriction dim msize group p).
Notation select := (select dim p).
Notation consistent := (consistent msize group).
Notation alike := (alike msize group).

Lemma alike_positions e f : alike e f -> positions e = positions f.
Proof. intros [E H]. unfold LHS_Spec.positions. rewrite <- E. apply select_ext. intros. apply H. assumption. Qed.
Lemma alike_count e f : alike e f -> count e = count f. Proof. intros H. unfold LHS_Spec.count. rewrite (alike_positions e f H). reflexivity. Qed.
Lemma position_ok e i : i < count e -> nth i (positions e) 0 < msize e /\ matches dim p (group e (nth i (positions e) 0)) = true.
Proof. intros H. apply (nth_In _ 0) in H. apply select_in in H. exact H. Qed.

(** A sum over all coefficients whose terms vanish outside the subproblem. *)
Lemma total_select n g f : (forall j, j < n -> matches dim p (g j) = false -> f j = k0) -> total n f = total (length (select n g)) (fun k => f (nth k (select n g) 0)).
Proof.
  intros H. induction n as [|n IH]; [reflexivity|]. rewrite T_S, IH by (intros; apply H; auto; lia). rewrite select_more. destruct (matches dim p (g n)) eqn:E.
  - rewrite app_length. cbn [length]. rewrite Nat.add_1_r, T_S. f_equal; [|rewrite app_nth2 by lia; rewrite Nat.sub_diag; reflexivity].
    apply T_ext. intros j Hj. rewrite app_nth1 by exact Hj. reflexivity.
  - rewrite app_nil_r, (H n) by (auto; lia). ring.
Qed.
Lemma restricted couples node Q L e v i :
  separate k0 dim msize group couples node Q -> (forall a k, a < dim -> nth a p None = Some k -> couples L e a = false) -> i < count (node L e) ->
  total (msize e) (fun j => Q L e (nth i (positions (node L e)) 0) j *k v j) = total (count e) (fun j => at_ (restriction (node L e) e (Q L e)) i j *k v (nth j (positions e) 0)).
Proof.
  intros HS Hc Hi. destruct (position_ok _ _ Hi) as [Hb Hm]. rewrite (total_select (msize e) (group e)); [reflexivity|].
  intros j Hj Hn. unfold matches in Hn. assert (X : exists a k, a < dim /\ nth a p None = Some k /\ group e j a <> k).
  { clear - Hn. assert (Y : forall l, forallb (fun a => match nth a p None with Some k => group e j a =? k | None => true end) l = false -> exists a k, In a l /\ nth a p None = Some k /\ group e j a <> k).
    { induction l as [|a l IH]; cbn; [discriminate|]. rewrite andb_false_iff. intros [H|H].
      - destruct (nth a p None) as [k|] eqn:E; [|discriminate]. exists a, k. split; [auto|]. split; [exact E|]. apply Nat.eqb_neq. exact H.
      - destruct (IH H) as (b & k & ? & ? & ?). exists b, k. auto. }
    destruct (Y _ Hn) as (a & k & Ha & E & D). exists a, k. apply in_seq in Ha. split; [lia|]. auto. }
  destruct X as (a & k & Ha & E & D). rewrite (HS L e _ j a Ha (Hc a k Ha E) Hb Hj); [ring|]. rewrite (matches_at p dim _ a k Hm Ha E). congruence.
Qed.

(** ** Values over expressions *)
(** The value of an expression from that of the expressions in [vars], which are met first. *)
Fixpoint valv (vars : list expr) (y : expr -> nat -> K) (e : expr) : nat -> K :=
  match e with
  | Field _ => y e
  | Add a b => if mem e vars then y e else fun i => valv vars y a i +k valv vars y b i
  | Scale c a => if mem e vars then y e else fun i => number c *k valv vars y a i
  | Prod n a => if mem e vars then y e else fun i => total (msize a) (fun j => N n a i j *k valv vars y a j)
  | Lin L a => if mem e vars then y e else fun i => total (msize a) (fun j => G L a i j *k valv vars y a j)
  | Stack _ args => if mem e vars then y e else stacked k0 (map (fun a => (msize a, valv vars y a)) args)
  | Wrap _ arg => if mem e vars then y e else valv vars y arg
  | Curl _ arg => valv vars y arg
  | Nonlinear _ _ => fun _ => k0
  end.
Definition good (vars : list expr) : Prop := vars <> [] /\ NoDup vars /\ ((forall v, In v vars -> exists f, v = Field f) \/ exists w, vars = [w]).

Lemma stacked_ext (parts : list expr) (f g : expr -> nat -> K) : (forall a i, In a parts -> f a i = g a i) -> forall i, stacked k0 (map (fun a => (msize a, f a)) parts) i = stacked k0 (map (fun a => (msize a, g a)) parts) i.
Proof. induction parts as [|a l IH]; intros H i; cbn [map stacked]; [reflexivity|]. destruct (i <? msize a); [apply H; cbn; auto|]. apply IH. intros; apply H; cbn; auto. Qed.

Lemma valv_hit vars y e : In e vars -> plain e -> valv vars y e = y e.
Proof. intros H Hp. apply mem_In in H. destruct e; cbn [valv]; rewrite ?H; try reflexivity; destruct Hp. Qed.
Lemma valv_ext vars y z : (forall e i, y e i = z e i) -> forall e i, valv vars y e i = valv vars z e i.
Proof.
  intros H e. induction e using expr_rect'; intros i; cbn [valv]; try (destruct (mem _ _); [apply H|]); auto.
  - rewrite IHe1, IHe2. reflexivity.
  - rewrite IHe. reflexivity.
  - apply T_ext. intros j _. rewrite IHe. reflexivity.
  - apply T_ext. intros j _. rewrite IHe. reflexivity.
  - apply stacked_ext. intros a k Ha. match goal with F : Forall _ args |- _ => rewrite Forall_forall in F; apply F; auto end.
Qed.
Definition under (vars : list expr) (e : expr) : Prop := exists v, In v vars /\ (e = v \/ weight v < weight e).
Lemma under_trans vars op e : under vars op -> under [op] e -> under vars e.
Proof. intros (v & Hv & H) (w & [<-|[]] & H'). exists v. split; [exact Hv|]. destruct H as [<-|H], H' as [<-|H']; auto; right; lia. Qed.
Lemma not_variable vars op e : good vars -> under vars op -> under [op] e -> e <> op -> ~ In e vars.
Proof.
  intros (_ & _ & Hg) Bo (v & [<-|[]] & [B|B]) Hne HI; [contradiction|]. destruct Hg as [Hg|[w ->]].
  - destruct (Hg e HI) as [f ->]. cbn in B. pose proof (weight_pos op). lia.
  - destruct HI as [<-|[]]. destruct Bo as (v & [<-|[]] & [Bo|Bo]); [congruence|lia].
Qed.
Lemma good_one op : good [op].
Proof. split; [discriminate|]. split; [constructor; [intros []|constructor]|]. right. exists op. reflexivity. Qed.
Lemma valv_switch pr e : forall vars y op, good vars -> under vars op -> built pr [op] e -> forall i, valv vars y e i = valv [op] (fun _ => valv vars y op) e i.
Proof.
  assert (X : forall vars op, good vars -> under vars op -> forall e, built pr [op] e -> e = op \/ e <> op /\ mem e vars = false /\ mem e [op] = false).
  { intros vars op Hg Bo f B. destruct (same_dec f op) as [[_ Eq]|[_ Hne]]; [left; exact Eq|right]. split; [exact Hne|]. split.
    - destruct (mem_dec f vars) as [[_ H]|[H _]]; [|exact H]. exfalso. exact (not_variable _ _ _ Hg Bo (built_weight _ _ _ B) Hne H).
    - destruct (mem_dec f [op]) as [[_ [H|[]]]|[H _]]; [congruence|exact H]. }
  assert (Y : forall vars y op e, built pr [op] e -> e = op -> forall i, valv vars y e i = valv [op] (fun _ => valv vars y op) e i).
  { intros vars y op f B -> i. rewrite (valv_hit [op]); [reflexivity|left; reflexivity|exact (built_plain _ _ B)]. }
  induction e using expr_rect'; intros vars y op Hg Bo B; destruct (X _ _ Hg Bo _ B) as [E|(Hne & E1 & E2)]; try exact (Y _ _ _ _ B E); clear X Y; intros i;
    inversion B; subst; try (match goal with H : In _ [_] |- _ => destruct H as [H|[]]; congruence end); cbn [valv]; rewrite ?E1, ?E2.
  - rewrite (IHe1 vars y op), (IHe2 vars y op) by assumption. reflexivity.
  - rewrite (IHe vars y op) by assumption. reflexivity.
  - apply T_ext. intros j _. rewrite (IHe vars y op) by assumption. reflexivity.
  - apply T_ext. intros j _. rewrite (IHe vars y op) by assumption. reflexivity.
  - apply stacked_ext. intros a k Ha. match goal with F : Forall _ args |- _ => rewrite Forall_forall in F; rename F into FF end.
    match goal with HH : forall a, In a args -> built pr [e] a |- _ => specialize (HH a Ha); rename HH into Ba end. match goal with HH : built pr [op] e |- _ => rename HH into Be end.
    rewrite (FF a Ha vars y e Hg (under_trans _ _ _ Bo (built_weight _ _ _ Be)) Ba).
    rewrite (FF a Ha [op] (fun _ => valv vars y op) e (good_one op) (built_weight _ _ _ Be) Ba). apply valv_ext. intros _ j. apply IHe; assumption.
  - match goal with HH : built pr [op] e1 |- _ => rename HH into Be end.
    rewrite (IHe2 vars y e1 Hg (under_trans _ _ _ Bo (built_weight _ _ _ Be))) by assumption.
    rewrite (IHe2 [op] (fun _ => valv vars y op) e1 (good_one op) (built_weight _ _ _ Be)) by assumption. apply valv_ext. intros _ j. apply IHe1; assumption.
  - apply IHe2; assumption.
Qed.

(** ** Coupling *)
Fixpoint cpl (e : expr) (a : nat) : bool :=
  match e with
  | Field _ => false
  | Add e f => cpl e a || cpl f a
  | Scale _ e => cpl e a
  | Prod n e => ncc_couples n e a || cpl e a
  | Lin L e => cpl e a || op_couples L e a
  | Stack _ args => existsb (fun e => cpl e a) args
  | Wrap _ arg | Curl _ arg => cpl arg a
  | Nonlinear _ _ => false
  end.
Lemma coupling_cpl e : forall vars mc, matrix_coupling op_couples ncc_couples vars e = Some mc -> forall a, mc a = cpl e a.
Proof.
  induction e using expr_rect'; intros vars mc; cbn [matrix_coupling cpl].
  - destruct (mem _ _); [intros [= <-]; reflexivity|discriminate].
  - destruct (matrix_coupling _ _ vars e1) as [f|] eqn:E1; [|discriminate]. destruct (matrix_coupling _ _ vars e2) as [g|] eqn:E2; [|discriminate]. intros [= <-] a. rewrite (IHe1 _ _ E1), (IHe2 _ _ E2). reflexivity.
  - apply IHe.
  - destruct (matrix_coupling _ _ vars e) as [f|] eqn:E1; [|discriminate]. intros [= <-] a. rewrite (IHe _ _ E1). reflexivity.
  - destruct (matrix_coupling _ _ vars e) as [f|] eqn:E1; [|discriminate]. intros [= <-] a. rewrite (IHe _ _ E1). reflexivity.
  - generalize (Stack e args :: vars). intros vs. revert mc. induction H as [|b l Hb Hl IH]; intros mc; [intros [= <-]; reflexivity|].
    destruct (matrix_coupling _ _ vs b) as [f|] eqn:E1; [|discriminate]. cbn [either]. match goal with |- context [match ?t with _ => _ end] => destruct t as [g|] eqn:E2; [|discriminate] end. intros [= <-] a. cbn [existsb]. rewrite (Hb _ _ E1), (IH g eq_refl). reflexivity.
  - apply IHe2.
  - apply IHe2.
  - discriminate.
Qed.
Definition free (e : expr) : Prop := forall a k, a < dim -> nth a p None = Some k -> cpl e a = false.
Lemma cpl_operand pr op a : forall e, built pr [op] e -> consistent e -> cpl e a = false -> cpl op a = false.
Proof.
  intros e. revert op. induction e using expr_rect'; intros op B C Hc; inversion B; subst; try (match goal with H : In _ [_] |- _ => destruct H as [H|[]]; rewrite H; exact Hc end); cbn [cpl LHS_Spec.consistent] in *; rewrite ?orb_false_iff in Hc.
  - apply IHe1; tauto.
  - apply IHe; tauto.
  - apply IHe; tauto.
  - apply IHe; tauto.
  - destruct C as (NE & _ & _ & Co & Ca). apply IHe; [assumption|assumption|]. destruct args as [|b l]; [congruence|]. cbn [existsb] in Hc. apply orb_false_iff in Hc. inversion H; subst. match goal with F : forall op, built pr [op] b -> _ |- _ => apply F end; [auto with datatypes|tauto|tauto].
  - apply IHe1; [assumption|tauto|]. apply IHe2; tauto.
  - apply IHe2; tauto.
Qed.

(** ** The matrices *)
Notation em := (expression_matrices k0 k1 kadd kmul number count (fun L a => restriction (Lin L a) a (G L a)) (fun n a => restriction (Prod n a) a (N n a))).
Definition seen (y : expr -> nat -> K) (v : expr) (j : nat) : K := y v (nth j (positions v) 0).
Definition right (vars : list expr) (e : expr) (d : dict) : Prop :=
  fits_ count vars (count e) d /\ forall y i, i < count e -> valv vars y e (nth i (positions e) 0) = dsum d (seen y) i.

Lemma itself_right vars e : In e vars -> plain e -> right vars e [(e, identity k0 k1 (count e))].
Proof.
  intros H Hp. split.
  - split; [cbn; constructor; [intros []|constructor]|]. split; [discriminate|]. intros v A [[= <- <-]|[]]. auto.
  - intros y i Hi. rewrite (valv_hit vars y e H Hp), dsum_cons. cbn [identity nc at_]. rewrite (T_single _ i) by (try exact Hi; intros j _ Hj; replace (i =? j) with false by (symmetry; apply Nat.eqb_neq; lia); ring). rewrite Nat.eqb_refl. cbn. unfold seen. ring.
Qed.
Lemma nothing_right vars e : good vars -> count e = 0 -> right vars e (map (fun v => (v, zeros k0 (count e) (count v))) vars).
Proof.
  intros (NE & ND & _) E. split.
  - split; [unfold keys; rewrite map_map; cbn; rewrite map_id; exact ND|]. split; [destruct vars; [congruence|discriminate]|].
    intros v A H. apply in_map_iff in H. destruct H as (w & [= <- <-] & Hw). auto.
  - intros y i Hi. lia.
Qed.
Lemma singleton_right op e d : right [op] e d -> exists A, d = [(op, A)] /\ nr A = count e /\ nc A = count op /\
  forall y i, i < count e -> valv [op] y e (nth i (positions e) 0) = total (count op) (fun j => at_ A i j *k y op (nth j (positions op) 0)).
Proof.
  intros [(ND & NE & Hd) Hv]. destruct d as [|[v A] d]; [congruence|]. destruct (Hd v A (or_introl eq_refl)) as ([<-|[]] & E1 & E2).
  destruct d as [|[w B] d].
  - exists A. split; [reflexivity|]. split; [exact E1|]. split; [exact E2|]. intros y i Hi. rewrite Hv by exact Hi. rewrite dsum_cons, E2. cbn. unfold seen. ring.
  - exfalso. destruct (Hd w B (or_intror (or_introl eq_refl))) as ([<-|[]] & _). cbn in ND. inversion ND. apply H1. left. reflexivity.
Qed.

(** Applying an operator's own matrix to its operand's matrices. *)
Lemma apply_right vars e op d (A : mat) : right vars op d -> nr A = count e -> nc A = count op ->
  (forall y i, i < count e -> valv vars y e (nth i (positions e) 0) = total (count op) (fun j => at_ A i j *k valv vars y op (nth j (positions op) 0))) ->
  exists d', each (matmul k0 kadd kmul A) d = Some d' /\ right vars e d'.
Proof.
  intros [F V] Er Ec H. destruct (each_ok count vars (count op) (count e) (matmul k0 kadd kmul A) d F) as (d' & E & F' & R).
  { intros v B HB. destruct F as (_ & _ & Hd). destruct (Hd v B HB) as (_ & E1 & E2). unfold matmul. rewrite Ec, E1, Nat.eqb_refl. eexists. split; [reflexivity|]. cbn. auto. }
  exists d'. split; [exact E|]. split; [exact F'|]. intros y i Hi. rewrite H by exact Hi. rewrite (each_mul _ _ _ R), Ec. apply T_ext. intros j Hj. rewrite V by exact Hj. reflexivity.
Qed.

Lemma stack_rows op args l : Forall2 (fun a (A : mat) => nr A = count a /\ nc A = count op /\
    forall y i, i < count a -> valv [op] y a (nth i (positions a) 0) = total (count op) (fun j => at_ A i j *k y op (nth j (positions op) 0))) args l ->
  let pos := select (list_sum (map msize args)) (stacked (fun _ => 0) (map (fun b => (msize b, group b)) args)) in
  length pos = list_sum (map nr l) /\
  forall y i, i < length pos -> stacked k0 (map (fun a => (msize a, valv [op] y a)) args) (nth i pos 0) =
    total (count op) (fun j => stacked (fun _ => k0) (map (fun A => (nr A, at_ A)) l) i j *k y op (nth j (positions op) 0)).
Proof.
  intros F. induction F as [|a A args l (E1 & E2 & Hv) F IH]; [cbn; split; [reflexivity|intros; lia]|].
  cbn zeta in *. change (list_sum (map msize (a :: args))) with (msize a + list_sum (map msize args)). change (list_sum (map nr (A :: l))) with (nr A + list_sum (map nr l)).
  set (n' := list_sum (map msize args)) in *. set (g' := stacked (fun _ => 0) (map (fun b => (msize b, group b)) args)) in *.
  assert (EP : select (msize a + n') (stacked (fun _ => 0) (map (fun b => (msize b, group b)) (a :: args))) = positions a ++ map (Nat.add (msize a)) (select n' g')).
  { unfold LHS_Spec.positions. rewrite <- select_app. apply select_ext. intros i c _ _. cbn [map stacked]. reflexivity. }
  rewrite EP. destruct IH as [IL IV]. rewrite app_length, map_length. fold (count a). split; [rewrite IL, E1; reflexivity|].
  intros y i Hi. cbn [map stacked]. rewrite E1. destruct (i <? count a) eqn:Ei.
  - apply Nat.ltb_lt in Ei. rewrite app_nth1 by exact Ei. destruct (position_ok a i Ei) as [Hb _]. replace (nth i (positions a) 0 <? msize a) with true by (symmetry; apply Nat.ltb_lt; exact Hb). apply Hv. exact Ei.
  - apply Nat.ltb_ge in Ei. rewrite app_nth2 by exact Ei. fold (count a). rewrite (nth_indep _ 0 (msize a + 0)) by (rewrite map_length; lia). rewrite map_nth.
    replace (msize a + nth (i - count a) (select n' g') 0 <? msize a) with false by (symmetry; apply Nat.ltb_ge; lia). replace (msize a + nth (i - count a) (select n' g') 0 - msize a) with (nth (i - count a) (select n' g') 0) by lia.
    apply IV. lia.
Qed.

Lemma em_hit pr vars e : In e vars -> plain e -> em pr vars e = Some [(e, identity k0 k1 (count e))].
Proof. intros H Hp. apply mem_In in H. destruct e; cbn [expression_matrices]; unfold linear; rewrite ?H; try reflexivity; destruct Hp. Qed.
Lemma right_alike vars e f d : alike e f -> (forall y i, valv vars y e i = valv vars y f i) -> right vars f d -> right vars e d.
Proof. intros H Hv [F V]. rewrite <- (alike_count e f H) in F. split; [exact F|]. intros y i Hi. rewrite (alike_positions e f H), Hv. apply V. rewrite <- (alike_count e f H). exact Hi. Qed.

Lemma main_right pr e : forall vars, good vars -> consistent e -> built pr vars e -> free e -> exists d, em pr vars e = Some d /\ right vars e d.
Proof.
  induction e using expr_rect'; intros vars Hg C B Hfr; inversion B; subst;
    try (match goal with H : In ?e _, P : plain ?e |- _ => exists [(e, identity k0 k1 (count e))]; split; [apply em_hit; assumption|apply itself_right; assumption] end);
    match goal with |- exists d, em _ ?vs ?e = _ /\ _ => destruct (mem_dec e vs) as [[_ Hin]|[Em Hnin]];
      [try (exists [(e, identity k0 k1 (count e))]; split; [apply em_hit; [assumption|exact Logic.I]|apply itself_right; [assumption|exact Logic.I]]; fail)|] end;
    cbn [expression_matrices]; unfold linear; rewrite ?Em; cbn [LHS_Spec.consistent] in C.
  - destruct C as (A1 & A2 & C1 & C2). 
    destruct (IHe1 vars Hg C1) as (da & Ea & F1 & V1); [assumption|intros a k Ha Hk; specialize (Hfr a k Ha Hk); cbn in Hfr; apply orb_false_iff in Hfr; tauto|].
    destruct (IHe2 vars Hg C2) as (db & Eb & F2 & V2); [assumption|intros a k Ha Hk; specialize (Hfr a k Ha Hk); cbn in Hfr; apply orb_false_iff in Hfr; tauto|].
    rewrite Ea, Eb. pose proof (alike_count _ _ A1) as N1. pose proof (alike_count _ _ A2) as N2. pose proof (alike_positions _ _ A1) as P1. pose proof (alike_positions _ _ A2) as P2.
    rewrite <- N1 in F1. rewrite <- N2 in F2.
    destruct (merge_ok count vars (count (Add e1 e2)) da []) as (d1 & -> & F3 & V3); [split; [constructor|intros ? ? []]|apply F1|right; apply F1|].
    destruct (merge_ok count vars (count (Add e1 e2)) db d1) as (d2 & -> & F4 & V4); [split; apply F3|apply F2|left; apply F3|].
    exists d2. split; [reflexivity|]. split; [exact F4|]. intros y i Hi. rewrite V4, V3. cbn [valv]. rewrite Em. rewrite P1 at 1. rewrite P2. rewrite V1, V2 by lia. cbn. ring.
  - destruct C as (A1 & C1). destruct (IHe vars Hg C1) as (da & Ea & F1 & V1); [assumption|exact Hfr|]. rewrite Ea.
    destruct (each_ok count vars (count e) (count (Scale c e)) (fun A => Some (mscale kmul (number c) A)) da F1) as (d & -> & F & R).
    { intros v A HA. eexists. split; [reflexivity|]. cbn. split; [|reflexivity]. rewrite (alike_count _ _ A1). apply F1 in HA. tauto. }
    exists d. split; [reflexivity|]. split; [exact F|]. intros y i Hi. rewrite (each_scale _ _ _ R). cbn [valv]. rewrite Em, (alike_positions _ _ A1), V1; [reflexivity|]. rewrite <- (alike_count _ _ A1). exact Hi.
  - rewrite same_list_refl. cbn [negb]. assert (Hf1 : forall a k, a < dim -> nth a p None = Some k -> ncc_couples n e a = false /\ cpl e a = false) by (intros a k Ha Hk; specialize (Hfr a k Ha Hk); cbn in Hfr; apply orb_false_iff in Hfr; tauto).
    destruct (IHe pr Hg C) as (da & Ea & R1); [assumption|intros a k Ha Hk; apply (Hf1 a k Ha Hk)|]. rewrite Ea.
    apply (apply_right pr (Prod n e) e da (restriction (Prod n e) e (N n e)) R1 eq_refl eq_refl). intros y i Hi. cbn [valv]. rewrite Em. apply (restricted ncc_couples Prod N n e _ i HN); [|exact Hi]. intros a k Ha Hk. apply (Hf1 a k Ha Hk).
  - destruct (count (Lin L e) =? 0) eqn:E0; [apply Nat.eqb_eq in E0; eexists; split; [reflexivity|apply nothing_right; assumption]|].
    assert (Hf1 : forall a k, a < dim -> nth a p None = Some k -> op_couples L e a = false /\ cpl e a = false) by (intros a k Ha Hk; specialize (Hfr a k Ha Hk); cbn in Hfr; apply orb_false_iff in Hfr; tauto).
    destruct (IHe vars Hg C) as (da & Ea & R1); [assumption|intros a k Ha Hk; apply (Hf1 a k Ha Hk)|]. rewrite Ea.
    apply (apply_right vars (Lin L e) e da (restriction (Lin L e) e (G L e)) R1 eq_refl eq_refl). intros y i Hi. cbn [valv]. rewrite Em. apply (restricted op_couples Lin G L e _ i HG); [|exact Hi]. intros a k Ha Hk. apply (Hf1 a k Ha Hk).
  - destruct (count (Stack e args) =? 0) eqn:E0; [apply Nat.eqb_eq in E0; eexists; split; [reflexivity|apply nothing_right; assumption]|].
    destruct C as (NE & Es & Eg & Co & Ca).
    match goal with F : Forall _ args |- _ => rename F into FF end. match goal with HH : forall a, In a args -> built pr [e] a |- _ => rename HH into Ba end. match goal with HH : built pr vars e |- _ => rename HH into Be end.
    assert (Fe : forall a, In a args -> free a).
    { intros a Ha ax k Hax Hk. specialize (Hfr ax k Hax Hk). cbn in Hfr. destruct (cpl a ax) eqn:E; [|reflexivity]. rewrite <- Hfr. symmetry. apply existsb_exists. exists a. auto. }
    assert (Cs : forall a, In a args -> consistent a). { clear - Ca. induction args as [|b l IH]; [intros ? []|]. intros a [<-|Ha]; [apply Ca|apply IH; [apply Ca|exact Ha]]. }
    assert (Fo : free e). { destruct args as [|b l]; [congruence|]. intros ax k Hax Hk. apply (cpl_operand pr e ax b); [apply Ba; left; reflexivity|apply Cs; left; reflexivity|]. apply (Fe b (or_introl eq_refl) ax k Hax Hk). }
    destruct (IHe vars Hg Co Be Fo) as (da & Ea & R1). rewrite Ea.
    match goal with |- context [match ?t with Some l => vstack l | None => None end] => assert (X : exists l, t = Some l /\ Forall2 (fun a (A : mat) => nr A = count a /\ nc A = count e /\
      forall y i, i < count a -> valv [e] y a (nth i (positions a) 0) = total (count e) (fun j => at_ A i j *k y e (nth j (positions e) 0))) args l) end.
    { clear - FF Ba Fe Cs Hf HG HN. induction args as [|b l IH]; [exists []; split; [reflexivity|constructor]|].
      inversion FF as [|? ? Hb Hl]; subst. destruct (Hb [e] (good_one e)) as (d & Ed & Rd); [apply Cs; left; reflexivity|apply Ba; left; reflexivity|apply Fe; left; reflexivity|].
      rewrite Ed. destruct (singleton_right _ _ _ Rd) as (A & -> & E1 & E2 & V). cbn [find]. rewrite same_refl.
      destruct IH as (l' & -> & F); [exact Hl|intros; apply Ba; right; assumption|intros; apply Fe; right; assumption|intros; apply Cs; right; assumption|].
      exists (A :: l'). split; [reflexivity|]. constructor; auto. }
    destruct X as (l & -> & F).
    destruct (stack_rows e args l F) as [SL SV]. cbn zeta in SL, SV.
    assert (EP : positions (Stack e args) = select (list_sum (map msize args)) (stacked (fun _ => 0) (map (fun b => (msize b, group b)) args))).
    { unfold LHS_Spec.positions. rewrite Es. apply select_ext. intros i a Hi _. apply Eg. lia. }
    destruct (vstack_ok (count e) l) as (M & -> & Mc & Mr & MV).
    { intros ->. inversion F; subst. congruence. }
    { clear - F. induction F as [|a A ? ? (? & ? & ?)]; constructor; assumption. }
    assert (EC : nr M = count (Stack e args)) by (rewrite Mr, <- SL; unfold LHS_Spec.count; rewrite EP; reflexivity).
    apply (apply_right vars (Stack e args) e da M R1 EC Mc). intros y i Hi. cbn [valv]. rewrite Em.
    rewrite (stacked_ext args _ (valv [e] (fun _ => valv vars y e))).
    2:{ intros a k Ha. apply (valv_switch pr); [exact Hg|exact (built_weight _ _ _ Be)|apply Ba; exact Ha]. }
    rewrite EP, SV by (rewrite <- EP; exact Hi). apply T_ext. intros j _. rewrite MV by lia. reflexivity.
  - destruct (count (Wrap e1 e2) =? 0) eqn:E0; [apply Nat.eqb_eq in E0; eexists; split; [reflexivity|apply nothing_right; assumption]|].
    destruct C as (A1 & Co & Ca). match goal with HH : built pr [e1] e2 |- _ => rename HH into Ba end. match goal with HH : built pr vars e1 |- _ => rename HH into Be end.
    destruct (IHe1 vars Hg Co Be) as (da & -> & R1). { intros a k Ha Hk. apply (cpl_operand pr e1 a e2 Ba Ca). apply (Hfr a k Ha Hk). }
    destruct (IHe2 [e1] (good_one e1) Ca Ba Hfr) as (d & -> & Rd). destruct (singleton_right _ _ _ Rd) as (A & -> & E1 & E2 & V). cbn [find]. rewrite same_refl.
    apply (apply_right vars (Wrap e1 e2) e1 da A R1); [rewrite (alike_count _ _ A1); exact E1|exact E2|]. intros y i Hi. cbn [valv]. rewrite Em, (alike_positions _ _ A1).
    rewrite (valv_switch pr e2 vars y e1 Hg (built_weight _ _ _ Be) Ba). apply (V (fun _ => valv vars y e1) i). rewrite <- (alike_count _ _ A1). exact Hi.
  - destruct C as (A1 & _ & Ca). destruct (IHe2 vars Hg Ca) as (d & -> & Rd); [assumption|exact Hfr|]. exists d. split; [reflexivity|]. apply (right_alike vars (Curl e1 e2) e2 d A1); [reflexivity|exact Rd].
  - destruct C as (A1 & _ & Ca). destruct (IHe2 vars Hg Ca) as (d & -> & Rd); [assumption|exact Hfr|]. exists d. split; [reflexivity|]. apply (right_alike vars (Curl e1 e2) e2 d A1); [reflexivity|exact Rd].
Qed.

(** ** Over the variables of a problem *)
Fixpoint nofn (e : expr) : Prop :=
  match e with
  | Field _ => True
  | Add a b => nofn a /\ nofn b
  | Scale _ a | Prod _ a | Lin _ a => nofn a
  | Stack _ args => (fix all (l : list expr) : Prop := match l with [] => True | a :: l => nofn a /\ all l end) args
  | Wrap _ arg | Curl _ arg => nofn arg
  | Nonlinear _ _ => False
  end.
Lemma built_nofn pr e : forall vars, built pr vars e -> (forall v, In v vars -> nofn v) -> nofn e.
Proof.
  induction e using expr_rect'; intros vars B Hv; inversion B; subst; try (apply Hv; assumption); cbn [nofn]; eauto.
  - match goal with F : Forall _ args |- _ => rename F into FF end. match goal with HH : forall a, In a args -> built pr [e] a |- _ => rename HH into Ba end.
    assert (He : nofn e) by eauto. clear - FF Ba He. induction args as [|b l IH]; [exact Logic.I|]. inversion FF; subst. split; [|apply IH; auto with datatypes].
    match goal with F : forall vars, built pr vars b -> _ |- _ => apply (F [e]) end; [apply Ba; left; reflexivity|]. intros v [<-|[]]. exact He.
  - match goal with HH : built pr [e1] e2 |- _ => apply (IHe2 [e1] HH) end. intros v [<-|[]]. eauto.
Qed.
Lemma valv_value vars x e : (forall v, In v vars -> exists f, v = Field f) -> nofn e ->
  forall i, valv vars (value k0 kadd kmul msize number G N phi x) e i = value k0 kadd kmul msize number G N phi x e i.
Proof.
  intros Hv. induction e using expr_rect'; intros C i; cbn [valv value nofn] in *; try (match goal with |- context [mem ?e vars] => destruct (mem_dec e vars) as [[_ HI]|[-> _]]; [destruct (Hv _ HI); discriminate|] end); auto.
  - rewrite IHe1, IHe2 by tauto. reflexivity.
  - rewrite IHe by assumption. reflexivity.
  - apply T_ext. intros j _. rewrite IHe by assumption. reflexivity.
  - apply T_ext. intros j _. rewrite IHe by assumption. reflexivity.
  - apply stacked_ext. intros a k Ha. match goal with F : Forall _ args |- _ => rewrite Forall_forall in F; apply F; auto end.
    clear - C Ha. induction args as [|b l IH]; [destruct Ha|]. destruct Ha as [<-|Ha]; [apply C|]. apply IH; [apply C|exact Ha].
  - destruct C.
Qed.
Lemma fold_change (vars : list expr) (g h : expr -> K) v t : NoDup vars -> In v vars -> h v = t +k g v -> (forall w, w <> v -> h w = g w) ->
  fold_right (fun w s => h w +k s) k0 vars = t +k fold_right (fun w s => g w +k s) k0 vars.
Proof.
  intros ND HI Hv Hw. induction vars as [|w l IH]; [destruct HI|]. inversion ND as [|? ? Hn ND']; subst. cbn [fold_right]. destruct HI as [->|HI].
  - rewrite Hv. assert (X : fold_right (fun w s => h w +k s) k0 l = fold_right (fun w s => g w +k s) k0 l).
    { clear - Hw Hn. induction l as [|u l IH]; [reflexivity|]. cbn [fold_right]. rewrite Hw, IH; [reflexivity| |]; cbn in Hn; intuition. }
    rewrite X. ring.
  - rewrite IH by assumption. rewrite Hw by (intros ->; contradiction). ring.
Qed.
Lemma find_none v (d : dict) : ~ In v (keys d) -> find v d = None.
Proof. induction d as [|[w A] d IH]; [reflexivity|]. cbn. intros H. destruct (same_dec v w) as [[_ ->]|[-> _]]; tauto. Qed.
Lemma find_in v (A : mat) (d : dict) : find v d = Some A -> In (v, A) d.
Proof. induction d as [|[w B] d IH]; cbn; [discriminate|]. destruct (same_dec v w) as [[-> ->]|[-> _]]; [intros [= ->]; left; reflexivity|intros; right; auto]. Qed.
Lemma dsum_applied vars r d y i : NoDup vars -> NoDup (keys d) -> (forall v A, In (v, A) d -> In v vars /\ nr A = r /\ nc A = count v) ->
  dsum d (seen y) i = applied k0 kadd kmul dim msize group p d vars y i.
Proof.
  intros NV. induction d as [|[v A] d IH]; intros ND H.
  - unfold applied. cbn [find]. clear NV H. induction vars as [|w l IH]; cbn; [reflexivity|]. cbn in IH. rewrite <- IH. ring.
  - cbn in ND. inversion ND as [|? ? Hn ND']; subst. rewrite dsum_cons, IH; [|exact ND'|intros; apply H; right; assumption].
    destruct (H v A (or_introl eq_refl)) as (Hi & _ & Ec). unfold applied. symmetry.
    refine (fold_change vars (fun v0 => match find v0 d with Some M => total (count v0) (fun j => at_ M i j *k gathered dim msize group p v0 (y v0) j) | None => k0 end)
      (fun v0 => match find v0 ((v, A) :: d) with Some M => total (count v0) (fun j => at_ M i j *k gathered dim msize group p v0 (y v0) j) | None => k0 end) v _ NV Hi _ _).
    + cbn [find]. rewrite same_refl, (find_none v d Hn), Ec. unfold gathered, seen. ring.
    + intros w Hw. cbn [find]. destruct (same_dec w v) as [[_ ->]|[-> _]]; [contradiction|reflexivity].
Qed.
Lemma variables_good vars : problem_variables vars -> good vars.
Proof. intros (A & B & C). split; [exact A|]. split; [exact B|]. left. exact C. Qed.

Lemma problem_right pr vars e mc : problem_variables vars -> consistent e -> built pr vars e -> matrix_coupling op_couples ncc_couples vars e = Some mc ->
  respects dim mc p ->
  exists d, em pr vars e = Some d /\ (forall v A, find v d = Some A -> In v vars /\ nr A = count e /\ nc A = count v) /\
    forall x i, i < count e -> gathered dim msize group p e (value k0 kadd kmul msize number G N phi x e) i = applied k0 kadd kmul dim msize group p d vars (value k0 kadd kmul msize number G N phi x) i.
Proof.
  intros Hv C B Hc Hr. destruct (main_right pr e vars (variables_good _ Hv) C B) as (d & E & (ND & NE & Hd) & V).
  { intros a k Ha Hk. rewrite <- (coupling_cpl _ _ _ Hc). apply (Hr a k Ha Hk). }
  exists d. split; [exact E|]. split; [intros v A HA; apply Hd; apply find_in; exact HA|]. intros x i Hi. destruct Hv as (_ & NV & Hv).
  assert (Hn : nofn e) by (apply (built_nofn pr e vars B); intros v HI; destruct (Hv v HI) as [f ->]; exact Logic.I).
  rewrite <- (dsum_applied vars (count e) d _ i NV ND Hd). unfold gathered. rewrite <- V by exact Hi. symmetry. apply valv_value; assumption.
Qed.
End Field_.

(** ** Coupling chosen by a solver *)
Lemma existsb_seq_false (f : nat -> bool) dim : existsb f (seq 0 dim) = false <-> forall a, a < dim -> f a = false.
Proof.
  split.
  - intros H a Ha. destruct (f a) eqn:E; [|reflexivity]. rewrite <- H. symmetry. apply existsb_exists. exists a. split; [apply in_seq; lia|exact E].
  - intros H. destruct (existsb f (seq 0 dim)) eqn:E; [|reflexivity]. apply existsb_exists in E. destruct E as (a & Ha & E). apply in_seq in Ha. rewrite H in E by lia. discriminate.
Qed.
Lemma solver_covers dim local pc spec mc : solver_coupling dim local pc spec = Some mc -> forall a, a < dim -> (pc a = true -> mc a = true) /\ (mc a = true -> local a = true).
Proof.
  unfold solver_coupling. intros H a Ha.
  assert (X : exists f, (forall b, b < dim -> pc b = true -> f b = true) /\ (if existsb (fun b => f b && negb (local b)) (seq 0 dim) then None else Some f) = Some mc).
  { destruct spec as [f|].
    - destruct (existsb (fun a => negb (f a) && pc a) (seq 0 dim)) eqn:E; [discriminate|]. exists f. split; [|exact H]. rewrite existsb_seq_false in E. intros b Hb Hp. specialize (E b Hb). rewrite Hp in E. destruct (f b); [reflexivity|discriminate].
    - destruct (existsb pc (seq 0 dim)); eexists; (split; [|exact H]); [auto|]. intros b _ Hp. cbn beta. rewrite Hp. apply orb_true_r. }
  destruct X as (f & Hp & Y). destruct (existsb (fun b => f b && negb (local b)) (seq 0 dim)) eqn:E; [discriminate|]. injection Y as <-. split; [apply Hp; exact Ha|].
  rewrite existsb_seq_false in E. specialize (E a Ha). intros Hm. rewrite Hm in E. destruct (local a); [reflexivity|discriminate].
Qed.
Lemma problem_covers oc nc_ vars eqs pc e : problem_coupling oc nc_ vars eqs = Some pc -> In e eqs -> exists c, matrix_coupling oc nc_ vars e = Some c /\ forall a : nat, c a = true -> pc a = true.
Proof.
  revert pc. induction eqs as [|f eqs IH]; intros pc; [intros _ []|]. cbn [problem_coupling]. destruct (matrix_coupling oc nc_ vars f) as [c|] eqn:E; [|discriminate]. destruct (problem_coupling oc nc_ vars eqs) as [q|] eqn:E2; [|discriminate].
  cbn [either]. intros [= <-] [->|HI].
  - exists c. split; [exact E|]. intros a Hc. rewrite Hc. reflexivity.
  - destruct (IH q eq_refl HI) as (c' & E' & H'). exists c'. split; [exact E'|]. intros a Hc. rewrite (H' a Hc). apply orb_true_r.
Qed.
