(* Proofs about the outputs of tasks. *)
From Coq Require Import Arith List ZArith Bool Lia.
From Verif Require Import TaskOutputs_Model TaskOutputs_Spec.
Import ListNotations.

Lemma upd_eq {A} (f : nat -> A) i x : upd f i x i = x.
Proof. unfold upd. now rewrite Nat.eqb_refl. Qed.

Lemma upd_neq {A} (f : nat -> A) i x j : j <> i -> upd f i x j = f j.
Proof. intros. unfold upd. destruct (Nat.eqb_spec j i); congruence. Qed.

Lemma F2_length {A B} (R : A -> B -> Prop) l l' : Forall2 R l l' -> length l = length l'.
Proof. induction 1; cbn; congruence. Qed.

(* A field that stands for the modes of v once it is dealiased. *)
Definition val_ok (o : obj) (r : nat) (v : nat -> Z) : Prop :=
  ores o = r /\ r <= osc o /\ forall k, oval (to_coeff o) k = trunc r v k.

Lemma to_coeff_lay o : olay (to_coeff o) = 0.
Proof. unfold to_coeff. destruct (Nat.eqb_spec (olay o) 0); auto. Qed.

Lemma to_coeff_id o : olay o = 0 -> to_coeff o = o.
Proof. unfold to_coeff. intros ->. reflexivity. Qed.

Lemma to_coeff_res o : ores (to_coeff o) = ores o.
Proof. unfold to_coeff. destruct (olay o =? 0); reflexivity. Qed.

Lemma to_coeff_sc o : osc (to_coeff o) = osc o.
Proof. unfold to_coeff. destruct (olay o =? 0); reflexivity. Qed.

Lemma val_ok_to_coeff o r v : val_ok o r v -> val_ok (to_coeff o) r v.
Proof.
  intros (H1 & H2 & H3). split; [|split].
  - now rewrite to_coeff_res.
  - now rewrite to_coeff_sc.
  - intros k. rewrite to_coeff_id by apply to_coeff_lay. apply H3.
Qed.

Lemma val_ok_layout o r v l : val_ok o r v -> val_ok (change_layout l o) r v.
Proof.
  intros H. unfold change_layout. destruct (Nat.eqb_spec l 0) as [->|Hl].
  - now apply val_ok_to_coeff.
  - destruct H as (H1 & H2 & H3). destruct (Nat.eqb_spec (olay o) 0) as [E|E].
    + split; [|split]; cbn; auto. intros k. unfold to_coeff. cbn.
      destruct (Nat.eqb_spec l 0); [congruence|]. cbn.
      specialize (H3 k). rewrite (to_coeff_id _ E) in H3. rewrite H1.
      unfold trunc in *. rewrite H3.
      destruct (Nat.ltb_spec k r); [|reflexivity].
      destruct (Nat.ltb_spec k (osc o)); [reflexivity|lia].
    + split; [|split]; cbn; auto. intros k. specialize (H3 k).
      unfold to_coeff in *. cbn. destruct (Nat.eqb_spec l 0); [congruence|].
      destruct (Nat.eqb_spec (olay o) 0); [congruence|]. exact H3.
Qed.

(* What processing shows of a dealiased output. *)
Lemma shows_process o r v l sc : val_ok o r v -> olay o = 0 ->
  shows (change_layout l (change_scales sc o)) r l sc v.
Proof.
  intros (H1 & H2 & H3) H0.
  assert (E : forall k, oval o k = trunc r v k)
    by (intros k; rewrite <- H3, to_coeff_id; auto).
  assert (C : exists c, c = change_scales sc o /\ olay c = 0 /\ osc c = sc /\ ores c = r
              /\ forall k, oval c k = trunc r v k).
  { eexists; split; [reflexivity|]. unfold change_scales.
    destruct (Nat.eqb_spec (osc o) sc) as [<-|]; [now repeat split|].
    rewrite (to_coeff_id _ H0). cbn. now repeat split. }
  destruct C as (c & <- & C0 & C1 & C2 & C3).
  unfold change_layout, shows. destruct (Nat.eqb_spec l 0) as [->|Hl].
  - rewrite (to_coeff_id _ C0). now repeat split.
  - rewrite C0. change (0 =? 0) with true. cbv iota.
    cbn [olay osc ores oval]. repeat split; auto. intros k.
    unfold trunc at 1. rewrite C3, C1.
    unfold trunc. destruct (Nat.ltb_spec k sc), (Nat.ltb_spec k r),
      (Nat.ltb_spec k (Nat.min r sc)); try reflexivity; lia.
Qed.

Section Runs.
Variable env : nat -> opdef.
Variable store : bool.
Hypothesis env_ok : dealiased env.

(* Objects owned by operators in different states. *)
Definition owned (id : nat) (s : st) (i o : nat) : Prop :=
  outs s i = Some o \/ last s i = Some (id, o).

Record inv (vals : nat -> nat -> Z) (id : nat) (s : st) : Prop := {
  inv_bound : forall i o, owned id s i o -> o < nxt s;
  inv_uniq : forall i j o, owned id s i o -> owned id s j o -> i = j;
  inv_val : forall i o, last s i = Some (id, o) ->
    val_ok (heap s o) (d_res (env i)) (vals i);
  inv_same : forall i o p, outs s i = Some o -> last s i = Some (id, p) -> p = o;
  inv_ids : forall i j o, last s i = Some (j, o) -> j < uid s;
  inv_uid : uid s = S id }.

Record wf (s : st) : Prop := {
  wf_bound : forall i o, outs s i = Some o -> o < nxt s;
  wf_uniq : forall i j o, outs s i = Some o -> outs s j = Some o -> i = j;
  wf_ids : forall i j o, last s i = Some (j, o) -> j < uid s }.

(* What evaluation of operators keeps. *)
Record keeps (id : nat) (s s' : st) : Prop := {
  k_last : forall i o, last s i = Some (id, o) -> last s' i = Some (id, o);
  k_outs : forall i o, outs s i = Some o -> outs s' i = Some o;
  k_nxt : nxt s <= nxt s';
  k_dicts : dicts s' = dicts s;
  k_files : files s' = files s }.

Lemma keeps_refl id s : keeps id s s.
Proof. split; auto. Qed.

Lemma keeps_trans id a b c : keeps id a b -> keeps id b c -> keeps id a c.
Proof.
  intros [A1 A2 A3 A4 A5] [B1 B2 B3 B4 B5].
  split; auto; try lia; congruence.
Qed.

Lemma inv_move vals id l s a : inv vals id s ->
  inv vals id (move id l s a) /\ outs (move id l s a) = outs s /\
  last (move id l s a) = last s /\ nxt (move id l s a) = nxt s /\
  dicts (move id l s a) = dicts s /\ files (move id l s a) = files s /\
  uid (move id l s a) = uid s.
Proof.
  intros I. unfold move. destruct (last s a) as [[j o]|] eqn:E;
    [|split; [exact I|repeat split]].
  destruct (Nat.eqb_spec j id) as [->|]; [|split; [exact I|repeat split]].
  split; [|now repeat split]. destruct I as [I1 I2 I3 I4 I5 I6].
  split; auto. cbn. intros i p Hp. destruct (Nat.eq_dec p o) as [->|N].
  - rewrite upd_eq. apply val_ok_layout. auto.
  - rewrite upd_neq by auto. auto.
Qed.

Lemma inv_moves vals id l as_ : forall s, inv vals id s ->
  let s' := fold_left (move id l) as_ s in
  inv vals id s' /\ outs s' = outs s /\ last s' = last s /\ nxt s' = nxt s /\
  dicts s' = dicts s /\ files s' = files s /\ uid s' = uid s.
Proof.
  induction as_ as [|a as_ IH]; intros s I; cbn; [split; [exact I|repeat split]|].
  destruct (inv_move vals id l s a I) as (J & J1 & J2 & J3 & J4 & J5 & J6).
  destruct (IH _ J) as (K & K1 & K2 & K3 & K4 & K5 & K6). cbn in *.
  split; [exact K|]. repeat split; congruence.
Qed.

Lemma eval_node_ok vals id s i : inv vals id s ->
  let s' := eval_node env store vals id s i in
  inv vals id s' /\ keeps id s s' /\ exists o, last s' i = Some (id, o).
Proof using env_ok.
  intros I.
  assert (R : (forall o, last s i <> Some (id, o)) ->
    let s1 := fold_left (move id (d_lay (env i))) (d_args (env i)) s in
    let (s2, o) := get_out env store i s1 in
    let r := d_res (env i) in
    let n := if d_lay (env i) =? 0 then r else d_dealias (env i) in
    let s' := set_last (set_heap s2 o
      (mkobj r (d_lay (env i)) (d_dealias (env i)) (trunc n (vals i)))) i (id, o) in
    inv vals id s' /\ keeps id s s' /\ exists o, last s' i = Some (id, o)).
  { intros Hn s1.
    destruct (inv_moves vals id (d_lay (env i)) (d_args (env i)) s I)
      as (J & J1 & J2 & J3 & J4 & J5 & J6). fold s1 in J, J1, J2, J3, J4, J5, J6.
    clearbody s1. destruct J as [A1 A2 A3 A4 A5 A6].
    assert (V : forall w, val_ok (mkobj (d_res (env i)) (d_lay (env i)) (d_dealias (env i))
      (trunc (if d_lay (env i) =? 0 then d_res (env i) else d_dealias (env i)) w))
      (d_res (env i)) w).
    { intros w. pose proof (env_ok i). split; [reflexivity|]. split; [exact H|].
      intros k. unfold to_coeff. cbn.
      destruct (Nat.eqb_spec (d_lay (env i)) 0); cbn; [reflexivity|].
      unfold trunc. destruct (Nat.ltb_spec k (d_res (env i))); [|reflexivity].
      destruct (Nat.ltb_spec k (d_dealias (env i))); [reflexivity|lia]. }
    unfold get_out. destruct (outs s1 i) as [o|] eqn:Eo.
    - cbn. split; [|split].
      + split; cbn; auto.
        * intros j p [H|H]; cbn in H; [apply (A1 j); left; exact H|].
          destruct (Nat.eq_dec j i) as [->|N].
          -- rewrite upd_eq in H. injection H as <-. apply (A1 i). now left.
          -- rewrite upd_neq in H by auto. apply (A1 j). now right.
        * assert (O : forall j p, owned id (set_last (set_heap s1 o
             (mkobj (d_res (env i)) (d_lay (env i)) (d_dealias (env i))
             (trunc (if d_lay (env i) =? 0 then d_res (env i) else d_dealias (env i)) (vals i))))
             i (id, o)) j p -> owned id s1 j p).
          { intros j p [H|H]; cbn in H; [now left|].
            destruct (Nat.eq_dec j i) as [->|N].
            - rewrite upd_eq in H. injection H as <-. now left.
            - rewrite upd_neq in H by auto. now right. }
          intros j k p Hj Hk. apply (A2 j k p); apply O; assumption.
        * intros j p H. destruct (Nat.eq_dec j i) as [->|N].
          -- rewrite upd_eq in H. injection H as <-. rewrite upd_eq. apply V.
          -- rewrite upd_neq in H by auto. rewrite upd_neq; [auto|].
             intros ->. apply N. apply (A2 j i o); [now right|now left].
        * intros j p q Hp Hq. destruct (Nat.eq_dec j i) as [->|N].
          -- rewrite upd_eq in Hq. congruence.
          -- rewrite upd_neq in Hq by auto. eauto.
        * intros j p q H. destruct (Nat.eq_dec j i) as [->|N].
          -- rewrite upd_eq in H. injection H as <- <-. rewrite A6. lia.
          -- rewrite upd_neq in H by auto. eauto.
      + split; cbn; try congruence; try lia.
        intros j p H. rewrite upd_neq; [congruence|]. intros ->. now apply (Hn p).
      + exists o. apply upd_eq.
    - set (s2 := if store then set_out (fst (alloc s1 (blank (d_res (env i))))) i (nxt s1)
                 else fst (alloc s1 (blank (d_res (env i))))).
      replace (let (s0, o) := alloc s1 (blank (d_res (env i))) in
               (if store then set_out s0 i o else s0, o)) with (s2, nxt s1)
        by (unfold s2; reflexivity).
      cbn zeta.
      assert (S0 : heap s2 = upd (heap s1) (nxt s1) (blank (d_res (env i))))
        by (unfold s2; destruct store; reflexivity).
      assert (S1 : nxt s2 = S (nxt s1)) by (unfold s2; destruct store; reflexivity).
      assert (S2 : last s2 = last s1) by (unfold s2; destruct store; reflexivity).
      assert (S3 : uid s2 = uid s1) by (unfold s2; destruct store; reflexivity).
      assert (S4 : dicts s2 = dicts s1) by (unfold s2; destruct store; reflexivity).
      assert (S5 : files s2 = files s1) by (unfold s2; destruct store; reflexivity).
      assert (S6 : forall j p, outs s2 j = Some p -> outs s1 j = Some p \/ (j = i /\ p = nxt s1)).
      { unfold s2. destruct store; cbn; [|now left]. intros j p H.
        destruct (Nat.eq_dec j i) as [->|N].
        - rewrite upd_eq in H. right. split; congruence.
        - rewrite upd_neq in H by auto. now left. }
      assert (S7 : forall j p, outs s1 j = Some p -> outs s2 j = Some p).
      { unfold s2. destruct store; cbn; auto. intros j p H.
        rewrite upd_neq; auto. intros ->. congruence. }
      clearbody s2.
      set (s3 := set_last _ _ _).
      assert (T : forall j p, owned id s3 j p ->
                  (owned id s1 j p /\ j <> i) \/ (j = i /\ p = nxt s1)).
      { intros j p [H|H]; cbn in H.
        - destruct (S6 _ _ H) as [H'|H']; [|now right]. left. split; [now left|].
          intros ->. congruence.
        - destruct (Nat.eq_dec j i) as [->|N].
          + rewrite upd_eq in H. right. split; congruence.
          + rewrite upd_neq in H by auto. rewrite S2 in H. left. split; [now right|auto]. }
      split; [|split].
      + split.
        * intros j p H. unfold s3. cbn. rewrite S1.
          destruct (T _ _ H) as [[H' _]|[-> ->]]; [|lia]. specialize (A1 _ _ H'). lia.
        * intros j k p Hj Hk.
          destruct (T _ _ Hj) as [[Hj' _]|[-> Ej]], (T _ _ Hk) as [[Hk' _]|[-> Ek]];
            try reflexivity.
          -- eauto.
          -- subst p. specialize (A1 _ _ Hj'). lia.
          -- subst p. specialize (A1 _ _ Hk'). lia.
        * intros j p H. unfold s3 in *. cbn in *. destruct (Nat.eq_dec j i) as [->|N].
          -- rewrite upd_eq in H. injection H as <-. rewrite upd_eq. apply V.
          -- rewrite upd_neq in H by auto. rewrite S2 in H.
             assert (p < nxt s1) by (apply (A1 j); now right).
             rewrite upd_neq by lia. rewrite S0, upd_neq by lia. auto.
        * intros j p q Hp Hq. unfold s3 in *. cbn in *.
          destruct (Nat.eq_dec j i) as [->|N].
          -- rewrite upd_eq in Hq. destruct (S6 _ _ Hp) as [H'|[_ H']]; congruence.
          -- rewrite upd_neq in Hq by auto. rewrite S2 in Hq.
             destruct (S6 _ _ Hp) as [H'|[H' _]]; [eauto|congruence].
        * intros j p q H. unfold s3 in *. cbn in *. rewrite S3.
          destruct (Nat.eq_dec j i) as [->|N].
          -- rewrite upd_eq in H. injection H as <- <-. rewrite A6. lia.
          -- rewrite upd_neq in H by auto. rewrite S2 in H. eauto.
        * unfold s3. cbn. congruence.
      + split; unfold s3; cbn; try congruence; try lia.
        * intros j p H. rewrite upd_neq; [congruence|]. intros ->. now apply (Hn p).
        * intros j p H. apply S7. congruence.
      + exists (nxt s1). unfold s3. cbn. apply upd_eq. }
  unfold eval_node. destruct (last s i) as [[j o]|] eqn:E.
  - destruct (Nat.eqb_spec j id) as [->|N].
    + cbn. split; [exact I|]. split; [apply keeps_refl|eauto].
    + assert (Hn' : forall p : nat, Some (j, o) <> Some (id, p)) by congruence.
      specialize (R Hn'). cbn zeta in *.
      destruct (get_out env store i _) as [s2 p]. exact R.
  - assert (Hn' : forall p : nat, @None (nat * nat) <> Some (id, p)) by congruence.
    specialize (R Hn'). cbn zeta in *.
    destruct (get_out env store i _) as [s2 p]. exact R.
Qed.

Lemma eval_nodes_ok vals id is : forall s, inv vals id s ->
  let s' := fold_left (eval_node env store vals id) is s in
  inv vals id s' /\ keeps id s s'.
Proof using env_ok.
  induction is as [|i is IH]; intros s I; cbn; [split; [exact I|apply keeps_refl]|].
  destruct (eval_node_ok vals id s i I) as (J & K & _).
  destruct (IH _ J) as (J' & K'). split; [exact J'|eapply keeps_trans; eauto].
Qed.

Lemma attempt_ok vals id ts : forall s s' os, inv vals id s ->
  attempt env store vals id ts s = (s', os) ->
  inv vals id s' /\ keeps id s s' /\
  Forall2 (fun t o => last s' (t_op t) = Some (id, o)) ts os.
Proof using env_ok.
  induction ts as [|t ts IH]; intros s s' os I E; cbn in E.
  - injection E as <- <-. split; [exact I|]. split; [apply keeps_refl|constructor].
  - destruct (attempt env store vals id ts (eval_task env store vals id s t))
      as [s2 os2] eqn:E2. injection E as <- <-.
    unfold eval_task in *.
    destruct (eval_nodes_ok vals id (t_inner t) s I) as (J & K).
    destruct (eval_node_ok vals id _ (t_op t) J) as (J' & K' & o & Ho).
    destruct (IH _ _ _ J' E2) as (L & M & F).
    split; [exact L|]. split; [eapply keeps_trans; [eapply keeps_trans|]; eauto|].
    constructor; [|exact F]. unfold out_of. rewrite Ho. now apply (k_last _ _ _ M).
Qed.

(* Dealiasing the outputs. *)
Lemma require_coeff_ok os : forall s,
  let s' := require_coeff os s in
  outs s' = outs s /\ last s' = last s /\ nxt s' = nxt s /\ uid s' = uid s /\
  dicts s' = dicts s /\ files s' = files s /\
  (forall o r v, val_ok (heap s o) r v -> val_ok (heap s' o) r v) /\
  (forall o, olay (heap s o) = 0 -> olay (heap s' o) = 0) /\
  (forall o, In o os -> olay (heap s' o) = 0) /\
  (forall o, ~ In o os -> heap s' o = heap s o).
Proof.
  unfold require_coeff. induction os as [|p os IH]; intros s; cbn.
  - do 6 (split; [reflexivity|]). split; [auto|]. split; [auto|].
    split; [|auto]. intros o [].
  - destruct (IH (set_heap s p (to_coeff (heap s p))))
      as (A & B & C & D & E & F & G & H & I & J). cbn in *.
    rewrite A, B, C, D, E, F. do 6 (split; [reflexivity|]).
    assert (Z : forall o, olay (heap s o) = 0 \/ o = p ->
              olay (upd (heap s) p (to_coeff (heap s p)) o) = 0).
    { intros o Ho. destruct (Nat.eq_dec o p) as [->|N].
      - rewrite upd_eq. apply to_coeff_lay.
      - rewrite upd_neq by auto. destruct Ho; [auto|contradiction]. }
    split; [|split; [|split]].
    + intros o r v V. apply G. destruct (Nat.eq_dec o p) as [->|N].
      * rewrite upd_eq. now apply val_ok_to_coeff.
      * now rewrite upd_neq.
    + intros o Ho. apply H. apply Z. now left.
    + intros o [->|Ho]; [apply H, Z; now right|now apply I].
    + intros o Ho. rewrite J by tauto. apply upd_neq. intros ->. tauto.
Qed.

(* Copies of redundant outputs are all different, and hold what the outputs
   hold. *)
Lemma redundant_ok os : forall seen s s' cs,
  redundant seen os s = (s', cs) ->
  (forall o, In o os -> o < nxt s) -> (forall o, In o seen -> o < nxt s) ->
  outs s' = outs s /\ last s' = last s /\ uid s' = uid s /\ dicts s' = dicts s /\
  files s' = files s /\ nxt s <= nxt s' /\
  (forall o, o < nxt s -> heap s' o = heap s o) /\
  Forall2 (fun o c => heap s' c = heap s o) os cs /\
  NoDup cs /\ (forall c, In c cs -> ~ In c seen /\ c < nxt s') /\
  (forall c, In c cs -> In c os \/ nxt s <= c).
Proof.
  induction os as [|o os IH]; intros seen s s' cs E Ho Hs; cbn in E.
  - injection E as <- <-. do 5 (split; [reflexivity|]). split; [lia|]. split; [auto|].
    split; [constructor|]. split; [constructor|]. split; intros c [].
  - destruct (existsb (Nat.eqb o) seen) eqn:X.
    + cbn in E. destruct (redundant seen os _) as [s2 c2] eqn:E2. injection E as <- <-.
      apply IH in E2; cbn in *;
        [|intros p Hp; specialize (Ho p (or_intror Hp)); lia
         |intros p Hp; specialize (Hs p Hp); lia].
      destruct E2 as (A & B & C & D & E & F & G & H & I & J & K).
      do 5 (split; [congruence|]). split; [lia|].
      split; [intros p Hp; rewrite G by lia; rewrite upd_neq by lia; reflexivity|].
      split; [|split; [|split]].
      * constructor; [rewrite G by lia; apply upd_eq|].
        clear -H Ho. assert (Ho' : forall p, In p os -> p < nxt s) by auto. clear Ho.
        induction H; constructor; auto.
        -- rewrite H. rewrite upd_neq; [reflexivity|].
           specialize (Ho' x (or_introl eq_refl)). lia.
        -- apply IHForall2. intros p Hp. apply Ho'. now right.
      * constructor; [|exact I]. intros Hin. destruct (K _ Hin) as [H'|H']; [|lia].
        specialize (Ho _ (or_intror H')). lia.
      * intros c [<-|Hc].
        -- split; [|lia]. intros Hin. specialize (Hs _ Hin). lia.
        -- auto.
      * intros c [<-|Hc]; [right; lia|]. destruct (K _ Hc); [auto|right; lia].
    + destruct (redundant (o :: seen) os s) as [s2 c2] eqn:E2. injection E as <- <-.
      apply IH in E2;
        [|intros p Hp; apply Ho; now right
         |intros p [<-|Hp]; [apply Ho; now left|now apply Hs]].
      destruct E2 as (A & B & C & D & E & F & G & H & I & J & K).
      do 5 (split; [congruence|]). split; [lia|]. split; [exact G|].
      split; [|split; [|split]].
      * constructor; [apply G, Ho; now left|exact H].
      * constructor; [|exact I]. intros Hin. destruct (J _ Hin) as [H' _].
        apply H'. now left.
      * intros c [<-|Hc].
        -- split; [|specialize (Ho _ (or_introl eq_refl)); lia]. intros Hin.
           assert (existsb (Nat.eqb o) seen = true)
             by (apply existsb_exists; exists o; split; [exact Hin|apply Nat.eqb_refl]).
           congruence.
        -- destruct (J _ Hc) as [H1 H2]. split; [|exact H2]. intros H3. apply H1. now right.
      * intros c [<-|Hc]; [left; now left|]. destruct (K _ Hc); [left; now right|now right].
Qed.

(* An output that no earlier task has is not copied. *)
Lemma redundant_first os : forall seen s s' cs, redundant seen os s = (s', cs) ->
  forall a b, os = a ++ b -> NoDup a -> (forall o, In o a -> ~ In o seen) ->
  exists d, cs = a ++ d.
Proof.
  induction os as [|o os IH]; intros seen s s' cs E a b Eab Hn Hs.
  - destruct a; [|discriminate]. exists cs. reflexivity.
  - destruct a as [|x a]; [exists cs; reflexivity|]. injection Eab as <- Eab.
    cbn in E. inversion_clear Hn as [|? ? N1 N2].
    destruct (existsb (Nat.eqb o) seen) eqn:X.
    + apply existsb_exists in X. destruct X as (p & Hp & Q).
      apply Nat.eqb_eq in Q. subst p. exfalso. apply (Hs o); [now left|exact Hp].
    + destruct (redundant (o :: seen) os s) as [s2 c2] eqn:E2. injection E as <- <-.
      destruct (IH _ _ _ _ E2 a b Eab N2) as (d & ->).
      * intros p Hp [<-|Hp']; [contradiction|]. apply (Hs p); [now right|exact Hp'].
      * exists d. reflexivity.
Qed.

(* Processing. *)
Lemma process1_other s x o p : p <> o -> heap (process1 s x o) p = heap s p.
Proof. intros N. destruct x as [[h k] t]. destruct k; cbn; auto; now apply upd_neq. Qed.

Lemma process1_rest s x o : outs (process1 s x o) = outs s /\ last (process1 s x o) = last s
  /\ nxt (process1 s x o) = nxt s /\ uid (process1 s x o) = uid s.
Proof. destruct x as [[h k] t]. destruct k; cbn; auto. Qed.

Lemma process_rest xs : forall os s,
  outs (process xs os s) = outs s /\ last (process xs os s) = last s
  /\ nxt (process xs os s) = nxt s /\ uid (process xs os s) = uid s.
Proof.
  induction xs as [|x xs IH]; intros [|o os] s; cbn; auto.
  destruct (IH os (process1 s x o)) as (A & B & C & D).
  destruct (process1_rest s x o) as (A' & B' & C' & D'). repeat split; congruence.
Qed.

Lemma process_other xs : forall os s p, ~ In p os -> heap (process xs os s) p = heap s p.
Proof.
  induction xs as [|x xs IH]; intros [|o os] s p N; cbn; auto.
  cbn in N. rewrite IH by tauto. apply process1_other. intros ->. tauto.
Qed.

Lemma process_dict_other xs : forall os s h name, no_entry h name xs ->
  dicts (process xs os s) h name = dicts s h name.
Proof.
  induction xs as [|x xs IH]; intros [|o os] s h name N; cbn; auto.
  rewrite IH by (intros t Ht; apply N; now right).
  destruct x as [[h' k] t]. destruct k; cbn; auto.
  destruct (Nat.eq_dec h h') as [->|Nh].
  - rewrite upd_eq. apply upd_neq. intros ->. apply (N t); [now left|reflexivity].
  - now rewrite upd_neq.
Qed.

(* Outputs that are ready for processing. *)
Definition ready (vals : nat -> nat -> Z) (s : st) (x : nat * kind * task) (o : nat) : Prop :=
  olay (heap s o) = 0 /\
  val_ok (heap s o) (d_res (env (t_op (snd x)))) (vals (t_op (snd x))).

Lemma ready_after vals s x o xs os : ~ In o os ->
  Forall2 (ready vals s) xs os -> Forall2 (ready vals (process1 s x o)) xs os.
Proof.
  intros N F. induction F; constructor.
  - unfold ready. rewrite process1_other; [exact H|]. intros ->. apply N. now left.
  - apply IHF. intros Hin. apply N. now right.
Qed.

Lemma process_dict vals Q xs : forall os s pre h t post,
  xs = pre ++ (h, Dict, t) :: post -> no_entry h (t_name t) post ->
  NoDup os -> Forall2 (ready vals s) xs os -> Forall2 Q xs os ->
  exists o, dicts (process xs os s) h (t_name t) = Some o /\ Q (h, Dict, t) o /\
    shows (heap (process xs os s) o) (d_res (env (t_op t))) (t_lay t) (t_sc t) (vals (t_op t)).
Proof.
  induction xs as [|x xs IH]; intros os s pre h t post E N D F G;
    [destruct pre; discriminate|].
  inversion F as [|? o ? os' R F' ]; subst. inversion_clear D as [|? ? D1 D2].
  inversion_clear G as [|? ? ? ? G1 G2].
  destruct pre as [|y pre]; injection E as -> ->.
  - exists o. cbn [process]. split; [|split; [exact G1|]].
    + rewrite process_dict_other by exact N. cbn. now rewrite !upd_eq.
    + rewrite process_other by exact D1. cbn. rewrite upd_eq.
      destruct R as [R1 R2]. now apply shows_process.
  - cbn [process]. eapply IH; eauto. now apply ready_after.
Qed.

Lemma process_file vals xs : forall os s h,
  NoDup os -> Forall2 (ready vals s) xs os ->
  exists w, files (process xs os s) h = files s h ++ w /\
    Forall2 (fun t e => fst e = t_name t /\
      shows (snd e) (d_res (env (t_op t))) (t_lay t) (t_sc t) (vals (t_op t)))
      (file_tasks h xs) w.
Proof.
  induction xs as [|x xs IH]; intros os s h D F.
  - exists []. rewrite app_nil_r. split; [destruct os; reflexivity|constructor].
  - inversion F as [|? o ? os' R F' ]; subst. inversion_clear D as [|? ? D1 D2].
    destruct (IH os' (process1 s x o) h D2 (ready_after _ _ _ _ _ _ D1 F'))
      as (w & E & W). cbn [process].
    destruct x as [[h' k] t]. destruct k.
    + exists w. split; [exact E|exact W].
    + cbn [file_tasks flat_map]. destruct (Nat.eqb_spec h' h) as [->|Nh].
      * exists ((t_name t, change_layout (t_lay t)
          (change_scales (t_sc t) (heap s o))) :: w). rewrite E. split.
        { cbn. rewrite !upd_eq, <- app_assoc. reflexivity. }
        constructor; [|exact W]. split; [reflexivity|].
        destruct R as [R1 R2]. now apply shows_process.
      * exists w. split; [|exact W]. rewrite E. cbn. now rewrite upd_neq by auto.
    + exists w. split; [exact E|exact W].
Qed.

(* One evaluation, up to processing. *)
Lemma evaluate_unfold vals hs s : wf s -> exists s1 os s3 cs,
  let xs := flat hs in
  let id := uid s in
  evaluate env store vals hs s = process xs cs s3 /\
  inv vals id s1 /\
  (forall i o, outs s i = Some o -> outs s1 i = Some o) /\
  outs s3 = outs s1 /\ last s3 = last s1 /\ uid s3 = S id /\
  nxt s1 <= nxt s3 /\ nxt s <= nxt s1 /\ dicts s3 = dicts s /\ files s3 = files s /\
  Forall2 (fun x o => last s1 (t_op (snd x)) = Some (id, o)) xs os /\
  redundant [] os (require_coeff os s1) = (s3, cs) /\
  (forall o, In o os -> o < nxt s1) /\
  NoDup cs /\ (forall c, In c cs -> c < nxt s3) /\ Forall2 (ready vals s3) xs cs.
Proof using env_ok.
  intros W. unfold evaluate.
  set (s0 := mkst (heap s) (nxt s) (S (uid s)) (outs s) (last s) (dicts s) (files s)).
  assert (I : inv vals (uid s) s0).
  { destruct W as [W1 W2 W3].
    assert (O : forall i o, owned (uid s) s0 i o -> outs s i = Some o).
    { intros i o [H|H]; cbn in H; [exact H|]. specialize (W3 _ _ _ H). lia. }
    split; cbn; auto.
    - intros i o H. apply O in H. eauto.
    - intros i j o H H'. apply O in H, H'. eauto.
    - intros i o H. specialize (W3 _ _ _ H). lia.
    - intros i o p _ H. specialize (W3 _ _ _ H). lia.
    - intros i j o H. specialize (W3 _ _ _ H). lia. }
  destruct (attempt env store vals (uid s) (map snd (flat hs)) s0) as [s1 os] eqn:E1.
  destruct (attempt_ok _ _ _ _ _ _ I E1) as (J & K & F).
  destruct (redundant [] os (require_coeff os s1)) as [s3 cs] eqn:E3.
  assert (F' : Forall2 (fun x o => last s1 (t_op (snd x)) = Some (uid s, o)) (flat hs) os).
  { clear -F. remember (map snd (flat hs)) as ts. revert Heqts. generalize (flat hs).
    induction F; intros [|x' xs]; cbn; intros E; try discriminate; constructor.
    - injection E as -> _. exact H.
    - apply IHF. now injection E. }
  assert (B : forall o, In o os -> exists i, last s1 i = Some (uid s, o)).
  { clear -F'. induction F'; intros p [].
    - subst. eauto.
    - auto. }
  assert (Bn : forall o, In o os -> o < nxt s1).
  { intros o Ho. destruct (B o Ho) as (i & Hi). apply (inv_bound _ _ _ J i). now right. }
  destruct (require_coeff_ok os s1) as (A1 & A2 & A3 & A4 & A5 & A6 & A7 & A8 & A9 & A10).
  destruct (redundant_ok os [] _ _ _ E3) as (R1 & R2 & R3 & R4 & R5 & R6 & R7 & R8 & R9 & R10 & R11).
  { rewrite A3. exact Bn. }
  { intros o []. }
  exists s1, os, s3, cs. cbn zeta. split; [reflexivity|]. split; [exact J|].
  split; [intros i o H; apply (k_outs _ _ _ K); exact H|].
  split; [congruence|]. split; [congruence|].
  split; [rewrite R3, A4; apply (inv_uid _ _ _ J)|].
  split; [lia|]. split; [apply (k_nxt _ _ _ K)|].
  split; [rewrite R4, A5; apply (k_dicts _ _ _ K)|].
  split; [rewrite R5, A6; apply (k_files _ _ _ K)|].
  split; [exact F'|]. split; [exact E3|]. split; [exact Bn|]. split; [exact R9|].
  split; [intros c Hc; apply R10; exact Hc|].
  assert (Q : forall o, In o os -> olay (heap (require_coeff os s1) o) = 0) by exact A9.
  clear -F' R8 Q A7 J. cbn zeta in A7. set (s2 := require_coeff os s1) in *.
  clearbody s2. revert R8. revert cs.
  induction F'; intros cs R8; inversion R8 as [|? c ? cs' Hc Hcs]; subst; constructor.
  - unfold ready. rewrite Hc. split; [apply Q; now left|].
    apply A7. now apply (inv_val _ _ _ J).
  - apply IHF'; auto. intros o Ho. apply Q. now right.
Qed.

Lemma evaluate_wf vals hs s : wf s ->
  let s' := evaluate env store vals hs s in
  wf s' /\ (forall i o, outs s i = Some o -> outs s' i = Some o).
Proof using env_ok.
  intros W. destruct (evaluate_unfold vals hs s W) as (s1 & os & s3 & cs & E & I & K & O & L
    & U & N1 & N2 & _). cbn zeta. rewrite E.
  destruct (process_rest (flat hs) cs s3) as (P1 & P2 & P3 & P4).
  rewrite P1. split; [|rewrite O; exact K].
  destruct I as [I1 I2 I3 I4 I5 I6]. split.
  - intros i o H. rewrite P1, O in H. rewrite P3.
    assert (o < nxt s1) by (apply (I1 i); now left). lia.
  - intros i j o H H'. rewrite P1, O in H, H'. apply (I2 i j o); now left.
  - intros i j o H. rewrite P2, L in H. rewrite P4, U, <- I6. eauto.
Qed.

Lemma history_wf es : forall s, wf s ->
  let s' := history env store es s in
  wf s' /\ (forall i o, outs s i = Some o -> outs s' i = Some o).
Proof using env_ok.
  induction es as [|e es IH]; intros s W; cbn; [auto|].
  destruct (evaluate_wf (fst e) (snd e) s W) as (W' & K).
  destruct (IH _ W') as (W'' & K'). split; [exact W''|]. intros i o H. apply K', K, H.
Qed.

Lemma build_wf is : forall s, wf s -> wf (fst (build_system env is s)).
Proof.
  induction is as [|i is IH]; intros s W; [exact W|]. cbn.
  match goal with |- context [build_system env is ?x] => set (s1 := x) end.
  assert (W1 : wf s1).
  { destruct W as [W1 W2 W3]. split; cbn.
    - intros j o H. destruct (Nat.eq_dec j i) as [->|N].
      + rewrite upd_eq in H. injection H as <-. lia.
      + rewrite upd_neq in H by auto. specialize (W1 _ _ H). lia.
    - assert (Z : forall j o, upd (outs s) i (Some (nxt s)) j = Some o ->
                  (j = i /\ o = nxt s) \/ (outs s j = Some o /\ o < nxt s)).
      { intros j o H. destruct (Nat.eq_dec j i) as [->|N].
        - rewrite upd_eq in H. left. split; congruence.
        - rewrite upd_neq in H by auto. right. split; [exact H|eauto]. }
      intros j k o H H'. destruct (Z _ _ H) as [[-> ?]|[? ?]], (Z _ _ H') as [[-> ?]|[? ?]];
        try reflexivity; try lia. eauto.
    - exact W3. }
  specialize (IH _ W1). destruct (build_system env is s1). exact IH.
Qed.

Lemma start_wf : wf start.
Proof. split; cbn; congruence. Qed.

Lemma build_outs is : forall s, NoDup is ->
  (forall i o, ~ In i is -> outs s i = Some o ->
     outs (fst (build_system env is s)) i = Some o) /\
  Forall2 (fun i o => outs (fst (build_system env is s)) i = Some o)
    is (snd (build_system env is s)).
Proof.
  induction is as [|i is IH]; intros s D; [split; [auto|constructor]|].
  inversion_clear D as [|? ? D1 D2]. cbn.
  match goal with |- context [build_system env is ?x] => set (s1 := x) end.
  destruct (IH s1 D2) as (A & B).
  destruct (build_system env is s1) as [s2 os] eqn:E. cbn in *. split.
  - intros j o Hj H. apply A; [tauto|]. cbn. rewrite upd_neq; [exact H|]. intros ->. tauto.
  - constructor; [|exact B]. apply A; [exact D1|]. cbn. apply upd_eq.
Qed.

Lemma reached_wf is s : reached env store is s -> wf s.
Proof using env_ok.
  intros (es & ->). apply history_wf. apply build_wf, start_wf.
Qed.

(* The fields of a system whose tasks come first. *)
Lemma system_ok vals h ts hs s : wf s ->
  NoDup (map t_op ts) ->
  forall fs, Forall2 (fun t f => outs s (t_op t) = Some f) ts fs ->
  let s' := evaluate env store vals (mkh h Sys ts :: hs) s in
  Forall2 (fun t f => holds_coeffs (heap s' f) (d_res (env (t_op t))) (vals (t_op t))) ts fs.
Proof using env_ok.
  intros W D fs F. cbn zeta.
  destruct (evaluate_unfold vals (mkh h Sys ts :: hs) s W) as (s1 & os & s3 & cs & E & I & K
    & O & L & U & N1 & N2 & _ & _ & F1 & R & B & Dc & Bc & Rd).
  cbn zeta in *. rewrite E. clear E.
  assert (X : flat (mkh h Sys ts :: hs) = map (fun t => (h, Sys, t)) ts ++ flat hs) by reflexivity.
  rewrite X in *. clear X.
  apply Forall2_app_inv_l in F1. destruct F1 as (oa & ob & F1 & F2 & ->).
  assert (Q : oa = fs).
  { clear -F F1 K I. revert oa F1. induction F; intros oa F1; cbn in F1;
      inversion F1 as [|? c ? cs' Hc Hcs]; subst.
    - reflexivity.
    - f_equal; [|auto]. cbn in Hc. apply (inv_same _ _ _ I (t_op x)); auto. }
  subst oa.
  assert (Nf : NoDup fs).
  { clear -F D W. induction F; [constructor|]. cbn in D. inversion_clear D as [|? ? D1 D2].
    constructor; [|auto]. intros Hin. apply D1. clear -F H W Hin.
    induction F; [contradiction|]. destruct Hin as [->|Hin].
    - left. apply (wf_uniq _ W _ _ y); assumption.
    - right. auto. }
  destruct (redundant_first _ _ _ _ _ R fs ob eq_refl Nf) as (d & ->); [auto|].
  apply Forall2_app_inv_l in Rd. destruct Rd as (ca & cb & Ra & Rb & Eq).
  assert (ca = fs /\ cb = d) as [-> ->].
  { assert (Z : length ca = length fs).
    { apply F2_length in Ra. apply F2_length in F. rewrite map_length in Ra. congruence. }
    clear -Eq Z. revert fs Eq Z. induction ca; intros [|f fs] Eq Z; try discriminate; cbn in *.
    - auto.
    - injection Eq as -> Eq. destruct (IHca fs Eq); [lia|]. split; congruence. }
  clear Eq Rb F F1 F2 R B Bc N1 N2.
  assert (H : forall ts fs s, NoDup (fs ++ d) ->
    Forall2 (ready vals s) (map (fun t => (h, Sys, t)) ts) fs ->
    Forall2 (fun t f => holds_coeffs
      (heap (process (map (fun t => (h, Sys, t)) ts ++ flat hs) (fs ++ d) s) f)
      (d_res (env (t_op t))) (vals (t_op t))) ts fs).
  { clear. intros ts fs s N F.
    assert (P : process (map (fun t => (h, Sys, t)) ts ++ flat hs) (fs ++ d) s
                = process (flat hs) d s).
    { clear N. revert fs F. induction ts as [|t ts IH]; intros fs F; inversion F; subst; cbn; auto. }
    rewrite P. clear P.
    assert (Z : forall f, In f fs -> heap (process (flat hs) d s) f = heap s f).
    { intros f Hf. apply process_other. intros Hd. clear F.
      induction fs as [|g fs IH]; [contradiction|]. cbn in N. inversion_clear N as [|? ? N1 N2].
      destruct Hf as [->|Hf]; [apply N1, in_or_app; now right|auto]. }
    clear N. revert ts F. induction fs as [|f fs IH]; intros [|t ts] F;
      inversion F as [|? c ? cs' Hc Hcs]; subst; constructor.
    - destruct Hc as [R1 (R2 & R3 & R4)]. cbn in *. rewrite Z by now left. split; [exact R1|].
      intros k. rewrite <- (to_coeff_id _ R1). apply R4.
    - apply IH; [|assumption]. intros g Hg. apply Z. now right. }
  apply H; assumption.
Qed.

(* Where the outputs after copying come from. *)
Lemma redundant_from os : forall seen s s' cs, redundant seen os s = (s', cs) ->
  Forall2 (fun o c => c = o \/ nxt s <= c) os cs.
Proof.
  induction os as [|o os IH]; intros seen s s' cs E; cbn in E.
  - injection E as <- <-. constructor.
  - destruct (existsb (Nat.eqb o) seen).
    + cbn in E. destruct (redundant seen os _) as [s2 c2] eqn:E2. injection E as <- <-.
      constructor; [right; lia|]. apply IH in E2. cbn in E2.
      clear -E2. induction E2; constructor; auto. destruct H; [now left|right; lia].
    + destruct (redundant (o :: seen) os s) as [s2 c2] eqn:E2. injection E as <- <-.
      constructor; [now left|]. eapply IH; eauto.
Qed.

Lemma dict_entry vals hs s pre h t post : wf s ->
  flat hs = pre ++ (h, Dict, t) :: post -> no_entry h (t_name t) post ->
  let s' := evaluate env store vals hs s in
  exists o, dicts s' h (t_name t) = Some o /\
    (o < nxt s' /\ forall j, outs s' j = Some o -> j = t_op t) /\
    shows (heap s' o) (d_res (env (t_op t))) (t_lay t) (t_sc t) (vals (t_op t)).
Proof using env_ok.
  intros W E N. cbn zeta.
  destruct (evaluate_unfold vals hs s W) as (s1 & os & s3 & cs & Ev & I & K
    & O & L & U & N1 & N2 & _ & _ & F1 & R & B & Dc & Bc & Rd).
  cbn zeta in *. rewrite Ev.
  destruct (process_rest (flat hs) cs s3) as (P1 & P2 & P3 & P4). rewrite P1, P3.
  apply (process_dict vals (fun x o => o < nxt s3 /\
    forall j, outs s3 j = Some o -> j = t_op (snd x)) _ _ _ pre h t post); auto.
  apply redundant_from in R. rewrite (proj1 (proj2 (proj2 (require_coeff_ok os s1)))) in R.
  rewrite O. clear -F1 R I Bc. revert cs R Bc.
  induction F1; intros cs R Bc; inversion R as [|? c ? cs' Rc Rcs]; subst; constructor.
  - split; [apply Bc; now left|]. intros j Hj. destruct Rc as [->|Rc].
    + apply (inv_uniq _ _ _ I j _ y); [now left|now right].
    + assert (c < nxt s1) by (apply (inv_bound _ _ _ I j); now left). lia.
  - apply IHF1; [exact Rcs|]. intros p Hp. apply Bc. now right.
Qed.

(* Fields that evaluation does not touch. *)
Definition away (id o : nat) (is : nat -> Prop) (s s' : st) : Prop :=
  heap s' o = heap s o /\ o < nxt s' /\ (forall i, last s' i <> Some (id, o)) /\
  (forall i, is i -> outs s' i <> Some o).

Lemma moves_away id l o is as_ : forall s,
  away id o is s s -> away id o is s (fold_left (move id l) as_ s).
Proof.
  assert (G : forall s0 s, away id o is s0 s -> away id o is s0 (fold_left (move id l) as_ s)).
  { induction as_ as [|a as_ IH]; intros s0 s A; cbn; [exact A|]. apply IH.
    destruct A as (A1 & A2 & A3 & A4). unfold move.
    destruct (last s a) as [[j p]|] eqn:E; [|now repeat split].
    destruct (Nat.eqb_spec j id) as [->|]; [|now repeat split].
    repeat split; cbn; auto. rewrite upd_neq; [exact A1|]. intros ->. now apply (A3 a). }
  intros s A. now apply G.
Qed.

Lemma eval_node_away vals id o (is : nat -> Prop) s i : is i -> away id o is s s ->
  away id o is s (eval_node env store vals id s i).
Proof.
  intros Hi A.
  assert (G : let s1 := fold_left (move id (d_lay (env i))) (d_args (env i)) s in
    let (s2, p) := get_out env store i s1 in forall x,
    away id o is s (set_last (set_heap s2 p x) i (id, p))).
  { intros s1. pose proof (moves_away id (d_lay (env i)) o is (d_args (env i)) s A) as M.
    fold s1 in M. clearbody s1. destruct M as (M1 & M2 & M3 & M4). unfold get_out.
    destruct (outs s1 i) as [p|] eqn:E.
    - intros x. assert (p <> o) by (intros ->; now apply (M4 i Hi)).
      repeat split; cbn; auto.
      + rewrite upd_neq by auto. exact M1.
      + intros j. destruct (Nat.eq_dec j i) as [->|N];
          [rewrite upd_eq; congruence|rewrite upd_neq by auto; apply M3].
    - cbn. intros x. repeat split.
      + destruct store; cbn; rewrite !upd_neq by lia; exact M1.
      + destruct store; cbn; lia.
      + intros j. assert (Z : last (set_last (set_heap (if store then set_out
          (fst (alloc s1 (blank (d_res (env i))))) i (nxt s1) else
          fst (alloc s1 (blank (d_res (env i))))) (nxt s1) x) i (id, nxt s1)) j
          = upd (last s1) i (Some (id, nxt s1)) j) by (destruct store; reflexivity).
        cbn in *. rewrite Z. destruct (Nat.eq_dec j i) as [->|N].
        * rewrite upd_eq. intros Q. injection Q. lia.
        * rewrite upd_neq by auto. apply M3.
      + intros j Hj. destruct store; cbn; [|now apply M4].
        destruct (Nat.eq_dec j i) as [->|N].
        * rewrite upd_eq. intros Q. injection Q. lia.
        * rewrite upd_neq by auto. now apply M4. }
  unfold eval_node. cbn zeta in *. destruct (get_out env store i _) as [s2 p].
  destruct (last s i) as [[j q]|]; [|apply G].
  destruct (j =? id); [exact A|apply G].
Qed.

Lemma away_trans id o is a b c : away id o is a b -> away id o is b c -> away id o is a c.
Proof.
  intros (A1 & A2 & A3 & A4) (B1 & B2 & B3 & B4). repeat split; auto. congruence.
Qed.

Lemma away_refl id o is a b : away id o is a b -> away id o is b b.
Proof. intros (A1 & A2 & A3 & A4). repeat split; auto. Qed.

Lemma eval_nodes_away vals id o (is : nat -> Prop) l : forall s, (forall i, In i l -> is i) ->
  away id o is s s -> away id o is s (fold_left (eval_node env store vals id) l s).
Proof.
  induction l as [|i l IH]; intros s Hl A; cbn; [exact A|].
  assert (H : away id o is s (eval_node env store vals id s i))
    by (apply eval_node_away; [apply Hl; now left|exact A]).
  eapply away_trans; [exact H|]. apply IH; [intros j Hj; apply Hl; now right|].
  eapply away_refl; eauto.
Qed.

Lemma attempt_away vals id o (is : nat -> Prop) ts : forall s s' os,
  (forall t, In t ts -> is (t_op t) /\ forall i, In i (t_inner t) -> is i) ->
  away id o is s s -> attempt env store vals id ts s = (s', os) -> away id o is s s'.
Proof.
  induction ts as [|t ts IH]; intros s s' os Ht A E; cbn in E.
  - injection E as <- <-. exact A.
  - destruct (attempt env store vals id ts (eval_task env store vals id s t))
      as [s2 os2] eqn:E2. injection E as <- <-.
    destruct (Ht t (or_introl eq_refl)) as (H1 & H2).
    pose proof (eval_nodes_away vals id o is (t_inner t) s H2 A) as B.
    pose proof (eval_node_away vals id o is _ (t_op t) H1 (away_refl _ _ _ _ _ B)) as C.
    pose proof (away_trans _ _ _ _ _ _ B C) as D.
    eapply away_trans; [exact D|]. eapply IH; eauto.
    + intros u Hu. apply Ht. now right.
    + eapply away_refl; eauto.
Qed.

Lemma evaluate_away vals hs s o i0 : wf s -> o < nxt s -> not_evaluated i0 hs ->
  (forall i, outs s i = Some o -> i = i0) ->
  let s' := evaluate env store vals hs s in
  heap s' o = heap s o /\ o < nxt s' /\ (forall i, outs s' i = Some o -> i = i0).
Proof using env_ok.
  intros W Ho Hv Hn. cbn zeta. unfold evaluate.
  set (s0 := mkst (heap s) (nxt s) (S (uid s)) (outs s) (last s) (dicts s) (files s)).
  destruct (attempt env store vals (uid s) (map snd (flat hs)) s0) as [s1 os] eqn:E1.
  assert (A0 : away (uid s) o (fun i => i <> i0) s0 s0).
  { repeat split; cbn; auto. intros i H. apply (wf_ids _ W) in H. lia. }
  assert (Ht : forall t, In t (map snd (flat hs)) -> t_op t <> i0 /\
               forall i, In i (t_inner t) -> i <> i0).
  { intros t Hin. apply in_map_iff in Hin. destruct Hin as ([[h k] t'] & Q & Hin).
    cbn in Q. subst t'. apply in_flat_map in Hin. destruct Hin as (g & Hg & Hin).
    apply in_map_iff in Hin. destruct Hin as (t' & Q & Hin). injection Q as _ _ ->.
    destruct (Hv g t Hg Hin) as (V1 & V2). split; [congruence|].
    intros i Hi ->. contradiction. }
  pose proof (attempt_away _ _ _ _ _ _ _ _ Ht A0 E1) as (B1 & B2 & B3 & B4).
  assert (I : exists vals', inv vals' (uid s) s0 /\ vals' = vals).
  { exists vals. split; [|reflexivity]. destruct W as [W1 W2 W3].
    assert (O : forall i o, owned (uid s) s0 i o -> outs s i = Some o).
    { intros i p [H|H]; cbn in H; [exact H|]. specialize (W3 _ _ _ H). lia. }
    split; cbn; auto.
    - intros i p H. apply O in H. eauto.
    - intros i j p H H'. apply O in H, H'. eauto.
    - intros i p H. specialize (W3 _ _ _ H). lia.
    - intros i p q _ H. specialize (W3 _ _ _ H). lia.
    - intros i j p H. specialize (W3 _ _ _ H). lia. }
  destruct I as (vals' & I & ->).
  destruct (attempt_ok _ _ _ _ _ _ I E1) as (J & _ & F).
  assert (Bo : ~ In o os).
  { clear -F B3. induction F; intros []; [subst; now apply (B3 (t_op x))|auto]. }
  assert (Bn : forall p, In p os -> p < nxt s1).
  { clear -F J. induction F; intros p []; [|auto]. subst.
    apply (inv_bound _ _ _ J (t_op x)). now right. }
  destruct (require_coeff_ok os s1) as (A1 & _ & A3 & _ & _ & _ & _ & _ & _ & A10).
  destruct (redundant [] os (require_coeff os s1)) as [s3 cs] eqn:E3.
  destruct (redundant_ok os [] _ _ _ E3) as (R1 & _ & _ & _ & _ & R6 & R7 & _ & _ & _ & R11).
  { rewrite A3. exact Bn. }
  { intros p []. }
  destruct (process_rest (flat hs) cs s3) as (P1 & _ & P3 & _).
  split; [|split].
  2: { rewrite P3. lia. }
  2: { intros i Hi. rewrite P1, R1, A1 in Hi. destruct (Nat.eq_dec i i0); [auto|].
       exfalso. now apply (B4 i n). }
  rewrite process_other.
  - rewrite R7 by (rewrite A3; exact B2). rewrite A10 by exact Bo. exact B1.
  - intros Hc. destruct (R11 _ Hc); [contradiction|]. rewrite A3 in H. lia.
Qed.

(* Keys of dictionaries that evaluation does not touch. *)
Lemma evaluate_dict_other vals hs s h name : wf s -> no_entry h name (flat hs) ->
  dicts (evaluate env store vals hs s) h name = dicts s h name.
Proof using env_ok.
  intros W N. destruct (evaluate_unfold vals hs s W) as (s1 & os & s3 & cs & E & _ & _
    & _ & _ & _ & _ & _ & D & _). cbn zeta in *.
  rewrite E, process_dict_other by exact N. now rewrite D.
Qed.

End Runs.
