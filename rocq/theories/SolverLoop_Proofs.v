(** Proofs about the main loop. *)
From Coq Require Import Reals Lra.
From stdpp Require Import numbers list.
From Verif Require Import FlowTools_Model SolverLoop_Model SolverLoop_Spec.
Local Open Scope R_scope.

Lemma flt_ge_reaches x stop : flt_ge (Fin x) stop = true <-> reaches x stop.
Proof.
  destruct stop as [b| | |]; cbn; try done. destruct (Rlt_dec x b); cbn; split; intros; try done; lra.
Qed.

Section Loop.
  Context {D : Type} (advance : R -> D -> D) (symmetrise : D -> D) (clock : nat -> R).
  Notation step := (step advance symmetrise clock).
  Notation proceed := (proceed clock).
  Notation main_loop := (main_loop advance symmetrise clock).
  Notation log_stats := (log_stats clock).
  Implicit Types (s : solver D) (cf : config).

  (** Everything but the clock. *)
  Definition same s s' : Prop :=
    data s' = data s /\ iteration s' = iteration s /\ initial_iteration s' = initial_iteration s /\ sim_time s' = sim_time s /\ last_dt s' = last_dt s
    /\ start_time_end s' = start_time_end s /\ warmup_time_end s' = warmup_time_end s.
  Lemma proceed_same cf s b s' : proceed cf s = (b, s') -> same s s'.
  Proof.
    unfold SolverLoop_Model.proceed. destruct (flt_ge (Fin (sim_time s)) (stop_sim_time cf)); [by intros [= <- <-]|]. cbn [read_clock].
    destruct (flt_ge (Fin (clock (readings s))) (stop_wall_time cf)); [by intros [= <- <-]|]. destruct (flt_ge _ (stop_iteration cf)); by intros [= <- <-].
  Qed.
  Lemma proceed_spec cf s : (proceed cf s).1 = false <->
    reaches (sim_time s) (stop_sim_time cf) \/ reaches (clock (readings s)) (stop_wall_time cf) \/ reaches (INR (iteration s)) (stop_iteration cf).
  Proof.
    unfold SolverLoop_Model.proceed. rewrite <- !flt_ge_reaches. destruct (flt_ge (Fin (sim_time s)) _); [cbn; tauto|].
    cbn [read_clock]. destruct (flt_ge (Fin (clock (readings s))) _); [cbn; tauto|]. cbn [iteration]. destruct (flt_ge _ _); cbn; [tauto|]. split; [done|]. intros [?|[?|?]]; done.
  Qed.
  Lemma step_spec cf dt s s' : step cf dt s = Done s' ->
    exists r, dt = Fin r /\ data s' = (if enforces cf (iteration s) then symmetrise (advance r (data s)) else advance r (data s))
      /\ iteration s' = S (iteration s) /\ initial_iteration s' = initial_iteration s /\ sim_time s' = sim_time s + r /\ last_dt s' = Some r
      /\ start_time_end s' = (if decide (iteration s = initial_iteration s) then Some (clock (readings s)) else start_time_end s)
      /\ (if decide (iteration s = initial_iteration s + warmup_iterations cf)%nat then warmup_time_end s' <> None else warmup_time_end s' = warmup_time_end s).
  Proof.
    destruct dt as [r| | |]; try done. cbn. intros [= <-]. exists r. split; [done|].
    destruct (decide (iteration s = initial_iteration s)); cbn; (destruct (decide (iteration s = initial_iteration s + warmup_iterations cf)%nat); cbn; repeat split; done).
  Qed.
  Lemma step_raised cf dt s e s' : step cf dt s = Raised e s' -> e = ValueError /\ s' = s /\ is_finite dt = false.
  Proof. destruct dt; try done; cbn; by intros [= <- <-]. Qed.
  Lemma step_done cf r s : exists s', step cf (Fin r) s = Done s'.
  Proof. by eexists. Qed.

  (** The history of a run of the loop. *)
  Definition history cf s dts s' : Prop :=
    iteration s' = (iteration s + length dts)%nat /\ initial_iteration s' = initial_iteration s /\ sim_time s' = sim_time s + elapsed dts
    /\ data s' = advanced advance symmetrise (enforces cf) (iteration s) dts (data s)
    /\ forall k, (k < length dts)%nat -> ~ reaches (sim_time s + elapsed (take k dts)) (stop_sim_time cf) /\ ~ reaches (INR (iteration s + k)) (stop_iteration cf).
  Definition attrs cf s : Prop :=
    (initial_iteration s <= iteration s)%nat /\
    (start_time_end s <> None <-> (initial_iteration s < iteration s)%nat) /\ (warmup_time_end s <> None <-> (initial_iteration s + warmup_iterations cf < iteration s)%nat).
  Lemma attrs_same cf s s' : same s s' -> attrs cf s -> attrs cf s'.
  Proof. intros (_ & E2 & E3 & _ & _ & E6 & E7). unfold attrs. by rewrite E2, E3, E6, E7. Qed.
  Lemma attrs_step cf dt s s' : attrs cf s -> step cf dt s = Done s' -> attrs cf s'.
  Proof.
    intros (H0 & H1 & H2) Hs. destruct (step_spec cf dt s s' Hs) as (r & _ & _ & Ei & E0 & _ & _ & Es & Ew). unfold attrs. rewrite Ei, E0, Es. split; [lia|]. split.
    - destruct (decide _) as [E|E]; [split; intros; [lia|done]|]. rewrite H1. lia.
    - destruct (decide (iteration s = initial_iteration s + warmup_iterations cf)%nat) as [E|E]; [split; intros; [lia|done]|]. rewrite Ew, H2. lia.
  Qed.
  Lemma main_loop_history cf ts fuel s o : main_loop cf ts fuel s = Some o ->
    exists dts s', history cf s dts s' /\ (attrs cf s -> attrs cf s') /\
      match o with
      | Done r => r = s' /\ exists wall, reaches (sim_time s') (stop_sim_time cf) \/ reaches wall (stop_wall_time cf) \/ reaches (INR (iteration s')) (stop_iteration cf)
      | Raised e r => r = s' /\ ((e = UserError /\ ts s' = None) \/ (e = ValueError /\ exists dt, ts s' = Some dt /\ is_finite dt = false))
      end.
  Proof.
    revert s. induction fuel as [|fuel IH]; intros s; [done|]. cbn [SolverLoop_Model.main_loop]. destruct (proceed cf s) as [go s1] eqn:Ep.
    pose proof (proceed_same cf s go s1 Ep) as Hsame. pose proof (proceed_spec cf s) as Hp. rewrite Ep in Hp. cbn in Hp.
    destruct Hsame as (E1 & E2 & E3 & E4 & E5 & E6 & E7).
    assert (H0 : history cf s [] s1). { repeat split; [by rewrite E2, Nat.add_0_r|done|unfold elapsed; cbn; lra|done|cbn in *; lia|cbn in *; lia]. }
    assert (Ha : attrs cf s -> attrs cf s1) by (apply attrs_same; by repeat split).
    destruct go.
    - assert (Hno : ~ reaches (sim_time s) (stop_sim_time cf) /\ ~ reaches (INR (iteration s)) (stop_iteration cf)).
      { split; intros H; (assert (Hf : true = false) by (apply Hp; auto); done). }
      destruct (ts s1) as [dt|] eqn:Et.
      + destruct (step cf dt s1) as [s2|e s2] eqn:Es.
        * intros Hl. destruct (IH s2 Hl) as (dts & s' & (Hi & Hii & Ht & Hd & Hk) & Ha' & Ho).
          destruct (step_spec cf dt s1 s2 Es) as (r & -> & D2 & I2 & II2 & T2 & _).
          exists (r :: dts), s'. split; [|split; [|done]].
          -- split; [rewrite Hi, I2, E2; cbn; lia|]. split; [by rewrite Hii, II2, E3|]. split; [rewrite Ht, T2, E4; unfold elapsed; cbn; lra|].
             split; [rewrite Hd, I2, D2, E2, E1; done|]. intros [|k] Hlt.
             ++ cbn. unfold elapsed. cbn. rewrite Rplus_0_r, Nat.add_0_r. done.
             ++ cbn in Hlt. destruct (Hk k) as [K1 K2]; [lia|]. rewrite T2, E4 in K1. rewrite I2, E2 in K2. cbn [take]. unfold elapsed in *. cbn [foldr].
                rewrite <- Rplus_assoc. split; [done|]. by replace (iteration s + S k)%nat with (S (iteration s) + k)%nat by lia.
          -- intros H. apply Ha'. eapply attrs_step; [|done]. by apply Ha.
        * intros [= <-]. destruct (step_raised cf dt s1 e s2 Es) as (-> & -> & Hf). exists [], s1. split; [done|]. split; [done|]. split; [done|]. right. split; [done|]. by exists dt.
      + intros [= <-]. exists [], s1. split; [done|]. split; [done|]. split; [done|]. by left.
    - intros [= <-]. exists [], s1. split; [done|]. split; [done|]. split; [done|]. exists (clock (readings s)). rewrite E4, E2. by apply Hp.
  Qed.

  (** Termination. *)
  Lemma main_loop_iterations cf ts N fuel s : stop_iteration cf = Fin (INR N) -> (N - iteration s < fuel)%nat -> main_loop cf ts fuel s <> None.
  Proof.
    intros HN. revert s. induction fuel as [|fuel IH]; intros s Hf; [lia|]. cbn [SolverLoop_Model.main_loop]. destruct (proceed cf s) as [go s1] eqn:Ep.
    pose proof (proceed_same cf s go s1 Ep) as (E1 & E2 & _). pose proof (proceed_spec cf s) as Hp. rewrite Ep in Hp. cbn in Hp.
    destruct go; [|done]. destruct (ts s1) as [dt|]; [|done]. destruct (step cf dt s1) as [s2|] eqn:Es; [|done].
    destruct (step_spec cf dt s1 s2 Es) as (r & _ & _ & I2 & _). apply IH. rewrite I2, E2.
    assert (Hlt : (iteration s < N)%nat).
    { destruct (decide (iteration s < N)%nat); [done|]. assert (Hr : true = false); [|done]. apply Hp. right. right. rewrite HN. cbn. apply le_INR. lia. }
    lia.
  Qed.
  Lemma main_loop_time cf ts T delta fuel s : stop_sim_time cf = Fin T -> 0 < delta ->
    (forall s dt, ts s = Some (Fin dt) -> delta <= dt) -> T - sim_time s < INR fuel * delta -> main_loop cf ts (S fuel) s <> None.
  Proof.
    intros HT Hdel Hts. revert s. induction fuel as [|fuel IH]; intros s Hf.
    - cbn [SolverLoop_Model.main_loop]. destruct (proceed cf s) as [go s1] eqn:Ep. pose proof (proceed_spec cf s) as Hp. rewrite Ep in Hp. cbn in Hp.
      destruct go; [|done]. assert (Hr : true = false); [|done]. apply Hp. left. rewrite HT. cbn in *. lra.
    - cbn [SolverLoop_Model.main_loop]. destruct (proceed cf s) as [go s1] eqn:Ep. pose proof (proceed_same cf s go s1 Ep) as (E1 & E2 & E3 & E4 & _).
      destruct go; [|done]. destruct (ts s1) as [dt|] eqn:Et; [|done]. destruct (step cf dt s1) as [s2|] eqn:Es; [|done].
      destruct (step_spec cf dt s1 s2 Es) as (r & -> & _ & _ & _ & T2 & _). apply Hts in Et. apply IH. rewrite T2, E4. rewrite S_INR in Hf. lra.
  Qed.
  (** Steps of zero never reach a stop time. *)
  Lemma main_loop_zero cf fuel s : stop_wall_time cf = PInf -> stop_iteration cf = PInf -> ~ reaches (sim_time s) (stop_sim_time cf) ->
    main_loop cf (fun _ => Some (Fin 0)) fuel s = None.
  Proof.
    intros Hw Hi. revert s. induction fuel as [|fuel IH]; intros s Hs; [done|]. cbn [SolverLoop_Model.main_loop]. destruct (proceed cf s) as [go s1] eqn:Ep.
    pose proof (proceed_same cf s go s1 Ep) as (E1 & E2 & E3 & E4 & _). pose proof (proceed_spec cf s) as Hp. rewrite Ep, Hw, Hi in Hp. cbn in Hp.
    destruct go; [|destruct Hp as [Hp _]; destruct (Hp eq_refl) as [?|[[]|[]]]; done].
    destruct (step cf (Fin 0) s1) as [s2|] eqn:Es; [|done]. destruct (step_spec cf (Fin 0) s1 s2 Es) as (r & [= <-] & _ & _ & _ & T2 & _).
    apply IH. by rewrite T2, E4, Rplus_0_r.
  Qed.

  Lemma log_stats_spec cf s : attrs cf s ->
    (exists s', log_stats cf s = Done s' /\ same s s') /\ (initial_iteration s < iteration s)%nat /\ iteration s <> (initial_iteration s + warmup_iterations cf)%nat
    \/ (exists s', log_stats cf s = Raised AttributeError s' /\ same s s') /\ (iteration s = initial_iteration s \/ iteration s = (initial_iteration s + warmup_iterations cf)%nat).
  Proof.
    intros (H0 & H1 & H2). unfold SolverLoop_Model.log_stats. cbn. destruct (start_time_end s) as [t|] eqn:E1.
    - assert (initial_iteration s < iteration s)%nat by (by apply H1). destruct (decide _) as [Hle|Hgt].
      + destruct (warmup_time_end s) as [u|] eqn:E2.
        * left. split; [eexists; split; [done|]; repeat split; cbn; congruence|]. split; [done|]. assert (initial_iteration s + warmup_iterations cf < iteration s)%nat by (by apply H2). lia.
        * right. split; [eexists; split; [done|]; repeat split; cbn; congruence|]. right. destruct (decide (initial_iteration s + warmup_iterations cf < iteration s)%nat) as [Hlt|]; [|lia].
          apply H2 in Hlt. done.
      + left. split; [eexists; split; [done|]; repeat split; cbn; congruence|]. split; [done|lia].
    - right. split; [eexists; split; [done|]; repeat split; cbn; congruence|]. left. destruct (decide (initial_iteration s < iteration s)%nat) as [Hlt|]; [|lia]. apply H1 in Hlt. done.
  Qed.
End Loop.

(** ** Cadence *)
Lemma mod_window c n it : (0 < c)%nat -> (n <= c)%nat -> (it mod c < n)%nat <-> exists q, (q * c <= it < q * c + n)%nat.
Proof.
  intros Hc Hn. split.
  - intros H. exists (it / c)%nat. pose proof (Nat.div_mod it c ltac:(lia)). lia.
  - intros (q & Hq). assert (Hlt : (it - q * c < c)%nat) by lia. replace it with ((it - q * c) + q * c)%nat by lia.
    rewrite Nat.mod_add by lia. rewrite Nat.mod_small by lia. lia.
Qed.
Lemma count_mod c n a : (0 < c)%nat -> (n <= c)%nat -> length (filter (fun it => it mod c < n)%nat (seq a c)) = n.
Proof.
  intros Hc Hn. induction a as [|a IH].
  - assert (E : filter (fun it => it mod c < n)%nat (seq 0 c) = seq 0 n); [|by rewrite E, seq_length].
    assert (Es : seq 0 c = seq 0 n ++ seq (0 + n) (c - n)) by (rewrite <- seq_app; f_equal; lia). rewrite Es, filter_app. clear Es.
    assert (E1 : filter (fun it => it mod c < n)%nat (seq 0 n) = seq 0 n).
    { assert (Forall (fun it => it mod c < n)%nat (seq 0 n)) as H. { apply Forall_forall. intros x Hx. apply elem_of_list_In, in_seq in Hx. rewrite Nat.mod_small; lia. }
      induction (seq 0 n) as [|x l IHl]; [done|]. inversion H; subst. rewrite filter_cons_True by done. f_equal. by apply IHl. }
    assert (E2 : filter (fun it => it mod c < n)%nat (seq (0 + n) (c - n)) = []).
    { assert (Forall (fun it => ~ it mod c < n)%nat (seq (0 + n) (c - n))) as H. { apply Forall_forall. intros x Hx. apply elem_of_list_In, in_seq in Hx. rewrite Nat.mod_small; lia. }
      induction (seq (0 + n) (c - n)) as [|x l IHl]; [done|]. inversion H; subst. rewrite filter_cons_False by done. by apply IHl. }
    by rewrite E1, E2, app_nil_r.
  - assert (E : seq a c ++ [(a + c)%nat] = a :: seq (S a) c) by (rewrite <- seq_S; done).
    assert (Hl : length (filter (fun it => it mod c < n)%nat (seq a c ++ [(a + c)%nat])) = length (filter (fun it => it mod c < n)%nat (a :: seq (S a) c))) by (by rewrite E).
    rewrite filter_app, app_length, IH in Hl. assert (Hm : ((a + c) mod c = a mod c)%nat) by (rewrite <- (Nat.mul_1_l c) at 1; apply Nat.mod_add; lia).
    destruct (decide (a mod c < n)%nat) as [Hd|Hd].
    + rewrite (filter_cons_True _ a) in Hl by done. rewrite (filter_cons_True _ (a + c)%nat) in Hl by (by rewrite Hm). rewrite filter_nil in Hl. cbn in Hl. lia.
    + rewrite (filter_cons_False _ a) in Hl by done. rewrite (filter_cons_False _ (a + c)%nat) in Hl by (by rewrite Hm). rewrite filter_nil in Hl. cbn in Hl. lia.
Qed.
