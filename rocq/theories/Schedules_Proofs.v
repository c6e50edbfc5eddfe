From Coq Require Import List ZArith QArith Qround Qabs Lqa Lia Bool.
Import ListNotations.
From Verif Require Import Schedules_Model Schedules_Spec.
Open Scope Z_scope.

(** ** A counter that fires when a key passes it. *)
Fixpoint fires (last : Z) (l : list (Z * bool)) : list bool :=
  match l with
  | [] => []
  | (k, g) :: l => if (last <? k) && g then true :: fires k l else false :: fires last l
  end.

Lemma fires_length last l : length (fires last l) = length l.
Proof. revert last. induction l as [|[k g] l IH]; intros last; simpl; [reflexivity|].
  destruct ((last <? k) && g); simpl; now rewrite IH. Qed.

Lemma fires_iff last l j k g :
  (forall i i' p p', (i <= i')%nat -> nth_error l i = Some p -> nth_error l i' = Some p' -> fst p <= fst p') ->
  nth_error l j = Some (k, g) ->
  nth_error (fires last l) j = Some true <->
  g = true /\ last < k /\ forall i k', (i < j)%nat -> nth_error l i = Some (k', true) -> last < k' -> k' < k.
Proof.
  revert last j. induction l as [|[k0 g0] l IH]; intros last j Hm Hj; [destruct j; discriminate|].
  assert (Hm' : forall i i' p p', (i <= i')%nat -> nth_error l i = Some p -> nth_error l i' = Some p' -> fst p <= fst p').
  { intros i i' p p' ? ? ?. apply (Hm (S i) (S i')); [lia|assumption|assumption]. }
  destruct j as [|j].
  - simpl in Hj. injection Hj as -> ->. simpl. destruct ((last <? k) && g) eqn:E; simpl.
    + apply andb_true_iff in E as [E ->]. apply Z.ltb_lt in E. split; [|reflexivity].
      intros _. split; [reflexivity|]. split; [assumption|]. intros i k' ?. lia.
    + split; [discriminate|]. intros (-> & Hlt & _). apply Z.ltb_lt in Hlt. rewrite Hlt in E. discriminate.
  - simpl in Hj. assert (k0 <= k) by exact (Hm 0%nat (S j) (k0, g0) (k, g) ltac:(lia) eq_refl Hj).
    simpl. destruct ((last <? k0) && g0) eqn:E; simpl.
    + apply andb_true_iff in E as [E ->]. apply Z.ltb_lt in E. rewrite (IH k0 j Hm' Hj). split.
      * intros (-> & Hlt & Hf). split; [reflexivity|]. split; [lia|]. intros [|i] k' Hi Hl Hk'.
        { simpl in Hl. injection Hl as <-. assumption. }
        simpl in Hl. destruct (Z.le_gt_cases k' k0); [lia|]. apply (Hf i); [lia|assumption|assumption].
      * intros (-> & Hlt & Hf). split; [reflexivity|]. split; [exact (Hf 0%nat k0 ltac:(lia) eq_refl E)|].
        intros i k' Hi Hl Hk'. apply (Hf (S i)); [lia|assumption|lia].
    + rewrite (IH last j Hm' Hj). split.
      * intros (-> & Hlt & Hf). split; [reflexivity|]. split; [assumption|]. intros [|i] k' Hi Hl Hk'.
        { simpl in Hl. injection Hl as -> ->. apply Z.ltb_lt in Hk'. rewrite Hk' in E. discriminate. }
        apply (Hf i); [lia|assumption|assumption].
      * intros (-> & Hlt & Hf). split; [reflexivity|]. split; [assumption|].
        intros i k' Hi Hl Hk'. apply (Hf (S i)); [lia|assumption|assumption].
Qed.

(** ** Single cadences *)
Definition key_wall (w : Q) (kw : args) : Z * bool :=
  match wall_time kw with Some t => (Qfloor (t / w), true) | None => (0, false) end.
Definition key_sim (s : Q) (kw : args) : Z * bool :=
  match sim_time kw, timestep kw with
  | Some t, Some dt =>
      (np_round (t / s), Qlt_bool (Qabs (t - inject_Z (np_round (t / s)) * s)) (Qabs (t + dt - inject_Z (np_round (t / s)) * s)))
  | _, _ => (0, false)
  end.
Definition key_iter (n : Z) (kw : args) : Z * bool := (iteration kw / n, true).

(** All four keywords are given. *)
Definition full (kw : args) : Prop :=
  (exists t, wall_time kw = Some t) /\ (exists t, sim_time kw = Some t) /\ (exists t, timestep kw = Some t).

Definition wall_fires (o : option Q) (last : Z) (kws : list args) : list bool :=
  match truthy_Q o with Some w => fires last (map (key_wall w) kws) | None => map (fun _ => false) kws end.
Definition sim_fires (o : option Q) (last : Z) (kws : list args) : list bool :=
  match truthy_Q o with Some s => fires last (map (key_sim s) kws) | None => map (fun _ => false) kws end.
Definition iter_fires (o : option Z) (last : Z) (kws : list args) : list bool :=
  match truthy_Z o with Some n => fires last (map (key_iter n) kws) | None => map (fun _ => false) kws end.
Definition custom_fires (o : option (args -> bool)) (kws : list args) : list bool :=
  map (fun kw => match o with Some c => c kw | None => false end) kws.

Definition orl (a b : list bool) : list bool := map (fun p => fst p || snd p)%bool (combine a b).

Lemma run_fires h kws : Forall full kws ->
  run h kws = Some (orl (orl (orl (wall_fires (wall_dt h) (last_wall_div h) kws)
                                  (sim_fires (sim_dt h) (last_sim_div h) kws))
                             (iter_fires (iter h) (last_iter_div h) kws))
                        (custom_fires (custom_schedule h) kws)).
Proof.
  intros Hf. revert h. induction Hf as [|kw kws Hk Hf IH]; intros h.
  - unfold wall_fires, sim_fires, iter_fires. destruct (truthy_Q (wall_dt h)), (truthy_Q (sim_dt h)), (truthy_Z (iter h)); reflexivity.
  - destruct Hk as ((tw & Hw) & (ts & Hs) & (td & Hd)). simpl. unfold check_schedule.
    assert (exists b1 w, check_wall h kw = Some (b1, w) /\
        wall_fires (wall_dt h) (last_wall_div h) (kw :: kws) = b1 :: wall_fires (wall_dt h) w kws) as (b1 & w & -> & ->).
    { unfold check_wall, wall_fires. destruct (truthy_Q (wall_dt h)) as [q|]; [|eexists _, _; split; reflexivity].
      cbn [map fires]. unfold key_wall at 1. rewrite Hw. rewrite andb_true_r. cbv zeta.
      destruct (last_wall_div h <? Qfloor (tw / q)); eexists _, _; split; reflexivity. }
    assert (exists b2 s, check_sim h kw = Some (b2, s) /\
        sim_fires (sim_dt h) (last_sim_div h) (kw :: kws) = b2 :: sim_fires (sim_dt h) s kws) as (b2 & s & -> & ->).
    { unfold check_sim, sim_fires. destruct (truthy_Q (sim_dt h)) as [q|]; [|eexists _, _; split; reflexivity].
      cbn [map fires]. unfold key_sim at 1. rewrite Hs, Hd. cbv zeta.
      destruct (last_sim_div h <? np_round (ts / q)); simpl; [|eexists _, _; split; reflexivity].
      destruct (Qlt_bool _ _); eexists _, _; split; reflexivity. }
    assert (exists b3 i, check_iter h kw = (b3, i) /\
        iter_fires (iter h) (last_iter_div h) (kw :: kws) = b3 :: iter_fires (iter h) i kws) as (b3 & i & -> & ->).
    { unfold check_iter, iter_fires. destruct (truthy_Z (iter h)) as [q|]; [|eexists _, _; split; reflexivity].
      cbn [map fires]. unfold key_iter at 1. rewrite andb_true_r. cbv zeta. destruct (last_iter_div h <? iteration kw / q); eexists _, _; split; reflexivity. }
    rewrite IH. cbn [wall_dt sim_dt iter custom_schedule last_wall_div last_sim_div last_iter_div]. reflexivity.
Qed.

Lemma solver_args_full it t steps : Forall full (solver_args it t steps).
Proof. revert it t. induction steps as [|[w dt] steps IH]; intros it t; simpl; constructor; [|apply IH].
  repeat split; eexists; reflexivity. Qed.

Lemma map_false_or (kws : list args) l : length l = length kws -> orl (map (fun _ => false) kws) l = l.
Proof. revert l. induction kws as [|a kws IH]; intros [|b l]; simpl; try discriminate; [reflexivity|].
  intros [= H]. unfold orl in *. simpl. now rewrite IH. Qed.
Lemma or_map_false (kws : list args) l : length l = length kws -> orl l (map (fun _ => false) kws) = l.
Proof. revert l. induction kws as [|a kws IH]; intros [|b l]; simpl; try discriminate; [reflexivity|].
  intros [= H]. unfold orl in *. simpl. rewrite orb_false_r. now rewrite IH. Qed.

Lemma wall_fires_length o last kws : length (wall_fires o last kws) = length kws.
Proof. unfold wall_fires. destruct (truthy_Q o); [rewrite fires_length|]; apply map_length. Qed.
Lemma sim_fires_length o last kws : length (sim_fires o last kws) = length kws.
Proof. unfold sim_fires. destruct (truthy_Q o); [rewrite fires_length|]; apply map_length. Qed.
Lemma iter_fires_length o last kws : length (iter_fires o last kws) = length kws.
Proof. unfold iter_fires. destruct (truthy_Z o); [rewrite fires_length|]; apply map_length. Qed.
Lemma custom_fires_length o kws : length (custom_fires o kws) = length kws.
Proof. apply map_length. Qed.
Lemma orl_length a b n : length a = n -> length b = n -> length (orl a b) = n.
Proof. unfold orl. rewrite map_length, combine_length. lia. Qed.
Lemma orl_nth a b j x y : nth_error a j = Some x -> nth_error b j = Some y -> nth_error (orl a b) j = Some (x || y)%bool.
Proof. unfold orl. revert b j. induction a as [|x0 a IH]; intros [|y0 b] [|j]; simpl; try discriminate; [congruence|apply IH]. Qed.

Ltac len := repeat first [apply wall_fires_length | apply sim_fires_length | apply iter_fires_length | apply map_length | apply orl_length].

Lemma run_wall w kws : Forall full kws ->
  run (new_handler (Some w) None None None) kws = Some (wall_fires (Some w) (-1) kws).
Proof. intros Hf. rewrite run_fires by assumption. cbn [new_handler wall_dt sim_dt iter custom_schedule last_wall_div last_sim_div last_iter_div].
  f_equal. change (sim_fires None (-1) kws) with (map (fun _ : args => false) kws).
  change (iter_fires None (-1) kws) with (map (fun _ : args => false) kws).
  change (custom_fires None kws) with (map (fun _ : args => false) kws).
  now rewrite !or_map_false by len. Qed.
Lemma run_sim s kws : Forall full kws ->
  run (new_handler None (Some s) None None) kws = Some (sim_fires (Some s) (-1) kws).
Proof. intros Hf. rewrite run_fires by assumption. cbn [new_handler wall_dt sim_dt iter custom_schedule last_wall_div last_sim_div last_iter_div].
  f_equal. change (wall_fires None (-1) kws) with (map (fun _ : args => false) kws).
  change (iter_fires None (-1) kws) with (map (fun _ : args => false) kws).
  change (custom_fires None kws) with (map (fun _ : args => false) kws).
  rewrite map_false_or by apply sim_fires_length.
  now rewrite !or_map_false by len. Qed.
Lemma run_iter n kws : Forall full kws ->
  run (new_handler None None (Some n) None) kws = Some (iter_fires (Some n) (-1) kws).
Proof. intros Hf. rewrite run_fires by assumption. cbn [new_handler wall_dt sim_dt iter custom_schedule last_wall_div last_sim_div last_iter_div].
  f_equal. change (wall_fires None (-1) kws) with (map (fun _ : args => false) kws).
  change (sim_fires None (-1) kws) with (map (fun _ : args => false) kws).
  change (custom_fires None kws) with (map (fun _ : args => false) kws).
  rewrite map_false_or by (apply map_length). rewrite map_false_or by apply iter_fires_length.
  now rewrite or_map_false by apply iter_fires_length. Qed.
Lemma run_custom c kws : Forall full kws ->
  run (new_handler None None None (Some c)) kws = Some (map c kws).
Proof. intros Hf. rewrite run_fires by assumption. cbn [new_handler wall_dt sim_dt iter custom_schedule last_wall_div last_sim_div last_iter_div].
  f_equal. change (wall_fires None (-1) kws) with (map (fun _ : args => false) kws).
  change (sim_fires None (-1) kws) with (map (fun _ : args => false) kws).
  change (iter_fires None (-1) kws) with (map (fun _ : args => false) kws).
  change (custom_fires (Some c) kws) with (map c kws).
  rewrite !map_false_or by len. reflexivity. Qed.

(** ** Iteration cadence *)
Lemma solver_args_nth it t steps j kw : nth_error (solver_args it t steps) j = Some kw ->
  iteration kw = it + Z.of_nat j.
Proof. revert it t j. induction steps as [|[w dt] steps IH]; intros it t [|j]; simpl; try discriminate.
  - intros [= <-]. simpl. lia.
  - intros Hn. apply IH in Hn. lia. Qed.

Lemma solver_args_length it t steps : length (solver_args it t steps) = length steps.
Proof. revert it t. induction steps as [|[w dt] steps IH]; intros; simpl; [reflexivity|now rewrite IH]. Qed.

Lemma nth_error_lt {A} (l : list A) j : (j < length l)%nat -> exists x, nth_error l j = Some x.
Proof. intros Hj. destruct (nth_error l j) eqn:E; [eauto|]. apply nth_error_None in E. lia. Qed.
Lemma nth_error_len {A} (l : list A) j x : nth_error l j = Some x -> (j < length l)%nat.
Proof. intros H. apply nth_error_Some. congruence. Qed.

Lemma truthy_Z_pos n : 0 < n -> truthy_Z (Some n) = Some n.
Proof. intros. simpl. destruct (Z.eqb_spec n 0); [lia|reflexivity]. Qed.
Lemma truthy_Q_pos w : (0 < w)%Q -> truthy_Q (Some w) = Some w.
Proof. intros Hw. simpl. destruct (Qeq_bool w 0) eqn:E; [|reflexivity]. apply Qeq_bool_iff in E. rewrite E in Hw. lra. Qed.

Lemma iter_out n it t steps j : 0 < n -> 0 <= it -> (j < length steps)%nat ->
  nth_error (iter_fires (Some n) (-1) (solver_args it t steps)) j = Some true <->
  (j = 0%nat \/ (n | it + Z.of_nat j)).
Proof.
  intros Hn Hit Hj. unfold iter_fires. rewrite truthy_Z_pos by assumption.
  destruct (nth_error_lt (solver_args it t steps) j) as [kw Hkw]; [now rewrite solver_args_length|].
  assert (Hk : nth_error (map (key_iter n) (solver_args it t steps)) j = Some ((it + Z.of_nat j) / n, true)).
  { rewrite nth_error_map, Hkw. simpl. unfold key_iter. now rewrite (solver_args_nth _ _ _ _ _ Hkw). }
  assert (Hget : forall i p, nth_error (map (key_iter n) (solver_args it t steps)) i = Some p ->
                  p = ((it + Z.of_nat i) / n, true)).
  { intros i p. rewrite nth_error_map. destruct (nth_error (solver_args it t steps) i) as [a|] eqn:E; simpl; [|discriminate].
    intros [= <-]. unfold key_iter. now rewrite (solver_args_nth _ _ _ _ _ E). }
  rewrite (fires_iff _ _ _ _ _ ltac:(intros i i' p p' Hii Hp Hp'; rewrite (Hget _ _ Hp), (Hget _ _ Hp'); simpl; apply Z.div_le_mono; lia) Hk).
  split.
  - intros (_ & _ & Hf). destruct j as [|j]; [now left|right].
    destruct (nth_error_lt (solver_args it t steps) j) as [kw' Hkw']; [rewrite solver_args_length; lia|].
    specialize (Hf j ((it + Z.of_nat j) / n) ltac:(lia)).
    assert (Hp : nth_error (map (key_iter n) (solver_args it t steps)) j = Some ((it + Z.of_nat j) / n, true)).
    { rewrite nth_error_map, Hkw'. simpl. unfold key_iter. now rewrite (solver_args_nth _ _ _ _ _ Hkw'). }
    specialize (Hf Hp). assert (0 <= (it + Z.of_nat j) / n) by (apply Z.div_pos; lia). specialize (Hf ltac:(lia)).
    set (q := (it + Z.of_nat (S j)) / n) in *. exists q.
    pose proof (Z.div_mod (it + Z.of_nat (S j)) n ltac:(lia)) as Hd. pose proof (Z.mod_pos_bound (it + Z.of_nat (S j)) n Hn).
    pose proof (Z.div_mod (it + Z.of_nat j) n ltac:(lia)) as Hd'. pose proof (Z.mod_pos_bound (it + Z.of_nat j) n Hn).
    fold q in Hd. assert (Hq : (it + Z.of_nat j) / n + 1 <= q) by lia.
    assert (n * ((it + Z.of_nat j) / n + 1) <= n * q) by (apply Z.mul_le_mono_nonneg_l; lia).
    lia.
  - intros Hor. split; [reflexivity|]. split; [assert (0 <= (it + Z.of_nat j) / n) by (apply Z.div_pos; lia); lia|].
    intros i k' Hi Hp _. apply Hget in Hp. injection Hp as ->. destruct Hor as [->|[q Hq]]; [lia|].
    rewrite Hq, Z.div_mul by lia. apply Z.div_lt_upper_bound; lia.
Qed.

(** ** Wall cadence *)
Lemma Qfloor_div_spec t w k : (0 < w)%Q ->
  Qfloor (t / w) = k <-> (inject_Z k * w <= t < (inject_Z k + 1) * w)%Q.
Proof.
  intros Hw. split.
  - intros <-. pose proof (Qfloor_le (t / w)) as H1. pose proof (Qlt_floor (t / w)) as H2.
    rewrite inject_Z_plus in H2. change (inject_Z 1) with 1%Q in H2.
    assert (Et : (t == t / w * w)%Q) by (field; intros E; rewrite E in Hw; lra).
    split; [rewrite Et at 2|rewrite Et at 1].
    + apply Qmult_le_r; assumption.
    + apply Qmult_lt_r; assumption.
  - intros [H1 H2]. apply Z.le_antisymm.
    + assert (inject_Z (Qfloor (t / w)) < inject_Z k + 1)%Q as Hlt.
      { eapply Qle_lt_trans; [apply Qfloor_le|]. apply Qlt_shift_div_r; assumption. }
      change 1%Q with (inject_Z 1) in Hlt. rewrite <- inject_Z_plus in Hlt. rewrite <- Zlt_Qlt in Hlt. lia.
    + rewrite <- (Qfloor_Z k). apply Qfloor_resp_le. apply Qle_shift_div_l; assumption.
Qed.

Definition nondecreasing (ts : list Q) : Prop :=
  forall i j t t', (i <= j)%nat -> nth_error ts i = Some t -> nth_error ts j = Some t' -> (t <= t')%Q.

Lemma wall_key_get w it t steps i p :
  nth_error (map (key_wall w) (solver_args it t steps)) i = Some p ->
  exists tw, nth_error (map fst steps) i = Some tw /\ p = (Qfloor (tw / w), true).
Proof. revert it t i. induction steps as [|[tw dt] steps IH]; intros it t [|i]; simpl; try discriminate.
  - intros [= <-]. eexists; split; reflexivity.
  - intros Hp. now apply IH in Hp. Qed.
Lemma wall_key_put w it t steps i tw :
  nth_error (map fst steps) i = Some tw ->
  nth_error (map (key_wall w) (solver_args it t steps)) i = Some (Qfloor (tw / w), true).
Proof. revert it t i. induction steps as [|[tw' dt] steps IH]; intros it t [|i]; simpl; try discriminate.
  - now intros [= <-].
  - apply IH. Qed.

Lemma wall_out w it t steps j : (0 < w)%Q -> nondecreasing (map fst steps) ->
  (forall tw, In tw (map fst steps) -> 0 <= tw)%Q -> (j < length steps)%nat ->
  nth_error (wall_fires (Some w) (-1) (solver_args it t steps)) j = Some true <->
  first_in_window w (map fst steps) j.
Proof.
  intros Hw Hm H0 Hj. unfold wall_fires. rewrite truthy_Q_pos by assumption.
  assert (exists tw, nth_error (map fst steps) j = Some tw) as [tw Htw] by (apply nth_error_lt; now rewrite map_length).
  pose proof (wall_key_put w it t _ _ _ Htw) as Hk.
  assert (Hmono : forall a b : Q, (a <= b)%Q -> Qfloor (a / w) <= Qfloor (b / w)).
  { intros a b Hab. apply Qfloor_resp_le. apply Qmult_le_compat_r; [assumption|]. apply Qlt_le_weak, Qinv_lt_0_compat, Hw. }
  assert (Hpos : forall a, (0 <= a)%Q -> 0 <= Qfloor (a / w)).
  { intros a Ha. change 0 with (Qfloor 0). apply Qfloor_resp_le. apply Qle_shift_div_l; [assumption|]. lra. }
  assert (Hmm : forall i i' p p', (i <= i')%nat -> nth_error (map (key_wall w) (solver_args it t steps)) i = Some p ->
     nth_error (map (key_wall w) (solver_args it t steps)) i' = Some p' -> fst p <= fst p').
  { intros i i' p p' Hii Hp Hp'. destruct (wall_key_get _ _ _ _ _ _ Hp) as (a & Ha & ->).
    destruct (wall_key_get _ _ _ _ _ _ Hp') as (b & Hb & ->). apply Hmono. exact (Hm _ _ _ _ Hii Ha Hb). }
  rewrite (fires_iff _ _ _ _ _ Hmm Hk).
  assert (Hin : forall i a, nth_error (map fst steps) i = Some a -> (0 <= a)%Q).
  { intros i a Ha. apply H0. eapply nth_error_In; exact Ha. }
  split.
  - intros (_ & _ & Hf). exists (Qfloor (tw / w)), tw. split; [assumption|]. split; [now apply Qfloor_div_spec|].
    intros i t' Hi Ht'. specialize (Hf i _ Hi (wall_key_put w it t _ _ _ Ht')).
    pose proof (Hpos _ (Hin _ _ Ht')). specialize (Hf ltac:(lia)).
    destruct (proj1 (Qfloor_div_spec t' w _ Hw) eq_refl) as [_ Hlt].
    eapply Qlt_le_trans; [exact Hlt|]. apply Qmult_le_compat_r; [|lra].
    change 1%Q with (inject_Z 1). rewrite <- inject_Z_plus, <- Zle_Qle. lia.
  - intros (k & t' & Ht' & Hkw & Hf). rewrite Htw in Ht'. injection Ht' as <-.
    apply Qfloor_div_spec in Hkw; [|assumption]. subst k.
    split; [reflexivity|]. split; [pose proof (Hpos _ (Hin _ _ Htw)); lia|].
    intros i k' Hi Hp _. destruct (wall_key_get _ _ _ _ _ _ Hp) as (a & Ha & [= ->]).
    specialize (Hf i a Hi Ha). destruct (proj1 (Qfloor_div_spec a w _ Hw) eq_refl) as [Hle _].
    assert (inject_Z (Qfloor (a / w)) * w < inject_Z (Qfloor (tw / w)) * w)%Q as Hlt by lra.
    apply Qmult_lt_r in Hlt; [|assumption]. now rewrite <- Zlt_Qlt in Hlt.
Qed.

(** ** Simulation time cadence *)
Lemma np_round_near x : (Qabs (x - inject_Z (np_round x)) <= 1#2)%Q.
Proof.
  unfold np_round. pose proof (Qfloor_le x) as H1. pose proof (Qlt_floor x) as H2. rewrite inject_Z_plus in H2.
  change (inject_Z 1) with 1%Q in H2. set (f := Qfloor x) in *.
  destruct (Qcompare (x - inject_Z f) (1#2)) eqn:E.
  - apply Qeq_alt in E. destruct (Z.even f); [|rewrite inject_Z_plus; change (inject_Z 1) with 1%Q]; apply Qabs_case; intros; lra.
  - apply Qlt_alt in E. apply Qabs_case; intros; lra.
  - apply Qgt_alt in E. rewrite inject_Z_plus; change (inject_Z 1) with 1%Q. apply Qabs_case; intros; lra.
Qed.

Lemma np_round_unique x k : (inject_Z k - (1#2) < x < inject_Z k + (1#2))%Q -> np_round x = k.
Proof.
  intros [H1 H2]. pose proof (np_round_near x) as H3. apply Qabs_Qle_condition in H3 as [H3 H4].
  assert (inject_Z (np_round x) < inject_Z k + 1)%Q as Ha by lra.
  assert (inject_Z k < inject_Z (np_round x) + 1)%Q as Hb by lra.
  change 1%Q with (inject_Z 1) in Ha, Hb. rewrite <- inject_Z_plus, <- Zlt_Qlt in Ha, Hb. lia.
Qed.

Lemma np_round_mono x y : (x <= y)%Q -> np_round x <= np_round y.
Proof.
  intros Hxy. pose proof (Qfloor_resp_le _ _ Hxy) as Hf.
  pose proof (Qfloor_le x) as Hx1. pose proof (Qlt_floor x) as Hx2. pose proof (Qfloor_le y) as Hy1. pose proof (Qlt_floor y) as Hy2.
  rewrite inject_Z_plus in Hx2, Hy2. change (inject_Z 1) with 1%Q in *.
  unfold np_round.
  destruct (Z.eq_dec (Qfloor x) (Qfloor y)) as [E|E].
  - rewrite E in *. set (f := Qfloor y) in *.
    destruct (Qcompare (x - inject_Z f) (1#2)) eqn:Ex; destruct (Qcompare (y - inject_Z f) (1#2)) eqn:Ey;
      rewrite <- ?Qeq_alt, <- ?Qlt_alt, <- ?Qgt_alt in *; destruct (Z.even f); try lia; exfalso; lra.
  - destruct (Qcompare (x - inject_Z (Qfloor x)) (1#2)), (Qcompare (y - inject_Z (Qfloor y)) (1#2)), (Z.even (Qfloor x)), (Z.even (Qfloor y)); lia.
Qed.

Section Sim.
Context (s : Q) (Hs : (0 < s)%Q).

Lemma round_near t : ((inject_Z (np_round (t / s)) - (1#2)) * s <= t <= (inject_Z (np_round (t / s)) + (1#2)) * s)%Q.
Proof.
  pose proof (np_round_near (t / s)) as H. apply Qabs_Qle_condition in H as [H1 H2].
  assert (Et : (t == t / s * s)%Q) by (field; intros E; rewrite E in Hs; lra).
  split; [rewrite Et at 2|rewrite Et at 1]; apply Qmult_le_r; try assumption; lra.
Qed.
Lemma round_unique t k : ((inject_Z k - (1#2)) * s < t < (inject_Z k + (1#2)) * s)%Q -> np_round (t / s) = k.
Proof.
  intros [H1 H2]. apply np_round_unique. split; [apply Qlt_shift_div_l|apply Qlt_shift_div_r]; assumption.
Qed.
Lemma round_mono t t' : (t <= t')%Q -> np_round (t / s) <= np_round (t' / s).
Proof. intros. apply np_round_mono. apply Qmult_le_compat_r; [assumption|]. apply Qlt_le_weak, Qinv_lt_0_compat, Hs. Qed.

Definition away (t t' : Q) : bool :=
  Qlt_bool (Qabs (t - inject_Z (np_round (t / s)) * s)) (Qabs (t' - inject_Z (np_round (t / s)) * s)).
Lemma Qlt_bool_iff a b : Qlt_bool a b = true <-> (a < b)%Q.
Proof. unfold Qlt_bool. rewrite negb_true_iff. split.
  - intros H. destruct (Qlt_le_dec a b) as [|Hle]; [assumption|]. apply Qle_bool_iff in Hle. congruence.
  - intros H. destruct (Qle_bool b a) eqn:E; [|reflexivity]. apply Qle_bool_iff in E. lra. Qed.

Context (T : nat -> Q) (N : nat) (l : list (Z * bool)).
Context (Hl : length l = N)
  (Hkey : forall j, (j < N)%nat -> nth_error l j = Some (np_round (T j / s), away (T j) (T (S j))))
  (Hinc : forall j, (j < N)%nat -> (T j < T (S j))%Q)
  (Hsm : forall j, (j < N)%nat -> (T (S j) <= T j + s)%Q)
  (Hhalf : forall j, (j < N)%nat -> (T (S j) < T j + s)%Q \/ ~ halfway s (T j)).

Lemma T_mono i j : (i <= j)%nat -> (j <= N)%nat -> (T i <= T j)%Q.
Proof.
  intros Hij. induction Hij as [|j Hij IH]; intros Hj; [lra|].
  specialize (IH ltac:(lia)). specialize (Hinc j ltac:(lia)). lra.
Qed.

Lemma l_mono i i' p p' : (i <= i')%nat -> nth_error l i = Some p -> nth_error l i' = Some p' -> fst p <= fst p'.
Proof.
  intros Hii Hp Hp'. pose proof (nth_error_len _ _ _ Hp). pose proof (nth_error_len _ _ _ Hp').
  rewrite Hkey in Hp by lia. rewrite Hkey in Hp' by lia. injection Hp as <-. injection Hp' as <-. simpl.
  apply round_mono, T_mono; lia.
Qed.

Lemma sim_fire_iff j : (j < N)%nat ->
  nth_error (fires (-1) l) j = Some true <->
  away (T j) (T (S j)) = true /\ 0 <= np_round (T j / s) /\
  forall i, (i < j)%nat -> away (T i) (T (S i)) = true -> 0 <= np_round (T i / s) -> np_round (T i / s) < np_round (T j / s).
Proof.
  intros Hj. rewrite (fires_iff _ _ _ _ _ l_mono (Hkey j Hj)). split.
  - intros (Ha & Hb & Hc). split; [assumption|]. split; [lia|]. intros i Hi Hai Hbi.
    apply (Hc i); [assumption| |lia]. rewrite Hkey by lia. now rewrite Hai.
  - intros (Ha & Hb & Hc). split; [assumption|]. split; [lia|]. intros i k' Hi Hp Hk'.
    rewrite Hkey in Hp by lia. injection Hp as <- Hg. apply Hc; [assumption|assumption|lia].
Qed.

Lemma away_past j : (j < N)%nat -> away (T j) (T (S j)) = true ->
  (2 * (inject_Z (np_round (T j / s)) * s) < T j + T (S j))%Q.
Proof.
  intros Hj Ha. apply Qlt_bool_iff in Ha. specialize (Hinc j Hj).
  set (c := (inject_Z (np_round (T j / s)) * s)%Q) in *. revert Ha. apply (Qabs_case (T j - c)); intros; revert Ha; apply Qabs_case; intros; lra.
Qed.

Lemma sim_closest j i : (j < N)%nat -> (i <= N)%nat -> nth_error (fires (-1) l) j = Some true ->
  (Qabs (T j - inject_Z (np_round (T j / s)) * s) <= Qabs (T i - inject_Z (np_round (T j / s)) * s))%Q.
Proof.
  intros Hj Hi Hf. apply sim_fire_iff in Hf as (Ha & H0 & Hfirst); [|assumption].
  pose proof (away_past j Hj Ha) as Hp. pose proof (round_near (T j)) as [Hn1 Hn2]. pose proof (Hinc j Hj) as Hinc'.
  set (k := np_round (T j / s)) in *. set (c := (inject_Z k * s)%Q) in *.
  assert (Hn1' : (c - (1#2) * s <= T j)%Q) by (unfold c; lra). assert (Hn2' : (T j <= c + (1#2) * s)%Q) by (unfold c; lra).
  clear Hn1 Hn2.
  destruct (Nat.lt_trichotomy i j) as [Hij|[->|Hij]]; [|lra|].
  - destruct (Qlt_le_dec c (T j)) as [Hc|Hc].
    + destruct j as [|j]; [lia|]. assert (HT : (T i <= T j)%Q) by (apply T_mono; lia).
      pose proof (Hinc j ltac:(lia)) as Hinc''.
      assert (T j < c /\ T (S j) - c <= c - T j)%Q as [Hx Hy].
      { destruct (Qlt_le_dec ((inject_Z k - (1#2)) * s) (T j)) as [Hin|Hout].
        - assert (Ek : np_round (T j / s) = k) by (apply round_unique; unfold c in *; lra).
          destruct (away (T j) (T (S j))) eqn:Ea.
          + exfalso. specialize (Hfirst j ltac:(lia) Ea). rewrite Ek in Hfirst. specialize (Hfirst H0). lia.
          + assert (~ (Qabs (T j - inject_Z (np_round (T j / s)) * s) < Qabs (T (S j) - inject_Z (np_round (T j / s)) * s))%Q) as Hna.
            { intros Hlt. apply Qlt_bool_iff in Hlt. unfold away in Ea. congruence. }
            rewrite Ek in Hna. fold c in Hna. apply Qnot_lt_le in Hna. revert Hna.
            apply (Qabs_case (T (S j) - c)); intros ?; apply Qabs_case; intros; lra.
        - unfold c in *. split; lra. }
      apply Qabs_case; intros; apply Qabs_case; intros; lra.
    + assert (HT : (T i <= T j)%Q) by (apply T_mono; lia). apply Qabs_case; intros; apply Qabs_case; intros; lra.
  - assert (HT : (T (S j) <= T i)%Q) by (apply T_mono; lia). apply Qabs_case; intros; apply Qabs_case; intros; lra.
Qed.

Lemma sim_increasing i j : (i < j)%nat -> (j < N)%nat -> nth_error (fires (-1) l) i = Some true ->
  nth_error (fires (-1) l) j = Some true -> np_round (T i / s) < np_round (T j / s).
Proof.
  intros Hij Hj Hi Hjf. apply sim_fire_iff in Hi as (Ha & H0 & _); [|lia]. apply sim_fire_iff in Hjf as (_ & _ & Hf); [|assumption].
  now apply Hf.
Qed.

Lemma crossing (X : Q) n : (T 0 < X)%Q -> (X <= T n)%Q -> exists m, (m < n)%nat /\ (T m < X)%Q /\ (X <= T (S m))%Q.
Proof.
  induction n as [|n IH]; intros H0 Hn; [lra|]. destruct (Qlt_le_dec (T n) X) as [H|H].
  - exists n. repeat split; [lia|assumption|assumption].
  - destruct (IH H0 H) as (m & ? & ? & ?). exists m. repeat split; [lia|assumption|assumption].
Qed.

Lemma first_such (P : nat -> bool) m : P m = true -> exists j, (j <= m)%nat /\ P j = true /\ forall i, (i < j)%nat -> P i = false.
Proof.
  revert P. induction m as [|m IH]; intros P Hm; [exists 0%nat; repeat split; auto; intros; lia|].
  destruct (P 0%nat) eqn:E; [exists 0%nat; repeat split; auto; [lia|intros; lia]|].
  destruct (IH (fun i => P (S i)) Hm) as (j & Hj & Hp & Hf). exists (S j). repeat split; [lia|assumption|].
  intros [|i] Hi; [assumption|]. apply (Hf i). lia.
Qed.

Lemma sim_exists k : 0 <= k -> (T 0 < (inject_Z k + (1#2)) * s)%Q -> ((inject_Z k + (1#2)) * s < T N)%Q ->
  exists j, (j < N)%nat /\ nth_error (fires (-1) l) j = Some true /\ np_round (T j / s) = k.
Proof.
  intros Hk H0 HN. destruct (crossing _ N H0 ltac:(lra)) as (m & Hm & Hlt & Hge).
  assert (Hlow : ((inject_Z k - (1#2)) * s < T m)%Q).
  { pose proof (Hsm m Hm). destruct (Hhalf m Hm) as [Hh|Hh]; [lra|].
    destruct (Qlt_le_dec ((inject_Z k - (1#2)) * s) (T m)) as [|Hle]; [assumption|]. exfalso. apply Hh.
    exists (k - 1). replace (k - 1) with (k + (-1)) by lia. rewrite inject_Z_plus. change (inject_Z (-1)) with (-1)%Q.
    assert (T m == (inject_Z k - (1#2)) * s)%Q by lra. lra. }
  assert (Ek : np_round (T m / s) = k) by (apply round_unique; lra).
  assert (Ha : away (T m) (T (S m)) = true).
  { apply Qlt_bool_iff. rewrite Ek. apply Qabs_case; intros; apply Qabs_case; intros; lra. }
  destruct (first_such (fun i => away (T i) (T (S i)) && (np_round (T i / s) =? k)) m) as (j & Hj & Hp & Hf).
  { rewrite Ha, Ek. simpl. apply Z.eqb_refl. }
  apply andb_true_iff in Hp as [Hp1 Hp2]. apply Z.eqb_eq in Hp2. exists j. split; [lia|]. split; [|assumption].
  apply sim_fire_iff; [lia|]. split; [assumption|]. split; [lia|]. intros i Hi Hai H0i.
  specialize (Hf i Hi). simpl in Hf. rewrite Hai in Hf. simpl in Hf. apply Z.eqb_neq in Hf.
  assert (np_round (T i / s) <= np_round (T j / s)) by (apply round_mono, T_mono; lia). lia.
Qed.
End Sim.

Lemma times_length t0 dts : length (times t0 dts) = S (length dts).
Proof. revert t0. induction dts as [|dt dts IH]; intros; simpl; [reflexivity|]. now rewrite IH. Qed.

Lemma times_key s it t0 steps j : (j < length steps)%nat ->
  nth_error (map (key_sim s) (solver_args it t0 steps)) j =
  Some (np_round (nth j (times t0 (map snd steps)) 0%Q / s),
        away s (nth j (times t0 (map snd steps)) 0%Q) (nth (S j) (times t0 (map snd steps)) 0%Q)).
Proof.
  revert it t0 j. induction steps as [|[w dt] steps IH]; intros it t0 j Hj; [simpl in Hj; lia|].
  destruct j as [|j].
  - cbn [map solver_args nth_error times nth snd]. unfold key_sim at 1. cbn [sim_time timestep].
    assert (nth 0 (times (t0 + dt) (map snd steps)) 0%Q = (t0 + dt)%Q) as E by (destruct steps; reflexivity).
    rewrite E. reflexivity.
  - cbn [map solver_args nth_error times snd]. simpl in Hj. rewrite (IH (it + 1)%Z (t0 + dt)%Q j ltac:(lia)). reflexivity.
Qed.

Lemma times_step t0 dts j : (j < length dts)%nat ->
  (nth (S j) (times t0 dts) 0 = nth j (times t0 dts) 0 + nth j dts 0)%Q.
Proof.
  revert t0 j. induction dts as [|dt dts IH]; intros t0 j Hj; [simpl in Hj; lia|]. destruct j as [|j].
  - destruct dts; reflexivity.
  - simpl in Hj. exact (IH (t0 + dt)%Q j ltac:(lia)).
Qed.

Lemma nth_nth_error {A} (l : list A) j d x : nth_error l j = Some x -> nth j l d = x.
Proof. revert j. induction l as [|y l IH]; intros [|j]; simpl; try discriminate; [congruence|apply IH]. Qed.

Section Run.
Context (s t0 : Q) (it : Z) (steps : list (Q * Q)) (Hs : (0 < s)%Q)
  (Hpos : forall dt, In dt (map snd steps) -> (0 < dt)%Q).
Let T j := nth j (times t0 (map snd steps)) 0%Q.
Let N := length steps.
Let l := map (key_sim s) (solver_args it t0 steps).

Lemma run_l : length l = N.
Proof. unfold l, N. now rewrite map_length, solver_args_length. Qed.
Lemma run_key j : (j < N)%nat -> nth_error l j = Some (np_round (T j / s), away s (T j) (T (S j))).
Proof. intros Hj. now apply times_key. Qed.
Lemma run_step j : (j < N)%nat -> exists dt, nth_error (map snd steps) j = Some dt /\
  nth_error (times t0 (map snd steps)) j = Some (T j) /\ T (S j) = (T j + dt)%Q.
Proof.
  intros Hj. destruct (nth_error_lt (map snd steps) j) as [dt Hdt]; [rewrite map_length; unfold N in *; lia|].
  destruct (nth_error_lt (times t0 (map snd steps)) j) as [t Ht]; [rewrite times_length, map_length; unfold N in *; lia|].
  exists dt. split; [assumption|]. unfold T. rewrite times_step by (rewrite map_length; exact Hj).
  now rewrite (nth_nth_error _ _ _ _ Hdt), (nth_nth_error _ _ _ _ Ht), Ht.
Qed.
Lemma run_inc j : (j < N)%nat -> (T j < T (S j))%Q.
Proof. intros Hj. destruct (run_step j Hj) as (dt & Hdt & _ & ->). apply nth_error_In, Hpos in Hdt. lra. Qed.
Lemma run_T j t : nth_error (times t0 (map snd steps)) j = Some t -> T j = t /\ (j <= N)%nat.
Proof. intros Ht. split; [now apply nth_nth_error|]. apply nth_error_len in Ht. rewrite times_length, map_length in Ht. unfold N. lia. Qed.

Lemma sim_assigns : assigns s t0 (map snd steps) (fires (-1) l) (fun j => np_round (T j / s)).
Proof.
  assert (Hjt : forall j b, nth_error (fires (-1) l) j = Some b -> (j < N)%nat).
  { intros j b Hb. apply nth_error_len in Hb. now rewrite fires_length, run_l in Hb. }
  split.
  - intros j t Hb Ht. destruct (run_T _ _ Ht) as [<- ?]. split.
    + pose proof (round_near s Hs (T j)). apply Qabs_case; intros; lra.
    + intros i t' Ht'. destruct (run_T _ _ Ht') as [<- ?]. eapply sim_closest; eauto using run_l, run_key, run_inc.
  - intros i j Hij Hi Hj. eapply sim_increasing; eauto using run_l, run_key, run_inc.
Qed.

Lemma sim_complete :
  (forall j t dt, nth_error (times t0 (map snd steps)) j = Some t -> nth_error (map snd steps) j = Some dt ->
     dt <= s /\ (dt < s \/ ~ halfway s t))%Q ->
  complete s t0 (map snd steps) (fires (-1) l) (fun j => np_round (T j / s)).
Proof.
  intros Hst k tN Hk H0 HtN Hlt. rewrite map_length in HtN. destruct (run_T _ _ HtN) as [<- _].
  assert (T 0%nat = t0) as E0 by (unfold T; destruct steps; reflexivity).
  destruct (sim_exists s Hs T N l run_l run_key run_inc) with (k := k) as (j & ? & ? & ?); eauto.
  - intros j Hj. destruct (run_step j Hj) as (dt & Hdt & Ht & ->). destruct (Hst _ _ _ Ht Hdt). lra.
  - intros j Hj. destruct (run_step j Hj) as (dt & Hdt & Ht & ->). destruct (Hst _ _ _ Ht Hdt) as [_ [?|?]]; [left; lra|now right].
  - now rewrite E0.
Qed.
End Run.

(** ** Ties *)
Lemma np_round_half m : np_round (inject_Z m + (1#2)) = if Z.even m then m else m + 1.
Proof.
  assert (Qfloor (inject_Z m + (1#2)) = m) as E.
  { apply Z.le_antisymm.
    - pose proof (Qfloor_le (inject_Z m + (1#2))) as H. assert (inject_Z (Qfloor (inject_Z m + (1#2))) < inject_Z m + 1)%Q as Hlt by lra.
      change 1%Q with (inject_Z 1) in Hlt. rewrite <- inject_Z_plus, <- Zlt_Qlt in Hlt. lia.
    - rewrite <- (Qfloor_Z m) at 1. apply Qfloor_resp_le. lra. }
  unfold np_round. rewrite E. assert (inject_Z m + (1#2) - inject_Z m == 1#2)%Q as Eq by lra.
  apply Qeq_alt in Eq. now rewrite Eq.
Qed.
Lemma np_round_comp x y : (x == y)%Q -> np_round x = np_round y.
Proof. intros E. apply Z.le_antisymm; apply np_round_mono; lra. Qed.

Lemma tie_fires s it m last t steps : (0 < s)%Q -> (t == (inject_Z m + (1#2)) * s)%Q -> last < m ->
  (Z.even m = false -> last < m) -> (forall dt, In dt (map snd steps) -> dt == s)%Q ->
  fires last (map (key_sim s) (solver_args it t steps)) =
  map (fun j => if Z.even m then Nat.even j else Nat.odd j) (seq 0 (length steps)).
Proof.
  intros Hs Ht Hl1 Hl2 Hdt. clear Hl2. revert it m last t Ht Hl1 Hdt. induction steps as [|[w dt] steps IH]; intros it m last t Ht Hl Hdt; [reflexivity|].
  cbn [solver_args map fires length seq]. unfold key_sim at 1. cbn [sim_time timestep].
  assert (Er : np_round (t / s) = if Z.even m then m else m + 1).
  { rewrite <- np_round_half. apply np_round_comp. rewrite Ht. field. intros E; rewrite E in Hs; lra. }
  rewrite Er. assert (Edt : (dt == s)%Q) by (apply Hdt; now left).
  assert (Ht' : (t + dt == (inject_Z (m + 1) + (1#2)) * s)%Q).
  { rewrite Ht, Edt, inject_Z_plus. change (inject_Z 1) with 1%Q. ring. }
  assert (Hseq : forall P : nat -> bool, map P (seq 1 (length steps)) = map (fun j => P (S j)) (seq 0 (length steps))).
  { intros P. rewrite <- seq_shift, map_map. reflexivity. }
  destruct (Z.even m) eqn:Em.
  - assert (last <? m = true) as -> by (now apply Z.ltb_lt). rewrite andb_true_l.
    assert (Qlt_bool (Qabs (t - inject_Z m * s)) (Qabs (t + dt - inject_Z m * s)) = true) as ->.
    { apply Qlt_bool_iff. rewrite Ht', Ht, inject_Z_plus. change (inject_Z 1) with 1%Q. apply Qabs_case; intros; apply Qabs_case; intros; lra. }
    rewrite (IH (it + 1) (m + 1) m (t + dt)%Q); [|assumption|lia|intros d Hd; apply Hdt; now right].
    rewrite Z.even_add, Em. simpl xorb. cbn iota. cbn [map Nat.even]. rewrite Hseq. f_equal. apply map_ext. intros a. now rewrite Nat.even_succ.
  - assert (Qlt_bool (Qabs (t - inject_Z (m + 1) * s)) (Qabs (t + dt - inject_Z (m + 1) * s)) = false) as ->.
    { apply not_true_iff_false. rewrite Qlt_bool_iff. rewrite Ht', Ht, inject_Z_plus. change (inject_Z 1) with 1%Q. apply Qabs_case; intros; apply Qabs_case; intros; lra. }
    rewrite andb_false_r.
    rewrite (IH (it + 1) (m + 1) last (t + dt)%Q); [|assumption|lia|intros d Hd; apply Hdt; now right].
    rewrite Z.even_add, Em. simpl xorb. cbn iota. cbn [map]. rewrite Hseq. f_equal. apply map_ext. intros a. now rewrite Nat.odd_succ.
Qed.

(** ** Several handlers *)
Lemma check_all_nth hs kw bs hs' i h : check_all hs kw = Some (bs, hs') -> nth_error hs i = Some h ->
  exists b h', check_schedule h kw = Some (b, h') /\ nth_error bs i = Some b /\ nth_error hs' i = Some h'.
Proof.
  revert bs hs' i. induction hs as [|h0 hs IH]; intros bs hs' i Hc Hi; [destruct i; discriminate|].
  simpl in Hc. destruct (check_schedule h0 kw) as [[b h']|] eqn:E; [|discriminate].
  destruct (check_all hs kw) as [[bs0 hs0]|] eqn:E'; [|discriminate]. injection Hc as <- <-.
  destruct i as [|i]; [injection Hi as ->; simpl; eauto|]. simpl in Hi. destruct (IH _ _ i eq_refl Hi) as (? & ? & ? & ? & ?). simpl; eauto.
Qed.
Lemma run_all_column hs kws r i h : run_all hs kws = Some r -> nth_error hs i = Some h ->
  exists bs, run h kws = Some bs /\ length r = length bs /\
    forall j row, nth_error r j = Some row -> nth_error row i = nth_error bs j.
Proof.
  revert hs r h. induction kws as [|kw kws IH]; intros hs r h Hr Hi.
  - simpl in Hr. injection Hr as <-. exists []. repeat split. intros [|j] row; discriminate.
  - simpl in Hr. destruct (check_all hs kw) as [[bs hs']|] eqn:E; [|discriminate].
    destruct (run_all hs' kws) as [r'|] eqn:E'; [|discriminate]. injection Hr as <-.
    destruct (check_all_nth _ _ _ _ _ _ E Hi) as (b & h' & Hc & Hb & Hh'). destruct (IH _ _ _ E' Hh') as (bs' & Hrun & Hlen & Hn).
    exists (b :: bs'). simpl. rewrite Hc, Hrun. split; [reflexivity|]. split; [now rewrite Hlen|].
    intros [|j] row; simpl; [intros [= <-]; assumption|apply Hn].
Qed.
