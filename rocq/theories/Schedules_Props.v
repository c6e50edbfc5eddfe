(** C21: output schedules. *)
From Coq Require Import List ZArith QArith Qabs Lqa Lia Bool.
Import ListNotations.
From Verif Require Import Schedules_Model Schedules_Spec Schedules_Proofs.
Open Scope Z_scope.

(** A handler with an iteration cadence outputs at the first step and then exactly at the
    iterations divisible by the cadence. *)
Theorem iteration_output n it t steps : 0 < n -> 0 <= it ->
  exists bs, run (new_handler None None (Some n) None) (solver_args it t steps) = Some bs /\
    length bs = length steps /\
    forall j, (j < length steps)%nat ->
      nth_error bs j = Some true <-> (j = 0%nat \/ (n | it + Z.of_nat j)).
Proof.
  intros Hn Hit. eexists. split; [apply run_iter, solver_args_full|]. split.
  - now rewrite iter_fires_length, solver_args_length.
  - intros j Hj. now apply iter_out.
Qed.
Print Assumptions iteration_output.

(** A handler with a wall time cadence outputs exactly at the first step of each cadence window
    that has a step. *)
Theorem wall_output w it t steps : (0 < w)%Q ->
  (forall i j a b, (i <= j)%nat -> nth_error (map fst steps) i = Some a -> nth_error (map fst steps) j = Some b -> a <= b)%Q ->
  (forall a, In a (map fst steps) -> 0 <= a)%Q ->
  exists bs, run (new_handler (Some w) None None None) (solver_args it t steps) = Some bs /\
    length bs = length steps /\
    forall j, (j < length steps)%nat -> nth_error bs j = Some true <-> first_in_window w (map fst steps) j.
Proof.
  intros Hw Hm H0. eexists. split; [apply run_wall, solver_args_full|]. split.
  - now rewrite wall_fires_length, solver_args_length.
  - intros j Hj. now apply wall_out.
Qed.
Print Assumptions wall_output.

(** A handler with a simulation time cadence, for any positive steps: every output is for the
    target it is closest to, is the closest time to that target that the solver passes, and no
    target has two outputs. *)
Theorem sim_output_at_most_once s it t0 steps : (0 < s)%Q ->
  (forall dt, In dt (map snd steps) -> 0 < dt)%Q ->
  exists bs target, run (new_handler None (Some s) None None) (solver_args it t0 steps) = Some bs /\
    length bs = length steps /\ assigns s t0 (map snd steps) bs target.
Proof.
  intros Hs Hpos. eexists _, _. split; [apply run_sim, solver_args_full|]. split.
  - now rewrite sim_fires_length, solver_args_length.
  - unfold sim_fires. rewrite truthy_Q_pos by assumption. now apply sim_assigns.
Qed.
Print Assumptions sim_output_at_most_once.

(** If no step is longer than the cadence, and no step of the length of the cadence starts halfway
    between two targets, then moreover every target passed has its output. *)
Theorem sim_output_each_target s it t0 steps : (0 < s)%Q ->
  (forall j t dt, nth_error (times t0 (map snd steps)) j = Some t -> nth_error (map snd steps) j = Some dt ->
     0 < dt <= s /\ (dt < s \/ ~ halfway s t))%Q ->
  exists bs target, run (new_handler None (Some s) None None) (solver_args it t0 steps) = Some bs /\
    length bs = length steps /\
    assigns s t0 (map snd steps) bs target /\ complete s t0 (map snd steps) bs target.
Proof.
  intros Hs Hst. eexists _, _. split; [apply run_sim, solver_args_full|].
  assert (Hpos : forall dt, In dt (map snd steps) -> (0 < dt)%Q).
  { intros dt Hin. apply In_nth_error in Hin as [j Hj].
    destruct (nth_error_lt (times t0 (map snd steps)) j) as [t Ht]; [rewrite times_length; apply nth_error_len in Hj; lia|].
    now destruct (Hst j t dt Ht Hj) as [[? ?] _]. }
  split; [now rewrite sim_fires_length, solver_args_length|].
  unfold sim_fires. rewrite truthy_Q_pos by assumption. split; [now apply sim_assigns|].
  apply sim_complete; [assumption|assumption|]. intros j t dt Ht Hdt. destruct (Hst j t dt Ht Hdt) as [[? ?] ?]. auto.
Qed.
Print Assumptions sim_output_each_target.

(** The guard is needed: with steps equal to the cadence, starting halfway between two targets, every
    other target has no output (halves are rounded to the even target). *)
Theorem sim_output_ties_refuted s it steps : (0 < s)%Q ->
  (forall dt, In dt (map snd steps) -> dt == s)%Q ->
  run (new_handler None (Some s) None None) (solver_args it ((1#2) * s) steps) =
  Some (map Nat.even (seq 0 (length steps))).
Proof.
  intros Hs Hdt. rewrite run_sim by apply solver_args_full. unfold sim_fires. rewrite truthy_Q_pos by assumption.
  rewrite (tie_fires s it 0); [reflexivity|assumption|change (inject_Z 0) with 0%Q; lra|lia|discriminate|assumption].
Qed.
Print Assumptions sim_output_ties_refuted.

(** A handler with several cadences outputs exactly when at least one of the handlers with a single
    one of them would: the cadences do not interfere, for all histories. *)
Theorem cadences_independent w s i c it t steps :
  exists bw bs bi bc r,
    run (new_handler w None None None) (solver_args it t steps) = Some bw /\
    run (new_handler None s None None) (solver_args it t steps) = Some bs /\
    run (new_handler None None i None) (solver_args it t steps) = Some bi /\
    run (new_handler None None None c) (solver_args it t steps) = Some bc /\
    run (new_handler w s i c) (solver_args it t steps) = Some r /\
    length r = length steps /\
    forall j, (j < length steps)%nat ->
      nth_error r j = Some true <->
      (nth_error bw j = Some true \/ nth_error bs j = Some true \/ nth_error bi j = Some true \/
       nth_error bc j = Some true).
Proof.
  pose proof (solver_args_full it t steps) as Hf. set (kws := solver_args it t steps) in *.
  assert (Hlen : length kws = length steps) by apply solver_args_length.
  exists (wall_fires w (-1) kws), (sim_fires s (-1) kws), (iter_fires i (-1) kws), (custom_fires c kws). eexists.
  rewrite !run_fires by assumption. cbn [new_handler wall_dt sim_dt iter custom_schedule last_wall_div last_sim_div last_iter_div].
  change (wall_fires None (-1) kws) with (map (fun _ : args => false) kws).
  change (sim_fires None (-1) kws) with (map (fun _ : args => false) kws).
  change (iter_fires None (-1) kws) with (map (fun _ : args => false) kws).
  change (custom_fires None kws) with (map (fun _ : args => false) kws).
  split; [f_equal; now rewrite !or_map_false by len|].
  split; [f_equal; rewrite map_false_or by len; now rewrite !or_map_false by len|].
  split; [f_equal; rewrite map_false_or by len; rewrite map_false_or by len; now rewrite !or_map_false by len|].
  split; [f_equal; now rewrite !map_false_or by len|].
  split; [reflexivity|].
  split; [rewrite <- Hlen; repeat apply orl_length; try len; apply custom_fires_length|].
  intros j Hj. rewrite <- Hlen in Hj.
  destruct (nth_error_lt (wall_fires w (-1) kws) j) as [x1 E1]; [now rewrite wall_fires_length|].
  destruct (nth_error_lt (sim_fires s (-1) kws) j) as [x2 E2]; [now rewrite sim_fires_length|].
  destruct (nth_error_lt (iter_fires i (-1) kws) j) as [x3 E3]; [now rewrite iter_fires_length|].
  destruct (nth_error_lt (custom_fires c kws) j) as [x4 E4]; [now rewrite custom_fires_length|].
  rewrite (orl_nth _ _ _ _ _ (orl_nth _ _ _ _ _ (orl_nth _ _ _ _ _ E1 E2) E3) E4), E1, E2, E3, E4.
  destruct x1, x2, x3, x4; simpl; intuition congruence.
Qed.
Print Assumptions cadences_independent.

(** The handlers of one evaluator are scheduled independently: the decisions for each of them are
    those of a run with that handler alone. *)
Theorem handlers_independent hs kws r i h : run_all hs kws = Some r -> nth_error hs i = Some h ->
  exists bs, run h kws = Some bs /\ length r = length bs /\
    forall j row, nth_error r j = Some row -> nth_error row i = nth_error bs j.
Proof. apply run_all_column. Qed.
Print Assumptions handlers_independent.

(** In a boundary value problem, which passes only the iteration, a handler with a wall time or a
    simulation time cadence makes the first solve or Newton iteration raise. *)
Theorem time_cadence_without_time w s i c it rest :
  (exists q, w = Some q /\ ~ q == 0)%Q \/ (exists q, s = Some q /\ ~ q == 0)%Q ->
  run (new_handler w s i c) (Args it None None None :: rest) = None.
Proof.
  intros H. simpl. unfold check_schedule, check_wall, check_sim. cbn [new_handler wall_dt sim_dt wall_time sim_time].
  assert (Ht : forall q, (~ q == 0)%Q -> truthy_Q (Some q) = Some q).
  { intros q Hq. simpl. destruct (Qeq_bool q 0) eqn:E; [|reflexivity]. apply Qeq_bool_iff in E. contradiction. }
  destruct H as [(q & -> & Hq)|(q & -> & Hq)].
  - now rewrite Ht.
  - destruct (truthy_Q w); [reflexivity|]. now rewrite Ht.
Qed.
Print Assumptions time_cadence_without_time.

(** Without a custom schedule, a handler whose cadences are absent or zero never outputs. *)
Theorem no_cadence_no_output w s i kws :
  (forall q, w = Some q -> q == 0)%Q -> (forall q, s = Some q -> q == 0)%Q -> (forall n, i = Some n -> n = 0) ->
  run (new_handler w s i None) kws = Some (map (fun _ => false) kws).
Proof.
  intros Hw Hs Hi. induction kws as [|kw kws IH]; [reflexivity|].
  assert (check_schedule (new_handler w s i None) kw = Some (false, new_handler w s i None)) as E.
  { unfold check_schedule, check_wall, check_sim, check_iter, new_handler, check_custom. cbn [wall_dt sim_dt iter custom_schedule last_wall_div last_sim_div last_iter_div].
    assert (truthy_Q w = None) as ->.
    { destruct w as [q|]; [|reflexivity]. unfold truthy_Q. assert (Qeq_bool q 0 = true) as -> by (apply Qeq_bool_iff; now apply Hw). reflexivity. }
    assert (truthy_Q s = None) as ->.
    { destruct s as [q|]; [|reflexivity]. unfold truthy_Q. assert (Qeq_bool q 0 = true) as -> by (apply Qeq_bool_iff; now apply Hs). reflexivity. }
    assert (truthy_Z i = None) as ->.
    { destruct i as [n|]; [|reflexivity]. unfold truthy_Z. rewrite (Hi n eq_refl). reflexivity. }
    reflexivity. }
  cbn [run map]. rewrite E, IH. reflexivity.
Qed.
Print Assumptions no_cadence_no_output.

(** Concrete cases. *)
Definition steps_example : list (Q * Q) :=
  [(0, 3#10); (1#2, 3#10); (1, 3#10); (5#2, 3#10); (3, 3#10); (3, 3#10); (4, 3#10); (5, 3#10); (6, 3#10)]%Q.

Example iteration_example :
  run (new_handler None None (Some 3) None) (solver_args 4 0 steps_example) =
  Some [true; false; true; false; false; true; false; false; true].
Proof. reflexivity. Qed.
Example wall_example :
  run (new_handler (Some 2%Q) None None None) (solver_args 4 0 steps_example) =
  Some [true; false; false; true; false; false; true; false; true].
Proof. reflexivity. Qed.
Example sim_example :
  run (new_handler None (Some 1%Q) None None) (solver_args 4 0 steps_example) =
  Some [true; false; false; true; false; false; false; true; false].
Proof. reflexivity. Qed.
Example sim_example_guard : forall j t dt,
  nth_error (times 0 (map snd steps_example)) j = Some t -> nth_error (map snd steps_example) j = Some dt ->
  (0 < dt <= 1 /\ (dt < 1 \/ ~ halfway 1 t))%Q.
Proof.
  intros j t dt _ H. apply nth_error_In in H. simpl in H.
  repeat (destruct H as [<-|H]; [split; [split; reflexivity || discriminate|left; reflexivity]|]). destruct H.
Qed.
Example several_example :
  run (new_handler (Some 2%Q) (Some 1%Q) (Some 3) None) (solver_args 4 0 steps_example) =
  Some [true; false; true; true; false; true; true; true; true].
Proof. reflexivity. Qed.
