(** Properties of the main loop, of the enforcement cadence and of restarts (C41, C42). *)
From Coq Require Import Reals Lra.
From stdpp Require Import numbers list.
From Verif Require Import FlowTools_Model SolverLoop_Model SolverLoop_Spec SolverLoop_Proofs.
Local Open Scope R_scope.

(** C41: [proceed] is false exactly if one of the three limits is reached, and changes nothing. *)
Theorem proceed_limits {D} (clock : nat -> R) (cf : config) (s : solver D) go s' :
  proceed clock cf s = (go, s') ->
  (go = false <-> reaches (sim_time s) (stop_sim_time cf) \/ reaches (clock (readings s)) (stop_wall_time cf) \/ reaches (INR (iteration s)) (stop_iteration cf))
  /\ data s' = data s /\ iteration s' = iteration s /\ sim_time s' = sim_time s.
Proof.
  intros E. pose proof (proceed_spec clock cf s) as H. rewrite E in H. split; [done|]. by destruct (proceed_same clock cf s go s' E) as (? & ? & _ & ? & _).
Qed.
Print Assumptions proceed_limits.

(** C41: one step with a finite size does one iteration and moves the time by that size. *)
Theorem step_advances {D} (advance : R -> D -> D) symmetrise clock (cf : config) dt (s : solver D) :
  exists s', step advance symmetrise clock cf (Fin dt) s = Done s' /\ iteration s' = S (iteration s) /\ sim_time s' = sim_time s + dt /\ last_dt s' = Some dt
    /\ data s' = (if enforces cf (iteration s) then symmetrise (advance dt (data s)) else advance dt (data s)).
Proof.
  destruct (step_done advance symmetrise clock cf dt s) as [s' Hs]. exists s'. split; [done|].
  destruct (step_spec advance symmetrise clock cf _ s s' Hs) as (r & [= <-] & ? & ? & _ & ? & ? & _). done.
Qed.
Print Assumptions step_advances.

(** C41: a step that is not finite is refused, and nothing has changed. *)
Theorem step_refuses {D} (advance : R -> D -> D) symmetrise clock (cf : config) dt (s : solver D) :
  (forall r, dt <> Fin r) -> step advance symmetrise clock cf dt s = Raised ValueError s.
Proof. intros H. destruct dt as [r| | |]; [by destruct (H r)|done..]. Qed.
Print Assumptions step_refuses.

(** C41: the loop ends if there is a limit on the iterations, after at most as many turns as are left... *)
Theorem loop_ends_iterations {D} (advance : R -> D -> D) symmetrise clock (cf : config) ts N fuel (s : solver D) :
  stop_iteration cf = Fin (INR N) -> (N - iteration s < fuel)%nat -> main_loop advance symmetrise clock cf ts fuel s <> None.
Proof. apply main_loop_iterations. Qed.
Print Assumptions loop_ends_iterations.

(** ... or if there is a limit on the time, and the steps have a positive lower bound; ... *)
Theorem loop_ends_time {D} (advance : R -> D -> D) symmetrise clock (cf : config) ts T delta fuel (s : solver D) :
  stop_sim_time cf = Fin T -> 0 < delta -> (forall s dt, ts s = Some (Fin dt) -> delta <= dt) ->
  T - sim_time s < INR fuel * delta -> main_loop advance symmetrise clock cf ts (S fuel) s <> None.
Proof. apply main_loop_time. Qed.
Print Assumptions loop_ends_time.

(** ... without that bound it need not: steps of size zero are accepted. *)
Theorem loop_ends_refuted {D} (advance : R -> D -> D) symmetrise clock (cf : config) fuel (s : solver D) :
  stop_wall_time cf = PInf -> stop_iteration cf = PInf -> ~ reaches (sim_time s) (stop_sim_time cf) ->
  main_loop advance symmetrise clock cf (fun _ => Some (Fin 0)) fuel s = None.
Proof. apply main_loop_zero. Qed.
Print Assumptions loop_ends_refuted.

(** C41: a loop that returns took steps [dts] one after the other, each from a state below the limits on the time
    and the iterations, and ended with a limit reached.  A loop that raises did the same up to the iteration in
    which the user's function raised or gave a step that is not finite. *)
Theorem loop_history {D} (advance : R -> D -> D) symmetrise clock (cf : config) ts fuel (s : solver D) o :
  main_loop advance symmetrise clock cf ts fuel s = Some o ->
  exists dts s',
    iteration s' = (iteration s + length dts)%nat /\ sim_time s' = sim_time s + elapsed dts
    /\ data s' = advanced advance symmetrise (enforces cf) (iteration s) dts (data s)
    /\ (forall k, (k < length dts)%nat -> ~ reaches (sim_time s + elapsed (take k dts)) (stop_sim_time cf) /\ ~ reaches (INR (iteration s + k)) (stop_iteration cf))
    /\ match o with
       | Done r => r = s' /\ exists wall, reaches (sim_time s') (stop_sim_time cf) \/ reaches wall (stop_wall_time cf) \/ reaches (INR (iteration s')) (stop_iteration cf)
       | Raised e r => r = s' /\ ((e = UserError /\ ts s' = None) \/ (e = ValueError /\ exists dt, ts s' = Some dt /\ forall x, dt <> Fin x))
       end.
Proof.
  intros H. destruct (main_loop_history advance symmetrise clock cf ts fuel s o H) as (dts & s' & (H1 & _ & H2 & H3 & H4) & _ & Ho).
  exists dts, s'. repeat (split; [done|]). destruct o as [r|e r]; [done|]. destruct Ho as [-> [?|(-> & dt & Et & Hf)]]; split; try done; [by left|].
  right. split; [done|]. exists dt. split; [done|]. intros x ->. done.
Qed.
Print Assumptions loop_history.

(** C41: [evolve] without any limit is refused. *)
Theorem evolve_needs_limit {D} (advance : R -> D -> D) symmetrise clock (cf : config) ts fuel (s : solver D) :
  stop_sim_time cf = PInf -> stop_wall_time cf = PInf -> stop_iteration cf = PInf ->
  evolve advance symmetrise clock cf ts fuel s = Some (Raised ValueError s).
Proof. intros E1 E2 E3. unfold evolve. by rewrite E1, E2, E3. Qed.
Print Assumptions evolve_needs_limit.

(** C41: with a limit it returns after the loop and a report, ... *)
Theorem evolve_returns {D} (advance : R -> D -> D) symmetrise clock (cf : config) ts fuel (s s' : solver D) :
  is_inf (stop_sim_time cf) && is_inf (stop_wall_time cf) && is_inf (stop_iteration cf) = false -> fresh s ->
  main_loop advance symmetrise clock cf ts fuel s = Some (Done s') ->
  (iteration s < iteration s')%nat -> iteration s' <> (iteration s + warmup_iterations cf)%nat ->
  exists r, evolve advance symmetrise clock cf ts fuel s = Some (Done r) /\ data r = data s' /\ iteration r = iteration s' /\ sim_time r = sim_time s'.
Proof.
  intros Hl (F1 & F2 & F3) H Hlt Hne. unfold evolve. rewrite Hl, H.
  destruct (main_loop_history advance symmetrise clock cf ts fuel s _ H) as (dts & s1 & (H1 & H2 & _) & Ha & <- & _).
  assert (A : attrs cf s) by (unfold attrs; rewrite F1, F2, F3; repeat split; intros; try done; lia).
  destruct (log_stats_spec clock cf s' (Ha A)) as [[(r & E & S) _]|[_ [E|E]]]; [|rewrite E, H2 in Hlt; lia|rewrite E, H2 in Hne; lia].
  exists r. rewrite E. destruct S as (? & ? & _ & ? & _). done.
Qed.
Print Assumptions evolve_returns.

(** ... except that the report raises if no step was taken, or if the run has exactly as many steps as the warmup. *)
Theorem evolve_returns_refuted {D} (advance : R -> D -> D) symmetrise clock (cf : config) ts fuel (s s' : solver D) :
  is_inf (stop_sim_time cf) && is_inf (stop_wall_time cf) && is_inf (stop_iteration cf) = false -> fresh s ->
  main_loop advance symmetrise clock cf ts fuel s = Some (Done s') ->
  iteration s' = iteration s \/ iteration s' = (iteration s + warmup_iterations cf)%nat ->
  exists r, evolve advance symmetrise clock cf ts fuel s = Some (Raised AttributeError r) /\ data r = data s'.
Proof.
  intros Hl (F1 & F2 & F3) H He. unfold evolve. rewrite Hl, H.
  destruct (main_loop_history advance symmetrise clock cf ts fuel s _ H) as (dts & s1 & (H1 & H2 & _) & Ha & <- & _).
  assert (A : attrs cf s) by (unfold attrs; rewrite F1, F2, F3; repeat split; intros; try done; lia).
  destruct (log_stats_spec clock cf s' (Ha A)) as [[_ [Hlt Hne]]|[(r & E & S) _]]; [rewrite H2 in *; lia|].
  exists r. rewrite E. destruct S as (? & _). done.
Qed.
Print Assumptions evolve_returns_refuted.

(** C41: an exception in the loop is raised again by [evolve] (unless the report raises another), and the state is the
    one at the exception; in particular [evolve] never returns normally after it. *)
Theorem evolve_raises {D} (advance : R -> D -> D) symmetrise clock (cf : config) ts fuel (s s' : solver D) e :
  is_inf (stop_sim_time cf) && is_inf (stop_wall_time cf) && is_inf (stop_iteration cf) = false -> fresh s ->
  main_loop advance symmetrise clock cf ts fuel s = Some (Raised e s') ->
  exists e' r, evolve advance symmetrise clock cf ts fuel s = Some (Raised e' r) /\ data r = data s' /\ iteration r = iteration s' /\ sim_time r = sim_time s'
    /\ ((iteration s < iteration s')%nat -> iteration s' <> (iteration s + warmup_iterations cf)%nat -> e' = e).
Proof.
  intros Hl (F1 & F2 & F3) H. unfold evolve. rewrite Hl, H.
  destruct (main_loop_history advance symmetrise clock cf ts fuel s _ H) as (dts & s1 & (H1 & H2 & _) & Ha & -> & _).
  assert (A : attrs cf s) by (unfold attrs; rewrite F1, F2, F3; repeat split; intros; try done; lia).
  destruct (log_stats_spec clock cf s1 (Ha A)) as [[(r & E & S) _]|[(r & E & S) Hi]]; rewrite E; destruct S as (? & ? & _ & ? & _).
  - exists e, r. done.
  - exists AttributeError, r. split; [done|]. split; [done|]. split; [done|]. split; [done|]. intros Hlt Hne. destruct Hi as [Hi|Hi]; rewrite Hi, H2 in *; lia.
Qed.
Print Assumptions evolve_raises.

(** C42: symmetry is enforced at the first [steps] iterations of every period of the cadence, counted from
    iteration zero: ... *)
Theorem enforcement_iterations (cf : config) c it :
  enforce_cadence cf = Some c -> (0 < c)%nat -> (scheme_steps cf <= c)%nat ->
  enforces cf it = true <-> exists q, (q * c <= it < q * c + scheme_steps cf)%nat.
Proof. intros E Hc Hn. unfold enforces. rewrite E. destruct c as [|c]; [lia|]. rewrite bool_decide_eq_true. by apply mod_window. Qed.
Print Assumptions enforcement_iterations.

(** ... so any [cadence] iterations in a row hold exactly [steps] of them, whatever iteration they start at. *)
Theorem enforcement_count (cf : config) c a :
  enforce_cadence cf = Some c -> (0 < c)%nat -> (scheme_steps cf <= c)%nat ->
  length (filter (fun it => enforces cf it = true) (seq a c)) = scheme_steps cf.
Proof.
  intros E Hc Hn. etransitivity; [|apply (count_mod c (scheme_steps cf) a Hc Hn)]. f_equal. apply list_filter_iff. intros it. unfold enforces. rewrite E.
  destruct c as [|c]; [lia|]. by rewrite bool_decide_eq_true.
Qed.
Print Assumptions enforcement_count.

(** C42: it is never enforced for a complex problem or with cadence zero, and always if the scheme has more steps
    than the cadence. *)
Theorem enforcement_extremes (cf : config) it :
  (enforce_cadence cf = None \/ enforce_cadence cf = Some 0%nat -> enforces cf it = false)
  /\ (forall c, enforce_cadence cf = Some c -> (0 < c <= scheme_steps cf)%nat -> enforces cf it = true).
Proof.
  unfold enforces. split; [by intros [-> | ->]|]. intros c -> Hc. destruct c as [|c]; [lia|]. apply bool_decide_eq_true. pose proof (Nat.mod_upper_bound it (S c)). lia.
Qed.
Print Assumptions enforcement_extremes.

(** C42: the count starts at iteration zero and not at the start of the run, so the first iteration after a restart
    need not be enforced. *)
Theorem enforcement_restart_refuted (cf : config) c :
  enforce_cadence cf = Some c -> (scheme_steps cf < c)%nat -> exists it, enforces cf it = false.
Proof.
  intros E Hc. exists (scheme_steps cf). unfold enforces. rewrite E. destruct c as [|c]; [lia|]. apply bool_decide_eq_false. rewrite Nat.mod_small; lia.
Qed.
Print Assumptions enforcement_restart_refuted.

(** C41: loading a write sets the iteration and the time, and every field that the file has; the others keep
    their data. *)
Lemma load_fields_done {name V} `{EqDecision name} (tasks : list (name * V)) allow fs r :
  load_fields tasks allow fs = Done r -> r = map (fun f => (f.1, default f.2 (find_task f.1 tasks))) fs.
Proof.
  revert r. induction fs as [|[n v] fs IH]; intros r; cbn; [by intros [= <-]|].
  destruct (find_task n tasks); [|destruct allow; [|done]]; (destruct (load_fields tasks _ fs); [|done]; intros [= <-]; cbn; f_equal; by apply IH).
Qed.
Theorem load_restores {name V} `{EqDecision name} (file : savefile (name:=name) (V:=V)) allow s s' :
  load_state file allow s = Done s' ->
  at_iteration s' = file_iteration file /\ at_initial s' = file_iteration file /\ at_time s' = file_time file /\ at_initial_time s' = file_time file
  /\ fields s' = map (fun f => (f.1, default f.2 (find_task f.1 (file_tasks file)))) (fields s).
Proof. unfold load_state. destruct (load_fields _ _ _) eqn:E; [|done]. intros [= <-]. cbn. repeat (split; [done|]). by apply (load_fields_done _ allow). Qed.
Print Assumptions load_restores.

(** C41: it returns if missing fields are allowed or none is missing. *)
Theorem load_returns {name V} `{EqDecision name} (file : savefile (name:=name) (V:=V)) allow s :
  allow = true \/ (forall f, f ∈ fields s -> is_Some (find_task f.1 (file_tasks file))) -> exists s', load_state file allow s = Done s'.
Proof.
  intros H. unfold load_state. assert (E : exists r, load_fields (file_tasks file) allow (fields s) = Done r).
  { induction (fields s) as [|[n v] fs IH]; [by exists []|]. cbn. destruct IH as [r Hr].
    { destruct H as [H|H]; [by left|]. right. intros f Hf. apply H. by right. }
    destruct (find_task n (file_tasks file)) eqn:E; [rewrite Hr; by eexists|]. destruct allow; [rewrite Hr; by eexists|].
    destruct H as [H|H]; [done|]. destruct (H (n, v)) as [x Hx]; [by left|]. cbn in Hx. congruence. }
  destruct E as [r ->]. by eexists.
Qed.
Print Assumptions load_returns.

(** C41: a load that fails on a missing field has already changed the iteration, the time, and the fields before it. *)
Theorem load_atomic_refuted {name V} `{EqDecision name} (file : savefile (name:=name) (V:=V)) (s : loading) n v n' v' v2 :
  fields s = [(n, v); (n', v')] -> find_task n (file_tasks file) = Some v2 -> find_task n' (file_tasks file) = None ->
  exists s', load_state file false s = Raised IOError s' /\ at_iteration s' = file_iteration file /\ at_time s' = file_time file /\ fields s' = [(n, v2); (n', v')].
Proof. intros E E1 E2. unfold load_state. rewrite E. cbn. rewrite E1, E2. by eexists. Qed.
Print Assumptions load_atomic_refuted.

(** ** A concrete run: steps of 1/2 up to time 1, symmetry enforced at even iterations *)
Definition ex_config : config := Config (Fin 1) PInf PInf (Some 2%nat) 1 5.
Definition ex_solver : solver R := Solver 3 0 0 0 None None None 0.
Definition ex_clock (n : nat) : R := INR n.
Lemma main_loop_turn {D} (advance : R -> D -> D) symmetrise clock (cf : config) ts fuel s s1 dt s2 :
  proceed clock cf s = (true, s1) -> ts s1 = Some dt -> step advance symmetrise clock cf dt s1 = Done s2 ->
  main_loop advance symmetrise clock cf ts (S fuel) s = main_loop advance symmetrise clock cf ts fuel s2.
Proof. intros E1 E2 E3. cbn [main_loop]. by rewrite E1, E2, E3. Qed.
Lemma main_loop_end {D} (advance : R -> D -> D) symmetrise clock (cf : config) ts fuel s s1 :
  proceed clock cf s = (false, s1) -> main_loop advance symmetrise clock cf ts (S fuel) s = Some (Done s1).
Proof. intros E1. cbn [main_loop]. by rewrite E1. Qed.
Definition ex_s1 : solver R := Solver (Rabs (3 * (1 + 1/2))) 1 0 (0 + 1/2) (Some (1/2)) (Some (ex_clock 1)) None 3.
Definition ex_s2 : solver R := Solver (Rabs (3 * (1 + 1/2)) * (1 + 1/2)) 2 0 (0 + 1/2 + 1/2) (Some (1/2)) (Some (ex_clock 1)) None 5.
Lemma ex_proceed1 : proceed ex_clock ex_config ex_solver = (true, Solver 3 0 0 0 None None None 1).
Proof. unfold proceed. replace (flt_ge (Fin (sim_time ex_solver)) (stop_sim_time ex_config)) with false; [done|]. cbn. destruct (Rlt_dec 0 1); [done|lra]. Qed.
Lemma ex_proceed2 : proceed ex_clock ex_config ex_s1 = (true, Solver (Rabs (3 * (1 + 1/2))) 1 0 (0 + 1/2) (Some (1/2)) (Some (ex_clock 1)) None 4).
Proof. unfold proceed. replace (flt_ge (Fin (sim_time ex_s1)) (stop_sim_time ex_config)) with false; [done|]. cbn. destruct (Rlt_dec (0 + 1/2) 1); [done|lra]. Qed.
Lemma ex_proceed3 : proceed ex_clock ex_config ex_s2 = (false, ex_s2).
Proof. unfold proceed. replace (flt_ge (Fin (sim_time ex_s2)) (stop_sim_time ex_config)) with true; [done|]. cbn. destruct (Rlt_dec (0 + 1/2 + 1/2) 1); [lra|done]. Qed.
Example loop_ex : main_loop (fun dt d => d * (1 + dt)) Rabs ex_clock ex_config (fun _ => Some (Fin (1/2))) 3 ex_solver = Some (Done ex_s2).
Proof.
  rewrite (main_loop_turn _ _ _ _ _ _ _ _ (Fin (1/2)) ex_s1 ex_proceed1); [|reflexivity|reflexivity].
  rewrite (main_loop_turn _ _ _ _ _ _ _ _ (Fin (1/2)) ex_s2 ex_proceed2); [|reflexivity|reflexivity].
  apply main_loop_end, ex_proceed3.
Qed.
Example loop_hypotheses : fresh ex_solver /\ stop_sim_time ex_config = Fin 1 /\ ~ reaches (sim_time ex_solver) (stop_sim_time ex_config).
Proof. repeat split. cbn. lra. Qed.
Example cadence_ex : map (enforces (Config PInf PInf PInf (Some 4%nat) 2 0)) (seq 0 9) = [true; true; false; false; true; true; false; false; true].
Proof. reflexivity. Qed.
Example load_ex :
  load_state (Savefile 7 2 [(2%nat, 20); (1%nat, 10)]) true (Loading [(1%nat, 0); (3%nat, 5)] 0 0 0 0) = Done (Loading [(1%nat, 10); (3%nat, 5)] 7 7 2 2)
  /\ load_state (Savefile 7 2 [(2%nat, 20); (1%nat, 10)]) false (Loading [(1%nat, 0); (3%nat, 5)] 0 0 0 0) = Raised IOError (Loading [(1%nat, 10); (3%nat, 5)] 7 7 2 2).
Proof. done. Qed.
