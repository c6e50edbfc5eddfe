(** C40 and C58: the adaptive time step and global reductions. *)
From Coq Require Import Reals Lra.
From stdpp Require Import numbers list.
From Verif Require Import FlowTools_Model FlowTools_Spec FlowTools_Proofs.
Local Open Scope R_scope.

(** ** C58 *)
Theorem global_max_value procs l : distributes procs l -> l <> [] -> exists m, global_max NInf procs = Fin m /\ is_max m l.
Proof. apply global_max_spec. Qed.
Print Assumptions global_max_value.
Theorem global_min_value procs l : distributes procs l -> l <> [] -> exists m, global_min PInf procs = Fin m /\ is_min m l.
Proof. apply global_min_spec. Qed.
Print Assumptions global_min_value.
Theorem global_mean_value procs l : distributes procs l -> l <> [] -> global_mean procs = Fin (total l / INR (length l)).
Proof. apply global_mean_spec. Qed.
Print Assumptions global_mean_value.

(** Without any data the extrema are the identities and the mean is not a number. *)
Theorem global_empty procs : procs <> [] -> (forall d, In d procs -> d = []) -> global_max NInf procs = NInf /\ global_min PInf procs = PInf /\ global_mean procs = NaN.
Proof.
  intros Hp Hd. assert (Hc : concat procs = []).
  { clear Hp. induction procs as [|p ps IH]; [done|]. cbn. rewrite (Hd p), IH; [done| |by left]. intros d Hin. apply Hd. by right. }
  pose proof (global_max_of procs Hp) as H1. pose proof (global_min_of procs Hp) as H2. rewrite Hc in H1, H2.
  destruct (global_max NInf procs), (global_min PInf procs); cbn in *; try done; try (by destruct H1); try (by destruct H2).
  repeat split. unfold global_mean. rewrite (reduce_plus (fun d : list R => INR (length d))), total_lengths, Hc. by destruct (Req_EM_T (INR (length [])) 0).
Qed.
Print Assumptions global_empty.

(** A constant field has its element on some processes: all get it, also when it is negative. *)
Theorem volume_integral_value v procs : (exists d, In d procs /\ d <> []) -> (forall d x, In d procs -> In x d -> x = v) -> volume_integral procs = Fin v.
Proof.
  intros (d & Hd & Hne) Hv. assert (Hp : procs <> []) by (intros ->; done). pose proof (global_max_of procs Hp) as H. unfold volume_integral.
  destruct (global_max NInf procs) as [m| | |]; cbn in H; try done.
  - destruct H as [Hi _]. apply in_concat in Hi as (d' & ? & ?). by rewrite (Hv d' m).
  - destruct d as [|x d]; [done|]. assert (Hin : In x (concat procs)) by (apply in_concat; exists (x :: d); split; [done|by left]). by rewrite H in Hin.
Qed.
Print Assumptions volume_integral_value.

Theorem data_norm_value p procs l : distributes procs l -> data_norm (Some p) procs = npow (total (map (fun x => npow (Rabs x) p) l)) (1 / p).
Proof. apply data_norm_sum. Qed.
Print Assumptions data_norm_value.
(** [allreduce_data_max] is the largest absolute value. *)
Theorem data_max_value procs l : distributes procs l -> l <> [] -> is_max (data_max procs) (map Rabs l).
Proof. apply data_max_spec. Qed.
Print Assumptions data_max_value.
(** So a solver started at a negative time has the opposite time. *)
Theorem initial_time_refuted t procs : (exists d, In d procs /\ d <> []) -> (forall d x, In d procs -> In x d -> x = t) -> t < 0 -> initial_sim_time procs = - t.
Proof.
  intros (d & Hd & Hne) Hv Ht. assert (Hc : concat procs <> []).
  { destruct d as [|x d]; [done|]. intros E. assert (Hin : In x (concat procs)) by (apply in_concat; exists (x :: d); split; [done|by left]). by rewrite E in Hin. }
  destruct (data_max_spec procs (concat procs) (Permutation_refl _) Hc) as [Hi _]. unfold initial_sim_time. apply in_map_iff in Hi as (x & <- & Hx).
  apply in_concat in Hx as (d' & ? & ?). rewrite (Hv d' x) by done. by apply Rabs_left.
Qed.
Print Assumptions initial_time_refuted.

Example reductions_ex : distributes [[1; 3]; []; [-2]] [3; 1; -2] /\ global_mean [[1; 3]; []; [-2]] = Fin (2 / 3) /\ global_max NInf [[1; 3]; []; [-2]] = Fin 3.
Proof.
  assert (Hd : distributes [[1; 3]; []; [-2]] [3; 1; -2]) by (cbn; apply perm_swap).
  split; [done|]. split.
  - rewrite (global_mean_value _ [3; 1; -2]) by done. f_equal. unfold total. cbn. lra.
  - destruct (global_max_value _ _ Hd) as (m & -> & [H1 H2]); [done|]. f_equal. assert (3 <= m) by (apply H2; by left). destruct H1 as [<-|[<-|[<-|[]]]]; lra.
Qed.

(** ** C40 *)
(** After any history of calls the steps are within their bounds. *)
Theorem cfl_within_bounds c s initial calls dts :
  guarded c s -> (forall it procs, In (it, procs) calls -> procs <> []) -> compute_timesteps c initial calls (Fin s) = Some dts ->
  forall d, In d dts -> exists r, d = Fin r /\ min_dt c <= r /\ fle (Fin r) (max_dt c).
Proof.
  revert s dts. induction calls as [|[it procs] calls IH]; intros s dts Hg Hp Hd d Hin; cbn in Hd; [by injection Hd as <-|].
  destruct (compute_timestep c initial it procs (Fin s)) as [d1|] eqn:E1; [|done]. cbn in Hd.
  destruct (compute_timesteps c initial calls d1) as [rest|] eqn:E2; [|done]. cbn in Hd. injection Hd as <-.
  destruct (compute_timestep_step c s initial it procs d1 Hg (Hp _ _ (or_introl eq_refl)) E1) as (r & -> & Hg' & _).
  destruct Hin as [<-|Hin]; [exists r; by destruct Hg'|]. apply (IH r rest Hg'); try done. intros it' procs' H. apply (Hp it' procs'). by right.
Qed.
Print Assumptions cfl_within_bounds.

(** Consecutive steps differ by at most the allowed factors. *)
Theorem cfl_changes c s initial calls dts k x y :
  guarded c s -> (forall it procs, In (it, procs) calls -> procs <> []) -> compute_timesteps c initial calls (Fin s) = Some dts ->
  (Fin s :: dts) !! k = Some x -> (Fin s :: dts) !! S k = Some y ->
  exists a b, x = Fin a /\ y = Fin b /\ min_change c * a <= b /\ fle (Fin b) (flt_mul (max_change c) (Fin a)).
Proof.
  revert s dts k. induction calls as [|[it procs] calls IH]; intros s dts k Hg Hp Hd Hx Hy; cbn in Hd; [by injection Hd as <-|].
  destruct (compute_timestep c initial it procs (Fin s)) as [d1|] eqn:E1; [|done]. cbn in Hd.
  destruct (compute_timesteps c initial calls d1) as [rest|] eqn:E2; [|done]. cbn in Hd. injection Hd as <-.
  destruct (compute_timestep_step c s initial it procs d1 Hg (Hp _ _ (or_introl eq_refl)) E1) as (r & -> & Hg' & H1 & H2).
  destruct k as [|k].
  - injection Hx as <-. injection Hy as <-. by exists s, r.
  - apply (IH r rest k Hg'); try done. intros it' procs' H. apply (Hp it' procs'). by right.
Qed.
Print Assumptions cfl_changes.

(** A new step is computed only on the cadence and after the first step. *)
Theorem cfl_holds c initial it procs s :
  ((it - 1) mod cadence c <> 0)%Z \/ (it - 1 <= initial)%Z -> compute_timestep c initial it procs s = Some s.
Proof. intros H. unfold compute_timestep. destruct (decide _); [|done]. destruct (decide _); [done|]. destruct H; lia. Qed.
Print Assumptions cfl_holds.

(** When it is, and neither lower bound is above the limit safety / f, with f the largest total frequency of
    all points on all processes, the step exceeds the limit by at most the threshold. *)
Theorem cfl_limit c s initial it (procs : list (nat * list (list R))) f d :
  guarded c s -> 0 <= threshold c -> ((it - 1) mod cadence c = 0)%Z -> (initial < it - 1)%Z ->
  (forall n fields, In (n, fields) procs -> Forall (fun g => length g = n) fields) ->
  largest_frequency f procs -> 0 < f -> min_dt c <= safety c / f -> min_change c * s <= safety c / f ->
  compute_timestep c initial it (map snd procs) (Fin s) = Some d ->
  exists r, d = Fin r /\ r * (1 - threshold c) <= safety c / f.
Proof.
  intros [Hm Hlo Hhi Hsh Hgr Hsa Hfin] Ht Hc Hi Hw Hlf Hf H1 H2 Hd. assert (Hs : 0 < s) by lra.
  unfold compute_timestep in Hd. rewrite decide_True in Hd by done. rewrite decide_False in Hd by lia.
  destruct (mapM local_freqs (map snd procs)) as [locals|] eqn:El; [|done]. cbn [mbind option_bind] in Hd. apply Some_inj in Hd. subst d.
  assert (Hw' : Forall (fun p : nat * list (list R) => Forall (fun f => length f = p.1) p.2) procs).
  { apply List.Forall_forall. intros [n fields] Hin. by apply Hw. }
  apply (global_frequency procs locals f El Hw') in Hlf. rewrite Hlf.
  destruct (new_dt_spec c s (Fin f) Hs Hlo Hhi Hm Hsh Hgr Hsa Hfin ltac:(done) ltac:(intros ? [= <-]; lra)) as (r & -> & Hr1 & Hr2 & Hr3 & Hr4 & Hr5).
  assert (Hru : r <= safety c / f).
  { apply Hr5; [|done..]. unfold limit. cbn. destruct (Req_EM_T f 0); [lra|]. cbn. f_equal. unfold Rdiv. ring. }
  cbn [flt_mul flt_sub flt_add flt_neg flt_abs flt_lt]. destruct (Rlt_dec (threshold c * s) (Rabs (r + - s))) as [Hlt|Hge].
  - exists r. split; [done|]. assert (0 <= threshold c * r) by (apply Rmult_le_pos; lra). lra.
  - exists s. split; [done|]. apply Rnot_lt_le in Hge. assert (s - r <= threshold c * s); [|lra]. pose proof (Rle_abs (s + - r)).
    replace (s - r) with (s + - r) by ring. replace (Rabs (r + - s)) with (Rabs (s + - r)) in Hge by (rewrite <- (Rabs_Ropp (s + - r)); f_equal; ring). lra.
Qed.
Print Assumptions cfl_limit.

Definition ex_cfl : cfl := Cfl 2 (1/2) (Fin 1) (1/100) (Fin (3/2)) (1/2) (1/10).
Example cfl_ex : guarded ex_cfl (1/5) /\ compute_timesteps ex_cfl 0 [(1%Z, [[[4; -2]]; [[]]]); (2%Z, [[[4; -2]]; [[]]]); (3%Z, [[[4; -2]]; [[]]])] (Fin (1/5)) = Some [Fin (1/5); Fin (1/5); Fin (/4 * (1/2))].
Proof.
  split; [split; cbn; try lra; by left|].
  assert (Hf : forall x y, x < y -> flt_lt (Fin x) (Fin y) = true) by (intros x y H; cbn; by destruct (Rlt_dec x y)).
  assert (Hn : forall x y, y <= x -> flt_lt (Fin x) (Fin y) = false) by (intros x y H; cbn; destruct (Rlt_dec x y); [lra|done]).
  assert (E : compute_timestep ex_cfl 0 3 [[[4; -2]]; [[]]] (Fin (1/5)) = Some (Fin (/4 * (1/2)))).
  { unfold compute_timestep. rewrite decide_True by done. rewrite decide_False by lia. cbn [mapM local_freqs fold_left mbind option_bind mret option_ret map].
    assert (Hm : global_max NInf [[Rabs 4; Rabs (-2)]; []] = Fin 4).
    { cbn. rewrite (Rabs_right 4), (Rabs_left (-2)) by lra. unfold mpi_max. cbn. f_equal. apply Rmax_left. lra. }
    rewrite Hm. unfold new_dt. destruct (Req_EM_T 4 0); [lra|]. rewrite py_min2, py_max2. unfold mpi_min, mpi_max. cbn [flt_inv flt_mul ex_cfl safety max_dt max_change min_dt min_change threshold].
    rewrite (Hn 1) by lra. rewrite (Hn (3/2 * (1/5))) by lra. rewrite (Hn (/4 * (1/2)) (1/100)) by lra. rewrite (Hn (/4 * (1/2)) (1/2 * (1/5))) by lra. cbn [flt_sub flt_add flt_neg flt_abs]. rewrite (Hf (1/10 * (1/5))); [done|]. rewrite Rabs_left; lra. }
  cbn [compute_timesteps]. rewrite (cfl_holds ex_cfl 0 1) by (right; lia). cbn [mbind option_bind]. rewrite (cfl_holds ex_cfl 0 2) by (left; done). cbn [mbind option_bind]. by rewrite E.
Qed.

(** Without the guard on the initial step the maximum can be exceeded: the bound on the decrease comes last. *)
Theorem cfl_initial_refuted c s M freq :
  max_dt c = Fin M -> M < min_change c * s -> 0 < safety c -> freq <> NaN -> (forall f, freq = Fin f -> 0 <= f) -> flt_lt (Fin M) (new_dt c (Fin s) freq) = true.
Proof.
  intros EM Hs Hsa Hn Hf. unfold new_dt. fold (limit c freq). rewrite py_min2, py_max2, EM.
  assert (Hx : exists x, mpi_min (mpi_min (limit c freq) (Fin M)) (flt_mul (max_change c) (Fin s)) = x /\ x <> NaN).
  { eexists. split; [done|]. unfold mpi_min. destruct (limit_cases c freq Hsa Hn Hf) as [->|(u & -> & _)];
      destruct (flt_mul (max_change c) (Fin s)) as [k| | |]; cbn; repeat match goal with |- context [Rlt_dec ?a ?b] => destruct (Rlt_dec a b); cbn end; done. }
  destruct Hx as (x & -> & Hx). cbn [flt_mul]. unfold mpi_max. destruct x as [x| | |]; try done; cbn [flt_lt];
    repeat match goal with |- context [Rlt_dec ?a ?b] => destruct (Rlt_dec a b); cbn [flt_lt] end; try done; lra.
Qed.
Print Assumptions cfl_initial_refuted.
Example cfl_initial_refuted_ex : max_dt ex_cfl = Fin 1 /\ 1 < min_change ex_cfl * 10 /\ 0 < safety ex_cfl.
Proof. cbn. split; [done|lra]. Qed.

(** With no finite maximum and a flow at rest the step becomes infinite, and stays so whatever comes later. *)
Theorem cfl_infinite_refuted c initial it procs d :
  0 <= threshold c -> compute_timestep c initial it procs PInf = Some d -> d = PInf.
Proof.
  intros Ht. unfold compute_timestep. destruct (decide _); [|by intros [= <-]]. destruct (decide _); [by intros [= <-]|].
  destruct (mapM local_freqs procs) as [locals|]; [|done]. cbn [mbind option_bind]. intros H. apply Some_inj in H. subst d.
  destruct (flt_lt _ _) eqn:E; [|done]. exfalso. revert E. cbn [flt_mul]. unfold inf_times. destruct (Rlt_dec 0 (threshold c)); [by destruct (flt_abs _)|].
  destruct (Rlt_dec (threshold c) 0); [lra|]. by destruct (flt_abs _).
Qed.
Print Assumptions cfl_infinite_refuted.
Example cfl_infinite_ex : compute_timestep (Cfl 1 1 PInf 0 PInf 0 0) 0 2 [[[0]]] (Fin 1) = Some PInf.
Proof.
  unfold compute_timestep. rewrite decide_True by done. rewrite decide_False by lia. cbn [mapM local_freqs fold_left mbind option_bind mret option_ret map].
  rewrite Rabs_R0. cbn. destruct (Req_EM_T 0 0); [|done]. cbn. unfold inf_times. destruct (Rlt_dec 0 1); [|lra]. done.
Qed.
