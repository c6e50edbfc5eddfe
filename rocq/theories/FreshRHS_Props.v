(* Theorems about the evaluation of right-hand sides. *)
From Coq Require Import List ZArith Bool Lia.
From Verif Require Import Schedules_Model FreshRHS_Model FreshRHS_Spec FreshRHS_Proofs.
Import ListNotations.
Open Scope Z_scope.

Section Props.
Context {X V : Type}.
Variable rhs : X -> V.
Variable advance : X -> V -> X.

(* Every stage of every step uses the right-hand side of the state at its time,
   whatever users change in the state and evaluate between steps, if states are
   loaded only at iterations after those of the steps that were made. *)
Theorem rhs_fresh x blank l : forward 0 (-1) l ->
  fresh rhs (snd (acts rhs advance l (new_solver x blank))).
Proof. intros F. apply (acts_fresh rhs advance l 0 (-1) x blank); [lia|exact F]. Qed.

(* In particular without loading, ... *)
Theorem rhs_fresh_without_loading x blank l : no_load l ->
  fresh rhs (snd (acts rhs advance l (new_solver x blank))).
Proof. intros N. apply rhs_fresh, no_load_forward; [lia|exact N]. Qed.

(* ... and for a new solver that loads any state before its first step. *)
Theorem rhs_fresh_restart x blank j y l : 0 <= j -> no_load l ->
  fresh rhs (snd (acts rhs advance (Load j y :: l) (new_solver x blank))).
Proof.
  intros H N. apply rhs_fresh. cbn. split; [lia|]. apply no_load_forward; [lia|exact N].
Qed.

(* After any history, later stages of Runge-Kutta schemes use the right-hand side of
   the state at their time. *)
Theorem later_stages_fresh x blank l n :
  let s := fst (acts rhs advance l (new_solver x blank)) in
  exists u us, snd (act rhs advance (Step n) s) = u :: us /\ length us = n /\ fresh rhs us.
Proof.
  cbn zeta. destruct (acts_form rhs advance l 0 (-1) x blank) as (i & m & x' & v' & E & _).
  unfold new_solver, new_handler. unfold hF in E. rewrite E. fold (hF m).
  destruct (step_ok rhs advance n i m x' v') as (x2 & v2 & _ & us & U & F).
  eexists _, us. cbn [act]. split; [exact U|]. split; [|exact F].
  assert (L : forall n s, length (snd (later_stages rhs advance n s)) = n).
  { clear. induction n as [|n IH]; intros s; [reflexivity|]. cbn.
    specialize (IH (mksolver (it s) (handlerF s) (advance (state s) (rhs (state s)))
      (rhs (state s)))). destruct (later_stages rhs advance n _). cbn in *. congruence. }
  unfold step in U. unfold solve_stage in U.
  match type of U with context [later_stages rhs advance n ?t] =>
    specialize (L n t); destruct (later_stages rhs advance n t) as [s3 us3] end.
  cbn [snd] in L, U. apply (f_equal (@tl (X * V))) in U. cbn [tl] in U. now rewrite <- U.
Qed.

(* After any history, a step that follows an evaluation of all handlers uses the
   right-hand sides of the states at their times. *)
Theorem evaluation_refreshes x blank l n :
  let s := fst (acts rhs advance l (new_solver x blank)) in
  fresh rhs (snd (acts rhs advance [Evaluate; Step n] s)).
Proof.
  cbn zeta. destruct (acts_form rhs advance l 0 (-1) x blank) as (i & m & x' & v' & E & _).
  unfold new_solver, new_handler. unfold hF in E. rewrite E. fold (hF m).
  cbn [acts act]. unfold evaluate_group. cbn [it handlerF state].
  destruct (step_ok rhs advance n i m x' (rhs x')) as (x2 & v2 & _ & us & U & F).
  destruct (step rhs advance n _) as [s u]. cbn in *. subst u. rewrite app_nil_r.
  intros y w [Q|Q]; [|now apply F]. destruct (m <? i); congruence.
Qed.

(* After k steps of a multistep scheme (or k solutions of a boundary value problem),
   loading a state of an earlier iteration j makes all the following steps up to
   iteration k use the right-hand side of the last step before loading, whatever the
   state is. *)
Theorem loading_back_stale x blank k j p y :
  (0 < k)%nat -> j + Z.of_nat p <= Z.of_nat k ->
  let s := fst (acts rhs advance (repeat (Step 0) k) (new_solver x blank)) in
  forall z v, In (z, v) (snd (acts rhs advance (Load j y :: repeat (Step 0) p) s)) ->
    v = fields s.
Proof.
  intros Hk Hj. cbn zeta.
  assert (A : forall k i m x v, m < i -> exists x' v',
    fst (acts rhs advance (repeat (Step 0) (S k)) (mksolver i (hF m) x v))
    = mksolver (i + Z.of_nat (S k)) (hF (i + Z.of_nat k)) x' v').
  { clear. induction k as [|k IH]; intros i m x v H.
    - cbn [repeat acts act]. destruct (step_ok rhs advance 0 i m x v) as (x' & v' & E & _).
      destruct (step rhs advance 0 _) as [s u]. cbn [fst] in *. subst s.
      exists x', v'. f_equal; solve [lia | f_equal; lia].
    - destruct (step_ok rhs advance 0 i m x v) as (x' & v' & E & _).
      change (repeat (Step 0) (S (S k))) with (@Step X 0 :: repeat (Step 0) (S k)).
      cbn [acts act]. destruct (step rhs advance 0 _) as [s u]. cbn [fst] in E. subst s.
      destruct (IH (i + 1) (Z.max m i) x' v' ltac:(lia)) as (x2 & v2 & E2).
      destruct (acts rhs advance (repeat (Step 0) (S k)) _) as [s2 us]. cbn [fst] in *.
      subst s2. exists x2, v2. f_equal; solve [lia | f_equal; lia]. }
  destruct k as [|k]; [lia|].
  destruct (A k 0 (-1) x blank ltac:(lia)) as (x' & v' & E).
  unfold new_solver, new_handler. unfold hF in E at 1. rewrite E. clear A E.
  cbn [acts act handlerF fields].
  assert (B : forall p i m x v, i + Z.of_nat p <= m + 1 ->
    forall z w, In (z, w) (snd (acts rhs advance (repeat (Step 0) p) (mksolver i (hF m) x v))) ->
    w = v).
  { clear. induction p as [|p IH]; intros i m x v H z w Q; [destruct Q|].
    cbn [repeat acts act] in Q. unfold step in Q. rewrite scheduled in Q.
    destruct (Z.ltb_spec m i); [lia|]. cbn in Q.
    specialize (IH (i + 1) m (advance x v) v ltac:(lia) z w).
    destruct (acts rhs advance (repeat (Step 0) p) _) as [s us]. cbn in *.
    destruct Q as [Q|Q]; [congruence|auto]. }
  intros z v Q.
  destruct (acts rhs advance (repeat (Step 0) p) _) as [s us] eqn:E.
  cbn [snd app] in Q. refine (B p j (0 + Z.of_nat k) y v' _ z v _); [lia|]. now rewrite E.
Qed.

End Props.

(* So right-hand sides are not always those of the state: two steps of x' = 2 x, and
   then the initial state of another run. *)
Theorem loading_back_refuted :
  exists (rhs : Z -> Z) advance x blank l,
    ~ fresh rhs (snd (acts rhs advance l (new_solver x blank))).
Proof.
  exists (fun x => 2 * x), Z.add, 1, 0, [Step 0; Step 0; Load 0 5; Step 0].
  intros H. specialize (H 5 6). cbn in H. assert (6 = 10); [|lia].
  apply H. right. right. now left.
Qed.

Print Assumptions rhs_fresh.
Print Assumptions rhs_fresh_without_loading.
Print Assumptions rhs_fresh_restart.
Print Assumptions later_stages_fresh.
Print Assumptions evaluation_refreshes.
Print Assumptions loading_back_stale.
Print Assumptions loading_back_refuted.

(* Cases that meet the hypotheses: a restart, two steps, the first with three
   stages, an edit and a state of a later iteration. *)
Example fresh_example :
  let l := [Load 7 3; Step 2; Edit 4; Evaluate; Step 0; Load 20 1; Step 0] in
  forward 0 (-1) l /\
  snd (acts (fun x => 2 * x) Z.add l (new_solver 1 0)) =
    [(3, 6); (9, 18); (27, 54); (4, 8); (1, 2)].
Proof. cbn zeta. split; [cbn; lia|reflexivity]. Qed.

Example stale_example :
  snd (acts (fun x => 2 * x) Z.add (Load 0 5 :: repeat (Step 0) 3)
    (fst (acts (fun x => 2 * x) Z.add (repeat (Step 0) 2) (new_solver 1 0)))) =
  [(5, 6); (11, 6); (17, 34)].
Proof. reflexivity. Qed.
