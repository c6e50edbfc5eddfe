(** Runge-Kutta time stepping: tableaus, stage equations, factorisation cache. *)
From Coq Require Import Reals Lia Lra.
From stdpp Require Import list.
From Verif Require Import Multistep_Model RungeKutta_Model RungeKutta_Spec RungeKutta_Proofs RungeKuttaRun_Proofs.
Local Open Scope R_scope.

(** The tableaus and the orders their documentation states (RKSMR is documented as "(3-eps)-order"; see below). *)
Definition documented : list (tableau * nat) := [(RK111, 1%nat); (RK222, 2%nat); (RK443, 3%nat); (RKSMR, 2%nat); (RKGFY, 2%nat)].
Ltac each_tableau H :=
  unfold documented in H;
  repeat (apply elem_of_cons in H as [H|H]; [injection H as -> ->|]); [..|by apply elem_of_nil in H].

Lemma documented_shape tab p : (tab, p) ∈ documented -> well_shaped tab.
Proof. intros Hs. each_tableau Hs; (split; [simpl; lia|]); repeat (split; [repeat constructor|]); repeat constructor. Qed.

(** C15. *)
Theorem rk_tableaus tab p : (tab, p) ∈ documented ->
  let A := at_ (explicit tab) in let H := at_ (implicit tab) in let c := at1 (abscissae tab) in
  well_shaped tab /\ c (stages tab) = 1 /\
  (forall i j, (i <= j)%nat -> A i j = 0) /\ (forall i j, (i < j)%nat -> H i j = 0) /\
  (forall i, (i <= stages tab)%nat -> sum_lt (S (stages tab)) (A i) = c i /\ sum_lt (S (stages tab)) (H i) = c i) /\
  order_conditions (stages tab) A H p.
Proof.
  intros Hs. cbv zeta. split; [by eapply documented_shape|]. split; [each_tableau Hs; reflexivity|].
  assert (forall T n, length T = n -> Forall (fun r => length r = n) T -> forall i j, (n <= i \/ n <= j)%nat -> at_ T i j = 0) as Hout.
  { intros T n H1 H2 i j Hij. unfold at_, entry. destruct (T !! i) as [r|] eqn:E; cbn; [|done].
    rewrite lookup_ge_None_2; [done|]. pose proof (lookup_lt_Some _ _ _ E). rewrite Forall_lookup in H2. rewrite (H2 _ _ E). lia. }
  pose proof (documented_shape _ _ Hs) as (S0 & S1 & Sc0 & S2 & S3 & S4 & S5).
  pose proof (Hout _ _ S2 S3) as OA. pose proof (Hout _ _ S4 S5) as OH.
  split; [|split; [|split]].
  - intros i j Hij. destruct (decide (S (stages tab) <= j)%nat); [apply OA; lia|]. clear OA OH Hout S1 S2 S3 S4 S5 Sc0 S0.
    each_tableau Hs; simpl in n;
    destruct j as [|[|[|[|[|j]]]]]; try (exfalso; lia); destruct i as [|[|[|[|[|i]]]]]; first [exfalso; lia|reflexivity].
  - intros i j Hij. destruct (decide (S (stages tab) <= j)%nat); [apply OH; lia|]. clear OA OH Hout S1 S2 S3 S4 S5 Sc0 S0.
    each_tableau Hs; simpl in n;
    destruct j as [|[|[|[|[|j]]]]]; try (exfalso; lia); destruct i as [|[|[|[|[|i]]]]]; first [exfalso; lia|reflexivity].
  - intros i Hi. clear OA OH Hout S1 S2 S3 S4 S5 Sc0 S0.
    each_tableau Hs; simpl in Hi;
    destruct i as [|[|[|[|[|i]]]]]; first [exfalso; lia|unfold at_, at1, entry, RK222; simpl; split; lra].
  - each_tableau Hs; [apply RK111_order|apply RK222_order|apply RK443_order|apply RKSMR_order|apply RKGFY_order].
Qed.

(** RKSMR: the third-order conditions hold for every tree with an explicit root, coupling
    conditions included... *)
Theorem RKSMR_explicit_third_order t : colour t = false -> (order t <= 3)%nat ->
  step_weight 3 (at_ (explicit RKSMR)) (at_ (implicit RKSMR)) t = 1 / density t.
Proof. apply RKSMR_order3. Qed.
(** ... and fail for some with an implicit one: the method is not of order three. *)
Theorem RKSMR_third_order_refuted : ~ order_conditions 3 (at_ (explicit RKSMR)) (at_ (implicit RKSMR)) 3.
Proof.
  intros H. specialize (H (Node true [Node true [Node true []]]) ltac:(simpl; lia)). revert H.
  unfold step_weight, part, at_, entry. simpl. lra.
Qed.

Section Run.
  Context (tab : tableau) (sps : list nat) (M L : nat -> op)
          (rhs : R -> (nat -> vec) -> nat -> vec) (solve : op -> option op).
  Notation step := (rk_step tab sps M L rhs solve).
  Notation A := (at_ (explicit tab)).
  Notation H := (at_ (implicit tab)).
  Notation c := (at1 (abscissae tab)).

  (** Steppers reached by any sequence of attempted steps, including attempts that raise. *)
  Inductive rk_attempted : rk_stepper -> Prop :=
  | rk_attempted_start X0 t0 old : rk_attempted (rk_initial tab X0 t0 old)
  | rk_attempted_step s k s' ok : rk_attempted s -> step k s = (s', ok) -> rk_attempted s'.

  Definition rk_exact_solver := forall k sp inv, solve (op_add (M sp) k (L sp)) = Some inv ->
    forall v x, op_add (M sp) k (L sp) (inv v) x = v x.

  Lemma rk_attempted_inv s : NoDup sps -> rk_attempted s -> buffers_ok tab s /\ rk_cache_ok tab sps M L solve s.
  Proof.
    intros ND HA. induction HA as [X0 t0 old|s k s' ok HA [IB IC] E].
    - split; [apply buffers_initial|]. by intros k Hk.
    - split; [|by eapply rk_step_cache]. revert E. unfold rk_step. destruct (rk_LX s) as [|lx0 lx] eqn:El; [intros; by simplify_eq|].
      cbv zeta. set (s1 := RKStepper _ _ _ _ _ _ _ _ _ _). assert (buffers_ok tab s1) as B1.
      { destruct IB as (B1 & B2 & B3). rewrite El in B1, B3. by repeat split. }
      generalize (rk_time s). generalize (bool_decide (Some k ≠ rk_params s)). clearbody s1. clear -B1. intros u t.
      revert s1 B1. induction (seq 1 (stages tab)) as [|i is IH]; intros s1 B1 E; simpl in E; [by simplify_eq|].
      destruct (rk_stage _ _ _ _ _ _ _ _ _ _ _) as [s2 ok2] eqn:E2.
      assert (buffers_ok tab s2) as B2.
      { revert E2. unfold rk_stage. repeat case_match; intros; by simplify_eq. }
      destruct ok2; [by eapply IH|by simplify_eq].
  Qed.

  (** C16.  A successful step of size k from time t and state X computes stages Y_0 = X, ...,
      Y_s satisfying the documented equations, the explicit terms evaluated at the stage times;
      the new state is the last stage at time t + k c_s (= t + k for the documented tableaus);
      nothing outside the subproblems changes.  Any tableau, any number of stages. *)
  Theorem rk_stage_equations s k s' :
    well_shaped tab -> NoDup sps -> rk_exact_solver -> rk_attempted s -> step k s = (s', true) ->
    exists Y : nat -> nat -> vec, Y O = rk_X s /\ rk_X s' = Y (stages tab) /\
      rk_time s' = rk_time s + k * c (stages tab) /\
      (forall i sp x, (1 <= i <= stages tab)%nat -> sp ∈ sps ->
        M sp (Y i sp) x + k * H i i * L sp (Y i sp) x =
        M sp (Y O sp) x + sum_lt i (fun j => k * A i j * rhs (rk_time s + k * c j) (Y j) sp x - k * H i j * L sp (Y j sp) x)) /\
      (forall i sp, (i <= stages tab)%nat -> sp ∉ sps -> Y i sp = rk_X s sp).
  Proof.
    intros WS ND HE HA E. destruct (rk_attempted_inv s ND HA) as [B C].
    destruct (rk_step_spec tab sps M L rhs solve k s s' WS ND B C E) as (Y & (_ & I1 & I2 & _ & _ & _ & I3 & I4) & I5 & _).
    exists Y. split; [done|]. split; [done|]. split; [done|]. split.
    - intros i sp x Hi Hsp. destruct (I3 i Hi sp Hsp) as (inv & Q1 & Q2).
      pose proof (HE _ _ _ Q1) as Q3.
      match type of Q2 with _ = inv ?v => specialize (Q3 v x) end. rewrite <- Q2 in Q3. unfold op_add in Q3. done.
    - intros i sp Hi Hsp. rewrite I4 by done. by rewrite I5.
  Qed.

  (** C17, Runge-Kutta schemes.  Every stage of every successful step is solved with the
      factorisation of M + k H_ii L for the k of that step; matrices are refactorised exactly
      when k differs from the previous attempt's. *)
  Theorem rk_lhs_current s k s' : well_shaped tab -> NoDup sps -> rk_attempted s -> step k s = (s', true) ->
    (exists Y : nat -> nat -> vec, rk_X s' = Y (stages tab) /\
      forall i sp, (1 <= i <= stages tab)%nat -> sp ∈ sps -> exists inv r,
        solve (op_add (M sp) (k * H i i) (L sp)) = Some inv /\ Y i sp = inv r) /\
    (forall i sp inv, sp ∈ sps -> rk_solvers s' sp !! i = Some (Some inv) -> solve (op_add (M sp) (k * H i i) (L sp)) = Some inv) /\
    rk_factorisations s' = (rk_factorisations s + if decide (rk_params s = Some k) then 0 else 1)%nat /\
    rk_params s' = Some k.
  Proof.
    intros WS ND HA E. destruct (rk_attempted_inv s ND HA) as [B C].
    pose proof (rk_step_cache tab sps M L rhs solve k s s' _ ND C E) as C'.
    destruct (rk_step_spec tab sps M L rhs solve k s s' WS ND B C E) as (Y & (_ & I1 & I2 & _ & _ & _ & I3 & I4) & I5 & I6 & I7 & _).
    split; [|split; [|done]].
    - exists Y. split; [done|]. intros i sp Hi Hsp. destruct (I3 i Hi sp Hsp) as (inv & Q1 & Q2). by eexists _, _.
    - intros i sp inv Hsp Hi. destruct (C' k I6 sp Hsp i inv Hi) as (hii & Q1 & Q2). unfold at_. by rewrite Q1.
  Qed.

  (** Liveness: if the matrices can be factorised, no step of a run without exceptions raises. *)
  Inductive rk_run : rk_stepper -> Prop :=
  | rk_run_start X0 t0 old : rk_run (rk_initial tab X0 t0 old)
  | rk_run_step s k s' : rk_run s -> step k s = (s', true) -> rk_run s'.
  Lemma rk_run_attempted s : rk_run s -> rk_attempted s.
  Proof. induction 1; by econstructor. Qed.
  Theorem rk_step_succeeds s k : well_shaped tab -> NoDup sps -> rk_run s ->
    (forall sp j, sp ∈ sps -> (1 <= j <= stages tab)%nat -> solve (op_add (M sp) (k * H j j) (L sp)) <> None) ->
    exists s', step k s = (s', true).
  Proof.
    intros WS ND HR HT. destruct (rk_attempted_inv s ND (rk_run_attempted s HR)) as [B C].
    assert ((step k s).2 = true) as Q.
    { apply rk_step_total; try done. intros Hk. destruct HR as [|s0 k0 s1 HR E]; [done|].
      destruct (rk_attempted_inv s0 ND (rk_run_attempted s0 HR)) as [B0 C0].
      by destruct (rk_step_spec tab sps M L rhs solve k0 s0 s1 WS ND B0 C0 E) as (Y & _ & _ & _ & _ & ?). }
    destruct (step k s) as [s' ok]. simpl in Q. subst. by exists s'.
  Qed.
End Run.

(** Time after a step of a documented scheme. *)
Theorem rk_time_advances tab p sps M L rhs solve s k s' : (tab, p) ∈ documented -> NoDup sps ->
  rk_attempted tab sps M L rhs solve s -> rk_step tab sps M L rhs solve k s = (s', true) -> rk_time s' = rk_time s + k.
Proof.
  intros HD ND HA E. destruct (rk_attempted_inv _ _ _ _ _ _ s ND HA) as [B C].
  destruct (rk_step_spec tab sps M L rhs solve k s s' (documented_shape _ _ HD) ND B C E) as (Y & (_ & _ & I2 & _) & _).
  destruct (rk_tableaus _ _ HD) as (_ & Hc & _). rewrite I2, Hc. ring.
Qed.

(** ** Examples *)
Definition ex_M (sp : nat) : op := fun v => v.
Definition ex_L (sp : nat) : op := fun v i => INR (sp + 2) * v i.
Definition ex_rhs (t : R) (X : nat -> vec) (sp : nat) : vec := fun i => X sp i * X sp i + t.
Definition ex_solve (A : op) : option op :=
  let d := A (fun _ => 1) O in if Req_EM_T d 0 then None else Some (fun v i => v i / d).
Example ex_exact : rk_exact_solver ex_M ex_L ex_solve.
Proof.
  intros k sp inv E v x. unfold ex_solve in E. cbv zeta in E. destruct (Req_EM_T _ _) as [|Q]; [done|].
  injection E as <-. unfold op_add, ex_M, ex_L in *. field. lra.
Qed.
Example ex_ND : NoDup [0%nat; 1%nat].
Proof. apply NoDup_cons. split; [|apply NoDup_singleton]. intros [?|?%elem_of_nil]%elem_of_cons; done. Qed.
(** Two steps of RK443 with different sizes succeed. *)
Example run_ex : exists s s', rk_run RK443 [0; 1]%nat ex_M ex_L ex_rhs ex_solve s /\ rk_time s = 1 / 2 /\
  rk_step RK443 [0; 1]%nat ex_M ex_L ex_rhs ex_solve (1 / 4) s = (s', true).
Proof.
  assert ((RK443, 3%nat) ∈ documented) as HD by (unfold documented; repeat (first [by left|right])).
  pose proof (documented_shape _ _ HD) as WS.
  assert (forall k sp j, 0 < k -> (1 <= j <= 4)%nat -> ex_solve (op_add (ex_M sp) (k * at_ (implicit RK443) j j) (ex_L sp)) <> None) as HT.
  { intros k sp j Hk Hj. unfold ex_solve, op_add, ex_M, ex_L. cbv zeta. destruct (Req_EM_T _ _) as [Q|]; [|done]. exfalso.
    assert (at_ (implicit RK443) j j = 1 / 2) as E by (destruct j as [|[|[|[|[|j]]]]]; first [lia|reflexivity]). rewrite E in Q.
    pose proof (pos_INR (sp + 2)). assert (0 <= k * (1 / 2) * (INR (sp + 2) * 1)) by (apply Rmult_le_pos; lra). lra. }
  destruct (rk_step_succeeds RK443 [0; 1]%nat ex_M ex_L ex_rhs ex_solve (rk_initial RK443 (fun _ _ => 1) 0 (fun _ => [])) (1 / 2) WS ex_ND) as [s1 E1].
  - constructor.
  - intros. apply HT; [lra|done].
  - destruct (rk_step_succeeds RK443 [0; 1]%nat ex_M ex_L ex_rhs ex_solve s1 (1 / 4) WS ex_ND) as [s2 E2].
    + eapply rk_run_step; [apply rk_run_start|exact E1].
    + intros. apply HT; [lra|done].
    + exists s1, s2. split; [eapply rk_run_step; [apply rk_run_start|exact E1]|]. split; [|done].
      rewrite (rk_time_advances _ _ _ _ _ _ _ _ _ _ HD ex_ND (rk_attempted_start _ _ _ _ _ _ _ _ _) E1). simpl. ring.
Qed.

Print Assumptions rk_tableaus.
Print Assumptions RKSMR_explicit_third_order.
Print Assumptions RKSMR_third_order_refuted.
Print Assumptions rk_stage_equations.
Print Assumptions rk_lhs_current.
Print Assumptions rk_time_advances.
Print Assumptions rk_step_succeeds.
