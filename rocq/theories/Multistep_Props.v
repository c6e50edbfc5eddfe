(** Multistep time stepping: order of accuracy, use of the history, factorisation cache. *)
From Coq Require Import Reals Lia Lra.
From stdpp Require Import list.
From Verif Require Import Multistep_Model Multistep_Spec Multistep_Proofs MultistepRun_Proofs.
Local Open Scope R_scope.

(** The documented schemes and their orders. *)
Definition advertised : list (scheme * nat) :=
  [(CNAB1_scheme, 1%nat); (SBDF1_scheme, 1%nat); (CNAB2_scheme, 2%nat); (MCNAB2_scheme, 2%nat);
   (SBDF2_scheme, 2%nat); (CNLF2_scheme, 2%nat); (SBDF3_scheme, 3%nat); (SBDF4_scheme, 4%nat)].

Ltac each_scheme H :=
  unfold advertised in H;
  repeat (apply elem_of_cons in H as [H|H]; [injection H as -> ->|]); [..|by apply elem_of_nil in H].

Lemma past_recent h ks j : (j <= h)%nat -> (j <= length ks)%nat -> past (recent h ks) j = past ks j.
Proof.
  intros H1 H2. unfold past, recent. rewrite take_take. replace (j `min` h)%nat with j by lia.
  by rewrite take_app_le by lia.
Qed.
Lemma exact_recent n h ks a b c : (length a <= h + 1)%nat -> (length b <= h + 1)%nat -> (length c <= h + 1)%nat ->
  (length a <= length ks + 1)%nat -> (length b <= length ks + 1)%nat -> (length c <= length ks + 1)%nat ->
  exact_to_order n (recent h ks) a b c -> exact_to_order n ks a b c.
Proof.
  intros ?????? (H1 & H2). split; [|done]. intros p Hp. destruct (H1 p Hp) as [E1 E2].
  assert (forall w f, (length w <= h + 1)%nat -> (length w <= length ks + 1)%nat ->
    weighted w (fun j => f (past ks j)) = weighted w (fun j => f (past (recent h ks) j))) as G.
  { intros w f ??. apply weighted_ext_lt. intros j Hj. by rewrite past_recent by lia. }
  by rewrite !G by done.
Qed.

(** C13.  After [i] completed steps, whatever the (positive) step sizes were, the coefficients
    of the next step are defined, refer to at most the states that exist, and are exact of order
    min(i+1, advertised order): full order as soon as enough history exists, the lower-order
    members of the family before that. *)
Theorem multistep_order sch p ks i :
  (sch, p) ∈ advertised -> Forall (fun k => 0 < k) ks -> length ks = (i + 1)%nat ->
  exists a b c, compute_coefficients sch (recent (history sch) ks) i = Some (a, b, c) /\
    length a = (Nat.min (i + 1) p + 1)%nat /\ length b = length a /\ length c = length a /\
    exact_to_order (Nat.min (i + 1) p) ks a b c.
Proof.
  intros Hs Hk HL.
  assert (forall q,
    (exists a b c, compute_coefficients sch (recent (history sch) ks) i = Some (a, b, c) /\
       length a = (q + 1)%nat /\ length b = (q + 1)%nat /\ length c = (q + 1)%nat /\
       exact_to_order q (recent (history sch) ks) a b c) ->
    history sch = p -> q = Nat.min (i + 1) p ->
    exists a b c, compute_coefficients sch (recent (history sch) ks) i = Some (a, b, c) /\
    length a = (Nat.min (i + 1) p + 1)%nat /\ length b = length a /\ length c = length a /\
    exact_to_order (Nat.min (i + 1) p) ks a b c) as G.
  { intros q (a & b & c & E & La & Lb & Lc & HE) Hh ->. exists a, b, c. split; [done|]. split; [done|].
    split; [congruence|]. split; [congruence|]. eapply exact_recent; [..|exact HE]; rewrite ?La, ?Lb, ?Lc; lia. }
  destruct i as [|[|[|i]]].
  - destruct ks as [|k0 [|? ?]]; simpl in HL; try lia. apply Forall_cons in Hk as [K0 _].
    each_scheme Hs; (apply (G 1%nat); [|done|done]); unfold recent; simpl.
    + by apply (CNAB1_order _ _ 0).
    + by apply (SBDF1_order _ _ 0).
    + by apply (CNAB1_order _ _ 0).
    + by apply (CNAB1_order _ _ 0).
    + by apply (SBDF1_order _ _ 0).
    + by apply (CNAB1_order _ _ 0).
    + by apply (SBDF1_order _ _ 0).
    + by apply (SBDF1_order _ _ 0).
  - destruct ks as [|k1 [|k0 [|? ?]]]; simpl in HL; try lia. rewrite !Forall_cons in Hk. destruct Hk as (K1 & K0 & _).
    each_scheme Hs; first [apply (G 1%nat); [|done|done] | apply (G 2%nat); [|done|done]]; unfold recent; simpl.
    + by apply (CNAB1_order _ _ 1).
    + by apply (SBDF1_order _ _ 1).
    + by apply (CNAB2_order _ _ _ 0).
    + by apply (MCNAB2_order _ _ _ 0).
    + by apply (SBDF2_order _ _ _ 0).
    + by apply (CNLF2_order _ _ _ 0).
    + by apply (SBDF2_order _ _ _ 0).
    + by apply (SBDF2_order _ _ _ 0).
  - destruct ks as [|k2 [|k1 [|k0 [|? ?]]]]; simpl in HL; try lia. rewrite !Forall_cons in Hk. destruct Hk as (K2 & K1 & K0 & _).
    each_scheme Hs; first [apply (G 1%nat); [|done|done] | apply (G 2%nat); [|done|done]| apply (G 3%nat); [|done|done]]; unfold recent; simpl.
    + by apply (CNAB1_order _ _ 2).
    + by apply (SBDF1_order _ _ 2).
    + by apply (CNAB2_order _ _ _ 1).
    + by apply (MCNAB2_order _ _ _ 1).
    + by apply (SBDF2_order _ _ _ 1).
    + by apply (CNLF2_order _ _ _ 1).
    + by apply (SBDF3_order _ _ _ _ 0).
    + by apply (SBDF3_order _ _ _ _ 0).
  - destruct ks as [|k3 [|k2 [|k1 [|k0 r]]]]; simpl in HL; try lia. rewrite !Forall_cons in Hk. destruct Hk as (K3 & K2 & K1 & K0 & _).
    each_scheme Hs; first [apply (G 1%nat); [|done|simpl; lia] | apply (G 2%nat); [|done|simpl; lia]| apply (G 3%nat); [|done|simpl; lia]| apply (G 4%nat); [|done|simpl; lia]]; unfold recent; simpl.
    + by apply (CNAB1_order _ _ (S (S (S i)))).
    + by apply (SBDF1_order _ _ (S (S (S i)))).
    + by apply (CNAB2_order _ _ _ (S (S i))).
    + by apply (MCNAB2_order _ _ _ (S (S i))).
    + by apply (SBDF2_order _ _ _ (S (S i))).
    + by apply (CNLF2_order _ _ _ (S (S i))).
    + by apply (SBDF3_order _ _ _ _ (S i)).
    + by apply (SBDF4_order _ _ _ _ _ i).
Qed.

Lemma scheme_lengths sch p : (sch, p) ∈ advertised ->
  (0 < history sch)%nat /\ forall ks i a b c, compute_coefficients sch ks i = Some (a, b, c) ->
    (2 <= length c)%nat /\ (1 <= length a)%nat /\ (1 <= length b)%nat /\
    (length a <= Nat.min (i + 1) (history sch) + 1)%nat /\
    (length b <= Nat.min (i + 1) (history sch) + 1)%nat /\
    (length c <= Nat.min (i + 1) (history sch) + 1)%nat /\ c !! 0%nat = Some 0.
Proof.
  intros Hs. each_scheme Hs; simpl; (split; [lia|]); intros ks i a b c E;
    cbv [CNAB1 SBDF1 CNAB2 MCNAB2 SBDF2 CNLF2 SBDF3 SBDF4] in E;
    repeat (case_decide; [|]); repeat (case_match; simplify_eq); simpl; repeat split; lia.
Qed.

Lemma leading_positive sch p ks i a b c : (sch, p) ∈ advertised -> Forall (fun k => 0 < k) ks -> length ks = (i + 1)%nat ->
  compute_coefficients sch (recent (history sch) ks) i = Some (a, b, c) ->
  exists a0 b0, a !! 0%nat = Some a0 /\ b !! 0%nat = Some b0 /\ 0 < a0 /\ 0 < b0.
Proof.
  intros Hs HK HL.
  destruct ks as [|k3 [|k2 [|k1 [|k0 r]]]]; simpl in HL; [lia|..]; rewrite ?Forall_cons in HK;
    repeat match goal with H : _ /\ _ |- _ => destruct H end.
  1: assert (i = 0%nat) as -> by lia. 2: assert (i = 1%nat) as -> by lia. 3: assert (i = 2%nat) as -> by lia.
  4: assert (exists j, i = S (S (S j))) as [j ->] by (exists (i - 3)%nat; lia).
  all: each_scheme Hs; unfold recent; simpl; intros E; injection E as <- <- <-; eexists _, _; do 2 (split; [done|]); split; pos.
Qed.

(** Runs of a time stepper: [H] lists the (time, state) pairs from which the steps were made and
    [ks] the step sizes, both newest first. *)
Inductive run (sch : scheme) sps M L rhs solve : stepper -> states -> list R -> Prop :=
| run_start X0 t0 old : run sch sps M L rhs solve (initial sch X0 t0 old) [] []
| run_step s H ks dt s' : run sch sps M L rhs solve s H ks -> step sch sps M L rhs solve dt s = (s', true) ->
    run sch sps M L rhs solve s' ((sim_time s, X s) :: H) (dt :: ks).

Section Run.
  Context (sch : scheme) (p : nat) (sps : list nat) (M L : nat -> op)
          (rhs : R -> (nat -> vec) -> nat -> vec) (solve : op -> option op).
  Notation run := (run sch sps M L rhs solve).
  Notation step := (step sch sps M L rhs solve).
  (** The library solver returns solutions. *)
  Definition exact_solver := forall a0 b0 sp inv, solve (op_comb a0 (M sp) b0 (L sp)) = Some inv ->
    forall v i, op_comb a0 (M sp) b0 (L sp) (inv v) i = v i.

  Lemma run_inv s H ks : (sch, p) ∈ advertised -> NoDup sps -> run s H ks ->
    history_ok sch sps M L rhs s H ks /\ cache_ok sps M L solve s.
  Proof.
    intros Hs ND HR. destruct (scheme_lengths sch p Hs) as [HP HLn]. induction HR.
    - split; [apply initial_history|]. intros a0 b0 E. done.
    - destruct (IHHR) as [I1 I2]. split; [|by eapply step_cache_ok].
      eapply (step_history sch sps M L rhs solve HP); try done.
      intros ? ? ? ? ? E. destruct (HLn _ _ _ _ _ E) as (?&?&?&?&?&?&?). tauto.
  Qed.

  (** C14.  The new state satisfies the documented multistep equation: every past state, and the
      right-hand side evaluated at its time, enters with its own coefficient, newest first; no
      state older than the start of the run is used.  States of subproblems outside the system
      are unchanged and time advances by dt. *)
  Theorem multistep_equation s H ks dt s' :
    (sch, p) ∈ advertised -> NoDup sps -> exact_solver -> run s H ks -> step dt s = (s', true) ->
    exists a b c, compute_coefficients sch (recent (history sch) (dt :: ks)) (length ks) = Some (a, b, c) /\
      let S := (sim_time s', X s') :: (sim_time s, X s) :: H in
      (length a <= length S)%nat /\ (length b <= length S)%nat /\ (length c <= length S)%nat /\
      (forall sp, sp ∈ sps -> forall i,
        weighted a (fun j => M sp ((nth_state S j).2 sp) i) + weighted b (fun j => L sp ((nth_state S j).2 sp) i)
        = weighted c (fun j => rhs (nth_state S j).1 (nth_state S j).2 sp i)) /\
      (forall sp, sp ∉ sps -> X s' sp = X s sp) /\
      sim_time s' = sim_time s + dt.
  Proof.
    intros Hs ND HE HR Hst. destruct (run_inv s H ks Hs ND HR) as [I1 I2].
    destruct (scheme_lengths sch p Hs) as [HP HLn].
    destruct (step_history sch sps M L rhs solve HP) with (dt := dt) (s := s) (s' := s') (H := H) (ks := ks)
      as (J1 & J2 & J3 & a & b & c & a0 & b0 & E & Ea & Eb & _ & _ & J4); try done.
    { intros ? ? ? ? ? E. destruct (HLn _ _ _ _ _ E) as (?&?&?&?&?&?&?). tauto. }
    exists a, b, c. split; [done|]. cbv zeta.
    destruct (HLn _ _ _ _ _ E) as (L1 & L2 & L3 & L4 & L5 & L6 & L7).
    assert (length H = length ks) as HH by (destruct I1; tauto).
    simpl. split; [lia|]. split; [lia|]. split; [lia|]. split; [|done].
    intros sp Hsp i. destruct (J4 sp Hsp) as (inv & S1 & S2).
    destruct a as [|a0' a]; [simpl in L2; lia|]. destruct b as [|b0' b]; [simpl in L3; lia|].
    destruct c as [|c0 c]; [simpl in L1; lia|]. cbn in Ea, Eb, L7. simplify_eq. cbn [tail] in S2.
    rewrite !weighted_cons_S.
    change (nth_state ((sim_time s', X s') :: (sim_time s, X s) :: H) 0) with (sim_time s', X s'). cbn [fst snd].
    pose proof (HE _ _ _ _ S1) as HE1. match type of S2 with _ = inv ?v => pose proof (HE1 v i) as HE2 end. rewrite <- S2 in HE2. unfold op_comb in HE2.
    assert (forall w g, weighted w (fun j => g (nth_state ((sim_time s', X s') :: (sim_time s, X s) :: H) (S j)))
       = weighted w (fun j => g (nth_state ((sim_time s, X s) :: H) j))) as HW by done.
    rewrite (HW a (fun x => M sp (x.2 sp) i)), (HW b (fun x => L sp (x.2 sp) i)), (HW c (fun x => rhs x.1 x.2 sp i)).
    lra.
  Qed.

  (** Every sequence of attempted steps, including attempts that raise. *)
  Inductive attempted : stepper -> Prop :=
  | attempted_start X0 t0 old : attempted (initial sch X0 t0 old)
  | attempted_step s dt s' ok : attempted s -> step dt s = (s', ok) -> attempted s'.

  (** C17, multistep schemes.  In every successful step each subproblem is solved with the
      factorisation of the matrix of that very step, whatever happened before (including failed
      factorisations and solvers left by other steppers); matrices are refactorised exactly when
      the leading coefficients changed. *)
  Theorem multistep_lhs_current s dt s' : NoDup sps -> attempted s -> step dt s = (s', true) ->
    exists a b c a0 b0, compute_coefficients sch (dts s') (iteration s) = Some (a, b, c) /\
      a !! 0%nat = Some a0 /\ b !! 0%nat = Some b0 /\
      (forall sp, sp ∈ sps -> exists inv, solve (op_comb a0 (M sp) b0 (L sp)) = Some inv /\ X s' sp = inv (heap s' (RHS s') sp)) /\
      factorisations s' = (factorisations s + if decide (LHS_params s = Some (a0, b0)) then 0 else 1)%nat /\
      LHS_params s' = Some (a0, b0).
  Proof.
    intros ND HA Hst.
    assert (cache_ok sps M L solve s) as HC.
    { clear Hst. induction HA; [by intros ???|]. by eapply step_cache_ok. }
    destruct (step_lhs _ _ _ _ _ _ _ _ _ ND HC Hst) as (a & b & c & a0 & b0 & E1 & E2 & E3 & E4 & E5 & E6).
    exists a, b, c, a0, b0. do 3 (split; [done|]). split; [|done].
    intros sp Hsp. destruct (E6 sp Hsp) as (inv & ? & ? & ?). by exists inv.
  Qed.
  (** Liveness: with positive steps and factorisable matrices no step raises. *)
  Theorem multistep_step_succeeds s H ks dt :
    (sch, p) ∈ advertised -> NoDup sps -> run s H ks -> Forall (fun k => 0 < k) (dt :: ks) ->
    (forall a0 b0 sp, 0 < a0 -> 0 < b0 -> sp ∈ sps -> solve (op_comb a0 (M sp) b0 (L sp)) <> None) ->
    exists s', step dt s = (s', true).
  Proof.
    intros Hs ND HR HK HT.
    destruct (run_inv _ _ _ Hs ND HR) as [(L1 & L2 & L3 & HD & Hdt & Hit & HH & HB) HC].
    destruct (scheme_lengths _ _ Hs) as [HP HLn].
    destruct (multistep_order sch p (dt :: ks) (length ks) Hs HK) as (a & b & c & E & _); [simpl; lia|].
    destruct (HLn _ _ _ _ _ E) as (Q1 & Q2 & Q3 & Q4 & Q5 & Q6 & Q7).
    assert (forall x : stepper * bool, snd x = true -> exists s', x = (s', true)) as Hx.
    { intros [s' ok] ?. simpl in *. subst. by exists s'. }
    apply Hx. clear Hx. unfold Multistep_Model.step. cbv zeta. rewrite Hdt, recent_step, Hit, E by done.
    assert (forall l : list nat, length l = history sch -> exists x l', rotate l = x :: l' /\ length l' + 1 = history sch)%nat as HR1.
    { intros l Hl. destruct (rotate_spec l) as (l' & x & -> & ->); [intros ->; simpl in Hl; lia|].
      exists x, l'. split; [done|]. rewrite app_length in Hl. simpl in Hl. lia. }
    pose proof HD as HD2. rewrite <- (rotate_perm (MX s)), <- (rotate_perm (LX s)), <- (rotate_perm (F s)) in HD2.
    destruct (HR1 _ L1) as (mx0 & mx & Em & Lm). destruct (HR1 _ L2) as (lx0 & lx & El & Ll). destruct (HR1 _ L3) as (f0 & f & Ef & Lf).
    rewrite Em, El, Ef in *.
    destruct a as [|a0 a]; [simpl in Q2; lia|]. destruct b as [|b0 b]; [simpl in Q3; lia|].
    destruct c as [|c0 [|c1 c]]; [simpl in Q1; lia|simpl in Q1; lia|]. simpl length in *.
    apply NoDup_cons in HD2 as [Hn _]. rewrite !elem_of_app, !elem_of_cons in Hn.
    unfold build_RHS. cbv zeta. cbn [tail].
    match goal with |- context [accumulate 1 c f ?o ?h] => destruct (accumulate_spec 1 c f o h) as (h3 & -> & _ & _); [lia|tauto|] end.
    cbn [mbind option_bind].
    match goal with |- context [accumulate (-1) a ?l ?o ?h] => destruct (accumulate_spec (-1) a l o h) as (h4 & -> & _ & _); [simpl; lia|rewrite elem_of_cons; tauto|] end.
    cbn [mbind option_bind].
    match goal with |- context [accumulate (-1) b ?l ?o ?h] => destruct (accumulate_spec (-1) b l o h) as (h5 & -> & _ & _); [simpl; lia|rewrite elem_of_cons; tauto|] end.
    match goal with |- context [solve_loop ?M ?L ?sv ?t ?u ?a ?b ?r ?s0 ?X] => assert ((solve_loop M L sv t u a b r s0 X).2 = true) as HF end.
    2:{ destruct (solve_loop _ _ _ _ _ _ _ _ _ _) as [[? ?] ok]. done. }
    destruct (leading_positive sch p _ (length ks) _ _ _ Hs HK ltac:(simpl; lia) E) as (? & ? & [= <-] & [= <-] & P1 & P2).
    apply solve_loop_total; [by intros; apply HT|]. case_bool_decide as HU; [done|]. intros _.
    assert (Some (a0, b0) = LHS_params s) as EP by (destruct (decide (Some (a0, b0) = LHS_params s)); [done|exfalso; auto]).
    (* the cached solvers exist: they were stored by the successful step that set the parameters *)
    destruct HR as [|s0 H0 ks0 dt0 s1 HR0 Hst0]; [done|].
    destruct (run_inv _ _ _ Hs ND HR0) as [_ HC0].
    destruct (step_lhs _ _ _ _ _ _ _ _ _ ND HC0 Hst0) as (? & ? & ? & ? & ? & _ & _ & _ & _ & _ & HS).
    intros sp Hsp. destruct (HS sp Hsp) as (inv & _ & _ & ->). done.
  Qed.
End Run.

(** ** Examples *)
Example advertised_ex : (SBDF3_scheme, 3%nat) ∈ advertised.
Proof. unfold advertised. repeat (first [by left|right]). Qed.
(** Order three at the third step with unequal steps, instantiated. *)
Example order_ex : exists a b c, SBDF3 [1 / 4; 1 / 2; 1] 2 = Some (a, b, c) /\ exact_to_order 3 [1 / 4; 1 / 2; 1] a b c.
Proof.
  destruct (multistep_order SBDF3_scheme 3 [1 / 4; 1 / 2; 1] 2 advertised_ex) as (a & b & c & E & _ & _ & _ & H).
  - repeat constructor; lra.
  - done.
  - by exists a, b, c.
Qed.

(** A system with two subproblems of one unknown each: M = 1, L = 2 and 3, F = X^2 + t; the
    solver divides by the diagonal entry and fails if it vanishes. *)
Definition ex_M (sp : nat) : op := fun v => v.
Definition ex_L (sp : nat) : op := fun v i => INR (sp + 2) * v i.
Definition ex_rhs (t : R) (X : nat -> vec) (sp : nat) : vec := fun i => X sp i * X sp i + t.
Definition ex_solve (A : op) : option op :=
  let d := A (fun _ => 1) O in if Req_EM_T d 0 then None else Some (fun v i => v i / d).
Definition ex_X0 : nat -> vec := fun sp i => 1.

Example ex_ND : NoDup [0%nat; 1%nat].
Proof. apply NoDup_cons. split; [|apply NoDup_singleton]. intros [?|?%elem_of_nil]%elem_of_cons; done. Qed.
(** Steps of sizes 1/2, 1/4, 1/8 of SBDF2 succeed: the hypotheses of the theorems are met. *)
Example run_ex : exists s H s', run SBDF2_scheme [0; 1]%nat ex_M ex_L ex_rhs ex_solve s H [1 / 4; 1 / 2] /\
  step SBDF2_scheme [0; 1]%nat ex_M ex_L ex_rhs ex_solve (1 / 8) s = (s', true).
Proof.
  assert ((SBDF2_scheme, 2%nat) ∈ advertised) as HA by (unfold advertised; repeat (first [by left|right])).
  assert (forall s H ks dt, run SBDF2_scheme [0; 1]%nat ex_M ex_L ex_rhs ex_solve s H ks -> Forall (fun k => 0 < k) (dt :: ks) ->
    exists s', step SBDF2_scheme [0; 1]%nat ex_M ex_L ex_rhs ex_solve dt s = (s', true)) as G.
  { intros. eapply multistep_step_succeeds; try done; [apply ex_ND|]. intros a0 b0 sp P1 P2 _. unfold ex_solve. cbv zeta.
    destruct (Req_EM_T _ _) as [Q|]; [|done]. exfalso. unfold op_comb, ex_M, ex_L in Q. pose proof (pos_INR (sp + 2)).
    assert (0 <= b0 * (INR (sp + 2) * 1)) by (apply Rmult_le_pos; lra). lra. }
  destruct (G _ _ _ (1 / 2) (run_start _ _ _ _ _ _ ex_X0 0 (fun _ => None))) as [s1 E1]; [repeat constructor; lra|].
  pose proof (run_step _ _ _ _ _ _ _ _ _ _ _ (run_start _ _ _ _ _ _ _ _ _) E1) as R1.
  destruct (G _ _ _ (1 / 4) R1) as [s2 E2]; [repeat constructor; lra|].
  pose proof (run_step _ _ _ _ _ _ _ _ _ _ _ R1 E2) as R2.
  destruct (G _ _ _ (1 / 8) R2) as [s3 E3]; [repeat constructor; lra|].
  by eexists _, _, _.
Qed.
(** The solver of this example is exact. *)
Example ex_solver_exact : exact_solver ex_M ex_L ex_solve.
Proof.
  intros a0 b0 sp inv E v i. unfold ex_solve in E. cbv zeta in E. destruct (Req_EM_T _ _) as [|Q]; [done|].
  injection E as <-. unfold op_comb, ex_M, ex_L in *. field. lra.
Qed.

Print Assumptions multistep_order.
Print Assumptions multistep_equation.
Print Assumptions multistep_lhs_current.
Print Assumptions multistep_step_succeeds.
