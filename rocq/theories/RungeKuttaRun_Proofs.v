From Coq Require Import Reals Lia Lra FunctionalExtensionality.
From stdpp Require Import list.
From Verif Require Import Multistep_Model Multistep_Spec Multistep_Proofs MultistepRun_Proofs.
From Verif Require Import RungeKutta_Model RungeKutta_Spec RungeKutta_Proofs.
Local Open Scope R_scope.

Lemma sum_lt_ext n f g : (forall j, (j < n)%nat -> f j = g j) -> sum_lt n f = sum_lt n g.
Proof. induction n as [|n IH]; intros H; simpl; [done|]. rewrite H by lia. f_equal. apply IH. intros. apply H. lia. Qed.

Lemma foldr_app_plus (f : nat -> R) l1 l2 :
  foldr (fun j acc => f j + acc) 0 (l1 ++ l2) = foldr (fun j acc => f j + acc) 0 l1 + foldr (fun j acc => f j + acc) 0 l2.
Proof. induction l1 as [|x l1 IH]; simpl; [ring|]. rewrite IH. ring. Qed.
Lemma foldr_sum_lt n f : foldr (fun j acc => f j + acc) 0 (seq 0 n) = sum_lt n f.
Proof.
  induction n as [|n IH]; [done|]. rewrite seq_S, foldr_app_plus, IH. simpl. ring.
Qed.

Lemma entry_Some A n i j : length A = n -> Forall (fun r => length r = n) A -> (i < n)%nat -> (j < n)%nat ->
  entry A i j = Some (at_ A i j).
Proof.
  intros H1 H2 Hi Hj. unfold at_. destruct (entry A i j) eqn:E; [done|]. exfalso. unfold entry in E.
  destruct (lookup_lt_is_Some_2 A i) as [r Hr]; [lia|]. rewrite Hr in E. cbn in E.
  rewrite Forall_lookup in H2. specialize (H2 _ _ Hr). destruct (lookup_lt_is_Some_2 r j) as [x Hx]; [lia|]. congruence.
Qed.

Section Run.
  Context (tab : tableau) (sps : list nat) (M L : nat -> op)
          (rhs : R -> (nat -> vec) -> nat -> vec) (solve : op -> option op).
  Notation A := (at_ (explicit tab)).
  Notation H := (at_ (implicit tab)).
  Notation c := (at1 (abscissae tab)).

  Lemma accumulate_rk_spec k i js LX F out h : well_shaped tab -> (i <= stages tab)%nat ->
    length LX = stages tab -> length F = stages tab -> out ∉ LX -> out ∉ F ->
    Forall (fun j => (j < stages tab)%nat) js ->
    exists h', rk_accumulate tab k i js LX F out h = Some h' /\ (forall id, id <> out -> h' id = h id) /\
      forall sp x, h' out sp x = h out sp x + foldr (fun j acc =>
        (k * A i j * match F !! j with Some id => h id sp x | None => 0 end
         - k * H i j * match LX !! j with Some id => h id sp x | None => 0 end) + acc) 0 js.
  Proof.
    intros (S0 & S1 & _ & S2 & S3 & S4 & S5) Hi LL LF OL OF. revert h.
    induction js as [|j js IH]; intros h Hj.
    { exists h. simpl. split; [done|]. split; [done|]. intros. ring. }
    apply Forall_cons in Hj as [Hj Hjs]. cbn [rk_accumulate].
    rewrite (entry_Some _ _ i j S2 S3) by lia. cbn [mbind option_bind].
    destruct (lookup_lt_is_Some_2 F j) as [f Hf]; [lia|]. rewrite Hf. cbn [mbind option_bind].
    rewrite (entry_Some _ _ i j S4 S5) by lia. cbn [mbind option_bind].
    destruct (lookup_lt_is_Some_2 LX j) as [l Hl]; [lia|]. rewrite Hl. cbn [mbind option_bind].
    assert (f <> out) as Nf by (intros ->; apply OF; by eapply elem_of_list_lookup_2).
    assert (l <> out) as Nl by (intros ->; apply OL; by eapply elem_of_list_lookup_2).
    match goal with |- context [rk_accumulate _ _ _ _ _ _ _ ?h2] => destruct (IH h2 Hjs) as (h' & -> & E1 & E2); set (hh := h2) in * end.
    assert (forall id, id <> out -> hh id = h id) as Hhh.
    { intros id Hid. unfold hh, write_all. by rewrite !decide_False. }
    exists h'. split; [done|]. split; [intros id Hid; by rewrite E1, Hhh|].
    intros sp x. rewrite E2. cbn [foldr]. rewrite Hf, Hl.
    assert (hh out sp x = h out sp x + (k * A i j * h f sp x - k * H i j * h l sp x)) as ->.
    { unfold hh, write_all, axpy. cbv beta. repeat first [rewrite (decide_True (P := out = out)) by done | rewrite (decide_False (P := l = out)) by done]. ring. }
    assert (forall js0, foldr (fun j acc =>
        (k * A i j * match F !! j with Some id => hh id sp x | None => 0 end
         - k * H i j * match LX !! j with Some id => hh id sp x | None => 0 end) + acc) 0 js0 =
        foldr (fun j acc =>
        (k * A i j * match F !! j with Some id => h id sp x | None => 0 end
         - k * H i j * match LX !! j with Some id => h id sp x | None => 0 end) + acc) 0 js0) as ->.
    { induction js0 as [|j0 js0 IH0]; [done|]. cbn [foldr]. rewrite IH0. f_equal. f_equal; [f_equal|f_equal; f_equal].
      - destruct (F !! j0) as [id|] eqn:E0; [|done]. rewrite Hhh; [done|]. intros ->. apply OF. by eapply elem_of_list_lookup_2.
      - destruct (LX !! j0) as [id|] eqn:E0; [|done]. rewrite Hhh; [done|]. intros ->. apply OL. by eapply elem_of_list_lookup_2. }
    ring.
  Qed.

  (** ** Factorised matrices *)
  Definition solvers_ok (k : R) (solvers : nat -> list (option op)) : Prop :=
    forall sp, sp ∈ sps -> forall i inv, solvers sp !! i = Some (Some inv) ->
      exists hii, entry (implicit tab) i i = Some hii /\ solve (op_add (M sp) (k * hii) (L sp)) = Some inv.
  Definition rk_cache_ok (s : rk_stepper) : Prop := forall k, rk_params s = Some k -> solvers_ok k (rk_solvers s).

  Lemma rk_solve_loop_frame todo update i k r s2 X0 s' X' ok p :
    rk_solve_loop M L solve todo update i k r s2 X0 = (s', X', ok) -> p ∉ todo -> s' p = s2 p.
  Proof.
    revert s2 X0. induction todo as [|q todo IH]; intros s2 X0 E Hp; simpl in E; [by simplify_eq|].
    apply not_elem_of_cons in Hp as [Hq Hp]. destruct update.
    - destruct (solve _) as [inv|]; [|by simplify_eq].
      destruct (upd q (<[i:=Some inv]> (s2 q)) s2 q !! i) as [[inv'|]|].
      + apply IH in E; [|done]. rewrite E. unfold upd. by rewrite decide_False.
      + simplify_eq. unfold upd. by rewrite decide_False.
      + simplify_eq. unfold upd. by rewrite decide_False.
    - destruct (s2 q !! i) as [[inv'|]|]; [by eapply IH|by simplify_eq|by simplify_eq].
  Qed.
  Lemma rk_solve_loop_spec todo update i k hii r solvers X solvers' X' ok :
    rk_solve_loop M L solve todo update i (k * hii) r solvers X = (solvers', X', ok) ->
    entry (implicit tab) i i = Some hii -> (forall sp, sp ∈ todo -> sp ∈ sps) ->
    NoDup todo -> solvers_ok k solvers ->
    solvers_ok k solvers' /\ (forall sp, sp ∉ todo -> X' sp = X sp) /\
    (forall sp, length (solvers' sp) = length (solvers sp)) /\
    (forall sp j, j <> i -> solvers' sp !! j = solvers sp !! j) /\
    (ok = true -> forall sp, sp ∈ todo -> exists inv, solve (op_add (M sp) (k * hii) (L sp)) = Some inv /\ X' sp = inv (r sp) /\
      solvers' sp !! i = Some (Some inv)).
  Proof.
    intros E Hh. revert solvers X E. induction todo as [|p todo IH]; intros solvers X0 E Hsub ND HS.
    { simpl in E. simplify_eq. repeat (split; [done|]). by intros _ ? ?%elem_of_nil. }
    apply NoDup_cons in ND as [Hp ND]. simpl in E.
    set (built := if update then _ else _) in E.
    assert (match built with None => True | Some s2 => solvers_ok k s2 /\ (forall sp, length (s2 sp) = length (solvers sp)) /\
       (forall sp j, j <> i -> s2 sp !! j = solvers sp !! j) end) as HB.
    { subst built. destruct update; [|by split].
      destruct (solve _) as [inv|] eqn:Es; [|done]. split; [|split].
      - intros sp Hsp j inv' Hj. unfold upd in Hj. destruct (decide (sp = p)) as [->|]; [|by apply HS].
        destruct (decide (j = i)) as [->|].
        + rewrite list_lookup_insert in Hj.
          * simplify_eq. by exists hii.
          * destruct (decide (i < length (solvers p))%nat); [done|]. rewrite list_insert_ge in Hj by lia.
            apply lookup_lt_Some in Hj. lia.
        + rewrite list_lookup_insert_ne in Hj by done. by apply HS.
      - intros sp. unfold upd. case_decide; [subst; by rewrite insert_length|done].
      - intros sp j Hj. unfold upd. case_decide; [subst; by rewrite list_lookup_insert_ne|done]. }
    destruct built as [s2|]; [|simplify_eq; done]. destruct HB as (HB1 & HB2 & HB3).
    destruct (s2 p !! i) as [[inv|]|] eqn:Ep.
    - pose proof E as E0. apply IH in E as (E1 & E2 & E3 & E4 & E5); [|intros sp ?; apply Hsub; by right|done|done].
      split; [done|]. split; [|split; [by intros; rewrite E3, HB2|split; [by intros; rewrite E4, HB3|]]].
      + intros sp Hsp. apply not_elem_of_cons in Hsp as [Hne Hsp]. rewrite (E2 sp Hsp). unfold upd. by rewrite decide_False.
      + intros -> sp Hsp. apply elem_of_cons in Hsp as [->|Hsp]; [|by apply E5].
        destruct (HB1 p (Hsub p ltac:(by left)) i inv Ep) as (hii' & Q1 & Q2). rewrite Hh in Q1. simplify_eq.
        exists inv. split; [done|]. split; [rewrite E2 by done; unfold upd; by rewrite decide_True|].
        rewrite (rk_solve_loop_frame _ _ _ _ _ _ _ _ _ _ p E0 Hp). done.
    - simplify_eq. done.
    - simplify_eq. done.
  Qed.

  (** ** Stages *)
  Definition buffers_ok (s : rk_stepper) : Prop :=
    length (rk_LX s) = stages tab /\ length (rk_F s) = stages tab /\
    NoDup (rk_RHS s :: rk_MX0 s :: rk_LX s ++ rk_F s).

  Definition stage_inv (k t0 : R) (Y : nat -> nat -> vec) (i : nat) (s : rk_stepper) : Prop :=
    buffers_ok s /\ rk_X s = Y i /\ rk_time s = t0 + k * c i /\
    (forall sp, sp ∈ sps -> rk_heap s (rk_MX0 s) sp = M sp (Y O sp)) /\
    (forall sp, sp ∈ sps -> forall j id, (j < i \/ j = 0)%nat -> rk_LX s !! j = Some id -> rk_heap s id sp = L sp (Y j sp)) /\
    (forall sp, sp ∈ sps -> forall j id, (j < i)%nat -> rk_F s !! j = Some id -> rk_heap s id sp = rhs (t0 + k * c j) (Y j) sp) /\
    (forall j, (1 <= j <= i)%nat -> forall sp, sp ∈ sps -> exists inv, solve (op_add (M sp) (k * H j j) (L sp)) = Some inv /\
       Y j sp = inv (fun x => M sp (Y O sp) x +
         sum_lt j (fun l => k * A j l * rhs (t0 + k * c l) (Y l) sp x - k * H j l * L sp (Y l sp) x))) /\
    (forall j, (j <= i)%nat -> forall sp, sp ∉ sps -> Y j sp = Y O sp).

  Lemma write_loop_spec id (v : nat -> vec) h :
    (forall id' sp, id' <> id -> fold_left (fun h sp => write id sp (v sp) h) sps h id' sp = h id' sp) /\
    (forall sp, sp ∈ sps -> fold_left (fun h sp => write id sp (v sp) h) sps h id sp = v sp).
  Proof. apply (gather_F_spec sps (fun _ _ => v) id 0 (fun _ _ => 0)). Qed.

  Lemma rk_stage_cache k t0 u i s s' ok : NoDup sps -> solvers_ok k (rk_solvers s) -> rk_stage tab sps M L rhs solve k t0 u i s = (s', ok) ->
    solvers_ok k (rk_solvers s') /\ rk_params s' = rk_params s /\ rk_factorisations s' = rk_factorisations s.
  Proof.
    intros ND HS. unfold rk_stage.
    destruct (rk_LX s !! (i - 1)%nat) as [lxi|]; [|intros; by simplify_eq].
    destruct (rk_F s !! (i - 1)%nat) as [fi|]; [|intros; by simplify_eq].
    destruct (entry (implicit tab) i i) as [hii|] eqn:Eh; [|intros; by simplify_eq].
    destruct (abscissae tab !! i) as [ci|]; [|intros; by simplify_eq]. cbv zeta.
    destruct (rk_accumulate _ _ _ _ _ _ _ _) as [h4|]; [|intros; by simplify_eq].
    destruct (rk_solve_loop _ _ _ _ _ _ _ _ _ _) as [[sv X'] ok'] eqn:E. intros [= <- <-]. simpl.
    apply rk_solve_loop_spec in E as (E1 & _); try done.
  Qed.
  Lemma rk_stages_cache k t0 u is s s' ok : NoDup sps -> solvers_ok k (rk_solvers s) -> rk_stages tab sps M L rhs solve k t0 u is s = (s', ok) ->
    solvers_ok k (rk_solvers s') /\ rk_params s' = rk_params s /\ rk_factorisations s' = rk_factorisations s.
  Proof.
    intros ND. revert s. induction is as [|i is IH]; intros s HS E; simpl in E; [by simplify_eq|].
    destruct (rk_stage _ _ _ _ _ _ _ _ _ _ _) as [s1 ok1] eqn:E1. apply rk_stage_cache in E1 as (C1 & C2 & C3); [|done|done].
    destruct ok1; [|by simplify_eq]. apply IH in E as (D1 & D2 & D3); [|done]. split; [done|]. split; congruence.
  Qed.

  Lemma rk_step_solvers0 k s : rk_cache_ok s ->
    solvers_ok k (if bool_decide (Some k <> rk_params s)
                  then fun sp => if decide (sp ∈ sps) then replicate (stages tab + 1) None else rk_solvers s sp else rk_solvers s).
  Proof.
    intros HC. case_bool_decide as HU.
    - intros sp Hsp i inv Hi. rewrite decide_True in Hi by done. apply lookup_replicate in Hi as [? _]. done.
    - apply HC. destruct (decide (Some k = rk_params s)); [done|exfalso; auto].
  Qed.
  Lemma rk_step_cache k s s' ok : NoDup sps -> rk_cache_ok s -> rk_step tab sps M L rhs solve k s = (s', ok) -> rk_cache_ok s'.
  Proof.
    intros ND HC. unfold rk_step. destruct (rk_LX s) as [|lx0 lx]; [intros; by simplify_eq|]. cbv zeta. intros E.
    apply rk_stages_cache in E as (E1 & E2 & _); [|done|by apply rk_step_solvers0].
    intros k' Hk'. rewrite E2 in Hk'. simpl in Hk'. by simplify_eq.
  Qed.

  Lemma rk_stage_spec k t0 Y u i s s' : well_shaped tab -> NoDup sps -> (S i <= stages tab)%nat ->
    stage_inv k t0 Y i s -> solvers_ok k (rk_solvers s) ->
    rk_stage tab sps M L rhs solve k t0 u (S i) s = (s', true) ->
    exists Y', stage_inv k t0 Y' (S i) s' /\ (forall j, (j <= i)%nat -> Y' j = Y j) /\
      (forall sp, length (rk_solvers s' sp) = length (rk_solvers s sp)) /\
      (forall sp j, j <> S i -> rk_solvers s' sp !! j = rk_solvers s sp !! j) /\
      (forall sp, sp ∈ sps -> exists inv, rk_solvers s' sp !! S i = Some (Some inv)).
  Proof.
    intros WS ND Hi ((L1 & L2 & HD) & IX & IT & IM & IL & IF & IE & IO) HS. pose proof WS as (S0 & S1 & Sc0 & S2 & S3 & S4 & S5).
    unfold rk_stage. replace (S i - 1)%nat with i by lia.
    destruct (lookup_lt_is_Some_2 (rk_LX s) i) as [lxi Hlx]; [lia|]. rewrite Hlx.
    destruct (lookup_lt_is_Some_2 (rk_F s) i) as [fi Hfi]; [lia|]. rewrite Hfi.
    rewrite (entry_Some _ _ (S i) (S i) S4 S5) by lia.
    destruct (lookup_lt_is_Some_2 (abscissae tab) (S i)) as [ci Hci]; [lia|]. rewrite Hci. cbv zeta.
    apply NoDup_cons in HD as [N1 HD]. rewrite elem_of_cons, elem_of_app in N1.
    pose proof HD as HD0. apply NoDup_cons in HD as [N2 HD]. rewrite elem_of_app in N2. apply NoDup_app in HD as (D1 & D2 & D3).
    assert (lxi ∈ rk_LX s) as Ilx by (by eapply elem_of_list_lookup_2).
    assert (fi ∈ rk_F s) as Ifi by (by eapply elem_of_list_lookup_2).
    set (h1 := if decide (1 < S i)%nat then _ else _).
    assert (forall id sp, id <> lxi -> h1 id sp = rk_heap s id sp) as A1.
    { intros id sp Hid. unfold h1. case_decide; [|done].
      by apply (write_loop_spec lxi (fun sp => L sp (rk_X s sp))). }
    assert (forall sp, sp ∈ sps -> h1 lxi sp = L sp (Y i sp)) as A2.
    { intros sp Hsp. unfold h1. case_decide.
      - destruct (write_loop_spec lxi (fun sp => L sp (rk_X s sp)) (rk_heap s)) as [_ W]. rewrite W by done. by rewrite IX.
      - assert (i = 0%nat) as -> by lia. apply (IL sp Hsp 0%nat); [lia|done]. }
    set (h2 := gather_F sps rhs fi (rk_time s) (rk_X s) h1).
    destruct (gather_F_spec sps rhs fi (rk_time s) (rk_X s) h1) as (G1 & G2). fold h2 in G1, G2.
    assert (lxi <> fi) as Nlf by (intros ->; by apply (D2 fi)).
    assert (forall sp, sp ∈ sps -> h2 (rk_MX0 s) sp = M sp (Y O sp)) as BM.
    { intros sp Hsp. rewrite G1 by (intros E; rewrite E in N2; tauto). rewrite A1 by (intros E; rewrite E in N2; tauto). by apply IM. }
    assert (forall sp, sp ∈ sps -> forall j id, (j < S i)%nat -> rk_LX s !! j = Some id -> h2 id sp = L sp (Y j sp)) as BL.
    { intros sp Hsp j id Hj Hid. rewrite G1 by (intros ->; apply (D2 fi); [by eapply elem_of_list_lookup_2|done]).
      destruct (decide (j = i)) as [->|].
      - simplify_eq. by apply A2.
      - rewrite A1 by (intros ->; eapply NoDup_lookup in Hlx; [|exact D1|exact Hid]; done). apply (IL sp Hsp j id); [lia|done]. }
    assert (forall sp, sp ∈ sps -> forall j id, (j < S i)%nat -> rk_F s !! j = Some id -> h2 id sp = rhs (t0 + k * c j) (Y j) sp) as BF.
    { intros sp Hsp j id Hj Hid. destruct (decide (j = i)) as [->|].
      - simplify_eq. rewrite G2 by done. by rewrite IX, IT.
      - rewrite G1 by (intros ->; eapply NoDup_lookup in Hfi; [|exact D3|exact Hid]; done).
        rewrite A1 by (intros ->; apply (D2 lxi); [done|by eapply elem_of_list_lookup_2]). apply (IF sp Hsp j id); [lia|done]. }
    set (h3 := write_all (rk_RHS s) (h2 (rk_MX0 s)) h2).
    destruct (accumulate_rk_spec k (S i) (seq 0 (S i)) (rk_LX s) (rk_F s) (rk_RHS s) h3 WS) as (h4 & -> & H1 & H2); [lia|done|done|tauto|tauto| |].
    { apply Forall_forall. intros j Hj. apply elem_of_list_In, in_seq in Hj. lia. }
    destruct (rk_solve_loop _ _ _ _ _ _ _ _ _ _) as [[sv X'] ok'] eqn:E. intros [= <- ->]. simpl.
    apply rk_solve_loop_spec in E as (E1 & E2 & E3 & E4 & E5); [|by apply entry_Some with (n := S (stages tab)); try done; lia|done|done|done].
    assert (forall id, id <> rk_RHS s -> h4 id = h2 id) as H4.
    { intros id Hid. rewrite H1 by done. unfold h3, write_all. by rewrite decide_False. }
    exists (fun j => if decide (j = S i) then X' else Y j).
    split; [|split; [|split; [done|split; [done|]]]].
    2:{ intros j Hj. by rewrite decide_False by lia. }
    2:{ intros sp Hsp. destruct (E5 eq_refl sp Hsp) as (inv & _ & _ & ?). by exists inv. }
    unfold stage_inv. cbn [rk_X rk_time rk_MX0 rk_LX rk_F rk_RHS rk_heap].
    assert (forall id, id ∈ rk_LX s -> id <> rk_RHS s) as NL by (intros id Hid ->; tauto).
    assert (forall id, id ∈ rk_F s -> id <> rk_RHS s) as NF by (intros id Hid ->; tauto).
    split; [|split; [by rewrite decide_True|split; [|split; [|split; [|split; [|split]]]]]].
    - split; [done|]. split; [done|]. apply NoDup_cons. split; [|done]. simpl. rewrite elem_of_cons, elem_of_app. tauto.
    - unfold at1. by rewrite Hci.
    - intros sp Hsp. rewrite H4 by (intros E; apply N1; by left). rewrite (decide_False (P := 0%nat = S i)) by lia. by apply BM.
    - intros sp Hsp j id Hj Hid. rewrite H4 by (apply NL; by eapply elem_of_list_lookup_2). rewrite decide_False by lia. apply BL; [done|lia|done].
    - intros sp Hsp j id Hj Hid. rewrite H4 by (apply NF; by eapply elem_of_list_lookup_2). rewrite decide_False by lia. apply BF; [done|lia|done].
    - intros j Hj sp Hsp. rewrite (decide_False (P := 0%nat = S i)) by lia.
      assert (forall g : (nat -> vec) -> nat -> R, sum_lt j (fun l => g (if decide (l = S i) then X' else Y l) l) = sum_lt j (fun l => g (Y l) l)) as HW.
      { intros g. apply sum_lt_ext. intros l Hl. by rewrite decide_False by lia. }
      destruct (decide (j = S i)) as [->|].
      + destruct (E5 eq_refl sp Hsp) as (inv & Q1 & Q2 & _). exists inv. split; [done|]. rewrite Q2. f_equal.
        apply functional_extensionality. intros x.
        rewrite (HW (fun y l => k * A (S i) l * rhs (t0 + k * c l) y sp x - k * H (S i) l * L sp (y sp) x)).
        rewrite H2, foldr_sum_lt. f_equal.
        * unfold h3, write_all. rewrite decide_True by done. by rewrite BM.
        * apply sum_lt_ext. intros l Hl.
          destruct (lookup_lt_is_Some_2 (rk_LX s) l) as [idl Hidl]; [lia|]. rewrite Hidl.
          destruct (lookup_lt_is_Some_2 (rk_F s) l) as [idf Hidf]; [lia|]. rewrite Hidf.
          assert (idl <> rk_RHS s) as Q3 by (apply NL; by eapply elem_of_list_lookup_2).
          assert (idf <> rk_RHS s) as Q4 by (apply NF; by eapply elem_of_list_lookup_2).
          unfold h3, write_all. rewrite !decide_False by done. by rewrite (BF sp Hsp l idf Hl Hidf), (BL sp Hsp l idl Hl Hidl).
      + destruct (IE j ltac:(lia) sp Hsp) as (inv & Q1 & Q2). exists inv. split; [done|]. rewrite Q2. f_equal.
        apply functional_extensionality. intros x.
        by rewrite (HW (fun y l => k * A j l * rhs (t0 + k * c l) y sp x - k * H j l * L sp (y sp) x)).
    - intros j Hj sp Hsp. rewrite (decide_False (P := 0%nat = S i)) by lia. case_decide.
      + rewrite E2 by done. rewrite IX. by apply IO.
      + apply IO; [lia|done].
  Qed.

  Lemma rk_stages_spec k t0 u n i s s' Y : well_shaped tab -> NoDup sps -> (i + n <= stages tab)%nat ->
    stage_inv k t0 Y i s -> solvers_ok k (rk_solvers s) ->
    rk_stages tab sps M L rhs solve k t0 u (seq (S i) n) s = (s', true) ->
    exists Y', stage_inv k t0 Y' (i + n) s' /\ (forall j, (j <= i)%nat -> Y' j = Y j) /\
      (forall sp, sp ∈ sps -> forall j, (i < j <= i + n)%nat -> exists inv, rk_solvers s' sp !! j = Some (Some inv)) /\
      (forall sp j, (j <= i \/ i + n < j)%nat -> rk_solvers s' sp !! j = rk_solvers s sp !! j).
  Proof.
    intros WS ND. revert i s Y. induction n as [|n IH]; intros i s Y Hn HI HS E; simpl in E.
    { simplify_eq. exists Y. rewrite Nat.add_0_r. split; [done|]. split; [done|]. split; [intros; lia|done]. }
    destruct (rk_stage _ _ _ _ _ _ _ _ _ _ _) as [s1 ok1] eqn:E1. destruct ok1; [|done].
    pose proof (rk_stage_cache _ _ _ _ _ _ _ ND HS E1) as (C1 & C2 & C3).
    destruct (rk_stage_spec k t0 Y u i s s1 WS ND ltac:(lia) HI HS E1) as (Y1 & I1 & I2 & I3 & I4 & I5).
    destruct (IH (S i) s1 Y1 ltac:(lia) I1 C1 E) as (Y2 & J1 & J2 & J3 & J4).
    exists Y2. replace (i + S n)%nat with (S i + n)%nat by lia. split; [done|]. split; [|split].
    - intros j Hj. rewrite J2 by lia. apply I2. lia.
    - intros sp Hsp j Hj. destruct (decide (j = S i)) as [->|].
      + destruct (I5 sp Hsp) as [inv Hinv]. exists inv. rewrite J4 by lia. done.
      + apply J3; [done|lia].
    - intros sp j Hj. rewrite J4 by lia. apply I4. lia.
  Qed.

  Lemma buffers_initial X0 t0 old : buffers_ok (rk_initial tab X0 t0 old).
  Proof.
    unfold buffers_ok, rk_initial. simpl. rewrite !seq_length. repeat (split; [done|]).
    set (n := stages tab).
    replace (0%nat :: 1%nat :: seq 2 n ++ seq (S (S n)) n) with (seq 0 (S (S (n + n)))).
    - apply NoDup_ListNoDup, seq_NoDup.
    - simpl. do 2 f_equal. rewrite seq_app. f_equal.
  Qed.

  Lemma rk_step_spec k s s' : well_shaped tab -> NoDup sps -> buffers_ok s -> rk_cache_ok s ->
    rk_step tab sps M L rhs solve k s = (s', true) ->
    exists Y, stage_inv k (rk_time s) Y (stages tab) s' /\ Y O = rk_X s /\
      rk_params s' = Some k /\
      rk_factorisations s' = (rk_factorisations s + if decide (rk_params s = Some k) then 0 else 1)%nat /\
      (forall sp, sp ∈ sps -> forall j, (1 <= j <= stages tab)%nat -> exists inv, rk_solvers s' sp !! j = Some (Some inv)).
  Proof.
    intros WS ND (L1 & L2 & HD) HC. pose proof WS as (S0 & S1 & Sc0 & S2 & S3 & S4 & S5). unfold rk_step.
    destruct (rk_LX s) as [|lx0 lx] eqn:Elx; [done|]. cbv zeta. intros E.
    pose proof (rk_step_solvers0 k s HC) as HS.
    assert (rk_MX0 s <> lx0) as Nml.
    { intros Eq. apply NoDup_cons in HD as [_ HD]. apply NoDup_cons in HD as [N _]. apply N. rewrite Eq. simpl. by left. }
    destruct (apply_matrices_spec sps M L (rk_MX0 s) lx0 (rk_X s) (rk_heap s) Nml) as (A1 & A2 & A3).
    pose proof E as E'. apply rk_stages_cache in E' as (_ & E2 & E3); [|done|done].
    apply (rk_stages_spec k (rk_time s) _ (stages tab) 0 _ s' (fun _ => rk_X s)) in E as (Y & I1 & I2 & I3 & I4); try done; [|].
    - exists Y. split; [done|]. split; [by apply I2|]. split; [done|]. split; [|done].
      rewrite E3. simpl. f_equal. repeat case_bool_decide; case_decide; try done; exfalso; congruence.
    - unfold stage_inv. simpl. split; [by split|]. split; [done|]. split.
      { unfold at1. rewrite Sc0. ring. }
      split; [done|]. split; [|split; [intros; lia|split; [intros; lia|done]]].
      intros sp Hsp j id Hj Hid. assert (j = 0%nat) as -> by lia. simpl in Hid. simplify_eq. by apply A3.
  Qed.

  (** ** Success *)
  Lemma rk_solve_loop_total todo u i k r solvers X : NoDup todo ->
    (u = true -> forall sp, sp ∈ todo -> solve (op_add (M sp) k (L sp)) <> None /\ (i < length (solvers sp))%nat) ->
    (u = false -> forall sp, sp ∈ todo -> exists inv, solvers sp !! i = Some (Some inv)) ->
    (rk_solve_loop M L solve todo u i k r solvers X).2 = true.
  Proof.
    revert solvers X. induction todo as [|p todo IH]; intros solvers X0 ND HT HF; cbn [rk_solve_loop]; cbv zeta; [done|].
    apply NoDup_cons in ND as [Hp ND]. destruct u.
    - destruct (HT eq_refl p ltac:(by left)) as [Q1 Q2]. destruct (solve _) as [inv|]; [|done].
      unfold upd at 1. rewrite decide_True by done. rewrite list_lookup_insert by done.
      apply IH; [done| |done]. intros _ sp Hsp. destruct (HT eq_refl sp ltac:(by right)) as [Q3 Q4]. split; [done|].
      unfold upd. rewrite decide_False; [done|]. by intros ->.
    - destruct (HF eq_refl p ltac:(by left)) as [inv Hinv]. cbv iota. rewrite Hinv. apply IH; [done|done|].
      intros _ sp Hsp. apply HF; [done|by right].
  Qed.
  Lemma rk_stages_total k t0 (u : bool) n i s Y : well_shaped tab -> NoDup sps -> (i + n <= stages tab)%nat ->
    stage_inv k t0 Y i s -> solvers_ok k (rk_solvers s) ->
    (u = true -> forall sp, sp ∈ sps -> length (rk_solvers s sp) = S (stages tab) /\
       forall j, (1 <= j <= stages tab)%nat -> solve (op_add (M sp) (k * H j j) (L sp)) <> None) ->
    (u = false -> forall sp, sp ∈ sps -> forall j, (1 <= j <= stages tab)%nat -> exists inv, rk_solvers s sp !! j = Some (Some inv)) ->
    (rk_stages tab sps M L rhs solve k t0 u (seq (S i) n) s).2 = true.
  Proof.
    intros WS ND. pose proof WS as (S0 & S1 & Sc0 & S2 & S3 & S4 & S5).
    revert i s Y. induction n as [|n IH]; intros i s Y Hn HI HS HT HF; simpl; [done|].
    destruct (rk_stage _ _ _ _ _ _ _ _ _ _ _) as [s1 ok1] eqn:E1.
    assert (ok1 = true) as ->.
    { pose proof HI as ((L1 & L2 & HD) & _). apply NoDup_cons in HD as [N1 HD]. rewrite elem_of_cons, elem_of_app in N1.
      revert E1. unfold rk_stage. replace (S i - 1)%nat with i by lia.
      destruct (lookup_lt_is_Some_2 (rk_LX s) i) as [lxi ->]; [lia|].
      destruct (lookup_lt_is_Some_2 (rk_F s) i) as [fi ->]; [lia|].
      rewrite (entry_Some _ _ (S i) (S i) S4 S5) by lia.
      destruct (lookup_lt_is_Some_2 (abscissae tab) (S i)) as [ci ->]; [lia|]. cbv zeta.
      match goal with |- context [rk_accumulate tab k (S i) (seq 0 (S i)) (rk_LX s) (rk_F s) (rk_RHS s) ?h] =>
        destruct (accumulate_rk_spec k (S i) (seq 0 (S i)) (rk_LX s) (rk_F s) (rk_RHS s) h WS) as (h4 & -> & _ & _); [lia|done|done|tauto|tauto| |] end.
      { apply Forall_forall. intros j Hj. apply elem_of_list_In, in_seq in Hj. lia. }
      match goal with |- context [rk_solve_loop ?a ?b ?c ?d ?e ?f ?g ?h ?i ?j] => assert ((rk_solve_loop a b c d e f g h i j).2 = true) as Q end.
      { apply rk_solve_loop_total; [done| |].
        - intros Hu sp Hsp. destruct (HT Hu sp Hsp) as [Q1 Q2]. split; [apply Q2; lia|lia].
        - intros Hu sp Hsp. apply HF; [done|done|lia]. }
      destruct (rk_solve_loop _ _ _ _ _ _ _ _ _ _) as [[sv X'] ok']. simpl in Q. subst. by intros [= _ <-]. }
    pose proof (rk_stage_cache _ _ _ _ _ _ _ ND HS E1) as (C1 & C2 & C3).
    destruct (rk_stage_spec k t0 Y u i s s1 WS ND ltac:(lia) HI HS E1) as (Y1 & I1 & I2 & I3 & I4 & I5).
    apply (IH (S i) s1 Y1); try done; [lia| |].
    - intros Hu sp Hsp. rewrite I3. by apply HT.
    - intros Hu sp Hsp j Hj. destruct (decide (j = S i)) as [->|]; [by apply I5|]. rewrite I4 by done. by apply HF.
  Qed.
  Lemma rk_step_total k s : well_shaped tab -> NoDup sps -> buffers_ok s -> rk_cache_ok s ->
    (forall sp j, sp ∈ sps -> (1 <= j <= stages tab)%nat -> solve (op_add (M sp) (k * H j j) (L sp)) <> None) ->
    (rk_params s = Some k -> forall sp, sp ∈ sps -> forall j, (1 <= j <= stages tab)%nat -> exists inv, rk_solvers s sp !! j = Some (Some inv)) ->
    (rk_step tab sps M L rhs solve k s).2 = true.
  Proof.
    intros WS ND (L1 & L2 & HD) HC HT HF. pose proof WS as (S0 & S1 & Sc0 & S2 & S3 & S4 & S5). unfold rk_step.
    destruct (rk_LX s) as [|lx0 lx] eqn:Elx; [simpl in L1; lia|]. cbv zeta.
    pose proof (rk_step_solvers0 k s HC) as HS.
    assert (rk_MX0 s <> lx0) as Nml.
    { intros Eq. apply NoDup_cons in HD as [_ HD]. apply NoDup_cons in HD as [N _]. apply N. rewrite Eq. simpl. by left. }
    destruct (apply_matrices_spec sps M L (rk_MX0 s) lx0 (rk_X s) (rk_heap s) Nml) as (A1 & A2 & A3).
    apply (rk_stages_total k (rk_time s) _ (stages tab) 0 _ (fun _ => rk_X s)); try done.
    - unfold stage_inv. simpl. split; [by split|]. split; [done|]. split.
      { unfold at1. rewrite Sc0. ring. }
      split; [done|]. split; [|split; [intros; lia|split; [intros; lia|done]]].
      intros sp Hsp j id Hj Hid. assert (j = 0%nat) as -> by lia. simpl in Hid. simplify_eq. by apply A3.
    - simpl. intros ->. intros sp Hsp. rewrite decide_True by done. rewrite replicate_length. split; [lia|]. intros. by apply HT.
    - simpl. intros Hb. rewrite Hb. apply bool_decide_eq_false in Hb. intros sp Hsp j Hj. apply HF; try done.
      destruct (decide (Some k = rk_params s)); [done|exfalso; auto].
  Qed.
End Run.
