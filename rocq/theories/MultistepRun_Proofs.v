From Coq Require Import Reals Lia Lra FunctionalExtensionality.
From stdpp Require Import list.
From Verif Require Import Multistep_Model Multistep_Spec Multistep_Proofs.
Local Open Scope R_scope.

Lemma rotate_snoc {A} (l : list A) x : rotate (l ++ [x]) = x :: l.
Proof. unfold rotate. rewrite last_snoc. by rewrite removelast_last. Qed.
Lemma rotate_spec {A} (l : list A) : l <> [] -> exists l' x, l = l' ++ [x] /\ rotate l = x :: l'.
Proof.
  intros H. destruct (exists_last H) as (l' & x & ->). exists l', x. split; [done|]. apply rotate_snoc.
Qed.
Lemma rotate_perm {A} (l : list A) : rotate l ≡ₚ l.
Proof.
  destruct (decide (l = [])) as [->|H]; [done|]. destruct (rotate_spec l H) as (l' & x & -> & ->).
  by rewrite Permutation_cons_append.
Qed.
Lemma rotate_length {A} (l : list A) : length (rotate l) = length l.
Proof. by rewrite rotate_perm. Qed.
Lemma rotate_S {A} (l : list A) j : (S j < length l)%nat -> rotate l !! S j = l !! j.
Proof.
  intros H. destruct (rotate_spec l) as (l' & x & -> & ->); [intros ->; simpl in H; lia|].
  rewrite app_length in H. simpl in *. by rewrite lookup_app_l by lia.
Qed.

Lemma weighted_cons_S x w f : weighted (x :: w) f = x * f 0%nat + weighted w (fun j => f (S j)).
Proof. done. Qed.
Lemma weighted_ext_lt w f g : (forall j, (j < length w)%nat -> f j = g j) -> weighted w f = weighted w g.
Proof.
  revert f g. induction w as [|x w IH]; intros f g H; simpl; [done|]. rewrite H by (simpl; lia). f_equal.
  apply IH. intros j Hj. apply H. simpl. lia.
Qed.

Lemma accumulate_spec sign w D out h : (length w <= length D)%nat -> out ∉ D ->
  exists h', accumulate sign w D out h = Some h' /\ (forall id, id <> out -> h' id = h id) /\
    forall sp i, h' out sp i = h out sp i + sign * weighted w (fun j => match D !! j with Some id => h id sp i | None => 0 end).
Proof.
  revert D h. induction w as [|x w IH]; intros D h HL HO; simpl.
  - exists h. split; [by destruct D|]. split; [done|]. intros. ring.
  - destruct D as [|d D]; simpl in *; [lia|]. apply not_elem_of_cons in HO as [Hd HO].
    destruct (IH D (write_all out (fun sp => axpy (sign * x) (h d sp) (h out sp)) h) ltac:(lia) HO) as (h' & E & Hf & Hs).
    exists h'. split; [done|]. split.
    + intros id Hid. rewrite Hf by done. unfold write_all. by rewrite decide_False.
    + intros sp i. rewrite Hs. unfold write_all at 1. rewrite decide_True by done. unfold axpy.
      rewrite (weighted_ext_lt w _ (fun j => match D !! j with Some id => h id sp i | None => 0 end)).
      * ring.
      * intros j Hj. destruct (D !! j) as [id|] eqn:Ej; [|done]. unfold write_all. rewrite decide_False; [done|].
        intros ->. apply HO. by eapply elem_of_list_lookup_2.
Qed.

Section Run.
  Context (sch : scheme) (sps : list nat) (M L : nat -> op)
          (rhs : R -> (nat -> vec) -> nat -> vec) (solve : op -> option op).

  Lemma apply_matrices_spec mx lx X h : mx <> lx ->
    (forall id sp, id <> mx -> id <> lx -> apply_matrices sps M L mx lx X h id sp = h id sp) /\
    (forall sp, sp ∈ sps -> apply_matrices sps M L mx lx X h mx sp = M sp (X sp)) /\
    (forall sp, sp ∈ sps -> apply_matrices sps M L mx lx X h lx sp = L sp (X sp)).
  Proof.
    intros Hne. unfold apply_matrices.
    assert (forall l h,
      (forall id sp, (id <> mx /\ id <> lx) \/ sp ∉ l -> fold_left (fun h sp => write lx sp (L sp (X sp)) (write mx sp (M sp (X sp)) h)) l h id sp = h id sp) /\
      (forall sp, sp ∈ l -> fold_left (fun h sp => write lx sp (L sp (X sp)) (write mx sp (M sp (X sp)) h)) l h mx sp = M sp (X sp) /\
                       fold_left (fun h sp => write lx sp (L sp (X sp)) (write mx sp (M sp (X sp)) h)) l h lx sp = L sp (X sp))) as G.
    { induction l as [|p l IH]; intros h0; simpl.
      - split; [done|]. intros sp Hs. by apply elem_of_nil in Hs.
      - destruct (IH (write lx p (L p (X p)) (write mx p (M p (X p)) h0))) as [G1 G2]. split.
        + intros id sp Hd. rewrite G1 by (destruct Hd as [?|Hd]; [by left|right; intros ?; apply Hd; by right]).
          unfold write. rewrite !decide_False; [done| |]; intros [-> ->]; destruct Hd as [[??]|Hd]; try done; apply Hd; by left.
        + intros sp Hs. destruct (decide (sp ∈ l)) as [Hl|Hl]; [by apply G2|].
          apply elem_of_cons in Hs as [->|?]; [|done]. rewrite !G1 by (by right). unfold write.
          split.
          * rewrite decide_False by (intros [? _]; congruence). by rewrite decide_True.
          * by rewrite decide_True. }
    destruct (G sps h) as [G1 G2]. split; [|split].
    - intros id sp ??. apply G1. by left.
    - intros sp Hs. by apply G2.
    - intros sp Hs. by apply G2.
  Qed.
  Lemma gather_F_spec f0 t X h :
    (forall id sp, id <> f0 -> gather_F sps rhs f0 t X h id sp = h id sp) /\
    (forall sp, sp ∈ sps -> gather_F sps rhs f0 t X h f0 sp = rhs t X sp).
  Proof.
    unfold gather_F.
    assert (forall l h,
      (forall id sp, id <> f0 \/ sp ∉ l -> fold_left (fun h sp => write f0 sp (rhs t X sp) h) l h id sp = h id sp) /\
      (forall sp, sp ∈ l -> fold_left (fun h sp => write f0 sp (rhs t X sp) h) l h f0 sp = rhs t X sp)) as G.
    { induction l as [|p l IH]; intros h0; simpl.
      - split; [done|]. intros sp Hs. by apply elem_of_nil in Hs.
      - destruct (IH (write f0 p (rhs t X p) h0)) as [G1 G2]. split.
        + intros id sp Hd. rewrite G1 by (destruct Hd as [?|Hd]; [by left|right; intros ?; apply Hd; by right]).
          unfold write. rewrite decide_False; [done|]. intros [-> ->]. destruct Hd as [?|Hd]; [done|]. apply Hd. by left.
        + intros sp Hs. destruct (decide (sp ∈ l)) as [Hl|Hl]; [by apply G2|].
          apply elem_of_cons in Hs as [->|?]; [|done]. rewrite !G1 by (by right). unfold write. by rewrite decide_True. }
    destruct (G sps h) as [G1 G2]. split; [|done]. intros id sp ?. apply G1. by left.
  Qed.

  (** ** The factorised left-hand sides *)
  (** Whatever solver a subproblem holds is the one of the recorded parameters. *)
  Definition cache_ok (s : stepper) : Prop :=
    forall a0 b0, LHS_params s = Some (a0, b0) -> forall sp, sp ∈ sps ->
      LHS_solver s sp = None \/
      exists inv, LHS_solver s sp = Some inv /\ solve (op_comb a0 (M sp) b0 (L sp)) = Some inv.

  Lemma solve_loop_spec todo update a0 b0 r solver X solver' X' ok :
    solve_loop M L solve todo update a0 b0 r solver X = (solver', X', ok) ->
    NoDup todo ->
    (forall sp, sp ∈ todo -> solver sp = None \/ exists inv, solver sp = Some inv /\ solve (op_comb a0 (M sp) b0 (L sp)) = Some inv) ->
    (forall sp, sp ∉ todo -> solver' sp = solver sp /\ X' sp = X sp) /\
    (forall sp, sp ∈ todo -> solver' sp = None \/ exists inv, solver' sp = Some inv /\ solve (op_comb a0 (M sp) b0 (L sp)) = Some inv) /\
    (ok = true -> forall sp, sp ∈ todo -> exists inv, solve (op_comb a0 (M sp) b0 (L sp)) = Some inv /\ solver' sp = Some inv /\ X' sp = inv (r sp)).
  Proof.
    revert solver X. induction todo as [|p todo IH]; intros solver X0 E ND HS.
    { simpl in E. simplify_eq. split; [done|]. split; [by intros ? ?%elem_of_nil|by intros _ ? ?%elem_of_nil]. }
    apply NoDup_cons in ND as [Hp ND]. simpl in E.
    set (built := if update then _ else _) in E.
    assert (match built with
            | None => True
            | Some s2 => (forall sp, sp <> p -> s2 sp = solver sp) /\
                (s2 p = None \/ exists inv, s2 p = Some inv /\ solve (op_comb a0 (M p) b0 (L p)) = Some inv)
            end) as HB.
    { subst built. destruct update; [|split; [done|apply HS; by left]].
      destruct (solve (op_comb a0 (M p) b0 (L p))) as [inv|] eqn:Es; [|done]. unfold upd. split.
      - intros sp ?. by rewrite decide_False.
      - right. exists inv. by rewrite decide_True. }
    destruct built as [s2|].
    2:{ simplify_eq. split; [done|]. split; [done|done]. }
    destruct HB as [HB1 HB2]. destruct (s2 p) as [inv|] eqn:Ep.
    - assert (solve (op_comb a0 (M p) b0 (L p)) = Some inv) as Hinv.
      { destruct HB2 as [?|(i & ? & ?)]; congruence. }
      apply IH in E as (E1 & E2 & E3); [|done|].
      + split; [|split].
        * intros sp Hsp. apply not_elem_of_cons in Hsp as [Hne Hsp]. destruct (E1 sp Hsp) as [-> ->].
          unfold upd. rewrite decide_False by done. split; [by apply HB1|done].
        * intros sp Hsp. apply elem_of_cons in Hsp as [->|Hsp]; [|by apply E2].
          destruct (E1 p Hp) as [-> _]. right. by exists inv.
        * intros -> sp Hsp. apply elem_of_cons in Hsp as [->|Hsp]; [|by apply E3].
          destruct (E1 p Hp) as [-> ->]. exists inv. unfold upd. by rewrite decide_True.
      + intros sp Hsp. destruct (decide (sp = p)) as [->|]; [done|]. rewrite HB1 by done. apply HS. by right.
    - simplify_eq. split; [|split; [|done]].
      + intros sp Hsp. apply not_elem_of_cons in Hsp as [Hne Hsp]. split; [by apply HB1|done].
      + intros sp Hsp. apply elem_of_cons in Hsp as [->|Hsp]; [by left|].
        destruct (decide (sp = p)) as [->|]; [by left|]. rewrite HB1 by done. apply HS. by right.
  Qed.

  Lemma update_solver_ok (s : stepper) a0 b0 : cache_ok s ->
    let update := bool_decide (Some (a0, b0) <> LHS_params s) in
    let solver0 := if update then fun sp => if decide (sp ∈ sps) then None else LHS_solver s sp else LHS_solver s in
    forall sp, sp ∈ sps -> solver0 sp = None \/ exists inv, solver0 sp = Some inv /\ solve (op_comb a0 (M sp) b0 (L sp)) = Some inv.
  Proof.
    intros H. cbv zeta. intros sp Hsp. case_bool_decide as HU.
    - rewrite decide_True by done. by left.
    - apply (H a0 b0); [|done]. destruct (decide (Some (a0, b0) = LHS_params s)); [done|exfalso; auto].
  Qed.

  Lemma step_cache_ok dt s s' ok : NoDup sps -> cache_ok s -> step sch sps M L rhs solve dt s = (s', ok) -> cache_ok s'.
  Proof.
    intros ND HC. unfold step. cbv zeta.
    destruct (compute_coefficients _ _ _) as [[[a b] c]|]; [|intros; by simplify_eq].
    destruct (rotate (MX s)) as [|mx0 mx]; [intros; by simplify_eq|].
    destruct (rotate (LX s)) as [|lx0 lx]; [intros; by simplify_eq|].
    destruct (rotate (F s)) as [|f0 f]; [intros; by simplify_eq|].
    destruct a as [|a0 a]; [intros; by simplify_eq|]. destruct b as [|b0 b]; [intros; by simplify_eq|].
    pose proof (update_solver_ok s a0 b0 HC) as HU. cbv zeta in HU.
    destruct (build_RHS _ _ _ _ _ _ _ _) as [h3|].
    - destruct (solve_loop _ _ _ _ _ _ _ _ _ _) as [[solver' X'] ok'] eqn:E. intros [= <- <-].
      apply solve_loop_spec in E as (E1 & E2 & E3); [|done|done].
      intros a1 b1 [= <- <-] sp Hsp. simpl. by apply E2.
    - intros [= <- <-]. intros a1 b1 [= <- <-] sp Hsp. simpl. by apply HU.
  Qed.

  Lemma solve_loop_total todo update a0 b0 r solver X :
    (forall sp, sp ∈ todo -> solve (op_comb a0 (M sp) b0 (L sp)) <> None) ->
    (update = false -> forall sp, sp ∈ todo -> solver sp <> None) ->
    (solve_loop M L solve todo update a0 b0 r solver X).2 = true.
  Proof.
    revert solver X. induction todo as [|p todo IH]; intros solver X0 HT HS; simpl; [done|].
    assert (forall sp, sp ∈ todo -> solve (op_comb a0 (M sp) b0 (L sp)) <> None) as HT'.
    { intros sp Hsp. apply HT. by right. }
    destruct update.
    - destruct (solve (op_comb a0 (M p) b0 (L p))) as [inv|] eqn:Es.
      + unfold upd at 1. rewrite decide_True by done. by apply IH.
      + exfalso. by apply (HT p); [left|].
    - destruct (solver p) as [inv|] eqn:Es.
      + apply IH; [done|]. intros _ sp Hsp. apply HS; [done|by right].
      + exfalso. apply (HS eq_refl p); [by left|done].
  Qed.

  Lemma step_lhs dt s s' : NoDup sps -> cache_ok s -> step sch sps M L rhs solve dt s = (s', true) ->
    exists a b c a0 b0, compute_coefficients sch (dts s') (iteration s) = Some (a, b, c) /\ a !! 0%nat = Some a0 /\ b !! 0%nat = Some b0 /\
      factorisations s' = (factorisations s + if decide (LHS_params s = Some (a0, b0)) then 0 else 1)%nat /\
      LHS_params s' = Some (a0, b0) /\
      forall sp, sp ∈ sps -> exists inv, solve (op_comb a0 (M sp) b0 (L sp)) = Some inv /\ X s' sp = inv (heap s' (RHS s') sp) /\ LHS_solver s' sp = Some inv.
  Proof.
    intros ND HC. unfold step. cbv zeta.
    destruct (compute_coefficients _ _ _) as [[[a b] c]|] eqn:EC; [|intros; by simplify_eq].
    destruct (rotate (MX s)) as [|mx0 mx]; [intros; by simplify_eq|].
    destruct (rotate (LX s)) as [|lx0 lx]; [intros; by simplify_eq|].
    destruct (rotate (F s)) as [|f0 f]; [intros; by simplify_eq|].
    destruct a as [|a0 a]; [intros; by simplify_eq|]. destruct b as [|b0 b]; [intros; by simplify_eq|].
    pose proof (update_solver_ok s a0 b0 HC) as HU. cbv zeta in HU.
    destruct (build_RHS _ _ _ _ _ _ _ _) as [h3|]; [|intros; by simplify_eq].
    destruct (solve_loop _ _ _ _ _ _ _ _ _ _) as [[solver' X'] ok'] eqn:E. intros [= <- ->].
    apply solve_loop_spec in E as (E1 & E2 & E3); [|done|done]. simpl.
    exists (a0 :: a), (b0 :: b), c, a0, b0. split; [done|]. do 2 (split; [done|]). split; [|split; [done|]].
    - f_equal. repeat case_bool_decide; case_decide; try done; exfalso; congruence.
    - intros sp Hsp. destruct (E3 eq_refl sp Hsp) as (inv & ? & ? & ?). by exists inv.
  Qed.

  (** ** History *)

  (** [s]: stepper; [H]: times and states before each of the steps made, newest first; [ks]: the
      step sizes, newest first. *)
  Definition history_ok (s : stepper) (H : list (R * (nat -> vec))) (ks : list R) : Prop :=
    let h := history sch in
    length (MX s) = h /\ length (LX s) = h /\ length (F s) = h /\
    NoDup (RHS s :: MX s ++ LX s ++ F s) /\
    dts s = recent h ks /\ iteration s = length ks /\ length H = length ks /\
    forall j t Y, H !! j = Some (t, Y) -> forall sp, sp ∈ sps ->
      (forall id, MX s !! j = Some id -> heap s id sp = M sp (Y sp)) /\
      (forall id, LX s !! j = Some id -> heap s id sp = L sp (Y sp)) /\
      (forall id, F s !! j = Some id -> heap s id sp = rhs t Y sp).

  Lemma initial_history X0 t0 old : history_ok (initial sch X0 t0 old) [] [].
  Proof.
    unfold history_ok, initial. simpl. rewrite !seq_length. repeat (split; [done|]). split; [|split].
    - set (h := history sch).
      replace (0%nat :: seq 1 h ++ seq (S h) h ++ seq (S (h + (h + 0))) h) with (seq 0 (S (h + (h + h)))).
      + apply NoDup_ListNoDup, seq_NoDup.
      + change (seq 0 (S (h + (h + h)))) with (0%nat :: seq 1 (h + (h + h))). f_equal.
        rewrite seq_app. f_equal. rewrite seq_app. f_equal; f_equal; lia.
    - unfold recent. simpl. by rewrite firstn_all2 by (rewrite replicate_length; lia).
    - split; [done|]. split; [done|]. intros j t Y Hj. by rewrite lookup_nil in Hj.
  Qed.

  Lemma recent_step h dt ks : (0 < h)%nat ->
    match rotate (recent h ks) with _ :: r => dt :: r | [] => [] end = recent h (dt :: ks).
  Proof.
    intros Hh. unfold recent.
    assert (length (take h (ks ++ replicate h 0)) = h) as HL by (rewrite take_length, app_length, replicate_length; lia).
    destruct (rotate_spec (take h (ks ++ replicate h 0))) as (l' & x & E & ->).
    { intros E. rewrite E in HL. simpl in HL. lia. }
    destruct h as [|h]; [lia|]. simpl. f_equal.
    rewrite E, app_length in HL. simpl in HL.
    assert (l' = take h (take (S h) (ks ++ replicate (S h) 0))) as ->.
    { rewrite E. rewrite take_app_le by lia. rewrite take_ge by lia. done. }
    rewrite take_take. replace (h `min` S h)%nat with h by lia.
    change (0 :: replicate h 0) with (replicate (S h) 0).
    replace (S h) with (h + 1)%nat by lia. rewrite replicate_add, app_assoc.
    by rewrite (take_app_le (ks ++ replicate h 0)) by (rewrite app_length, replicate_length; lia).
  Qed.

  Hypothesis HP : (0 < history sch)%nat.
  (** Coefficient arrays refer to existing history only. *)
  Hypothesis HL : forall ks i a b c, compute_coefficients sch ks i = Some (a, b, c) ->
    (2 <= length c)%nat /\ (1 <= length a)%nat /\ (1 <= length b)%nat /\
    (length a <= Nat.min (i + 1) (history sch) + 1)%nat /\
    (length b <= Nat.min (i + 1) (history sch) + 1)%nat /\
    (length c <= Nat.min (i + 1) (history sch) + 1)%nat.
  Hypothesis ND : NoDup sps.

  Lemma step_history dt s s' H ks : history_ok s H ks -> cache_ok s -> step sch sps M L rhs solve dt s = (s', true) ->
    let H' := (sim_time s, X s) :: H in
    history_ok s' H' (dt :: ks) /\ sim_time s' = sim_time s + dt /\
    (forall sp, sp ∉ sps -> X s' sp = X s sp) /\
    exists a b c a0 b0, compute_coefficients sch (recent (history sch) (dt :: ks)) (length ks) = Some (a, b, c) /\
      a !! 0%nat = Some a0 /\ b !! 0%nat = Some b0 /\
      LHS_params s' = Some (a0, b0) /\
      factorisations s' = (factorisations s + if decide (LHS_params s = Some (a0, b0)) then 0 else 1)%nat /\
      forall sp, sp ∈ sps -> exists inv, solve (op_comb a0 (M sp) b0 (L sp)) = Some inv /\
        X s' sp = inv (fun i => weighted (tail c) (fun j => rhs (nth_state H' j).1 (nth_state H' j).2 sp i)
                             - weighted (tail a) (fun j => M sp ((nth_state H' j).2 sp) i)
                             - weighted (tail b) (fun j => L sp ((nth_state H' j).2 sp) i)).
  Proof.
    intros (L1 & L2 & L3 & HD & Hdt & Hit & HH & HB) HC. unfold step. cbv zeta. rewrite Hdt, recent_step by done.
    rewrite Hit. set (rks := recent (history sch) (dt :: ks)).
    destruct (compute_coefficients sch rks (length ks)) as [[[a b] c]|] eqn:EC; [|intros; by simplify_eq].
    destruct (rotate_spec (MX s)) as (mx & mx0 & Emx & Rmx); [intros E; rewrite E in L1; simpl in L1; lia|].
    destruct (rotate_spec (LX s)) as (lx & lx0 & Elx & Rlx); [intros E; rewrite E in L2; simpl in L2; lia|].
    destruct (rotate_spec (F s)) as (f & f0 & Ef & Rf); [intros E; rewrite E in L3; simpl in L3; lia|].
    rewrite Rmx, Rlx, Rf.
    assert (length mx + 1 = history sch)%nat as Lm by (rewrite Emx, app_length in L1; simpl in L1; lia).
    assert (length lx + 1 = history sch)%nat as Ll by (rewrite Elx, app_length in L2; simpl in L2; lia).
    assert (length f + 1 = history sch)%nat as Lf by (rewrite Ef, app_length in L3; simpl in L3; lia).
    destruct (HL _ _ _ _ _ EC) as (Hc & Ha & Hb & La & Lb & Lc).
    destruct a as [|a0 a]; [simpl in Ha; lia|]. destruct b as [|b0 b]; [simpl in Hb; lia|].
    destruct c as [|c0 [|c1 c]]; [simpl in Hc; lia|simpl in Hc; lia|]. cbn [tail length] in *.
    set (upd0 := bool_decide (Some (a0, b0) <> LHS_params s)).
    set (solver0 := if upd0 then _ else _).
    assert (NoDup (RHS s :: (mx0 :: mx) ++ (lx0 :: lx) ++ (f0 :: f))) as HD'.
    { rewrite <- Rmx, <- Rlx, <- Rf. by rewrite !rotate_perm. }
    assert (RHS s ∉ (mx0 :: mx) /\ RHS s ∉ (lx0 :: lx) /\ RHS s ∉ (f0 :: f)) as (N1 & N2 & N3).
    { apply NoDup_cons in HD' as [Hn _]. rewrite !elem_of_app in Hn. tauto. }
    pose proof HD' as HDk. apply NoDup_cons in HD' as [_ HD']. apply NoDup_app in HD' as (D1 & D2 & D3). apply NoDup_app in D3 as (D3 & D4 & D5).
    assert (mx0 <> lx0) as Nml. { intros ->. apply (D2 lx0); [by left|]. apply elem_of_app. left. by left. }
    assert (forall id, id ∈ mx0 :: mx -> id ∉ lx0 :: lx /\ id ∉ f0 :: f) as DM.
    { intros id Hi. pose proof (D2 id Hi) as Q. rewrite elem_of_app in Q. tauto. }
    set (h1 := apply_matrices sps M L mx0 lx0 (X s) (heap s)).
    destruct (apply_matrices_spec mx0 lx0 (X s) (heap s) Nml) as (A1 & A2 & A3). fold h1 in A1, A2, A3.
    set (h2 := gather_F sps rhs f0 (sim_time s) (X s) h1).
    destruct (gather_F_spec f0 (sim_time s) (X s) h1) as (G1 & G2). fold h2 in G1, G2.
    (* buffers hold the history, including the new entries *)
    assert (forall j t Y, ((sim_time s, X s) :: H) !! j = Some (t, Y) -> forall sp, sp ∈ sps ->
      (forall id, (mx0 :: mx) !! j = Some id -> h2 id sp = M sp (Y sp)) /\
      (forall id, (lx0 :: lx) !! j = Some id -> h2 id sp = L sp (Y sp)) /\
      (forall id, (f0 :: f) !! j = Some id -> h2 id sp = rhs t Y sp)) as HB2.
    { intros j t Y Hj sp Hsp. destruct j as [|j]; simpl in Hj.
      - simplify_eq. split; [|split]; intros id [= <-].
        + rewrite G1; [by apply A2|]. intros ->. destruct (DM f0) as [_ Q]; [by left|]. apply Q. by left.
        + rewrite G1; [by apply A3|]. intros ->. apply (D4 f0); by left.
        + by apply G2.
      - destruct (HB j t Y Hj sp Hsp) as (B1 & B2 & B3). split; [|split]; intros id Hid; simpl in Hid.
        + assert (id ∈ mx) as Hin by (by eapply elem_of_list_lookup_2).
          assert (id ∈ mx0 :: mx) as Hin' by (by right). destruct (DM id Hin') as [Q1 Q2].
          apply not_elem_of_cons in Q1 as [Q1 _]. apply not_elem_of_cons in Q2 as [Q2 _].
          rewrite G1 by done. rewrite A1; [|intros ->; by apply NoDup_cons in D1 as [? _]|done].
          apply B1. rewrite Emx. by apply lookup_app_l_Some.
        + assert (id ∈ lx) as Hin by (by eapply elem_of_list_lookup_2).
          assert (id ∈ lx0 :: lx) as Hin' by (by right).
          pose proof (D4 id Hin') as Q2. apply not_elem_of_cons in Q2 as [Q2 _].
          rewrite G1 by done. rewrite A1.
          * apply B2. rewrite Elx. by apply lookup_app_l_Some.
          * intros ->. destruct (DM mx0) as [Q _]; [by left|]. by apply Q.
          * intros ->. by apply NoDup_cons in D3 as [? _].
        + assert (id ∈ f) as Hin by (by eapply elem_of_list_lookup_2).
          rewrite G1 by (intros ->; by apply NoDup_cons in D5 as [? _]). rewrite A1.
          * apply B3. rewrite Ef. by apply lookup_app_l_Some.
          * intros ->. destruct (DM mx0) as [_ Q]; [by left|]. apply Q. by right.
          * intros ->. apply (D4 lx0); [by left|by right]. }
    (* right-hand side *)
    unfold build_RHS. cbv zeta. cbn [tail].
    set (h2' := write_all (RHS s) (fun sp => vscale c1 (h2 f0 sp)) h2).
    destruct (accumulate_spec 1 c f (RHS s) h2') as (h3 & -> & I1 & I2); [lia|intros Hin; apply N3; by right|].
    cbn [mbind option_bind].
    destruct (accumulate_spec (-1) a (mx0 :: mx) (RHS s) h3) as (h4 & -> & J1 & J2); [simpl; lia|done|].
    cbn [mbind option_bind].
    destruct (accumulate_spec (-1) b (lx0 :: lx) (RHS s) h4) as (h5 & -> & K1 & K2); [simpl; lia|done|].
    destruct (solve_loop _ _ _ _ _ _ _ _ _ _) as [[solver' X'] ok'] eqn:E. intros [= <- ->]. simpl.
    apply solve_loop_spec in E as (E1 & E2 & E3); [|done|apply (update_solver_ok s a0 b0 HC)].
    assert (forall id, id <> RHS s -> h5 id = h2 id) as Hh5.
    { intros id Hid. rewrite K1, J1, I1 by done. unfold h2', write_all. by rewrite decide_False. }
    split; [|split; [done|split; [by intros sp Hsp; apply E1|]]].
    - unfold history_ok. simpl. repeat (split; [lia|]). split; [|split; [done|split; [done|split; [lia|]]]].
      + exact HDk.
      + intros j t Y Hj sp Hsp. destruct (HB2 j t Y Hj sp Hsp) as (B1 & B2 & B3).
        split; [|split]; intros id Hid; rewrite Hh5; auto; intros ->.
        * apply N1. by eapply elem_of_list_lookup_2.
        * apply N2. by eapply elem_of_list_lookup_2.
        * apply N3. by eapply elem_of_list_lookup_2.
    - exists (a0 :: a), (b0 :: b), (c0 :: c1 :: c), a0, b0. do 4 (split; [done|]). split.
      { f_equal. unfold upd0. repeat case_bool_decide; case_decide; try done; exfalso; congruence. }
      intros sp Hsp. destruct (E3 eq_refl sp Hsp) as (inv & S1 & S2 & S3). exists inv. split; [done|]. rewrite S3.
      f_equal. apply functional_extensionality. intros i. cbn [tail].
      rewrite K2, J2, I2. unfold h2' at 1, write_all at 1. rewrite decide_True by done. unfold vscale.
      assert (forall (w : list R) (D : list nat) (g : R * (nat -> vec) -> R) (hh : buffers), (length w <= length D)%nat -> (length w <= length ((sim_time s, X s) :: H))%nat ->
        (forall j t Y id, ((sim_time s, X s) :: H) !! j = Some (t, Y) -> D !! j = Some id -> hh id sp i = g (t, Y)) ->
        weighted w (fun j => match D !! j with Some id => hh id sp i | None => 0 end) = weighted w (fun j => g (nth_state ((sim_time s, X s) :: H) j))) as HW.
      { intros w D g hh W1 W2 W3. apply weighted_ext_lt. intros j Hj.
        destruct (lookup_lt_is_Some_2 D j) as [id Hid]; [lia|]. rewrite Hid.
        destruct (lookup_lt_is_Some_2 ((sim_time s, X s) :: H) j) as [[t Y] HY]; [lia|]. unfold nth_state. rewrite HY. simpl. by eapply W3. }
      rewrite (HW b (lx0 :: lx) (fun x => L sp (x.2 sp) i) h4); [|simpl; lia|simpl; lia|].
      2:{ intros j t Y id H1 H2. destruct (HB2 j t Y H1 sp Hsp) as (B1 & B2 & B3). simpl.
          assert (id <> RHS s) by (intros ->; apply N2; by eapply elem_of_list_lookup_2).
          rewrite J1, I1 by done. unfold h2', write_all. rewrite decide_False by done. by rewrite (B2 id). }
      rewrite (HW a (mx0 :: mx) (fun x => M sp (x.2 sp) i) h3); [|simpl; lia|simpl; lia|].
      2:{ intros j t Y id H1 H2. destruct (HB2 j t Y H1 sp Hsp) as (B1 & B2 & B3). simpl.
          assert (id <> RHS s) by (intros ->; apply N1; by eapply elem_of_list_lookup_2).
          rewrite I1 by done. unfold h2', write_all. rewrite decide_False by done. by rewrite (B1 id). }
      rewrite weighted_cons_S.
      rewrite G2 by done.
      rewrite (weighted_ext_lt c _ (fun j => rhs (nth_state ((sim_time s, X s) :: H) (S j)).1 (nth_state ((sim_time s, X s) :: H) (S j)).2 sp i)).
      { change (nth_state ((sim_time s, X s) :: H) 0) with (sim_time s, X s). cbn [fst snd]. ring. }
      intros j Hj. destruct (lookup_lt_is_Some_2 f j) as [id Hid]; [lia|]. rewrite Hid.
      destruct (lookup_lt_is_Some_2 H j) as [[t Y] HY]; [lia|]. unfold nth_state. simpl. rewrite HY. simpl.
      assert (id <> RHS s) by (intros ->; apply N3; right; by eapply elem_of_list_lookup_2).
      unfold h2', write_all. rewrite decide_False by done.
      destruct (HB2 (S j) t Y HY sp Hsp) as (_ & _ & B3). by rewrite (B3 id Hid).
  Qed.
End Run.
