(** Proofs about synchronised blocks. *)
From Coq Require Import List Arith Bool Lia Sorted.
Import ListNotations.
From Verif Require Import Parallel_Model Parallel_Spec.

Section Proofs.
Context {A : Type}.
Notation program := (list (instr A)).
Fixpoint barriers (l : program) : nat := match l with [] => 0 | Barrier :: l => S (barriers l) | Act _ :: l => barriers l end.
Fixpoint acts (l : program) : list A := match l with [] => [] | Barrier :: l => acts l | Act a :: l => a :: acts l end.
Lemma barriers_app l m : barriers (l ++ m) = barriers l + barriers m. Proof. induction l as [|[|a] l IH]; cbn; lia. Qed.
Lemma acts_app l m : acts (l ++ m) = acts l ++ acts m. Proof. induction l as [|[|a] l IH]; cbn; [reflexivity|exact IH|rewrite IH; reflexivity]. Qed.
Lemma barriers_repeat k : barriers (repeat Barrier k) = k. Proof. induction k; cbn; lia. Qed.
Lemma acts_repeat k : acts (repeat Barrier k) = []. Proof. induction k; cbn; [reflexivity|assumption]. Qed.
Lemma barriers_map b : barriers (map Act b) = 0. Proof. induction b; cbn; assumption || reflexivity. Qed.
Lemma acts_map b : acts (map Act b) = b. Proof. induction b; cbn; [reflexivity|]. rewrite IHb. reflexivity. Qed.

(** Actions of later phases come later. *)
Section Phases.
Context (phase : nat -> A -> nat).
Fixpoint phased (p k : nat) (l : program) : Prop := match l with [] => True | Barrier :: l => phased p (S k) l | Act a :: l => phase p a = k /\ phased p k l end.
Lemma phased_app p k l m : phased p k (l ++ m) <-> phased p k l /\ phased p (k + barriers l) m.
Proof. revert k. induction l as [|[|a] l IH]; intros k; cbn; [rewrite Nat.add_0_r; tauto| |]; rewrite IH; [replace (S k + barriers l) with (k + S (barriers l)) by lia; reflexivity|tauto]. Qed.
Lemma phased_acts p k l a : phased p k l -> In a (acts l) -> k <= phase p a <= k + barriers l.
Proof. revert k. induction l as [|[|b] l IH]; intros k H Ha; cbn in *; [destruct Ha| |]. - specialize (IH _ H Ha). lia. - destruct H as [<- H]. destruct Ha as [->|Ha]; [lia|]. exact (IH _ H Ha). Qed.
Definition ordered (t : list (nat * A)) : Prop := forall t1 e t2 f t3, t = t1 ++ e :: t2 ++ f :: t3 -> phase (fst e) (snd e) <= phase (fst f) (snd f).
Lemma ordered_snoc t e : ordered t -> (forall f, In f t -> phase (fst f) (snd f) <= phase (fst e) (snd e)) -> ordered (t ++ [e]).
Proof.
  intros O H t1 e1 t2 f t3 E. destruct t3 as [|x t3] using rev_ind.
  - assert (E' : t ++ [e] = (t1 ++ e1 :: t2) ++ [f]) by (rewrite E, <- app_assoc; reflexivity). apply app_inj_tail in E'. destruct E' as [-> ->]. apply H. apply in_app_iff. right. left. reflexivity.
  - assert (E' : t ++ [e] = (t1 ++ e1 :: t2 ++ f :: t3) ++ [x]) by (rewrite E, <- app_assoc; cbn; rewrite <- app_assoc; reflexivity). apply app_inj_tail in E'. destruct E' as [-> _]. eapply O. reflexivity.
Qed.
End Phases.
Section Run.
Context (n : nat) (prog : nat -> program).
(** How far a process has come. *)
Definition at_point (x : proc A) (p : nat) (dn : program) : Prop :=
  prog p = dn ++ todo x /\ entered x = barriers dn + (if waiting x then 1 else 0) /\ (waiting x = true -> exists r, todo x = Barrier :: r).
Definition good (s : state A) (dn : nat -> program) : Prop :=
  (forall p, p < n -> at_point (procs s p) p (dn p))
  /\ (forall p q, p < n -> q < n -> barriers (dn p) <= entered (procs s q))
  /\ (forall p, p < n -> of_rank p (trace s) = acts (dn p)) /\ (forall e, In e (trace s) -> fst e < n).
Definition ahead (dn : nat -> program) (p : nat) (i : instr A) : nat -> program := fun q => if q =? p then dn p ++ [i] else dn q.
Lemma of_rank_app p (t u : list (nat * A)) : of_rank p (t ++ u) = of_rank p t ++ of_rank p u.
Proof. unfold of_rank. rewrite filter_app, map_app. reflexivity. Qed.
Lemma good_start : good (start prog) (fun _ => []).
Proof. split; [intros p _; split; [reflexivity|split; [reflexivity|discriminate]]|]. split; [cbn; lia|]. split; [reflexivity|intros e []]. Qed.
(** The possible turns. *)
Inductive moved (s : state A) (p : nat) : state A -> Prop :=
| m_none : moved s p s
| m_act a r : p < n -> todo (procs s p) = Act a :: r -> moved s p (State (upd (procs s) p (Proc r (entered (procs s p)) false)) (trace s ++ [(p, a)]))
| m_enter r : p < n -> todo (procs s p) = Barrier :: r -> waiting (procs s p) = false -> moved s p (State (upd (procs s) p (Proc (todo (procs s p)) (S (entered (procs s p))) true)) (trace s))
| m_leave r : p < n -> todo (procs s p) = Barrier :: r -> waiting (procs s p) = true -> (forall q, q < n -> entered (procs s p) <= entered (procs s q)) -> moved s p (State (upd (procs s) p (Proc r (entered (procs s p)) false)) (trace s)).
Lemma turn_moved s p : moved s p (turn n s p).
Proof.
  unfold turn. destruct (p <? n) eqn:Ep; [|constructor]. apply Nat.ltb_lt in Ep. destruct (todo (procs s p)) as [|[|a] r] eqn:Et; [constructor| |apply m_act; assumption].
  destruct (waiting (procs s p)) eqn:Ew; [|rewrite <- Et; eapply m_enter; eassumption]. destruct (forallb _ _) eqn:Ea; [|constructor]. apply m_leave; try assumption. intros q Hq. rewrite forallb_forall in Ea. apply Nat.leb_le. apply Ea. apply in_seq. lia.
Qed.
Lemma upd_same f p (x : proc A) : upd f p x p = x. Proof. unfold upd. rewrite Nat.eqb_refl. reflexivity. Qed.
Lemma upd_other f p q (x : proc A) : q <> p -> upd f p x q = f q. Proof. intros H. unfold upd. apply Nat.eqb_neq in H. rewrite H. reflexivity. Qed.
Lemma good_moved s dn p s' : good s dn -> moved s p s' -> exists dn', good s' dn'
  /\ (s' = s /\ dn' = dn \/ (exists a, todo (procs s p) = hd Barrier [Act a] :: tl (todo (procs s p)) /\ p < n /\ trace s' = trace s ++ [(p, a)] /\ dn' = ahead dn p (Act a) /\ entered (procs s p) = barriers (dn p) /\ todo (procs s' p) = tl (todo (procs s p))) \/ (trace s' = trace s /\ (dn' = dn \/ dn' = ahead dn p Barrier))).
Proof.
  intros (G1 & G2 & G3 & G4) M. inversion M as [|a r Hp Et|r Hp Et Ew|r Hp Et Ew Ha]; subst.
  - exists dn. split; [repeat split; assumption || apply G1; assumption|]. left. split; reflexivity.
  - exists (ahead dn p (Act a)). destruct (G1 p Hp) as (P1 & P2 & P3).
    assert (Wf : waiting (procs s p) = false) by (destruct (waiting (procs s p)); [destruct (P3 eq_refl) as [r' E]; congruence|reflexivity]). rewrite Wf, Nat.add_0_r in P2.
    assert (Bd : forall q, barriers (ahead dn p (Act a) q) = barriers (dn q)) by (intros q; unfold ahead; destruct (Nat.eqb_spec q p) as [->|]; [rewrite barriers_app; cbn; lia|reflexivity]).
    assert (En : forall q, entered (upd (procs s) p (Proc r (entered (procs s p)) false) q) = entered (procs s q)) by (intros q; unfold upd; destruct (Nat.eqb_spec q p) as [->|]; reflexivity).
    split.
    + split; [|split; [|split]]; cbn [procs trace].
      * intros q Hq. unfold ahead. destruct (Nat.eq_dec q p) as [->|N].
        -- rewrite upd_same, Nat.eqb_refl. split; [cbn [todo]; rewrite <- app_assoc; cbn; rewrite P1, Et; reflexivity|]. cbn [entered waiting]. split; [rewrite barriers_app; cbn; lia|discriminate].
        -- rewrite upd_other by exact N. apply Nat.eqb_neq in N. rewrite N. apply G1. exact Hq.
      * intros q q' Hq Hq'. rewrite Bd, En. apply G2; assumption.
      * intros q Hq. rewrite of_rank_app, (G3 q Hq). unfold ahead. destruct (Nat.eqb_spec q p) as [->|N]; unfold of_rank; cbn [filter fst]; [rewrite Nat.eqb_refl; cbn; rewrite acts_app; reflexivity|]. destruct (Nat.eqb_spec p q); [congruence|]. cbn. apply app_nil_r.
      * intros e He. apply in_app_iff in He. destruct He as [He|[<-|[]]]; [apply G4; exact He|exact Hp].
    + right. left. exists a. cbn [hd procs trace]. rewrite upd_same, Et. cbn. repeat split; assumption.
  - exists dn. destruct (G1 p Hp) as (P1 & P2 & P3). rewrite Ew, Nat.add_0_r in P2. split; [|right; right; split; [reflexivity|left; reflexivity]].
    assert (En : forall q, entered (procs s q) <= entered (upd (procs s) p (Proc (todo (procs s p)) (S (entered (procs s p))) true) q)) by (intros q; unfold upd; destruct (Nat.eqb_spec q p) as [->|]; cbn; lia).
    split; [|split; [|split]]; cbn [procs trace]; try assumption.
    + intros q Hq. destruct (Nat.eq_dec q p) as [->|N]; [|rewrite upd_other by exact N; apply G1; exact Hq]. rewrite upd_same. split; [exact P1|]. cbn [entered waiting todo]. split; [lia|]. intros _. exists r. exact Et.
    + intros q q' Hq Hq'. etransitivity; [apply G2; eassumption|apply En].
  - exists (ahead dn p Barrier). destruct (G1 p Hp) as (P1 & P2 & P3). rewrite Ew in P2.
    assert (En : forall q, entered (upd (procs s) p (Proc r (entered (procs s p)) false) q) = entered (procs s q)) by (intros q; unfold upd; destruct (Nat.eqb_spec q p) as [->|]; reflexivity).
    split; [|right; right; split; [reflexivity|right; reflexivity]]. split; [|split; [|split]]; cbn [procs trace]; try assumption.
    + intros q Hq. unfold ahead. destruct (Nat.eq_dec q p) as [->|N].
      * rewrite upd_same, Nat.eqb_refl. split; [cbn [todo]; rewrite <- app_assoc; cbn; rewrite P1, Et; reflexivity|]. cbn [entered waiting]. split; [rewrite barriers_app; cbn; lia|discriminate].
      * rewrite upd_other by exact N. apply Nat.eqb_neq in N. rewrite N. apply G1. exact Hq.
    + intros q q' Hq Hq'. rewrite En. unfold ahead. destruct (Nat.eqb_spec q p) as [->|]; [|apply G2; assumption]. rewrite barriers_app. cbn [barriers]. specialize (Ha q' Hq'). lia.
    + intros q Hq. rewrite (G3 q Hq). unfold ahead. destruct (Nat.eqb_spec q p) as [->|]; [rewrite acts_app; cbn; symmetry; apply app_nil_r|reflexivity].
Qed.
(** An induction over schedules. *)
Lemma run_ind (Q : state A -> (nat -> program) -> Prop) : Q (start prog) (fun _ => []) ->
  (forall s dn p s' dn', good s dn -> good s' dn' -> Q s dn ->
     (s' = s /\ dn' = dn \/ (exists a, todo (procs s p) = Act a :: tl (todo (procs s p)) /\ p < n /\ trace s' = trace s ++ [(p, a)] /\ dn' = ahead dn p (Act a) /\ entered (procs s p) = barriers (dn p) /\ todo (procs s' p) = tl (todo (procs s p))) \/ (trace s' = trace s /\ (dn' = dn \/ dn' = ahead dn p Barrier))) -> Q s' dn') ->
  forall schedule, exists dn, good (run n prog schedule) dn /\ Q (run n prog schedule) dn.
Proof.
  intros H0 HS schedule. unfold run. assert (Gn : forall l s, (exists dn, good s dn /\ Q s dn) -> exists dn, good (fold_left (turn n) l s) dn /\ Q (fold_left (turn n) l s) dn).
  { induction l as [|p l IH]; intros s Hs; cbn [fold_left]; [exact Hs|]. apply IH. destruct Hs as (dn & G & HQ). destruct (good_moved s dn p _ G (turn_moved s p)) as (dn' & G' & C). exists dn'. split; [exact G'|]. exact (HS _ _ _ _ _ G G' HQ C). }
  apply Gn. exists (fun _ => []). split; [exact good_start|exact H0].
Qed.
Section Phase.
Context (phase : nat -> A -> nat).
Lemma in_of_rank p (a : A) t : In (p, a) t -> In a (of_rank p t).
Proof. intros H. unfold of_rank. apply in_map_iff. exists (p, a). split; [reflexivity|]. apply filter_In. split; [exact H|apply Nat.eqb_refl]. Qed.
Lemma phases_ordered : (forall p, p < n -> phased phase p 0 (prog p)) -> forall schedule, ordered phase (trace (run n prog schedule)).
Proof.
  intros Hp schedule. destruct (run_ind (fun s _ => ordered phase (trace s))) with (schedule := schedule) as (dn & _ & H); [intros [|x t1] e t2 f t3 E; discriminate| |exact H].
  intros s dn p s' dn' (G1 & G2 & G3 & G4) G' O [[-> ->]|[(a & Et & Lp & -> & _ & En & _)|[-> _]]]; try exact O. apply ordered_snoc; [exact O|]. intros [q b] Hq. cbn [fst snd].
  assert (Lq : q < n) by exact (G4 _ Hq). apply in_of_rank in Hq. rewrite (G3 q Lq) in Hq. destruct (G1 p Lp) as (P1 & _). destruct (G1 q Lq) as (Q1 & _).
  assert (Pa : phase p a = barriers (dn p)). { specialize (Hp p Lp). rewrite P1, Et in Hp. apply phased_app in Hp. destruct Hp as [_ Hp]. cbn in Hp. apply Hp. }
  assert (Qb : phase q b <= barriers (dn q)). { specialize (Hp q Lq). rewrite Q1 in Hp. apply phased_app in Hp. destruct Hp as [Hq' _]. pose proof (phased_acts phase q 0 _ _ Hq' Hq). lia. }
  rewrite Pa, <- En. etransitivity; [exact Qb|]. apply G2; assumption.
Qed.
End Phase.
(** ** Completion *)
Definition weight (x : proc A) : nat := 2 * length (todo x) - (if waiting x then 1 else 0).
Definition total_weight (s : state A) : nat := fold_right (fun p w => weight (procs s p) + w) 0 (seq 0 n).
Lemma sum_le (f g : nat -> nat) l : (forall x, In x l -> f x <= g x) -> fold_right (fun p w => f p + w) 0 l <= fold_right (fun p w => g p + w) 0 l.
Proof. induction l as [|x l IH]; intros H; cbn; [lia|]. pose proof (H x (or_introl eq_refl)). assert (fold_right (fun p w => f p + w) 0 l <= fold_right (fun p w => g p + w) 0 l) by (apply IH; intros y Hy; apply H; right; exact Hy). lia. Qed.
Lemma sum_lt (f g : nat -> nat) l y : (forall x, In x l -> f x <= g x) -> In y l -> f y < g y -> fold_right (fun p w => f p + w) 0 l < fold_right (fun p w => g p + w) 0 l.
Proof.
  induction l as [|x l IH]; intros H Hy L; [destruct Hy|]. cbn. assert (Hx := H x (or_introl eq_refl)). assert (Hl : forall z, In z l -> f z <= g z) by (intros z Hz; apply H; right; exact Hz). pose proof (sum_le f g l Hl). destruct Hy as [->|Hy]; [lia|]. pose proof (IH Hl Hy L). lia.
Qed.
Definition enabled (s : state A) (p : nat) : Prop :=
  match todo (procs s p) with [] => False | Act _ :: _ => True | Barrier :: _ => waiting (procs s p) = true -> forall q, q < n -> entered (procs s p) <= entered (procs s q) end.
Lemma weights s dn p : good s dn -> total_weight (turn n s p) <= total_weight s /\ (p < n -> enabled s p -> total_weight (turn n s p) < total_weight s)
  /\ (forall q, q < n -> q <> p -> enabled s q -> enabled (turn n s p) q).
Proof.
  intros (G1 & _).
  assert (W : forall x, p < n -> weight x < weight (procs s p) -> forall t, total_weight (State (upd (procs s) p x) t) < total_weight s).
  { intros x Hp Hx t. unfold total_weight. cbn [procs]. apply (sum_lt (fun q => weight (upd (procs s) p x q)) (fun q => weight (procs s q)) (seq 0 n) p); [|apply in_seq; lia|rewrite upd_same; exact Hx]. intros q Hq. unfold upd. destruct (Nat.eqb_spec q p) as [->|]; lia. }
  assert (X : forall x t, entered (procs s p) <= entered x -> forall q, q <> p -> enabled s q -> enabled (State (upd (procs s) p x) t) q).
  { intros x t Hx q N He. unfold enabled in *. cbn [procs]. rewrite upd_other by exact N. destruct (todo (procs s q)) as [|[|a] r]; [exact He| |exact I]. intros Hw q' Hq'. specialize (He Hw q' Hq'). unfold upd. destruct (Nat.eqb_spec q' p) as [->|]; lia. }
  unfold turn. destruct (p <? n) eqn:Ep; [apply Nat.ltb_lt in Ep|apply Nat.ltb_ge in Ep; split; [lia|split; [lia|tauto]]].
  destruct (G1 p Ep) as (P1 & P2 & P3). destruct (todo (procs s p)) as [|[|a] r] eqn:Et.
  - split; [lia|]. split; [unfold enabled; rewrite Et; tauto|tauto].
  - destruct (waiting (procs s p)) eqn:Ew.
    + destruct (forallb _ _) eqn:Ea.
      * assert (Lt : weight (Proc r (entered (procs s p)) false) < weight (procs s p)) by (unfold weight; rewrite Et, Ew; cbn [todo waiting length]; lia). pose proof (W _ Ep Lt (trace s)). split; [lia|]. split; [lia|]. intros q _. apply X. cbn. lia.
      * split; [lia|]. split; [|tauto]. intros _ He. exfalso. unfold enabled in He. rewrite Et in He. specialize (He Ew). assert (Ea' : forallb (fun q => entered (procs s p) <=? entered (procs s q)) (seq 0 n) = true) by (apply forallb_forall; intros q Hq; apply in_seq in Hq; apply Nat.leb_le; apply He; lia). congruence.
    + assert (Lt : weight (Proc (Barrier :: r) (S (entered (procs s p))) true) < weight (procs s p)) by (unfold weight; rewrite Et, Ew; cbn [todo waiting length]; lia). pose proof (W _ Ep Lt (trace s)). split; [lia|]. split; [lia|]. intros q _. apply X. cbn. lia.
  - assert (Lt : weight (Proc r (entered (procs s p)) false) < weight (procs s p)) by (unfold weight; rewrite Et; cbn [todo waiting length]; destruct (waiting (procs s p)); lia). pose proof (W _ Ep Lt (trace s ++ [(p, a)])). split; [lia|]. split; [lia|]. intros q _. apply X. cbn. lia.
Qed.
Context (B : nat) (HB : forall p, p < n -> barriers (prog p) = B).
Lemma minimum (f : nat -> nat) l : l <> [] -> exists x, In x l /\ forall y, In y l -> f x <= f y.
Proof.
  induction l as [|x l IH]; [congruence|]. intros _. destruct l as [|y l]; [exists x; split; [left; reflexivity|intros z [->|[]]; lia]|].
  destruct IH as (z & Hz & Hm); [discriminate|]. destruct (le_lt_dec (f x) (f z)) as [L|L].
  - exists x. split; [left; reflexivity|]. intros w [->|Hw]; [lia|]. specialize (Hm w Hw). lia.
  - exists z. split; [right; exact Hz|]. intros w [->|Hw]; [lia|exact (Hm w Hw)].
Qed.
Lemma some_enabled s dn : good s dn -> ~ finished n s -> exists p, p < n /\ enabled s p.
Proof.
  intros (G1 & G2 & _) NF. pose (rest := filter (fun p => match todo (procs s p) with [] => false | _ => true end) (seq 0 n)).
  assert (Ne : rest <> []).
  { intros E. apply NF. intros p Hp. destruct (todo (procs s p)) eqn:Et; [reflexivity|]. assert (In p rest) by (apply filter_In; split; [apply in_seq; lia|rewrite Et; reflexivity]). rewrite E in H. destruct H. }
  destruct (minimum (fun p => entered (procs s p)) rest Ne) as (p & Hp & Hm). apply filter_In in Hp. destruct Hp as [Hp Ht]. apply in_seq in Hp. exists p. split; [lia|]. unfold enabled. destruct (todo (procs s p)) as [|[|a] r] eqn:Et; [discriminate| |exact I].
  intros Hw q Hq. destruct (todo (procs s q)) eqn:Eq.
  - destruct (G1 q Hq) as (Q1 & Q2 & Q3). rewrite Eq, app_nil_r in Q1. destruct (G1 p ltac:(lia)) as (P1 & P2 & _). pose proof (HB q Hq) as Bq. pose proof (HB p ltac:(lia)) as Bp. rewrite Q1 in Bq. rewrite P1, Et, barriers_app in Bp. cbn in Bp. rewrite Hw in P2. lia.
  - apply Hm. apply filter_In. split; [apply in_seq; lia|]. rewrite Eq. reflexivity.
Qed.
Lemma good_fold l s dn : good s dn -> exists dn', good (fold_left (turn n) l s) dn'.
Proof. revert s dn. induction l as [|p l IH]; intros s dn G; cbn [fold_left]; [exists dn; exact G|]. destruct (good_moved s dn p _ G (turn_moved s p)) as (dn' & G' & _). exact (IH _ _ G'). Qed.
Lemma weight_fold l : forall s dn, good s dn -> total_weight (fold_left (turn n) l s) <= total_weight s /\ (forall p, p < n -> In p l -> enabled s p -> total_weight (fold_left (turn n) l s) < total_weight s).
Proof.
  induction l as [|x l IH]; intros s dn G; cbn [fold_left]; [split; [lia|intros p _ []]|]. destruct (weights s dn x G) as (W1 & W2 & W3). destruct (good_moved s dn x _ G (turn_moved s x)) as (dn' & G' & _). destruct (IH _ _ G') as [I1 I2]. split; [lia|].
  intros p Hp Hi He. destruct (Nat.eq_dec p x) as [->|N]; [specialize (W2 Hp He); lia|]. destruct Hi as [E|Hi]; [congruence|]. specialize (I2 p Hp Hi (W3 p Hp N He)). lia.
Qed.
Lemma finished_dec (s : state A) : finished n s \/ ~ finished n s.
Proof.
  unfold finished. destruct (forallb (fun p => match todo (procs s p) with [] => true | _ => false end) (seq 0 n)) eqn:E.
  - left. rewrite forallb_forall in E. intros p Hp. specialize (E p ltac:(apply in_seq; lia)). destruct (todo (procs s p)); [reflexivity|discriminate].
  - right. intros H. rewrite <- not_true_iff_false in E. apply E. apply forallb_forall. intros p Hp. apply in_seq in Hp. rewrite H by lia. reflexivity.
Qed.
Lemma finished_stays l (s : state A) : finished n s -> finished n (fold_left (turn n) l s).
Proof.
  revert s. induction l as [|x l IH]; intros s F; cbn [fold_left]; [exact F|]. apply IH. unfold turn. destruct (x <? n) eqn:E; [|exact F]. apply Nat.ltb_lt in E. rewrite (F x E). exact F.
Qed.
Lemma rounds_finish rounds : forall s dn, good s dn -> fair_rounds n rounds -> total_weight s <= length rounds -> finished n (fold_left (turn n) (concat rounds) s).
Proof.
  induction rounds as [|r rounds IH]; intros s dn G F L; cbn [concat fold_left length] in *.
  - intros p Hp. destruct (finished_dec s) as [X|X]; [apply X; exact Hp|]. exfalso. destruct (some_enabled s dn G X) as (q & Hq & He). pose proof (proj1 (proj2 (weights s dn q G)) Hq He). lia.
  - rewrite fold_left_app. inversion F as [|? ? Fr F']; subst. destruct (finished_dec s) as [X|X]; [apply finished_stays, finished_stays; exact X|].
    destruct (some_enabled s dn G X) as (q & Hq & He). pose proof (proj2 (weight_fold r s dn G) q Hq (Fr q Hq) He). destruct (good_fold r s dn G) as (dn' & G'). apply (IH _ dn'); [exact G'|exact F'|lia].
Qed.
Lemma run_app schedule more : run n prog (schedule ++ more) = fold_left (turn n) more (run n prog schedule).
Proof. unfold run. apply fold_left_app. Qed.
(** Every fair schedule finishes, after whatever was done before. *)
Lemma completes schedule rounds : fair_rounds n rounds -> 2 * fold_right (fun p w => length (prog p) + w) 0 (seq 0 n) <= length rounds -> finished n (run n prog (schedule ++ concat rounds)).
Proof.
  intros F L. rewrite run_app. destruct (good_fold schedule _ _ good_start) as (dn & G). apply (rounds_finish rounds _ dn G F). etransitivity; [|exact L].
  etransitivity; [apply (proj1 (weight_fold schedule _ _ good_start))|]. unfold total_weight, weight. cbn [start procs todo waiting]. clear. induction (seq 0 n) as [|x l IH]; cbn [fold_right]; lia.
Qed.
Lemma finished_traces schedule p : p < n -> finished n (run n prog schedule) -> of_rank p (trace (run n prog schedule)) = acts (prog p).
Proof.
  intros Hp F. destruct (good_fold schedule _ _ good_start) as (dn & G1 & _ & G3 & _). fold (run n prog schedule) in G1, G3. rewrite (G3 p Hp). destruct (G1 p Hp) as (P1 & _). rewrite P1, (F p Hp), app_nil_r. reflexivity.
Qed.
End Run.

(** ** Rotation *)
Lemma rotation_early q : forall dn t (X : program), dn ++ t = repeat Barrier q ++ X -> barriers dn < q -> acts dn = [].
Proof. induction q as [|q IH]; intros dn t X E L; [lia|]. destruct dn as [|i dn]; [reflexivity|]. cbn in E. injection E as -> E. cbn in L |- *. apply (IH dn t X E). lia. Qed.
Lemma rotation_late q : forall dn t b k, dn ++ t = repeat Barrier q ++ map Act b ++ repeat Barrier k -> q < barriers dn -> acts t = ([] : list A).
Proof.
  induction q as [|q IH]; intros dn t b k E L.
  - cbn [repeat app] in E. revert dn E L. induction b as [|a b IH]; intros dn E L.
    + cbn [map app] in E. assert (X : acts (dn ++ t) = []) by (rewrite E; apply acts_repeat). rewrite acts_app in X. apply app_eq_nil in X. apply X.
    + destruct dn as [|i dn]; [cbn in L; lia|]. cbn in E. injection E as -> E. cbn in L. exact (IH dn E L).
  - destruct dn as [|i dn]; [cbn in L; lia|]. cbn in E. injection E as -> E. cbn in L. apply (IH dn t b k E). lia.
Qed.
Lemma rotation_phase q : forall dn (a : A) t b k, dn ++ Act a :: t = repeat Barrier q ++ map Act b ++ repeat Barrier k -> barriers dn = q.
Proof.
  induction q as [|q IH]; intros dn a t b k E.
  - cbn [repeat app] in E. revert dn E. induction b as [|x b IH]; intros dn E.
    + exfalso. cbn [map app] in E. assert (X : acts (dn ++ Act a :: t) = []) by (rewrite E; apply acts_repeat). rewrite acts_app in X. apply app_eq_nil in X. cbn in X. destruct X. discriminate.
    + destruct dn as [|i dn]; [reflexivity|]. cbn in E. injection E as -> E. cbn. exact (IH dn E).
  - destruct dn as [|i dn]; [discriminate|]. cbn in E. injection E as -> E. cbn. f_equal. exact (IH dn a t b k E).
Qed.
Lemma seq_around n p : p < n -> seq 0 n = seq 0 p ++ p :: seq (S p) (n - S p).
Proof. intros H. replace n with (p + S (n - S p)) at 1 by lia. rewrite seq_app. reflexivity. Qed.
Lemma flat_map_nil {X Y} (f : X -> list Y) l : (forall x, In x l -> f x = []) -> flat_map f l = [].
Proof. induction l as [|x l IH]; intros H; cbn; [reflexivity|]. rewrite (H x), IH; [reflexivity|intros y Hy; apply H; right; exact Hy|left; reflexivity]. Qed.
Lemma flat_map_ext_in {X Y} (f g : X -> list Y) l : (forall x, In x l -> f x = g x) -> flat_map f l = flat_map g l.
Proof. induction l as [|x l IH]; intros H; cbn; [reflexivity|]. rewrite (H x), IH; [reflexivity|intros y Hy; apply H; right; exact Hy|left; reflexivity]. Qed.
Lemma rotation n (block : nat -> list A) schedule : let s := run n (fun p => with_rotation n p (block p)) schedule in beginning (trace s) (by_rank n block).
Proof.
  cbv zeta. set (prog := fun p => with_rotation n p (block p)).
  assert (Hac : forall p, acts (prog p) = block p) by (intros p; unfold prog, with_rotation, rotate_enter, rotate_exit; rewrite !acts_app, !acts_repeat, acts_map, app_nil_r; reflexivity).
  destruct (run_ind n prog (fun s dn => trace s = flat_map (fun q => map (pair q) (acts (dn q))) (seq 0 n) /\ beginning (trace s) (by_rank n block))) with (schedule := schedule) as (dn & _ & _ & H); [| |exact H].
  - cbn [start trace]. split; [symmetry; apply flat_map_nil; reflexivity|]. eexists. reflexivity.
  - intros s dn p s' dn' (G1 & G2 & G3 & G4) G' [T Bg] [[-> ->]|[(a & Et & Lp & Tr & -> & En & _)|[Tr [->| ->]]]]; [split; assumption| |rewrite Tr; split; assumption|].
    + destruct (G1 p Lp) as (P1 & P2 & _).
      assert (Bp : barriers (dn p) = p). { rewrite Et in P1. symmetry in P1. exact (rotation_phase p _ _ _ _ _ P1). }
      assert (Early : forall q, q < p -> acts (dn q) = block q).
      { intros q Hq. destruct (G1 q ltac:(lia)) as (Q1 & Q2 & Q3). pose proof (G2 p q Lp ltac:(lia)) as C. rewrite Bp, Q2 in C. rewrite <- (Hac q), Q1, acts_app.
        assert (Z : acts (todo (procs s q)) = []).
        { destruct (waiting (procs s q)) eqn:Ew.
          - destruct (Q3 eq_refl) as [r Er]. rewrite Er. cbn [acts]. rewrite Er in Q1. symmetry in Q1. apply (rotation_late q (dn q ++ [Barrier]) r (block q) (n - q)); [rewrite <- app_assoc; exact Q1|]. rewrite barriers_app. cbn. lia.
          - symmetry in Q1. apply (rotation_late q (dn q) _ (block q) (n - q) Q1). lia. }
        rewrite Z, app_nil_r. reflexivity. }
      assert (Late : forall q, p < q -> q < n -> acts (dn q) = []).
      { intros q Hq Ln. destruct (G1 q Ln) as (Q1 & _). pose proof (G2 q p Ln Lp) as C. rewrite En, Bp in C. symmetry in Q1. apply (rotation_early q (dn q) _ _ Q1). lia. }
      assert (T1 : trace s = flat_map (fun q => map (pair q) (block q)) (seq 0 p) ++ map (pair p) (acts (dn p))).
      { rewrite T, (seq_around n p Lp), flat_map_app. cbn [flat_map]. rewrite (flat_map_nil _ (seq (S p) (n - S p))), app_nil_r by (intros q Hq; apply in_seq in Hq; rewrite Late by lia; reflexivity). f_equal. apply flat_map_ext_in. intros q Hq. apply in_seq in Hq. rewrite Early by lia. reflexivity. }
      split.
      * rewrite Tr, T1, (seq_around n p Lp), flat_map_app. cbn [flat_map]. rewrite (flat_map_nil _ (seq (S p) (n - S p))), app_nil_r.
        -- rewrite <- app_assoc. f_equal; [|unfold ahead; rewrite Nat.eqb_refl, acts_app, map_app; reflexivity]. apply flat_map_ext_in. intros q Hq. apply in_seq in Hq. unfold ahead. destruct (Nat.eqb_spec q p); [lia|]. rewrite Early by lia. reflexivity.
        -- intros q Hq. apply in_seq in Hq. unfold ahead. destruct (Nat.eqb_spec q p); [lia|]. rewrite Late by lia. reflexivity.
      * rewrite Tr, T1. unfold by_rank. rewrite (seq_around n p Lp), flat_map_app. cbn [flat_map]. rewrite <- (Hac p), P1, Et, acts_app. cbn [acts]. rewrite map_app. cbn [map].
        exists (map (pair p) (acts (tl (todo (procs s p)))) ++ flat_map (fun q => map (pair q) (block q)) (seq (S p) (n - S p))). rewrite <- !app_assoc. reflexivity.
    + rewrite Tr. split; [|exact Bg]. rewrite T. apply flat_map_ext_in. intros q Hq. unfold ahead. destruct (Nat.eqb_spec q p) as [->|]; [rewrite acts_app; cbn; rewrite app_nil_r|]; reflexivity.
Qed.
Lemma rotation_barriers n p (block : nat -> list A) : p < n -> barriers (with_rotation n p (block p)) = n.
Proof. intros H. unfold with_rotation, rotate_enter, rotate_exit. rewrite !barriers_app, !barriers_repeat, barriers_map. lia. Qed.
Lemma of_rank_by_rank n p (block : nat -> list A) : p < n -> of_rank p (by_rank n block) = block p.
Proof.
  intros H. unfold by_rank. rewrite (seq_around n p H), flat_map_app. cbn [flat_map]. rewrite !of_rank_app.
  assert (E : forall q, of_rank p (map (pair q) (block q)) = if q =? p then block q else []).
  { intros q. unfold of_rank. destruct (Nat.eqb_spec q p) as [->|N]; induction (block _) as [|x l IH]; cbn; try reflexivity; [rewrite Nat.eqb_refl; cbn; f_equal; exact IH|]. apply Nat.eqb_neq in N. rewrite N. exact IH. }
  assert (Z : forall l, ~ In p l -> of_rank p (flat_map (fun q => map (pair q) (block q)) l) = []).
  { induction l as [|x l IH]; intros Hn; cbn [flat_map]; [reflexivity|]. rewrite of_rank_app, E, IH by (intros X; apply Hn; right; exact X). destruct (Nat.eqb_spec x p) as [->|]; [exfalso; apply Hn; left; reflexivity|reflexivity]. }
  rewrite !Z, E, Nat.eqb_refl by (rewrite in_seq; lia). cbn. apply app_nil_r.
Qed.
Lemma by_rank_bound n (block : nat -> list A) e : In e (by_rank n block) -> fst e < n.
Proof. intros H. unfold by_rank in H. apply in_flat_map in H. destruct H as (p & Hp & He). apply in_seq in Hp. apply in_map_iff in He. destruct He as (x & <- & _). cbn. lia. Qed.
Lemma beginning_full n block (t : list (nat * A)) : beginning t (by_rank n block) -> (forall p, p < n -> of_rank p t = block p) -> t = by_rank n block.
Proof.
  intros [rest E] H. destruct rest as [|e rest]; [rewrite app_nil_r in E; exact E|]. exfalso. assert (Le : fst e < n) by (apply (by_rank_bound n block); rewrite <- E; apply in_app_iff; right; left; reflexivity).
  pose proof (of_rank_by_rank n (fst e) block Le) as X. rewrite <- E, of_rank_app, (H _ Le) in X. apply (f_equal (@length A)) in X. rewrite app_length in X. unfold of_rank in X at 1. cbn [filter] in X. rewrite Nat.eqb_refl in X. cbn in X. lia.
Qed.
End Proofs.
