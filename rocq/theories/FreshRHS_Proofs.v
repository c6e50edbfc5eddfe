(* Proofs about the evaluation of right-hand sides. *)
From Coq Require Import List ZArith Bool Lia.
From Verif Require Import Schedules_Model FreshRHS_Model FreshRHS_Spec.
Import ListNotations.
Open Scope Z_scope.

Section Proofs.
Context {X V : Type}.
Variable rhs : X -> V.
Variable advance : X -> V -> X.

(* The handler of right-hand sides after its last evaluation at iteration m. *)
Definition hF (m : Z) : handler := Handler None None (Some 1) None (-1) (-1) m.

Lemma scheduled i m (x : X) (v : V) :
  evaluate_scheduled rhs (mksolver i (hF m) x v) =
  if m <? i then mksolver i (hF i) x (rhs x) else mksolver i (hF m) x v.
Proof.
  unfold evaluate_scheduled, check_schedule, check_wall, check_sim, check_iter, check_custom.
  cbn [handlerF it hF truthy_Q truthy_Z wall_dt sim_dt iter custom_schedule last_wall_div
    last_sim_div last_iter_div iteration state fields Z.eqb].
  rewrite Z.div_1_r. destruct (m <? i); reflexivity.
Qed.

Lemma later_ok n : forall i m (x : X) (v : V),
  exists x' v', fst (later_stages rhs advance n (mksolver i (hF m) x v))
    = mksolver i (hF m) x' v' /\
  fresh rhs (snd (later_stages rhs advance n (mksolver i (hF m) x v))).
Proof.
  induction n as [|n IH]; intros i m x v; cbn.
  - exists x, v. split; [reflexivity|]. intros y w [].
  - destruct (IH i m (advance x (rhs x)) (rhs x)) as (x' & v' & E & F). unfold evaluate_group.
    cbn in *. destruct (later_stages rhs advance n _) as [s us]. cbn in *.
    exists x', v'. split; [exact E|]. intros y w [H|H]; [congruence|now apply F].
Qed.

(* A step, with the right-hand side that its first stage uses. *)
Lemma step_ok n i m x v :
  exists x' v', fst (step rhs advance n (mksolver i (hF m) x v))
    = mksolver (i + 1) (hF (Z.max m i)) x' v' /\
  exists us, snd (step rhs advance n (mksolver i (hF m) x v))
    = (x, if m <? i then rhs x else v) :: us /\ fresh rhs us.
Proof.
  unfold step. rewrite scheduled. destruct (Z.ltb_spec m i) as [H|H].
  - replace (Z.max m i) with i by lia. unfold solve_stage. cbn.
    destruct (later_ok n i i (advance x (rhs x)) (rhs x)) as (x' & v' & E & F).
    destruct (later_stages rhs advance n _) as [s us]. cbn in *. subst s.
    exists x', v'. split; [reflexivity|]. exists us. auto.
  - replace (Z.max m i) with m by lia. unfold solve_stage. cbn.
    destruct (later_ok n i m (advance x v) v) as (x' & v' & E & F).
    destruct (later_stages rhs advance n _) as [s us]. cbn in *. subst s.
    exists x', v'. split; [reflexivity|]. exists us. auto.
Qed.

Lemma acts_fresh l : forall i m x v, m < i -> forward i m l ->
  fresh rhs (snd (acts rhs advance l (mksolver i (hF m) x v))).
Proof.
  induction l as [|a l IH]; intros i m x v H F; [intros y w []|].
  destruct a as [n|x'| |j x'].
  - destruct (step_ok n i m x v) as (x' & v' & E & us & U & Fu).
    cbn [acts act]. destruct (step rhs advance n _) as [s u]. cbn in E, U. subst s u.
    cbn [forward] in F. specialize (IH (i + 1) (Z.max m i) x' v' ltac:(lia) F).
    destruct (acts rhs advance l _) as [s2 us2]. cbn in *.
    destruct (Z.ltb_spec m i); [|lia]. intros y w [Q|Q]; [congruence|].
    apply in_app_or in Q. destruct Q; auto.
  - cbn [acts act it handlerF fields]. specialize (IH i m x' v H F).
    destruct (acts rhs advance l _). exact IH.
  - cbn [acts act]. unfold evaluate_group. cbn [it handlerF state].
    specialize (IH i m x (rhs x) H F).
    destruct (acts rhs advance l _). exact IH.
  - cbn [acts act handlerF fields]. cbn [forward] in F. destruct F as [F1 F2].
    specialize (IH j m x' v F1 F2). destruct (acts rhs advance l _). exact IH.
Qed.

Lemma no_load_forward (l : list (action X)) : forall i m, m < i -> no_load l -> forward i m l.
Proof.
  induction l as [|a l IH]; intros i m H N; [exact I|].
  assert (N' : no_load l) by (intros j x Q; apply (N j x); now right).
  destruct a; cbn [forward].
  - apply IH; [lia|exact N'].
  - now apply IH.
  - now apply IH.
  - exfalso. apply (N i0 x). now left.
Qed.

Lemma acts_app l l' : forall s : solver X V,
  acts rhs advance (l ++ l') s =
  (fst (acts rhs advance l' (fst (acts rhs advance l s))),
   snd (acts rhs advance l s) ++ snd (acts rhs advance l' (fst (acts rhs advance l s)))).
Proof.
  induction l as [|a l IH]; intros s; cbn.
  - destruct (acts rhs advance l' s); reflexivity.
  - destruct (act rhs advance a s) as [s1 u]. rewrite IH.
    destruct (acts rhs advance l s1) as [s2 us]. cbn. now rewrite app_assoc.
Qed.

(* The handler is always of that form. *)
Lemma acts_form l : forall i m x v, exists i' m' x' v',
  fst (acts rhs advance l (mksolver i (hF m) x v)) = mksolver i' (hF m') x' v' /\ m <= m'.
Proof.
  induction l as [|a l IH]; intros i m x v.
  - exists i, m, x, v. split; [reflexivity|lia].
  - destruct a as [n|y| |j y]; cbn [acts act].
    + destruct (step_ok n i m x v) as (x' & v' & E & us & U & Fu).
      destruct (step rhs advance n _) as [s u]. cbn in E. subst s.
      destruct (IH (i + 1) (Z.max m i) x' v') as (a & b & c & d & Q & R).
      destruct (acts rhs advance l _). exists a, b, c, d. split; [exact Q|lia].
    + destruct (IH i m y v) as (a & b & c & d & Q & R). cbn [it handlerF fields].
      destruct (acts rhs advance l _). exists a, b, c, d. now split.
    + unfold evaluate_group. cbn [it handlerF state].
      destruct (IH i m x (rhs x)) as (a & b & c & d & Q & R).
      destruct (acts rhs advance l _). exists a, b, c, d. now split.
    + cbn [handlerF fields]. destruct (IH j m y v) as (a & b & c & d & Q & R).
      destruct (acts rhs advance l _). exists a, b, c, d. now split.
Qed.

End Proofs.
