(* Theorems about the outputs of tasks. *)
From Coq Require Import Arith List ZArith Bool Lia.
From Verif Require Import TaskOutputs_Model TaskOutputs_Spec TaskOutputs_Proofs.
Import ListNotations.

(* After every evaluation, an entry of a dictionary handler is the value of its
   task, at the layout and scales of the task, whatever the other tasks of the same
   evaluation are, even those of the same expression, and whatever was evaluated
   before. *)
Theorem dictionary_shows env store is s vals hs pre h t post :
  dealiased env -> reached env store is s ->
  flat hs = pre ++ (h, Dict, t) :: post -> no_entry h (t_name t) post ->
  let s' := evaluate env store vals hs s in
  exists o, dicts s' h (t_name t) = Some o /\
    shows (heap s' o) (d_res (env (t_op t))) (t_lay t) (t_sc t) (vals (t_op t)).
Proof.
  intros E R F N. cbn zeta.
  destruct (dict_entry env store E vals hs s pre h t post (reached_wf env store E is s R) F N)
    as (o & H1 & _ & H2).
  exists o. split; assumption.
Qed.

(* Every evaluation appends to each file the values of its tasks in order, at the
   layouts and scales of the tasks. *)
Theorem file_shows env store is s vals hs h :
  dealiased env -> reached env store is s ->
  let s' := evaluate env store vals hs s in
  exists w, files s' h = files s h ++ w /\
    Forall2 (fun t e => fst e = t_name t /\
      shows (snd e) (d_res (env (t_op t))) (t_lay t) (t_sc t) (vals (t_op t)))
      (file_tasks h (flat hs)) w.
Proof.
  intros E R. cbn zeta.
  destruct (evaluate_unfold env store E vals hs s (reached_wf env store E is s R))
    as (s1 & os & s3 & cs & Ev & _ & _ & _ & _ & _ & _ & _ & _ & Fi & _ & _ & _ & Dc & _ & Rd).
  cbn zeta in *. rewrite Ev, <- Fi. now apply process_file with (vals := vals).
Qed.

(* The right-hand sides of a solver, which it evaluates before all other tasks, are
   in coefficient space with the modes of their expressions after any number of
   evaluations, whatever other handlers do with the same expressions, provided that
   no two equations have the same operator as right-hand side. *)
Theorem right_hand_sides env store is es vals h ts hs :
  dealiased env -> NoDup is -> map t_op ts = is ->
  let (s0, fields) := build_system env is start in
  let s' := evaluate env store vals (mkh h Sys ts :: hs) (history env store es s0) in
  Forall2 (fun i f => holds_coeffs (heap s' f) (d_res (env i)) (vals i)) is fields.
Proof.
  intros E D M. pose proof (build_outs env is start D) as (_ & B).
  pose proof (build_wf env is start start_wf) as W.
  destruct (build_system env is start) as [s0 fs]. cbn [fst snd] in *.
  destruct (history_wf env store E es s0 W) as (W' & K). cbn zeta in *.
  assert (B' : Forall2 (fun t f => outs (history env store es s0) (t_op t) = Some f) ts fs).
  { subst is. clear -B K. revert fs B. induction ts as [|t ts IH]; intros fs B;
      inversion B as [|? f ? fs' B1 B2]; subst; constructor; [|auto].
    apply (K (t_op t) f), B1. }
  subst is. pose proof (system_ok env store E vals h ts hs _ W' D fs B') as S.
  cbn zeta in S. revert S. generalize (heap (evaluate env store vals (mkh h Sys ts :: hs)
    (history env store es s0))). intros hp S. clear -S. induction S; cbn; constructor; auto.
Qed.

(* An entry of a dictionary stays as it is until its operator is evaluated again. *)
Theorem dictionary_persists env store is s vals hs pre h t post es :
  dealiased env -> reached env store is s ->
  flat hs = pre ++ (h, Dict, t) :: post -> no_entry h (t_name t) post ->
  (forall e, In e es -> no_entry h (t_name t) (flat (snd e)) /\ not_evaluated (t_op t) (snd e)) ->
  let s' := history env store es (evaluate env store vals hs s) in
  exists o, dicts s' h (t_name t) = Some o /\
    shows (heap s' o) (d_res (env (t_op t))) (t_lay t) (t_sc t) (vals (t_op t)).
Proof.
  intros E R F N He. cbn zeta. pose proof (reached_wf env store E is s R) as W.
  destruct (dict_entry env store E vals hs s pre h t post W F N) as (o & H1 & (H2 & H3) & H4).
  destruct (evaluate_wf env store E vals hs s W) as (W' & _). cbn zeta in *.
  exists o. revert H1 H2 H3 H4 W'. generalize (evaluate env store vals hs s).
  clear s R F N W hs pre post. induction es as [|e es IH]; intros s H1 H2 H3 H4 W; [auto|].
  destruct (He e (or_introl eq_refl)) as (N & V).
  destruct (evaluate_away env store E (fst e) (snd e) s o (t_op t) W H2 V H3) as (A1 & A2 & A3).
  cbn. apply IH; auto.
  - intros e' He'. apply He. now right.
  - rewrite evaluate_dict_other; auto.
  - cbn zeta in A1. now rewrite A1.
  - apply (evaluate_wf env store E (fst e) (snd e) s W).
Qed.

(* Two equations with the same operator as right-hand side: the field of the first
   one is never written, and its right-hand side is zero. *)
Theorem repeated_right_hand_side_refuted :
  exists env is vals h ts, dealiased env /\ map t_op ts = is /\
    let (s0, fields) := build_system env is start in
    let s' := evaluate env true vals [mkh h Sys ts] s0 in
    ~ Forall2 (fun i f => holds_coeffs (heap s' f) (d_res (env i)) (vals i)) is fields.
Proof.
  exists (fun _ => mkop 2 3 1 []), [0; 0], (fun _ _ => 1%Z), 0,
    [mktask [] 0 0 2 0; mktask [] 0 0 2 1].
  split; [intros i; cbn; lia|]. split; [reflexivity|]. cbn.
  intros H. inversion_clear H as [|? ? ? ? [_ H1] _]. specialize (H1 0). cbn in H1. discriminate.
Qed.

(* With stored outputs, an entry of a dictionary that is not evaluated changes when
   another handler evaluates the same operator: it takes a later value and another
   layout. *)
Theorem dictionary_persistence_refuted :
  exists env s vals hs pre h t post e,
    dealiased env /\ reached env true [] s /\
    flat hs = pre ++ (h, Dict, t) :: post /\ no_entry h (t_name t) post /\
    (forall g, In g (snd e) -> h_id g <> h) /\
    let s' := history env true [e] (evaluate env true vals hs s) in
    forall o, dicts s' h (t_name t) = Some o ->
      olay (heap s' o) <> t_lay t /\ oval (heap s' o) 0 <> vals (t_op t) 0.
Proof.
  exists (fun _ => mkop 2 3 1 []), start, (fun _ _ => 1%Z),
    [mkh 0 Dict [mktask [] 0 1 2 0]], [], 0, (mktask [] 0 1 2 0), [],
    ((fun _ _ => 7%Z), [mkh 1 Dict [mktask [] 0 0 2 0]]).
  split; [intros i; cbn; lia|]. split; [exists []; reflexivity|]. split; [reflexivity|].
  split; [intros t []|]. split; [intros g [<-|[]]; discriminate|].
  cbn. intros o H. injection H as <-. cbn. split; discriminate.
Qed.

Print Assumptions dictionary_shows.
Print Assumptions file_shows.
Print Assumptions right_hand_sides.
Print Assumptions dictionary_persists.
Print Assumptions repeated_right_hand_side_refuted.
Print Assumptions dictionary_persistence_refuted.

(* A case that meets the hypotheses: two right-hand sides, the second of which has
   the first inside it; a dictionary and a file that ask for the first one on grids
   of different sizes, and for the coefficients. *)
Definition ex_env (i : nat) : opdef :=
  mkop 4 6 (if i =? 0 then 1 else 2) (if i =? 1 then [0] else []).
Definition ex_sys : list task := [mktask [] 0 0 4 0; mktask [0] 1 0 4 1].
Definition ex_hs : list handler :=
  [mkh 1 Dict [mktask [] 0 2 3 0; mktask [] 0 0 6 1]; mkh 2 File [mktask [] 0 1 2 0]].

Example task_outputs_example :
  let s0 := fst (build_system ex_env [0; 1] start) in
  let fs := snd (build_system ex_env [0; 1] start) in
  let vals := fun i k => Z.of_nat (10 * i + k + 1) in
  let s' := evaluate ex_env true vals (mkh 0 Sys ex_sys :: ex_hs)
              (history ex_env true [(vals, ex_hs)] s0) in
  dealiased ex_env /\ NoDup [0; 1] /\ reached ex_env true [0; 1]
    (history ex_env true [(vals, ex_hs)] s0) /\
  fs = [0; 1] /\
  map (oval (heap s' 0)) [0; 1; 2; 3; 4] = [1; 2; 3; 4; 0]%Z /\
  map (oval (heap s' 1)) [0; 3; 4] = [11; 14; 0]%Z /\
  (exists o, dicts s' 1 0 = Some o /\ olay (heap s' o) = 2 /\
     map (oval (heap s' o)) [0; 2; 3] = [1; 3; 0]%Z) /\
  (exists o, dicts s' 1 1 = Some o /\ olay (heap s' o) = 0 /\
     map (oval (heap s' o)) [0; 3; 4] = [1; 4; 0]%Z) /\
  map (fun e => map (oval (snd e)) [0; 1; 2]) (files s' 2) = [[1; 2; 0]; [1; 2; 0]]%Z.
Proof.
  cbn zeta. split; [intros i; cbn; lia|].
  split; [repeat constructor; cbn; intuition discriminate|].
  split; [eexists; reflexivity|]. split; [reflexivity|].
  split; [vm_compute; reflexivity|]. split; [vm_compute; reflexivity|].
  split; [eexists; split; [vm_compute; reflexivity|]; split; vm_compute; reflexivity|].
  split; [eexists; split; [vm_compute; reflexivity|]; split; vm_compute; reflexivity|].
  vm_compute. reflexivity.
Qed.
