(** Properties of the parsing of equation strings (C33). *)
From Coq Require Import Ascii String.
From stdpp Require Import numbers list.
From Verif Require Import Parsing_Model Parsing_Spec Parsing_Proofs.

(** Code points of an ASCII string, and its spaces; only for the examples. *)
Definition code (s : string) : list N := map N_of_ascii (list_ascii_of_string s).
Definition is_blank (c : N) : bool := bool_decide (c = 32%N).

(** C33.  The sides are returned exactly if there is one equals sign outside parentheses; they are the
    text before and after it, without the spaces around them. *)
Theorem split_equation_sides : forall space s l r, split_equation space s = Sides l r <->
  exists l0 r0, top_equals s l0 r0 /\ (forall l1 r1, top_equals s l1 r1 -> l1 = l0 /\ r1 = r0) /\ trimmed space l0 l /\ trimmed space r0 r.
Proof.
  intros space s l r. unfold split_equation. destruct (scan 0 0 s) as [|i [|j js]] eqn:E.
  - split; [done|]. intros (l0 & r0 & H%top_equals_scan & _). rewrite E in H. by apply elem_of_nil in H.
  - split.
    + intros [= <- <-]. exists (take i s), (drop (S i) s). split; [apply scan_top_equals; rewrite E; by apply elem_of_list_here|]. split.
      * intros l1 r1 H. pose proof (top_equals_scan _ _ _ H) as Hi. rewrite E in Hi. apply elem_of_list_singleton in Hi as <-. destruct H as [-> _].
        rewrite take_app. split; [done|]. rewrite drop_app_ge by lia. replace (S (length l1) - length l1) with 1 by lia. done.
      * split; apply strip_trimmed.
    + intros (l0 & r0 & H & _ & Hl & Hr). pose proof (top_equals_scan _ _ _ H) as Hi. rewrite E in Hi. apply elem_of_list_singleton in Hi as <-. destruct H as [-> _].
      rewrite take_app, drop_app_ge by lia. replace (S (length l0) - length l0) with 1 by lia. f_equal; by apply trimmed_strip.
  - split; [done|]. intros (l0 & r0 & _ & Hu & _). pose proof (scan_NoDup s 0 0) as Hn. rewrite E in Hn. apply NoDup_cons in Hn as [Hn _]. exfalso. apply Hn.
    assert (i ∈ scan 0 0 s) as Hi by (rewrite E; by apply elem_of_list_here). assert (j ∈ scan 0 0 s) as Hj by (rewrite E; by apply elem_of_list_further, elem_of_list_here).
    pose proof (scan_spec s 0 0 i) as [Si _]. destruct (Si Hi) as (li & ri & Es & -> & _). pose proof (scan_spec s 0 0 j) as [Sj _]. destruct (Sj Hj) as (lj & rj & Es' & -> & _).
    apply scan_top_equals in Hi, Hj. destruct (Hu _ _ Hi) as [Ei _]. destruct (Hu _ _ Hj) as [Ej _].
    rewrite Es in Ei at 1. cbn [Nat.add] in Ei. rewrite take_app in Ei. rewrite Es' in Ej at 1. cbn [Nat.add] in Ej. rewrite take_app in Ej. subst. by apply elem_of_list_here.
Qed.
Print Assumptions split_equation_sides.
Example split_equation_example : split_equation is_blank (code "f(x, y=5) = x**2") = Sides (code "f(x, y=5)") (code "x**2").
Proof. by vm_compute. Qed.

(** C33.  It raises exactly if there is none or more than one. *)
Theorem split_equation_errors : forall space s,
  (split_equation space s = NoEquals <-> forall l r, ~ top_equals s l r) /\
  (split_equation space s = ManyEquals <-> exists l r l' r', top_equals s l r /\ top_equals s l' r' /\ l <> l').
Proof.
  intros space s. unfold split_equation. destruct (scan 0 0 s) as [|i [|j js]] eqn:E.
  - assert (forall l r, ~ top_equals s l r) as H. { intros l r H%top_equals_scan. rewrite E in H. by apply elem_of_nil in H. }
    split; [done|]. split; [done|]. intros (l & r & _ & _ & H' & _). by apply H in H'.
  - assert (top_equals s (take i s) (drop (S i) s)) as H by (apply scan_top_equals; rewrite E; by apply elem_of_list_here).
    split; [split; [done|intros H'; by apply H' in H]|]. split; [done|]. intros (l & r & l' & r' & H1 & H2 & Hne).
    pose proof (top_equals_scan _ _ _ H1) as A. pose proof (top_equals_scan _ _ _ H2) as B. rewrite E in A, B. apply elem_of_list_singleton in A, B.
    exfalso. apply Hne. destruct H1 as [E1 _], H2 as [E2 _]. rewrite E1 in E2. apply app_inj_1 in E2 as [-> _]; [done|congruence].
  - pose proof (scan_NoDup s 0 0) as Hn. rewrite E in Hn. apply NoDup_cons in Hn as [Hn _].
    assert (i ∈ scan 0 0 s) as Hi by (rewrite E; by apply elem_of_list_here). assert (j ∈ scan 0 0 s) as Hj by (rewrite E; by apply elem_of_list_further, elem_of_list_here).
    pose proof (scan_top_equals _ _ Hi) as Ti. pose proof (scan_top_equals _ _ Hj) as Tj.
    split; [split; [done|intros H'; by apply H' in Ti]|]. split; [|done]. intros _. eexists _, _, _, _. split; [exact Ti|]. split; [exact Tj|].
    intros Eq. apply Hn. apply scan_spec in Hi as (li & ri & Es & -> & _), Hj as (lj & rj & Es' & -> & _). cbn [Nat.add] in *.
    rewrite Es in Eq at 1. rewrite take_app, Es', take_app in Eq. subst. by apply elem_of_list_here.
Qed.
Print Assumptions split_equation_errors.
Example split_equation_errors_example : split_equation is_blank (code "f(x=1)") = NoEquals /\ split_equation is_blank (code "a = b = c") = ManyEquals.
Proof. by vm_compute. Qed.

(** C33.  Writing an equation from two sides, each with its equals signs inside parentheses and the left
    one with its parentheses closed, and splitting it gives the sides back. *)
Theorem split_equation_join : forall (space : N -> bool) l r, space 32%N = true -> level_zero l -> (forall a b, ~ top_equals l a b) -> (forall a b, ~ top_equals r a b) ->
  trimmed space l l -> trimmed space r r -> split_equation space (l ++ [32; 61; 32]%N ++ r) = Sides l r.
Proof.
  intros space l r Hs Hl Hnl Hnr Tl Tr. apply split_equation_sides. exists (l ++ [32%N]), (32%N :: r).
  assert (level_zero (l ++ [32%N])) as Hl'. { unfold level_zero in *. rewrite !occurrences_app. change (occurrences 40 [32%N]) with 0. change (occurrences 41 [32%N]) with 0. lia. }
  split. { split; [|done]. by rewrite <- app_assoc. }
  split.
  { intros l1 r1 [E H1]. replace (l ++ [32; 61; 32]%N ++ r) with ((l ++ [32%N]) ++ [61; 32]%N ++ r) in E by (by rewrite <- app_assoc).
    apply app_eq_inv in E as [(k & E1 & E2)|(k & E1 & E2)].
    - destruct k as [|c k]; [rewrite app_nil_r in E1; cbn in E2; injection E2 as <-; by subst|]. cbn in E2. injection E2 as <- E2.
      (* the sign lies in the left side *)
      destruct k as [|c k _] using rev_ind.
      + exfalso. apply app_inj_2 in E1 as [_ E1]; [discriminate E1|done].
      + exfalso. rewrite app_comm_cons, app_assoc in E1. apply app_inj_2 in E1 as [-> _]; [|done]. apply (Hnl l1 k). done.
    - destruct k as [|c k]; [rewrite app_nil_r in E1; cbn in E2; injection E2 as <-; by subst|]. cbn in E2. injection E2 as <- E2. subst l1.
      destruct k as [|c k].
      + exfalso. cbn in E2. discriminate E2.
      + exfalso. cbn in E2. injection E2 as <- ->. apply (Hnr k r1). split; [done|]. unfold level_zero in *. rewrite occurrences_app in H1. rewrite (occurrences_app 41) in H1.
        rewrite !(occurrences_cons _ 61), !(occurrences_cons _ 32) in H1. change (if decide (61%N = 40%N) then 1 else 0) with 0 in H1. change (if decide (61%N = 41%N) then 1 else 0) with 0 in H1.
        change (if decide (32%N = 40%N) then 1 else 0) with 0 in H1. change (if decide (32%N = 41%N) then 1 else 0) with 0 in H1. lia. }
  destruct Tl as (a & b & E & _ & _ & A1 & A2). destruct Tr as (a' & b' & E' & _ & _ & B1 & B2). clear E E'. split.
  - exists [], [32%N]. split; [done|]. split; [done|]. split; [by repeat constructor|]. done.
  - exists [32%N], []. split; [by rewrite app_nil_r|]. split; [by repeat constructor|]. done.
Qed.
Print Assumptions split_equation_join.
Example split_equation_join_example : let l := code "dt(u) + f(p, scale=2)" in let r := code "- u@grad(u)" in
  is_blank 32%N = true /\ level_zero l /\ split_equation is_blank l = NoEquals /\ split_equation is_blank r = NoEquals /\ trimmed is_blank l l /\ trimmed is_blank r r.
Proof.
  cbn zeta. split; [done|]. split; [by vm_compute|]. split; [by vm_compute|]. split; [by vm_compute|].
  split; exists [], []; (split; [by rewrite app_nil_r|]; split; [done|]; split; [done|]; split; intros c H; vm_compute in H; injection H as <-; done).
Qed.

(** C33.  Comparisons and signs in string literals count as equals signs. *)
Theorem split_equation_literal_refuted :
  split_equation is_blank (code "f = (x if y else 0) <= 3") = ManyEquals /\
  split_equation is_blank (code "f(u) >= 3") = Sides (code "f(u) >") (code "3") /\
  split_equation is_blank (code "d['('] = 1") = NoEquals.
Proof. by vm_compute. Qed.
Print Assumptions split_equation_literal_refuted.

(** C33.  A call with a name and arguments, none of them with parentheses, commas, blanks or newlines,
    splits into the name and the arguments, and becomes a function of the arguments. *)
Theorem split_call_join : forall head args, head <> [] -> newline ∉ head -> args <> [] ->
  Forall (fun a => newline ∉ a /\ lparen ∉ a /\ comma ∉ a /\ blank ∉ a) args ->
  split_call (head ++ [lparen] ++ join [comma; blank] args ++ [rparen]) = (head, args).
Proof.
  intros head args Hh Hn Hne Ha. rewrite split_call_match; [|done|done|..].
  - f_equal. apply split_commas_join; [done|]. eapply Forall_impl; [exact Ha|]. naive_solver.
  - apply join_not_elem; [by rewrite !elem_of_cons, elem_of_nil; intros [H|[H|H]]|]. eapply Forall_impl; [exact Ha|]. naive_solver.
  - apply join_not_elem; [by rewrite !elem_of_cons, elem_of_nil; intros [H|[H|H]]|]. eapply Forall_impl; [exact Ha|]. naive_solver.
Qed.
Print Assumptions split_call_join.
Theorem lambdify_call : forall head args result, head <> [] -> newline ∉ head -> args <> [] ->
  Forall (fun a => newline ∉ a /\ lparen ∉ a /\ comma ∉ a /\ blank ∉ a) args ->
  lambdify_functions (head ++ [lparen] ++ join [comma; blank] args ++ [rparen]) result = (head, code "lambda " ++ join [comma] args ++ code ": " ++ result).
Proof. intros head args result H1 H2 H3 H4. unfold lambdify_functions. rewrite split_call_join by done. by destruct args. Qed.
Print Assumptions lambdify_call.
(** Text without an opening parenthesis passes unchanged. *)
Theorem lambdify_name : forall call result, lparen ∉ call -> lambdify_functions call result = (call, result).
Proof.
  intros call result H. unfold lambdify_functions, split_call. assert (lparen ∉ first_line call) as H'.
  { intros Hin. apply H. clear H. induction call as [|c call IH]; cbn in Hin; [done|]. destruct (decide _); [by apply elem_of_nil in Hin|].
    apply elem_of_cons in Hin as [->|Hin]; [by apply elem_of_list_here|]. by apply elem_of_list_further, IH. }
  revert H'. generalize (first_line call) as line. intros line H'. rewrite (match_head_after line _ 0); [done|lia|]. intros m _ _ Hm. apply H'. by eapply elem_of_list_lookup_2.
Qed.
Print Assumptions lambdify_name.
Example lambdify_example : lambdify_functions (code "f(x, y)") (code "x*y") = (code "f", code "lambda x,y: x*y") /\ lambdify_functions (code "f") (code "a*b") = (code "f", code "a*b").
Proof. by vm_compute. Qed.
(** Nested parentheses split at the last opening one, and text after the closing one is dropped. *)
Theorem split_call_nested_refuted : split_call (code "f(g(x))") = (code "f(g", [code "x)"]) /\ split_call (code "f(x) + 1") = (code "f", [code "x"]).
Proof. by vm_compute. Qed.
Print Assumptions split_call_nested_refuted.
