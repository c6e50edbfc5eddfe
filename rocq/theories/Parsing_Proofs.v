From stdpp Require Import numbers list.
From Verif Require Import Parsing_Model Parsing_Spec.

Lemma occurrences_app c a b : occurrences c (a ++ b) = occurrences c a + occurrences c b.
Proof. unfold occurrences. by rewrite filter_app, app_length. Qed.
Lemma occurrences_cons c x s : occurrences c (x :: s) = (if decide (x = c) then 1 else 0) + occurrences c s.
Proof. unfold occurrences. rewrite filter_cons. destruct (decide (x = c)); done. Qed.

(** ** The scan *)
Lemma scan_spec s : forall level i k, k ∈ scan level i s <->
  exists l r, s = l ++ [equals] ++ r /\ k = i + length l /\ (level + Z.of_nat (occurrences 40 l) = Z.of_nat (occurrences 41 l))%Z.
Proof.
  induction s as [|c s IH]; intros level i k; cbn [scan].
  { split; [by intros ?%elem_of_nil|]. intros ([|? ?] & r & H & _); discriminate H. }
  assert (forall level', (level' = level + (if decide (c = 40%N) then 1 else 0) - (if decide (c = 41%N) then 1 else 0))%Z ->
    (k ∈ scan level' (S i) s <-> exists l r, c :: s = l ++ [equals] ++ r /\ k = i + length l /\ l <> [] /\ (level + Z.of_nat (occurrences 40 l) = Z.of_nat (occurrences 41 l))%Z)) as Hstep.
  { intros level' ->. rewrite IH. split.
    - intros (l & r & -> & -> & E). exists (c :: l), r. split; [done|]. split; [cbn; lia|]. split; [done|].
      rewrite !occurrences_cons. repeat destruct (decide _); lia.
    - intros ([|x l] & r & E & -> & Hne & Hl); [done|]. injection E as <- ->. exists l, r. split; [done|]. split; [cbn; lia|].
      rewrite !occurrences_cons in Hl. repeat destruct (decide _); lia. }
  destruct (decide (c = lparen)) as [->|H1].
  { rewrite Hstep by (rewrite (decide_True (P := lparen = 40%N)), (decide_False (P := lparen = 41%N)) by done; lia). split; [intros (l & r & A & B & C & D); eauto 10|]. intros ([|x l] & r & A & B & C); [discriminate A|]. exists (x :: l), r. done. }
  destruct (decide (c = rparen)) as [->|H2].
  { rewrite Hstep by (rewrite (decide_False (P := rparen = 40%N)), (decide_True (P := rparen = 41%N)) by done; lia). split; [intros (l & r & A & B & C & D); eauto 10|]. intros ([|x l] & r & A & B & C); [discriminate A|]. exists (x :: l), r. done. }
  assert ((level = level + (if decide (c = 40%N) then 1 else 0) - (if decide (c = 41%N) then 1 else 0))%Z) as Hl by (rewrite !decide_False by done; lia).
  destruct (decide (c = equals /\ level = 0%Z)) as [[-> ->]|H3].
  - rewrite elem_of_cons, Hstep by done. split.
    + intros [->|(l & r & A & B & C & D)]; [|eauto 10]. exists [], s. split; [done|]. cbn. split; [lia|done].
    + intros ([|x l] & r & A & B & C); [left; cbn in B; lia|]. right. exists (x :: l), r. done.
  - rewrite Hstep by done. split; [intros (l & r & A & B & C & D); eauto 10|].
    intros ([|x l] & r & A & B & C); [|exists (x :: l), r; done]. injection A as -> ->. cbn in C. exfalso. apply H3. split; [done|lia].
Qed.
Lemma scan_lower s : forall level i k, k ∈ scan level i s -> i <= k.
Proof. intros level i k (l & r & _ & -> & _)%scan_spec. lia. Qed.
Lemma scan_NoDup s : forall level i, NoDup (scan level i s).
Proof.
  induction s as [|c s IH]; intros level i; cbn [scan]; [constructor|]. repeat destruct (decide _); try apply IH.
  constructor; [|apply IH]. intros H%scan_lower. lia.
Qed.
Lemma top_equals_scan s l r : top_equals s l r -> length l ∈ scan 0 0 s.
Proof. intros [-> H]. apply scan_spec. exists l, r. split; [done|]. split; [done|]. unfold level_zero in H. lia. Qed.
Lemma scan_top_equals s k : k ∈ scan 0 0 s -> top_equals s (take k s) (drop (S k) s).
Proof.
  intros (l & r & -> & -> & E)%scan_spec. cbn [Nat.add]. rewrite take_app, drop_app_ge by lia. replace (S (length l) - length l) with 1 by lia. cbn.
  rewrite drop_0. split; [done|]. unfold level_zero. lia.
Qed.

(** ** Trimming *)
Lemma lstrip_spec space s : exists a, s = a ++ lstrip space s /\ Forall (fun c => space c = true) a /\ forall c, head (lstrip space s) = Some c -> space c = false.
Proof.
  induction s as [|c s (a & E & Ha & Hh)]; [by exists []|]. cbn. destruct (space c) eqn:Ec.
  - exists (c :: a). split; [cbn; by rewrite <- E|]. split; [by constructor|done].
  - exists []. split; [done|]. split; [done|]. cbn. by intros ? [= <-].
Qed.
Lemma strip_trimmed space s : trimmed space s (strip space s).
Proof.
  unfold strip. destruct (lstrip_spec space s) as (a & E & Ha & Hh). set (t := lstrip space s) in *. clearbody t. subst s.
  destruct (lstrip_spec space (reverse t)) as (b & E & Hb & Hh'). set (u := lstrip space (reverse t)) in *. clearbody u.
  assert (t = reverse u ++ reverse b) as Et by (rewrite <- reverse_app, <- E; by rewrite reverse_involutive). subst t. clear E.
  exists a, (reverse b). split; [done|]. split; [done|]. split; [by apply Forall_reverse|]. split.
  - intros c Hc. apply Hh. destruct (reverse u); [done|]. done.
  - intros c Hc. apply Hh'. destruct u as [|x u]; [done|]. rewrite reverse_cons, last_snoc in Hc. done.
Qed.
Lemma lstrip_spaces space a s : Forall (fun c => space c = true) a -> lstrip space (a ++ s) = lstrip space s.
Proof. induction 1 as [|c a H _ IH]; [done|]. cbn. by rewrite H. Qed.
Lemma lstrip_done space s : (forall c, head s = Some c -> space c = false) -> lstrip space s = s.
Proof. destruct s as [|c s]; [done|]. intros H. cbn. by rewrite (H c). Qed.
Lemma trimmed_strip space s w : trimmed space s w -> strip space s = w.
Proof.
  intros (a & b & -> & Ha & Hb & H1 & H2). unfold strip. rewrite lstrip_spaces by done. destruct w as [|c w].
  - cbn. replace b with (b ++ []) by apply app_nil_r. by rewrite lstrip_spaces.
  - rewrite (lstrip_done space ((c :: w) ++ b)) by (intros c' [= <-]; by apply H1). rewrite reverse_app, lstrip_spaces by (by apply Forall_reverse).
    rewrite lstrip_done; [apply reverse_involutive|]. intros c' Hc'. apply H2. revert Hc'. generalize (c :: w) as l. intros l. destruct l as [|x l] using rev_ind; [done|].
    rewrite reverse_snoc, last_snoc. done.
Qed.

(** ** Calls *)
Lemma first_line_id s : newline ∉ s -> first_line s = s.
Proof. induction s as [|c s IH]; [done|]. intros [H1 H2]%not_elem_of_cons. cbn. rewrite decide_False by congruence. by rewrite IH. Qed.
Lemma last_paren_end s : last_paren (s ++ [rparen]) = Some (length s).
Proof.
  unfold last_paren. rewrite app_length. cbn. rewrite Nat.add_1_r, seq_S, filter_app. cbn. rewrite decide_True by (by rewrite list_lookup_middle). by rewrite last_snoc.
Qed.
Lemma last_paren_Some s j : last_paren s = Some j -> s !! j = Some rparen.
Proof.
  unfold last_paren. intros H%last_Some_elem_of. by apply elem_of_list_filter in H as [H _].
Qed.
Lemma match_head_after line n k : k <= n -> (forall m, k < m -> m <= n -> line !! m <> Some lparen) -> match_head line n = match_head line k.
Proof.
  induction n as [|n IH]; intros Hk H; [by replace k with 0 by lia|]. destruct (decide (k = S n)) as [->|Hne]; [done|].
  cbn [match_head]. rewrite decide_False by (apply H; lia). apply IH; [lia|]. intros m A B. apply H; lia.
Qed.
Lemma split_call_match head argstring : head <> [] -> newline ∉ head -> newline ∉ argstring -> lparen ∉ argstring ->
  split_call (head ++ [lparen] ++ argstring ++ [rparen]) = (head, split_commas (filter (fun c => c <> blank) argstring)).
Proof.
  intros Hh H1 H2 H3. unfold split_call. rewrite first_line_id.
  2:{ rewrite !elem_of_app, !elem_of_list_singleton. naive_solver. }
  set (line := head ++ [lparen] ++ argstring ++ [rparen]).
  rewrite (match_head_after line (length line) (length head)).
  - destruct head as [|c head]; [done|]. cbn [length match_head].
    assert (line !! S (length head) = Some lparen) as E by (unfold line; by apply (list_lookup_middle (c :: head))).
    rewrite decide_True by done. assert (drop (S (S (length head))) line = argstring ++ [rparen]) as ->.
    { unfold line. rewrite drop_app_ge by (cbn; lia). by replace (S (S (length head)) - length (c :: head)) with 1 by (cbn; lia). }
    rewrite last_paren_end. rewrite take_app. unfold line. change (S (length head)) with (length (c :: head)). by rewrite take_app.
  - unfold line. rewrite app_length. lia.
  - intros m Hm _ Hl. unfold line in Hl. rewrite lookup_app_r in Hl by lia. destruct (m - length head) as [|q] eqn:E; [lia|]. cbn in Hl.
    apply elem_of_list_lookup_2 in Hl. apply elem_of_app in Hl as [Hl|Hl%elem_of_list_singleton]; [done|discriminate].
Qed.
Lemma split_commas_word a : comma ∉ a -> split_commas a = [a].
Proof. induction a as [|c a IH]; [done|]. intros [H1 H2]%not_elem_of_cons. cbn. rewrite decide_False by congruence. by rewrite IH. Qed.
Lemma split_commas_cons a s : comma ∉ a -> split_commas (a ++ comma :: s) = a :: split_commas s.
Proof.
  induction a as [|c a IH]; intros H; [by cbn; rewrite decide_True|]. apply not_elem_of_cons in H as [H1 H2]. cbn. rewrite decide_False by congruence. by rewrite IH.
Qed.
Lemma filter_all (a : text) : blank ∉ a -> filter (fun c => c <> blank) a = a.
Proof. induction a as [|c a IH]; [done|]. intros [H1 H2]%not_elem_of_cons. rewrite filter_cons, decide_True by congruence. by rewrite IH. Qed.
Lemma split_commas_join args : args <> [] -> Forall (fun a => comma ∉ a /\ blank ∉ a) args ->
  split_commas (filter (fun c => c <> blank) (join [comma; blank] args)) = args.
Proof.
  intros Hne H. induction H as [|a args [H1 H2] H IH]; [done|]. destruct args as [|b args].
  - cbn. rewrite filter_all by done. by apply split_commas_word.
  - change (join [comma; blank] (a :: b :: args)) with (a ++ [comma; blank] ++ join [comma; blank] (b :: args)).
    rewrite !filter_app, filter_all by done. change (filter (fun c => c <> blank) [comma; blank]) with [comma]. cbn [app].
    rewrite split_commas_cons by done. f_equal. by apply IH.
Qed.
Lemma join_not_elem c sep args : c ∉ sep -> Forall (fun a => c ∉ a) args -> c ∉ join sep args.
Proof.
  intros Hs H. induction H as [|a args Ha H IH]; [by apply not_elem_of_nil|]. destruct args as [|b args]; [done|].
  change (join sep (a :: b :: args)) with (a ++ sep ++ join sep (b :: args)). rewrite !elem_of_app. naive_solver.
Qed.
