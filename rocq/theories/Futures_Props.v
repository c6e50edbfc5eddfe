(** Properties C26 and C27: the evaluator's sweep and deferred evaluation. *)
From stdpp Require Import list list_numbers relations.
From Verif Require Import Futures_Model Futures_Spec Futures_Proofs.

Section Props.
  Context {V : Type}.
  Implicit Types (g : list (node V)) (s : state V).

  Lemma careful_prefix g hs hs' : forall used retired s, careful g used retired (hs ++ hs') s -> careful g used retired hs s.
  Proof.
    induction hs as [|h hs IH]; intros used retired s; [done|].
    destruct h as [j a b|v x|f' l]; cbn [careful app]; [|intros [H1 H2]; split; [done|by apply IH]|apply IH].
    intros [Hj H]. split; [done|]. destruct a; [|by apply IH]. split; [apply H|apply IH, H].
  Qed.

  (** ** C27 *)
  (** Whatever was evaluated, attempted, moved and changed before, in a careful history: when an
      evaluation or an attempt returns a field, this field has the operator's value on the current
      data. *)
  Theorem evaluation_value g lay val hs i id force s w f s' : wf g ->
    careful g [] [] (hs ++ [Eval i id force]) (start g lay val) -> s = history g hs (start g lay val) ->
    values_on g (user_data s) w -> evaluate g (length g) id force i s = (s', Some f) ->
    value s' f = w i /\ forall v, user_data s' v = user_data s v.
  Proof.
    intros Hwf Hc -> Hw He.
    pose proof (careful_prefix g hs _ _ _ _ Hc) as Hc0.
    destruct (inv_history g hs Hwf [] [] _ (inv_start g lay val Hwf) Hc0) as (u' & r' & [(w0 & Hw0 & Hg) _] & Hcar).
    specialize (Hcar _ Hc). set (s := history g hs (start g lay val)) in *. cbn [careful] in Hcar. destruct Hcar as [Hi Hid].
    assert (forall a, id = Some a -> a ∉ r') as Hid' by (intros a ->; apply Hid).
    pose proof (evaluate_good g (user_data s) w0 _ id force Hwf Hid' Hw0 (length g) i s Hi Hi Hg) as H. rewrite He in H.
    destruct H as (H1 & _ & _ & H4). destruct (H4 f eq_refl) as [-> Hv]. split; [|apply H1].
    rewrite Hv. by eapply values_unique.
  Qed.

  (** An evaluation always returns; if no attempt is pending before, then none is after. *)
  Theorem evaluation_succeeds g lay val hs i id s : wf g ->
    careful g [] [] (hs ++ [Eval i id true]) (start g lay val) -> s = history g hs (start g lay val) ->
    exists s', evaluate g (length g) id true i s = (s', Some (O i)) /\ ((forall p, restored g s p) -> forall p, restored g s' p).
  Proof.
    intros Hwf Hc ->.
    pose proof (careful_prefix g hs _ _ _ _ Hc) as Hc0.
    destruct (inv_history g hs Hwf [] [] _ (inv_start g lay val Hwf) Hc0) as (u' & r' & [(w0 & Hw0 & Hg) _] & Hcar).
    specialize (Hcar _ Hc). set (s := history g hs (start g lay val)) in *. cbn [careful] in Hcar. destruct Hcar as [Hi Hid].
    assert (forall a, id = Some a -> a ∉ r') as Hid' by (intros a ->; apply Hid).
    pose proof (evaluate_good g (user_data s) w0 _ id true Hwf Hid' Hw0 (length g) i s Hi Hi Hg) as H.
    pose proof (evaluate_restores g (user_data s) w0 _ id true Hwf Hid' Hw0 (length g) i s Hi Hi Hg) as HR.
    destruct (evaluate g (length g) id true i s) as [s' [f|]]; destruct H as (H1 & H2 & H3 & H4); [|by destruct (H3 eq_refl)].
    destruct (H4 f eq_refl) as [-> _]. exists s'. split; [done|]. intros Hr p. destruct (decide (p <= i)); [by eapply HR|].
    intros nd Hnd. rewrite H2 by lia. by apply Hr.
  Qed.

  (** Attempts under one number [a], with changes of layout in between. *)
  Definition attempts (a : nat) (n : nat) (h : action V) : Prop :=
    match h with Eval i id _ => i < n /\ id = Some a | SetData _ _ => False | Move _ _ => True end.
  Lemma attempts_single g a c0 hs s : wf g -> Forall (attempts a (length g)) hs -> single g a c0 s -> single g a c0 (history g hs s).
  Proof.
    intros Hwf H. revert s. induction H as [|h hs Hh H IH]; intros s Hs; [done|]. apply IH. destruct h as [i id force|v x|f l]; [|done|].
    - destruct Hh as [Hi ->]. cbn [act]. pose proof (evaluate_single g a c0 force Hwf (length g) i s Hi Hi Hs) as HS.
      destruct (evaluate g (length g) (Some a) force i s) as [s' r]. apply HS.
    - by eapply single_layout.
  Qed.

  (** Under one identification number, each operator is computed at most once, and when an attempt
      succeeds, the whole tree below it is as it was built. *)
  Theorem attempts_compute_once g a hs s0 s : wf g -> (forall p, restored g s0 p) -> (forall p, last_id s0 p <> Some a) ->
    Forall (attempts a (length g)) hs -> s = history g hs s0 ->
    exists new, calls s = new ++ calls s0 /\ NoDup (map fst new) /\
      forall i force s' f, i < length g -> evaluate g (length g) (Some a) force i s = (s', Some f) -> forall p, below g i p -> restored g s' p.
  Proof.
    intros Hwf Hr Hl Hh ->. pose proof (attempts_single g a _ hs s0 Hwf Hh (single_start g a s0 Hr Hl)) as Hs.
    destruct (s_calls _ _ _ _ Hs) as (c & Hc & Hnd & Hin). exists c. split; [done|]. split.
    - apply NoDup_fmap_2_strong; [|done]. intros [p x] [p' x'] H1 H2 E. cbn in E. apply Hin in H1 as [-> _]. apply Hin in H2 as [-> _]. by subst.
    - intros i force s' f Hi He p Hp. pose proof (evaluate_single g a _ force Hwf (length g) i _ Hi Hi Hs) as HS. rewrite He in HS.
      destruct HS as (H1 & _ & _ & _ & _ & H6). destruct (H6 f eq_refl) as [-> Hd]. apply (s_rest _ _ _ _ H1). by eapply single_below.
  Qed.

  (** ** C26 *)
  (** The sequence of layouts starts in coefficient space, goes through neighbours only, and visits
      every layout in each half of a pass. *)
  Theorem oscillation n passes : 2 <= n -> 1 <= passes ->
    length (oscillate n passes) = passes * (2 * (n - 1)) /\ nth 0 (oscillate n passes) 0 = 0 /\
    (forall t, S t < length (oscillate n passes) ->
      nth (S t) (oscillate n passes) 0 = nth t (oscillate n passes) 0 + 1 \/ nth t (oscillate n passes) 0 = nth (S t) (oscillate n passes) 0 + 1) /\
    (forall h l, l < n -> (h + 1) * (n - 1) < length (oscillate n passes) ->
      exists t, h * (n - 1) <= t <= (h + 1) * (n - 1) /\ nth t (oscillate n passes) 0 = l).
  Proof.
    intros Hn Hp. assert (1 * (2 * (n - 1)) <= length (oscillate n passes)) as Hl by (rewrite oscillate_length by done; nia).
    split; [by apply oscillate_length|]. split; [|split; [intros t; by apply oscillate_neighbours|]].
    - rewrite oscillate_index by lia. cbv zeta. rewrite Nat.mod_0_l by lia. by rewrite decide_True by lia.
    - intros h l Hl' Hh. replace ((h + 1) * (n - 1)) with (h * (n - 1) + (n - 1)) by lia. apply oscillate_visits; [done|done|lia].
  Qed.

  (** The evaluation of any tasks from a state without pending attempts: it never transforms a field
      that is in another layout; it ends at the first step at which all tasks can have been
      evaluated, with the values on the current data, in coefficient space, each operator having been
      computed at most once and the trees being as they were built; and it raises [StopIteration]
      only if the steps are too few. *)
  Theorem evaluator_sweep g n id tasks s ll w : wf g -> 2 <= n -> (forall i, i ∈ tasks -> i < length g) ->
    (forall i nd, g !! i = Some nd -> keeps_layout nd) ->
    (forall p, restored g s p) -> (forall p, last_id s p <> Some id) ->
    layouts_from g (fun v => layout s (U v)) ll -> values_on g (user_data s) w ->
    let done := done_by g (done_initially g (fun v => layout s (U v)) ll) (fun t => nth t (oscillate n 10) 0) in
    match evaluate_handlers g n id tasks s with
    | Done s' k =>
        k < length (oscillate n 10) /\ (forall i, i ∈ tasks -> done k i) /\ (forall t, t < k -> exists i, i ∈ tasks /\ ~ done t i) /\
        (forall i, i ∈ tasks -> value s' (O i) = w i /\ layout s' (O i) = 0 /\ forall p, below g i p -> restored g s' p) /\
        (forall v, user_data s' v = user_data s v) /\
        exists new, calls s' = new ++ calls s /\ NoDup (map fst new)
    | StopIteration _ => exists i, i ∈ tasks /\ ~ done (length (oscillate n 10) - 1) i
    | Corrupt => False
    end.
  Proof.
    intros Hwf Hn Ht Hk Hr Hl Hll Hw done. pose proof (handlers_spec g n id tasks s ll Hwf Hn Ht Hk Hr Hl Hll) as HS. cbv zeta in HS.
    pose proof (handlers_good g (user_data s) w n id tasks s Hwf Hw Ht (good_clean g s w (fun a => a = id) Hr ltac:(intros p a Hp E; apply (Hl p); congruence))) as HG.
    destruct (evaluate_handlers g n id tasks s) as [s' k|s'|]; [|exact HS|exact HS].
    destruct HS as (S1 & S2 & S3 & S4 & S5). split; [exact S1|]. split; [exact S2|]. split; [exact S3|]. split; [|split].
    - intros i Hi. destruct (S5 i Hi) as [Hd H0]. split; [by apply (good_last _ _ _ _ _ HG i id)|]. split; [exact H0|].
      intros p Hp. apply (s_rest _ _ _ _ S4). by eapply single_below.
    - apply HG.
    - destruct (s_calls _ _ _ _ S4) as (c & Hc & Hnd & Hin). exists c. split; [exact Hc|].
      apply NoDup_fmap_2_strong; [|exact Hnd]. intros [p x] [p' x'] H1 H2 E. cbn in E. apply Hin in H1 as [-> _]. apply Hin in H2 as [-> _]. by subst.
  Qed.

  (** Trees nested at most 19 deep are always evaluated, in at most one sweep (half a pass) for each
      level. *)
  Theorem evaluator_completes g n id tasks s d : wf g -> 2 <= n -> (forall i, i ∈ tasks -> i < length g) ->
    (forall i nd, g !! i = Some nd -> keeps_layout nd /\ exists l, l < n /\ accepts nd l) ->
    (forall p, restored g s p) -> (forall p, last_id s p <> Some id) ->
    (forall i, i ∈ tasks -> depth_at_most g d i) -> d <= 19 ->
    exists s' k, evaluate_handlers g n id tasks s = Done s' k /\ k <= d * (n - 1).
  Proof.
    intros Hwf Hn Ht Hk Hr Hl Hd Hdle.
    destruct (layouts_exist g (fun v => layout s (U v)) Hwf) as [ll Hll].
    pose proof (handlers_spec g n id tasks s ll Hwf Hn Ht ltac:(intros i nd Hnd; by apply (Hk i)) Hr Hl Hll) as HS. cbv zeta in HS.
    pose proof (oscillate_length n 10 Hn) as Hlen.
    assert (forall t i, i ∈ tasks -> d * (n - 1) <= t ->
      done_by g (done_initially g (fun v => layout s (U v)) ll) (fun t => nth t (oscillate n 10) 0) t i) as HD.
    { intros t i Hi Hdt. eapply done_by_le; [exact Hdt|]. apply depth_done; [done| |nia|by apply Ht| |by apply Hd].
      - intros j nd Hnd. by apply (Hk j).
      - intros j p (nd & Hnd & Hp). pose proof (Hwf j nd (AN p) Hnd Hp) as F. cbn in F. apply lookup_lt_Some in Hnd. lia. }
    destruct (evaluate_handlers g n id tasks s) as [s' k|s'|]; [|destruct HS as (i & Hi & []); apply HD; [done|nia]|done].
    destruct HS as (S1 & S2 & S3 & _). exists s', k. split; [done|]. destruct (decide (k <= d * (n - 1))) as [|Hgt]; [done|].
    destruct (S3 (d * (n - 1)) ltac:(lia)) as (i & Hi & []). by apply HD.
  Qed.
End Props.
Print Assumptions evaluation_value.
Print Assumptions evaluation_succeeds.
Print Assumptions attempts_compute_once.
Print Assumptions oscillation.
Print Assumptions evaluator_sweep.
Print Assumptions evaluator_completes.

(** ** Witnesses *)
(** Operators on integers that need all operands in layout [l]. *)
Definition needs (l : nat) (f : list Z -> Z) : op Z :=
  Op (fun ls => forallb (Nat.eqb l) ls) (map (fun _ => l)) (fun ls => default 0 (head ls)) f.
Definition zsum (xs : list Z) : Z := foldr Z.add 0%Z xs.
Definition zprod (xs : list Z) : Z := foldr Z.mul 1%Z xs.
(** (x y + x) y: products in grid space (layout 1), the sum in coefficient space (layout 0). *)
Definition tree : list (node Z) :=
  [Node (needs 1 zprod) [AF (U 0); AF (U 1)]; Node (needs 0 zsum) [AN 0; AF (U 0)]; Node (needs 1 zprod) [AN 1; AF (U 1)]].
Definition tree_start : state Z := start tree (fun _ => 0) (fun f => match f with U 0 => 3 | _ => 5 end)%Z.

Lemma tree_wf : wf tree.
Proof.
  intros [|[|[|i]]] nd a; cbn; [intros [= <-] H|intros [= <-] H|intros [= <-] H|done];
    repeat (apply elem_of_cons in H as [->|H]; [cbn; lia || exact Logic.I|]); by apply elem_of_nil in H.
Qed.
Example tree_meets_hypotheses :
  wf tree /\ (forall i nd, tree !! i = Some nd -> keeps_layout nd /\ exists l, l < 2 /\ accepts nd l) /\
  (forall p, restored tree tree_start p) /\ (forall p, last_id tree_start p <> Some 7) /\ depth_at_most tree 3 2.
Proof.
  split; [exact tree_wf|]. split; [|split; [|split]].
  - intros [|[|[|i]]] nd; cbn; intros [= <-]; (split; [split; [done|done]|]); [exists 1|exists 0|exists 1]; unfold accepts; cbn; auto with arith.
  - intros p nd Hp. unfold tree_start, start. cbn [args]. by rewrite Hp.
  - done.
  - cbn [depth_at_most]. intros j (nd & [= <-] & Hj). repeat (apply elem_of_cons in Hj as [[= ->]|Hj]); [|by apply elem_of_nil in Hj].
    intros j (nd & [= <-] & Hj). repeat (apply elem_of_cons in Hj as [[= ->]|Hj]); [|by apply elem_of_nil in Hj].
    intros j (nd & [= <-] & Hj). repeat (apply elem_of_cons in Hj as [[= ->]|Hj]); by apply elem_of_nil in Hj.
Qed.
Example tree_evaluates :
  match evaluate_handlers tree 2 7 [2; 0] tree_start with
  | Done s k => value s (O 2) = 90%Z /\ value s (O 0) = 15%Z /\ k = 3 /\ map fst (calls s) = [2; 1; 0]
  | _ => False
  end.
Proof. vm_compute. auto. Qed.
(** A careful history with a change of data, attempts and evaluations. *)
Example tree_history : careful tree [] [] [Eval 2 (Some 1) false; Eval 2 (Some 1) true; SetData 0 4%Z; Move (U 0) 1; Eval 2 None true; Eval 2 (Some 2) true] tree_start.
Proof.
  cbn [careful]. split; [auto with arith|]. split; [apply not_elem_of_nil|]. split; [auto with arith|]. split; [apply not_elem_of_nil|]. split.
  - intros [|[|[|i]]] nd; [intros [= <-]; reflexivity..|done].
  - split; [auto with arith|]. split; [auto with arith|]. split; [|done]. cbn [app]. rewrite !elem_of_cons, elem_of_nil. intuition discriminate.
Qed.

(** An attempt that is abandoned leaves evaluated operands in the tree: after a change of data, a
    complete evaluation uses the old ones. *)
Theorem abandoned_attempt_refuted :
  let g := [Node (needs 1 zprod) [AF (U 0); AF (U 1)]; Node (needs 0 zsum) [AN 0; AF (U 0)]] in
  let s0 := start g (fun _ => 1) (fun f => match f with U 0 => 3 | _ => 5 end)%Z in
  let s := history g [Eval 1 None false; SetData 0 4%Z] s0 in
  wf g /\ exists s' w, values_on g (user_data s) w /\ evaluate g 2 None true 1 s = (s', Some (O 1)) /\
    w 1 = 24%Z /\ value s' (O 1) = 19%Z.
Proof.
  cbv zeta. split.
  - intros [|[|i]] nd a; cbn; [intros [= <-] H|intros [= <-] H|done];
      repeat (apply elem_of_cons in H as [->|H]; [cbn; lia || exact Logic.I|]); by apply elem_of_nil in H.
  - eexists _, (fun i : nat => match i with 0 => 20%Z | _ => 24%Z end). split; [|split; [reflexivity|by vm_compute]].
    intros [|[|i]] nd; [intros [= <-]; reflexivity..|done].
Qed.
Print Assumptions abandoned_attempt_refuted.

(** The number of an evaluation must not be used again after the data have changed. *)
Theorem reused_number_refuted :
  let g := [Node (needs 1 zprod) [AF (U 0); AF (U 1)]] in
  let s0 := start g (fun _ => 1) (fun f => match f with U 0 => 3 | _ => 5 end)%Z in
  let s := history g [Eval 0 (Some 1) true; SetData 0 4%Z] s0 in
  wf g /\ (forall p, restored g s p) /\ exists s' w, values_on g (user_data s) w /\ evaluate g 1 (Some 1) true 0 s = (s', Some (O 0)) /\
    w 0 = 20%Z /\ value s' (O 0) = 15%Z.
Proof.
  cbv zeta. split; [|split].
  - intros [|i] nd a; cbn; [intros [= <-] H|done];
      repeat (apply elem_of_cons in H as [->|H]; [cbn; exact Logic.I|]); by apply elem_of_nil in H.
  - intros [|i] nd; [intros [= <-]; reflexivity|done].
  - eexists _, (fun _ : nat => 20%Z). split; [|split; [reflexivity|by vm_compute]].
    intros [|i] nd; [intros [= <-]; reflexivity|done].
Qed.
Print Assumptions reused_number_refuted.

(** 20 operators, nested, that need grid space and coefficient space in turn, exhaust the ten
    passes, although each of them could be evaluated in some layout. *)
Definition deep (d : nat) : list (node Z) :=
  map (fun i => Node (needs (if Nat.even i then 1 else 0) zsum) [match i with 0 => AF (U 0) | S i => AN i end]) (seq 0 d).
Theorem deep_nesting_refuted :
  wf (deep 20) /\ (forall i nd, deep 20 !! i = Some nd -> keeps_layout nd /\ exists l, l < 2 /\ accepts nd l) /\
  depth_at_most (deep 20) 20 19 /\
  exists s, evaluate_handlers (deep 20) 2 7 [19] (start (deep 20) (fun _ => 0) (fun _ => 1%Z)) = StopIteration s.
Proof.
  assert (forall i nd, deep 20 !! i = Some nd -> i < 20 /\
    nd = Node (needs (if Nat.even i then 1 else 0) zsum) [match i with 0 => AF (U 0) | S i => AN i end]) as Hd.
  { intros i nd. unfold deep. intros (j & Hj & ->)%list_lookup_fmap_Some. apply lookup_seq in Hj as [-> Hj]. done. }
  split; [|split; [|split]].
  - intros i nd a Hi Ha. apply Hd in Hi as [_ ->]. apply elem_of_list_singleton in Ha as ->. destruct i; cbn; [done|lia].
  - intros i nd Hi. apply Hd in Hi as [_ ->]. split; [split; [done|done]|]. exists (if Nat.even i then 1 else 0). unfold accepts. cbn.
    destruct (Nat.even i); cbn; auto with arith.
  - assert (forall d i, i < d -> depth_at_most (deep 20) d i) as H; [|apply H; auto with arith].
    induction d as [|d IH]; intros i Hi; [lia|]. cbn [depth_at_most]. intros j (nd & Hn & Hj). apply Hd in Hn as [_ ->].
    apply elem_of_list_singleton in Hj. destruct i; [done|]. injection Hj as ->. apply IH. lia.
  - destruct (evaluate_handlers (deep 20) 2 7 [19] (start (deep 20) (fun _ => 0) (fun _ => 1%Z))) as [s k|s|] eqn:E; [|by exists s|];
      exfalso; assert (match evaluate_handlers (deep 20) 2 7 [19] (start (deep 20) (fun _ => 0) (fun _ => 1%Z)) with StopIteration _ => true | _ => false end = true)
        as F by (vm_compute; reflexivity); by rewrite E in F.
Qed.
Print Assumptions deep_nesting_refuted.
