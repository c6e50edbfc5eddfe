(** Synchronised blocks: C61. *)
From Coq Require Import List Arith Bool Lia.
Import ListNotations.
From Verif Require Import Parallel_Model Parallel_Spec Parallel_Proofs.

Lemma app_cases {X} (a b c d : list X) : a ++ b = c ++ d -> exists l, a = c ++ l /\ d = l ++ b \/ c = a ++ l /\ b = l ++ d.
Proof. revert c. induction a as [|x a IH]; intros [|y c] E; cbn in E; [exists []; left; split; [reflexivity|symmetry; exact E]|exists (y :: c); right; split; [reflexivity|exact E]|exists (x :: a); left; split; [reflexivity|symmetry; exact E]|]. injection E as -> E. destruct (IH c E) as [l [[-> ->]|[-> ->]]]; exists l; [left|right]; split; reflexivity. Qed.

Section Blocks.
Context {A : Type}.

(** ** Rotation.  At every moment of every schedule, what has been done is the beginning of: the whole block on rank 0, then the whole block on rank 1, and so on. *)
Theorem rotation_in_order n (block : nat -> list A) schedule : beginning (trace (run n (fun p => with_rotation n p (block p)) schedule)) (by_rank n block).
Proof. apply rotation. Qed.
(** So when a process does something, the earlier ones have finished their blocks, and do nothing more. *)
Theorem rotation_exclusive n (block : nat -> list A) schedule t1 p a t2 q : trace (run n (fun p => with_rotation n p (block p)) schedule) = t1 ++ (p, a) :: t2 -> q < p -> of_rank q t1 = block q /\ of_rank q t2 = [].
Proof.
  intros E Hq. destruct (rotation_in_order n block schedule) as [rest Er]. rewrite E in Er. clear E. rewrite <- app_assoc in Er. cbn [app] in Er.
  assert (Lp : p < n) by (apply (by_rank_bound n block (p, a)); rewrite <- Er; apply in_app_iff; right; left; reflexivity).
  pose proof (of_rank_by_rank n q block ltac:(lia)) as X. rewrite <- Er in X. change ((p, a) :: t2 ++ rest) with ([(p, a)] ++ t2 ++ rest) in X. rewrite !of_rank_app in X. unfold of_rank at 2 in X. cbn [filter fst] in X. destruct (Nat.eqb_spec p q); [lia|]. cbn [map app] in X.
  assert (E1 : of_rank q t1 = block q).
  { assert (S_ : by_rank n block = by_rank (S q) block ++ flat_map (fun p => map (pair p) (block p)) (seq (S q) (n - S q))) by (unfold by_rank; rewrite <- flat_map_app, <- seq_app; replace (S q + (n - S q)) with n by lia; reflexivity).
    rewrite S_ in Er. destruct (app_cases _ _ _ _ Er) as [l [[-> _]|[El Ev]]].
    - rewrite of_rank_app, of_rank_by_rank in * by lia. rewrite <- !app_assoc in X. apply (f_equal (@length A)) in X. rewrite !app_length in X. destruct (of_rank q l); [apply app_nil_r|cbn in X; lia].
    - destruct l as [|x l]; [rewrite app_nil_r in El; rewrite <- El; apply of_rank_by_rank; lia|]. exfalso.
      cbn in Ev. injection Ev as <- _. assert (Hi : In (p, a) (by_rank (S q) block)) by (rewrite El; apply in_app_iff; right; left; reflexivity). apply by_rank_bound in Hi. cbn in Hi. lia. }
  split; [exact E1|]. rewrite E1 in X. apply (f_equal (@length A)) in X. rewrite !app_length in X. destruct (of_rank q t2); [reflexivity|cbn in X; lia].
Qed.
(** No deadlock: after any schedule, enough rounds in which every process gets a turn bring all processes to their ends, and everything has been done. *)
Definition size_of (n : nat) (prog : nat -> list (instr A)) : nat := fold_right (fun p w => length (prog p) + w) 0 (seq 0 n).
Theorem rotation_completes n (block : nat -> list A) schedule rounds : let prog := fun p => with_rotation n p (block p) in
  fair_rounds n rounds -> 2 * size_of n prog <= length rounds -> finished n (run n prog (schedule ++ concat rounds)) /\ trace (run n prog (schedule ++ concat rounds)) = by_rank n block.
Proof.
  intros prog F L. assert (Fi : finished n (run n prog (schedule ++ concat rounds))) by (apply (completes n prog n); [intros p Hp; apply rotation_barriers; exact Hp|exact F|exact L]).
  split; [exact Fi|]. apply beginning_full; [apply rotation|]. intros p Hp. rewrite (finished_traces n prog _ p Hp Fi). unfold prog, with_rotation, rotate_enter, rotate_exit. rewrite !acts_app, !acts_repeat, acts_map, app_nil_r. reflexivity.
Qed.

(** ** Synchronisation.  Each process does something before, the block, and something after it. *)
Definition around (enter exit : bool) (before block after : list A) : list (instr (moment A)) :=
  map Act (map Before before) ++ with_sync enter exit (map Inside block) ++ map Act (map After after).
Definition before_or_inside (m : moment A) : Prop := is_before m \/ is_inside m.
Definition inside_or_after (m : moment A) : Prop := is_inside m \/ is_after m.
Definition when (enter exit : bool) (p : nat) (m : moment A) : nat := match m with Before _ => 0 | Inside _ => Nat.b2n enter | After _ => Nat.b2n enter + Nat.b2n exit end.
Lemma phased_map enter exit p k f (l : list A) : (forall a, when enter exit p (f a) = k) -> phased (when enter exit) p k (map Act (map f l)).
Proof. intros H. induction l as [|a l IH]; cbn; [exact I|]. split; [apply H|exact IH]. Qed.
Lemma around_phased enter exit p before block after : phased (when enter exit) p 0 (around enter exit before block after).
Proof.
  unfold around, with_sync. rewrite !phased_app. rewrite barriers_map. split; [apply phased_map; reflexivity|]. assert (B1 : barriers (@sync_enter (moment A) enter) = Nat.b2n enter) by (destruct enter; reflexivity). assert (B2 : barriers (@sync_exit (moment A) exit) = Nat.b2n exit) by (destruct exit; reflexivity).
  rewrite !barriers_app, barriers_map, B1, B2. cbn [Nat.add]. split; [split; [destruct enter; cbn; exact I|split; [apply phased_map; reflexivity|destruct exit; cbn; exact I]]|]. apply phased_map; reflexivity.
Qed.
(** With a barrier on entering, no process enters before all have come to the block; with one on leaving, no process goes on before all have finished it. *)
Theorem sync_enters_together n (before block after : nat -> list A) exit schedule :
  never_after is_before inside_or_after (trace (run n (fun p => around true exit (before p) (block p) (after p)) schedule)).
Proof.
  intros t1 e t2 f t3 E He Hf. pose proof (phases_ordered n (fun p => around true exit (before p) (block p) (after p)) (when true exit) (fun p _ => around_phased true exit p _ _ _) schedule _ _ _ _ _ E) as O. unfold inside_or_after in He. destruct (snd e), (snd f); cbn in *; try tauto; lia.
Qed.
Theorem sync_leaves_together n (before block after : nat -> list A) enter schedule :
  never_after before_or_inside is_after (trace (run n (fun p => around enter true (before p) (block p) (after p)) schedule)).
Proof.
  intros t1 e t2 f t3 E He Hf. pose proof (phases_ordered n (fun p => around enter true (before p) (block p) (after p)) (when enter true) (fun p _ => around_phased enter true p _ _ _) schedule _ _ _ _ _ E) as O. unfold before_or_inside in Hf. destruct (snd e), (snd f); cbn in *; try tauto; lia.
Qed.
(** If all processes use the same flags, all come to their ends. *)
Theorem sync_completes n (before block after : nat -> list A) enter exit schedule rounds : let prog := fun p => around enter exit (before p) (block p) (after p) in
  fair_rounds n rounds -> 2 * fold_right (fun p w => length (prog p) + w) 0 (seq 0 n) <= length rounds -> finished n (run n prog (schedule ++ concat rounds)).
Proof.
  intros prog F L. apply (completes n prog (Nat.b2n enter + Nat.b2n exit)); [|exact F|exact L]. intros p _. unfold prog, around, with_sync. rewrite !barriers_app, !barriers_map. destruct enter, exit; reflexivity.
Qed.
End Blocks.

(** ** Directories.  No process goes on after [parallel_mkdir] before rank 0 has made sure that the directory is there. *)
Definition mkdir_then_use (rank : nat) : list (instr mkdir_action) := parallel_mkdir rank ++ [Act Use].
Definition mkdir_phase (p : nat) (a : mkdir_action) : nat := match a with Create => 0 | Use => 1 end.
Lemma mkdir_phased p : phased mkdir_phase p 0 (mkdir_then_use p).
Proof. destruct p; cbn; repeat split. Qed.
Theorem mkdir_before_use n schedule p t1 t2 : trace (run n mkdir_then_use schedule) = t1 ++ (p, Use) :: t2 -> In (0, Create) t1.
Proof.
  intros E. destruct (run_ind n mkdir_then_use (fun s dn => forall t1 p t2, trace s = t1 ++ (p, Use) :: t2 -> In (0, Create) t1)) with (schedule := schedule) as (dn & _ & H); [intros [|x u1] q u2 Eu; discriminate| |exact (H _ _ _ E)].
  clear. intros s dn p s' dn' (G1 & G2 & G3 & G4) _ IH [[-> _]|[(a & Et & Lp & Tr & -> & En & _)|[-> _]]] t1 q t2 E; [exact (IH _ _ _ E)| |exact (IH _ _ _ E)].
  rewrite Tr in E. destruct t2 as [|y t2 _] using rev_ind.
  - apply app_inj_tail in E. destruct E as [Et1 E]. injection E as <- ->. subst t1. destruct (G1 p Lp) as (P1 & P2 & _). rewrite Et in P1.
    assert (B1 : barriers (dn p) = 1). { pose proof (mkdir_phased p) as Ph. rewrite P1 in Ph. apply phased_app in Ph. destruct Ph as [_ Ph]. cbn in Ph. symmetry. apply Ph. }
    destruct (G1 0 ltac:(lia)) as (Q1 & Q2 & Q3). pose proof (G2 p 0 Lp ltac:(lia)) as C. rewrite B1, Q2 in C. pose proof (G3 0 ltac:(lia)) as T0.
    assert (Hc : In Create (acts (dn 0))). { destruct (dn 0) as [|i l]; cbn in Q1, C; [destruct (waiting (procs s 0)); [destruct (Q3 eq_refl) as [r Er]; rewrite Er in Q1; discriminate|cbn in C; lia]|]. injection Q1 as <- _. left. reflexivity. }
    rewrite <- T0 in Hc. unfold of_rank in Hc. apply in_map_iff in Hc. destruct Hc as ([x y] & Ey & Hin). apply filter_In in Hin. destruct Hin as [Hin Hx]. cbn in Ey, Hx. apply Nat.eqb_eq in Hx. subst. exact Hin.
  - assert (E' : trace s ++ [(p, a)] = (t1 ++ (q, Use) :: t2) ++ [y]) by (rewrite E, <- app_assoc; reflexivity). apply app_inj_tail in E'. destruct E' as [E' _]. exact (IH _ _ _ E').
Qed.
Theorem mkdir_completes n schedule rounds : fair_rounds n rounds -> 2 * fold_right (fun p w => length (mkdir_then_use p) + w) 0 (seq 0 n) <= length rounds -> finished n (run n mkdir_then_use (schedule ++ concat rounds)).
Proof. intros F L. apply (completes n mkdir_then_use 1); [|exact F|exact L]. intros [|p] _; reflexivity. Qed.

(** ** A block that itself synchronises is not exclusive: rank 0 waits inside its block, which lets rank 1 begin. *)
Definition talking (rank : nat) : list (instr nat) := rotate_enter 2 rank ++ [Act 1; Barrier; Act 2] ++ rotate_exit 2 rank.
Theorem rotation_with_collective_refuted : exists schedule, trace (run 2 talking schedule) = [(0, 1); (1, 1); (0, 2)].
Proof. exists [0; 0; 1; 1; 1; 0; 0]. reflexivity. Qed.
(** Processes that disagree on the flags wait for ever. *)
Definition disagreeing (rank : nat) : list (instr nat) := with_sync (rank =? 0) true [7].
Theorem sync_flags_refuted rounds : fair_rounds 2 rounds -> ~ finished 2 (run 2 disagreeing (concat rounds)).
Proof.
  intros _ F. destruct (good_fold 2 disagreeing (concat rounds) _ _ (good_start 2 disagreeing)) as (dn & G1 & G2 & _). fold (run 2 disagreeing (concat rounds)) in G1, G2.
  destruct (G1 0 ltac:(lia)) as (P1 & _). destruct (G1 1 ltac:(lia)) as (Q1 & Q2 & Q3). rewrite (F 0 ltac:(lia)), app_nil_r in P1. rewrite (F 1 ltac:(lia)), app_nil_r in Q1. pose proof (G2 0 1 ltac:(lia) ltac:(lia)) as C. rewrite <- P1, Q2, <- Q1 in C. cbn in C.
  destruct (waiting _); [destruct (Q3 eq_refl) as [r Er]; rewrite (F 1 ltac:(lia)) in Er; discriminate|lia].
Qed.
Print Assumptions rotation_in_order.
Print Assumptions rotation_exclusive.
Print Assumptions rotation_completes.
Print Assumptions sync_enters_together.
Print Assumptions sync_leaves_together.
Print Assumptions sync_completes.
Print Assumptions mkdir_before_use.
Print Assumptions mkdir_completes.
Print Assumptions rotation_with_collective_refuted.
Print Assumptions sync_flags_refuted.

(** ** Examples: three processes with two actions each, in an awkward order; a round that is fair. *)
Definition blocks3 (p : nat) : list nat := [10 * p; 10 * p + 1].
Example rotation_runs : trace (run 3 (fun p => with_rotation 3 p (blocks3 p)) (concat (repeat [2; 1; 0] 12))) = [(0, 0); (0, 1); (1, 10); (1, 11); (2, 20); (2, 21)].
Proof. reflexivity. Qed.
Example some_way : trace (run 3 (fun p => with_rotation 3 p (blocks3 p)) [2; 1; 0; 1; 0; 0; 2; 1; 1]) = [(0, 0); (0, 1); (1, 10)].
Proof. reflexivity. Qed.
Example rounds_fair : fair_rounds 3 (repeat [2; 1; 0] 12).
Proof. apply Forall_forall. intros r Hr. apply repeat_spec in Hr. subst r. intros p Hp. cbn. lia. Qed.
Example sync_runs : trace (run 2 (fun p => around true true [p] [p] [p]) [0; 0; 0; 0; 1; 0; 1; 0; 1; 0; 1]) = [(0, Before 0); (1, Before 1); (0, Inside 0); (1, Inside 1)].
Proof. reflexivity. Qed.
