(** What a solver gathers from a field and what the field shows of its results: C62. *)
From Coq Require Import List Arith Bool Lia.
Import ListNotations.
From Verif Require Import Buffers_Model Buffers_Spec Buffers_Proofs.

Lemma max_attained l : l <> [] -> In (list_max l) l.
Proof. induction l as [|x l IH]; intros H; [contradiction|]. change (list_max (x :: l)) with (Nat.max x (list_max l)). destruct l as [|y l]; [left; cbn; lia|]. destruct (Nat.max_spec x (list_max (y :: l))) as [[_ ->]|[_ ->]]; [right; apply IH; discriminate|left; reflexivity]. Qed.

Section State.
Context {V T : Type} (teq : forall x y : T, {x = y} + {x <> y}).
Context (dim top : nat) (grid : nat -> nat -> bool) (lsize : nat -> list T -> nat) (ncomp : nat) (dealias ones : list T).
Context (fresh : nat -> nat -> list V) (incr decr : nat -> list T -> list V -> list V) (zero : V) (pos : list (list nat)).
Notation new_field := (new_field teq top lsize ncomp dealias ones fresh pos).
Notation history := (history teq dim top grid lsize ncomp dealias fresh incr decr zero pos).
Notation ideal_history := (ideal_history grid incr decr teq zero pos).
Notation setting := (setting grid lsize ncomp incr decr pos dim fresh).
Notation all_proper := (all_proper top grid lsize ncomp incr decr teq zero pos dim).
Notation solver_at := (solver_at grid incr decr teq zero pos).
(** Scales whose data, in every layout, is no larger than some layout's data with the dealias scales. *)
Definition within_dealias (s : list T) : Prop := forall l, l <= top -> exists l', l' <= top /\ lsize l s <= lsize l' dealias.
Lemma within_small s : within_dealias s <-> small top lsize dealias s.
Proof.
  unfold small, buffer_size. split.
  - intros H. apply list_max_le. apply Forall_forall. intros n Hn. apply in_map_iff in Hn. destruct Hn as (l & <- & Hl). apply in_seq in Hl. destruct (H l ltac:(lia)) as (l' & Hl' & Le). eapply Nat.le_trans; [exact Le|]. apply list_max_in. apply in_map_iff. exists l'. split; [reflexivity|apply in_seq; lia].
  - intros H l Hl. assert (Ne : map (fun l => lsize l dealias) (seq 0 (S top)) <> []) by discriminate. pose proof (max_attained _ Ne) as Hm. apply in_map_iff in Hm. destruct Hm as (l' & E & Hl'). apply in_seq in Hl'. exists l'. split; [lia|]. rewrite E. eapply Nat.le_trans; [|exact H]. apply list_max_in. apply in_map_iff. exists l. split; [reflexivity|apply in_seq; lia].
Qed.
Lemma solver_at_ext (P Q : list T -> Prop) es i : (forall s, P s -> Q s) -> solver_at P es i -> solver_at Q es i.
Proof. intros H. revert i. induction es as [|e es IH]; intros i; cbn; [auto|]. intros [A B]. split; [|apply IH; exact B]. destruct e; cbn in *; auto. Qed.

(** For every history in which the solver only gathers and scatters while the field's scales are within the dealias scales: nothing fails, everything that is read or gathered is what
    the field's data should be, and so is what the field shows in the end.  The initial data is whatever the new memory holds. *)
Theorem solver_sees_the_field : setting -> length ones = dim -> exists f0 x0, new_field = Some f0 /\ length x0 = ncomp * lsize 0 ones /\
  forall es, all_proper es (Ideal ones 0 x0) -> solver_at within_dealias es (Ideal ones 0 x0) ->
  exists f, history es f0 = Some (fst (ideal_history es (Ideal ones 0 x0)), f) /\ data lsize ncomp f = values (snd (ideal_history es (Ideal ones 0 x0))).
Proof.
  intros S_ Ho. destruct (new_ok teq dim top grid lsize ncomp dealias ones fresh incr decr pos S_ Ho) as (f0 & E0 & S0 & V0). exists f0, (data lsize ncomp f0). split; [exact E0|]. pose proof S0 as (_ & _ & _ & _ & L0). split; [exact L0|]. intros es Hp Ha.
  destruct (history_ok teq dim top grid lsize ncomp dealias fresh incr decr zero pos S_ es f0 _ S0 V0 Hp (solver_at_ext _ _ _ _ (fun s => proj1 (within_small s)) Ha)) as (f & E & (_ & _ & _ & Ed & _) & _). exists f. split; [exact E|exact Ed].
Qed.
(** What is placed for the subproblems is what they take: the field shows the result of a step. *)
Theorem placed_taken vs : setting -> Forall2 (fun ps v => length ps = length v) pos vs -> taken zero pos (placed zero pos vs) = vs.
Proof.
  intros S_ F. destruct (shared_out _ _ _ _ _ _ _ _ S_) as [Nd Hp]. pose proof (concat_lengths _ _ F) as Lc.
  assert (G : forall p, In p (concat pos) -> nth p (placed zero pos vs) zero = match find (fun q => fst q =? p) (combine (concat pos) (concat vs)) with Some (_, v) => v | None => zero end).
  { intros p Hi. unfold placed. rewrite nth_map_seq; [reflexivity|]. rewrite (count dim grid lsize ncomp fresh incr decr pos S_ []). apply (Hp p). exact Hi. }
  assert (Q : map (fun p => nth p (placed zero pos vs) zero) (concat pos) = concat vs).
  { rewrite (map_ext_in _ _ _ G). clear - Nd Lc. revert Lc. generalize (concat vs). induction (concat pos) as [|p l IH]; intros [|v w] Lc; cbn in Lc; try discriminate; [reflexivity|]. inversion Nd as [|? ? Np Nd']; subst. cbn [map combine find fst]. rewrite Nat.eqb_refl. f_equal. transitivity (map (fun p => match find (fun q => fst q =? p) (combine l w) with Some (_, v) => v | None => zero end) l); [|apply (IH Nd' w); lia]. apply map_ext_in. intros q Hq. destruct (p =? q) eqn:E; [apply Nat.eqb_eq in E; subst; contradiction|reflexivity]. }
  unfold taken. clear - F Q. revert Q. generalize (fun p => nth p (placed zero pos vs) zero). intros g. induction F as [|ps v l w Hl F IH]; cbn [map concat]; [reflexivity|]. rewrite map_app. intros Q. assert (E : map g ps = v /\ map g (concat l) = concat w).
  { clear - Q Hl. revert v Hl Q. induction ps as [|p ps IH]; intros [|x v] Hl Q; cbn in *; try discriminate; [split; [reflexivity|exact Q]|]. injection Q as -> Q. destruct (IH v ltac:(lia) Q) as [-> ->]. split; reflexivity. }
  destruct E as [-> E]. f_equal. apply IH. exact E.
Qed.
(** Outside the dealias scales the solver is detached: once it has gathered or scattered, and the field's scales are then made larger, the next gathering has the old coefficients whatever is set ... *)
Theorem detached_gather_refuted : setting -> length ones = dim -> exists f0 x0, new_field = Some f0 /\
  forall es s d, all_proper es (Ideal ones 0 x0) -> solver_at within_dealias es (Ideal ones 0 x0) -> existsb by_solver es = true ->
  let i := snd (ideal_history es (Ideal ones 0 x0)) in
  in_layout i = 0 -> within_dealias (at_scales i) -> length s = dim -> ~ within_dealias s -> length d = ncomp * lsize 0 s ->
  exists f, history (es ++ [Scale s; Set_ 0 None d; Gather]) f0 = Some (fst (ideal_history es (Ideal ones 0 x0)) ++ [[]; []; taken zero pos (values i)], f).
Proof.
  intros S_ Ho. destruct (new_ok teq dim top grid lsize ncomp dealias ones fresh incr decr pos S_ Ho) as (f0 & E0 & S0 & V0). exists f0, (data lsize ncomp f0). split; [exact E0|]. intros es s d Hp Ha He i Hi Hw Ls Hn Ld.
  destruct (history_ok teq dim top grid lsize ncomp dealias fresh incr decr zero pos S_ es f0 _ S0 V0 Hp (solver_at_ext _ _ _ _ (fun s => proj1 (within_small s)) Ha)) as (f & E & Sf & Vf & Zf). rewrite history_app, E.
  destruct (detached_gather teq dim top grid lsize ncomp dealias fresh incr decr zero pos S_ f i s d Sf Vf (Zf (or_intror He)) Hi (proj1 (within_small _) Hw) Ls (fun H => Hn (proj2 (within_small _) H)) Ld) as (f' & E'). rewrite E'. exists f'. reflexivity.
Qed.
(** ... and the field goes on showing the old coefficients after the solver has scattered new ones. *)
Theorem detached_scatter_refuted : setting -> length ones = dim -> exists f0 x0, new_field = Some f0 /\
  forall es s vs, all_proper es (Ideal ones 0 x0) -> solver_at within_dealias es (Ideal ones 0 x0) -> existsb by_solver es = true ->
  let i := snd (ideal_history es (Ideal ones 0 x0)) in
  in_layout i = 0 -> within_dealias (at_scales i) -> length s = dim -> ~ within_dealias s -> Forall2 (fun ps v => length ps = length v) pos vs ->
  exists f, history (es ++ [Scale s; Scatter vs; Read 0 None]) f0 = Some (fst (ideal_history es (Ideal ones 0 x0)) ++ [[]; []; [values i]], f).
Proof.
  intros S_ Ho. destruct (new_ok teq dim top grid lsize ncomp dealias ones fresh incr decr pos S_ Ho) as (f0 & E0 & S0 & V0). exists f0, (data lsize ncomp f0). split; [exact E0|]. intros es s vs Hp Ha He i Hi Hw Ls Hn F.
  destruct (history_ok teq dim top grid lsize ncomp dealias fresh incr decr zero pos S_ es f0 _ S0 V0 Hp (solver_at_ext _ _ _ _ (fun s => proj1 (within_small s)) Ha)) as (f & E & Sf & Vf & Zf). rewrite history_app, E.
  destruct (detached_scatter teq dim top grid lsize ncomp dealias fresh incr decr zero pos S_ f i s vs Sf Vf (Zf (or_intror He)) Hi (proj1 (within_small _) Hw) Ls (fun H => Hn (proj2 (within_small _) H)) F) as (f' & E'). rewrite E'. exists f'. reflexivity.
Qed.
End State.
Print Assumptions solver_sees_the_field.
Print Assumptions placed_taken.
Print Assumptions detached_gather_refuted.
Print Assumptions detached_scatter_refuted.

(** ** Example: two axes of 2 and 3 coefficients, in one process; dealias scales of 2; data is cut or filled up with zeros to change its size. *)
Definition grid2 (l a : nat) : bool := (2 - l <=? a) && (a <? 2).
Definition axis2 (l : nat) (s : list nat) (a n : nat) : nat := if grid2 l a then match nth_error s a with Some k => k * n | None => n end else n.
Definition size2 (l : nat) (s : list nat) : nat := axis2 l s 0 2 * axis2 l s 1 3.
Definition fit (n : nat) (x : list nat) : list nat := firstn n (x ++ repeat 0 n).
Definition incr2 (l : nat) (s x : list nat) : list nat := fit (size2 (S l) s) x.
Definition decr2 (l : nat) (s x : list nat) : list nat := fit (size2 l s) x.
Definition pos2 : list (list nat) := [[0; 1; 2]; [3; 4; 5]].
Definition memory (b n : nat) : list nat := repeat b n.
Example setting2 : setting grid2 size2 1 incr2 decr2 pos2 2 memory.
Proof.
  assert (F : forall n x, length (fit n x) = n) by (intros n x; unfold fit; rewrite firstn_length, app_length, repeat_length; lia).
  constructor.
  - intros l a H. apply andb_true_iff in H. apply Nat.ltb_lt, H.
  - intros a. unfold grid2. destruct (2 - 0 <=? a) eqn:E; [|reflexivity]. apply Nat.leb_le in E. cbn [andb]. apply Nat.ltb_ge. lia.
  - intros l a b H Ha Hb. unfold grid2 in *. apply andb_true_iff in H. destruct H as [H _]. apply Nat.leb_le in H. apply andb_true_iff. split; [apply Nat.leb_le; lia|apply Nat.ltb_lt; exact Hb].
  - intros l a H. unfold grid2 in *. apply andb_true_iff in H. destruct H as [H H']. apply Nat.leb_le in H. apply andb_true_iff. split; [apply Nat.leb_le; lia|exact H'].
  - intros l s s' H. unfold size2, axis2. f_equal; [destruct (grid2 l 0) eqn:E|destruct (grid2 l 1) eqn:E]; try reflexivity; rewrite (H _ E); reflexivity.
  - intros b n. apply repeat_length.
  - intros l s x _. unfold incr2. rewrite F. lia.
  - intros l s x _. unfold decr2. rewrite F. lia.
  - split; [repeat (constructor; [cbn; lia|]); constructor|]. intros p s. change (size2 0 s) with 6. cbn. lia.
Qed.
Notation run2 := (history Nat.eq_dec 2 2 grid2 size2 1 [2; 2] memory incr2 decr2 0 pos2).
Notation new2 := (new_field Nat.eq_dec 2 size2 1 [2; 2] [1; 1] memory pos2).
(** A step, then the user sets grid data at scales of 2, then another step. *)
Definition good2 : list event := [Set_ 0 None [1; 2; 3; 4; 5; 6]; Gather; Scatter [[7; 8; 9]; [10; 11; 12]]; Read 0 None; Set_ 2 (Some [2; 2]) (seq 20 24); Gather].
Example good2_ok : option_map fst (match new2 with Some f => run2 good2 f | None => None end) = Some [[]; [[1; 2; 3]; [4; 5; 6]]; []; [[7; 8; 9; 10; 11; 12]]; []; [[20; 21; 22]; [23; 24; 25]]].
Proof. reflexivity. Qed.
Example good2_hyps : all_proper 2 grid2 size2 1 incr2 decr2 Nat.eq_dec 0 pos2 2 good2 (Ideal [1; 1] 0 [0; 0; 0; 0; 0; 0]) /\ solver_at grid2 incr2 decr2 Nat.eq_dec 0 pos2 (within_dealias 2 size2 [2; 2]) good2 (Ideal [1; 1] 0 [0; 0; 0; 0; 0; 0]).
Proof.
  assert (W : forall s, size2 0 s <= 24 -> size2 1 s <= 24 -> size2 2 s <= 24 -> within_dealias 2 size2 [2; 2] s) by (intros s H0 H1 H2 l Hl; exists 2; split; [lia|]; change (size2 2 [2; 2]) with 24; destruct l as [|[|[|l]]]; assumption || lia).
  split; [repeat split; cbn; try lia; repeat constructor|]. repeat split; apply W; vm_compute; lia.
Qed.
(** The same with scales of 3: the second step gathers what the first one left. *)
Example bad2 : option_map fst (match new2 with Some f => run2 [Set_ 0 None [1; 2; 3; 4; 5; 6]; Gather; Scatter [[7; 8; 9]; [10; 11; 12]]; Scale [3; 3]; Set_ 0 None [20; 21; 22; 23; 24; 25]; Gather] f | None => None end) = Some [[]; [[1; 2; 3]; [4; 5; 6]]; []; []; []; [[7; 8; 9]; [10; 11; 12]]].
Proof. reflexivity. Qed.
Example three_is_large : ~ within_dealias 2 size2 [2; 2] [3; 3].
Proof. intros H. destruct (H 2 ltac:(lia)) as ([|[|[|l]]] & Hl & L); vm_compute in L; lia. Qed.
