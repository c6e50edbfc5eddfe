(** Lemmas on grid spacings. *)
From Coq Require Import List ZArith Reals Bool Lra Lia.
Import ListNotations.
From Verif Require Import AffineCOV_Model Blocks_Model Blocks_Proofs AdvectiveCFL_Model AdvectiveCFL_Spec.
Local Open Scope R_scope.

Lemma cdiv_one n : cdiv n 1 = n.
Proof. unfold cdiv. rewrite Nat.div_1_r. lia. Qed.
Lemma elements_bound p axis n e : In e (elements p axis n) -> (e < n)%nat.
Proof.
  unfold elements. rewrite axis_elements_seq. intros H. apply in_seq in H. revert H. unfold ax_lo, ax_hi. rewrite !cdiv_one. destruct (is_local p axis); lia.
Qed.
Lemma elements_local p axis n : is_local p axis = true -> elements p axis n = seq 0 n.
Proof. intros H. unfold elements. rewrite axis_elements_seq. unfold ax_lo, ax_hi. rewrite H, cdiv_one. f_equal; lia. Qed.
Lemma global_bound p axis n x : within p axis n x -> (global_index p axis n x < n)%nat.
Proof. intros H. apply (elements_bound p axis). apply nth_In, H. Qed.

Lemma omap_all_map {A B} (f : A -> option B) (g : A -> B) l : (forall a, In a l -> f a = Some (g a)) -> omap_all f l = Some (map g l).
Proof. induction l as [|a l IH]; intros H; cbn; [reflexivity|]. rewrite H by now left. cbn. rewrite IH; [reflexivity|]. intros b Hb. apply H. now right. Qed.

Lemma gradient_value g : (3 <= length g)%nat -> gradient g = Some (map (grid_step (fun i => nth i g 0) (length g)) (seq 0 (length g))).
Proof.
  intros H. unfold gradient. destruct (Nat.ltb_spec (length g) 3); [lia|]. f_equal. apply map_ext_in. intros i Hi. apply in_seq in Hi. unfold grid_step.
  destruct (Nat.eqb_spec i 0); [lra|]. destruct (Nat.eqb_spec i (length g - 1)); [lra|]. replace (i + 1)%nat with (S i) by lia. now replace (i - 1)%nat with (pred i) by lia.
Qed.
Lemma gradient_short g : (length g < 3)%nat -> gradient g = None.
Proof. intros H. unfold gradient. now destruct (Nat.ltb_spec (length g) 3); [|lia]. Qed.
Lemma nth_step x N g d : (g < N)%nat -> nth g (map (grid_step x N) (seq 0 N)) d = grid_step x N g.
Proof. intros H. rewrite nth_indep with (d' := grid_step x N 0) by (rewrite map_length, seq_length; lia). rewrite map_nth, seq_nth by lia. reflexivity. Qed.
Lemma pick_length {A} (d : A) l els : length (pick d l els) = length els.
Proof. apply map_length. Qed.
Lemma pick_nth {A} (d d' : A) l els j : (j < length els)%nat -> nth j (pick d l els) d' = nth (nth j els 0%nat) l d.
Proof.
  intros H. unfold pick. rewrite nth_indep with (d' := (fun e => nth e l d) 0%nat) by (rewrite map_length; lia).
  now rewrite (map_nth (fun e => nth e l d)).
Qed.
Lemma grid_step_ext x y N g : (forall i, (i < N)%nat -> x i = y i) -> (3 <= N)%nat -> (g < N)%nat -> grid_step x N g = grid_step y N g.
Proof.
  intros H HN Hg. unfold grid_step. destruct (Nat.eqb_spec g 0); [now rewrite !H by lia|]. destruct (Nat.eqb_spec g (N - 1)); now rewrite !H by lia.
Qed.

Lemma cov_values native lo hi c : affine_cov native (lo, hi) = Some c -> fst native <> snd native /\
  native_left c = fst native /\ native_length c = snd native - fst native /\ problem_left c = lo /\ problem_length c = hi - lo /\ stretch c = (hi - lo) / (snd native - fst native).
Proof.
  destruct native as [nl nr]. unfold affine_cov, pydiv. cbn. destruct (Req_EM_T (nr - nl) 0); [discriminate|]. intros [= <-]. cbn. repeat split. lra.
Qed.
Lemma native_grid_length b lo hi : on b lo hi -> length (native_grid b (b_dealias b)) = points b.
Proof. intros H. unfold native_grid. pose proof (on_nodes _ _ _ H) as Hn. destruct (b_kind b); [unfold fourier_native_grid; now rewrite map_length, seq_length|exact Hn]. Qed.
Lemma global_spacing_value b lo hi : on b lo hi -> exists s, global_grid_spacing b (b_dealias b) = Some s /\ length s = points b /\
  (forall a b', b_kind b = JacobiKind a b' -> forall g, (g < points b)%nat -> nth g s 0 = grid_step (fun j => lo + (hi - lo) * (nth j (b_nodes b (points b)) 0 + 1) / 2) (points b) g).
Proof.
  intros H. pose proof (native_grid_length _ _ _ H) as Hl. destruct H as [Ho Hc Hn Hp]. unfold global_grid_spacing.
  destruct (cov_values _ _ _ _ Hc) as (Hne & E1 & E2 & E3 & E4 & _).
  set (P := fun x => lo + (x - native_left (b_cov b)) / native_length (b_cov b) * (hi - lo)).
  rewrite (omap_all_map _ P).
  2: { intros x _. unfold problem_coord, pydiv. rewrite E2. destruct (Req_EM_T _ 0); [exfalso; apply Hne; lra|]. unfold P. now rewrite E1, E2, E3, E4. }
  cbn [obind]. rewrite gradient_value by (rewrite map_length; lia). rewrite map_length, Hl. eexists. split; [reflexivity|]. split; [now rewrite map_length, seq_length|].
  intros a b' Hk g Hg. rewrite nth_step by exact Hg. apply grid_step_ext; [|exact Hp|exact Hg]. intros i Hi.
  rewrite nth_indep with (d' := P 0) by (rewrite map_length; lia). rewrite map_nth. unfold native_grid. rewrite Hk. unfold P. rewrite E1, E2, Hk. unfold jacobi_bounds; cbn [fst snd]. fold (points b). field.
Qed.

Lemma axis_spacing_value p i axis b lo hi : on b lo hi -> (is_chebyshev (b_kind b) = true -> i = axis) -> exists s, axis_spacing p i axis b = Some s /\
  length s = length (elements p axis (points b)) /\ forall x, within p axis (points b) x -> nth x s 0 = spacing b lo hi (global_index p axis (points b) x).
Proof.
  intros H Hi. destruct (global_spacing_value _ _ _ H) as (g & Hg & Hl & Hv). destruct H as [Ho Hc Hn Hp]. destruct (cov_values _ _ _ _ Hc) as (_ & _ & _ & _ & _ & Es).
  unfold axis_spacing, local_grid_spacing. rewrite Hg. cbn [obind]. fold (points b). unfold spacing. destruct (is_chebyshev (b_kind b)) eqn:Ek.
  - rewrite Hi, Nat.eqb_refl by reflexivity. rewrite pick_length, Nat.eqb_refl. eexists. split; [reflexivity|]. split; [now rewrite map_length, pick_length|].
    intros x Hx. match goal with |- nth x (map ?f _) 0 = _ => set (F := f) end. rewrite nth_indep with (d' := F 0%nat) by (rewrite map_length, pick_length; exact Hx).
    rewrite map_nth, pick_nth by exact Hx. pose proof (global_bound _ _ _ _ Hx) as Hb. unfold global_index in *. rewrite seq_nth by exact Hb. unfold F. cbn [Nat.add]. rewrite Es.
    destruct (b_kind b) as [|a b'] eqn:Ekk; [discriminate|]. cbn [fst snd jacobi_bounds]. rewrite Ek. set (y := sin _). assert (INR (points b) <> 0) by (apply not_0_INR; lia). field. assumption.
  - destruct (b_kind b) as [|a b'] eqn:Ekk.
    + eexists. split; [reflexivity|]. split; [now rewrite map_length, pick_length|]. intros x Hx. match goal with |- nth x (map ?f _) 0 = _ => set (F := f) end.
      rewrite nth_indep with (d' := F 0) by (rewrite map_length, pick_length; exact Hx). rewrite map_nth. unfold F. rewrite Es. cbn [fst snd fourier_bounds].
      assert (INR (points b) <> 0) by (apply not_0_INR; lia). pose proof PI_RGT_0. field. split; lra.
    + eexists. split; [reflexivity|]. split; [now rewrite map_length, pick_length|]. intros x Hx. match goal with |- nth x (map ?f _) 0 = _ => set (F := f) end.
      rewrite nth_indep with (d' := F 0) by (rewrite map_length, pick_length; exact Hx). rewrite map_nth. unfold F. rewrite pick_nth by exact Hx.
      rewrite (Hv a b' eq_refl) by (apply (global_bound p axis); exact Hx). rewrite Ek. unfold global_index. apply Rmult_comm.
Qed.

Lemma cartesian_add_value first u : forall spacing k out x,
  fold_left (fun out is => fun x => out x + crossing (Rabs (u (fst is) x)) (along (snd is) (x (first + fst is)%nat))) (combine (seq k (length spacing)) spacing) out x =
  out x + sum_to (length spacing) (fun i => crossing (Rabs (u (k + i)%nat x)) (along (nth i spacing None) (x (first + (k + i))%nat))).
Proof.
  assert (Hs : forall n (f : nat -> R), sum_to (S n) f = f 0%nat + sum_to n (fun i => f (S i))).
  { induction n as [|n IH]; intros f; [cbn; ring|]. cbn [sum_to] in *. rewrite (IH f). ring. }
  induction spacing as [|s spacing IH]; intros k out x; cbn [length seq combine fold_left]; [cbn; ring|].
  rewrite IH, Hs. cbn [fst snd nth]. rewrite Nat.add_0_r, Rplus_assoc. do 2 f_equal.
  assert (He : forall n f g, (forall i, f i = g i) -> sum_to n f = sum_to n g) by (intros n f g E; induction n as [|n IHn]; cbn; [reflexivity|now rewrite IHn, E]).
  apply He. intros i. now replace (S k + i)%nat with (k + S i)%nat by lia.
Qed.
Lemma sum_to_ext n f g : (forall i, (i < n)%nat -> f i = g i) -> sum_to n f = sum_to n g.
Proof. induction n as [|n IH]; intros H; cbn; [reflexivity|]. rewrite IH, H by (intros; try apply H; lia). reflexivity. Qed.
Lemma sum_to_above n f i : (forall j, (j < n)%nat -> 0 <= f j) -> (i < n)%nat -> f i <= sum_to n f.
Proof.
  intros H. assert (Hp : forall m, (m <= n)%nat -> 0 <= sum_to m f).
  { induction m as [|m IHm]; intros Hm; cbn; [lra|]. specialize (IHm ltac:(lia)). pose proof (H m ltac:(lia)). lra. }
  induction n as [|n IH]; intros Hi; [lia|]. cbn. destruct (Nat.eq_dec i n) as [->|].
  - pose proof (Hp n ltac:(lia)). lra.
  - pose proof (H n ltac:(lia)). assert (f i <= sum_to n f) by (apply IH; [intros; apply H|intros; apply Hp|]; lia). lra.
Qed.
Lemma omap_all_exists {A B} (f : A -> option B) l : (forall a, In a l -> exists b, f a = Some b) -> exists bs, omap_all f l = Some bs.
Proof.
  induction l as [|a l IH]; intros H; cbn; [now exists []|]. destruct (H a) as [b ->]; [now left|]. cbn. destruct IH as [bs ->]; [intros; apply H; now right|]. now exists (b :: bs).
Qed.
Lemma omap_all_nth {A B} (f : A -> option B) l bs : omap_all f l = Some bs -> length bs = length l /\ forall i a, nth_error l i = Some a -> exists b, nth_error bs i = Some b /\ f a = Some b.
Proof.
  revert bs. induction l as [|a l IH]; intros bs H; cbn in H; [injection H as <-; split; [reflexivity|intros [|i] a; discriminate]|].
  destruct (f a) as [b|] eqn:Ea; [|discriminate]. destruct (omap_all f l) as [bs'|]; [|discriminate]. cbn in H. injection H as <-. destruct (IH _ eq_refl) as [Hl Hn].
  split; [cbn; lia|]. intros [|i] a' Hi; cbn in Hi; [injection Hi as <-; now exists b|]. apply Hn, Hi.
Qed.
Lemma enumerate_nth {A} (l : list A) i a : nth_error l i = Some a -> forall k, nth_error (combine (seq k (length l)) l) i = Some ((k + i)%nat, a).
Proof. revert i. induction l as [|b l IH]; intros [|i] H k; cbn in *; try discriminate; [injection H as <-; now rewrite Nat.add_0_r|]. rewrite (IH _ H). now rewrite Nat.add_succ_r. Qed.
Lemma enumerate_in {A} (l : list A) k i a : In (i, a) (combine (seq k (length l)) l) -> exists j, i = (k + j)%nat /\ nth_error l j = Some a.
Proof.
  revert k. induction l as [|b l IH]; intros k H; cbn in H; [easy|]. destruct H as [[= <- <-]|H]; [exists 0%nat; now rewrite Nat.add_0_r|].
  destruct (IH _ H) as (j & -> & Hj). exists (S j). split; [lia|exact Hj].
Qed.
