From Coq Require Import List Arith Bool ZArith Reals Lia Lra FinFun.
Import ListNotations.
From Verif Require Import SphereOps_Model SphereOps_Spec.
Local Open Scope R_scope.

(** ** Sums and components *)
Lemma sum_app {A} (l l' : list A) f : sum (l ++ l') f = sum l f + sum l' f.
Proof. unfold sum. induction l as [|a l IH]; cbn; [lra|]. rewrite IH. lra. Qed.
Lemma sum_ext {A} (l : list A) f g : (forall a, In a l -> f a = g a) -> sum l f = sum l g.
Proof. unfold sum. induction l as [|a l IH]; intros H; [reflexivity|]. cbn. rewrite H by (left; reflexivity). rewrite IH by (intros b Hb; apply H; right; exact Hb). reflexivity. Qed.
Lemma sum_zero {A} (l : list A) f : (forall a, In a l -> f a = 0) -> sum l f = 0.
Proof. unfold sum. induction l as [|a l IH]; intros H; [reflexivity|]. cbn. rewrite H by (left; reflexivity). rewrite IH by (intros b Hb; apply H; right; exact Hb). lra. Qed.
Lemma sum_single {A} (l : list A) f a : NoDup l -> In a l -> (forall b, In b l -> b <> a -> f b = 0) -> sum l f = f a.
Proof.
  intros N. induction N as [|c l Hc N IH]; intros Ha H; [destruct Ha|]. change (sum (c :: l) f) with (f c + sum l f). destruct Ha as [->|Ha].
  - rewrite sum_zero; [lra|]. intros b Hb. apply H; [right; exact Hb|]. intros ->. contradiction.
  - rewrite IH by (try exact Ha; intros b Hb; apply H; right; exact Hb). rewrite (H c); [lra|left; reflexivity|]. intros ->. contradiction.
Qed.
Lemma sum_plus {A} (l : list A) f g : sum l (fun a => f a + g a) = sum l f + sum l g.
Proof. unfold sum. induction l as [|a l IH]; cbn; [lra|]. rewrite IH. lra. Qed.
Lemma sum_scale {A} (l : list A) c f : sum l (fun a => c * f a) = c * sum l f.
Proof. unfold sum. induction l as [|a l IH]; cbn; [lra|]. rewrite IH. lra. Qed.
Lemma sum_map {A B} (g : A -> B) l f : sum (map g l) f = sum l (fun a => f (g a)).
Proof. unfold sum. rewrite map_map. reflexivity. Qed.
Lemma sum_flat {A B} (g : A -> list B) l f : sum (flat_map g l) f = sum l (fun a => sum (g a) f).
Proof. induction l as [|a l IH]; [reflexivity|]. cbn [flat_map]. rewrite sum_app, IH. reflexivity. Qed.
Lemma equal_index_iff i j : equal_index i j = true <-> i = j.
Proof. unfold equal_index. destruct (list_eq_dec Nat.eq_dec i j); split; congruence. Qed.
Lemma equal_index_refl i : equal_index i i = true. Proof. apply equal_index_iff. reflexivity. Qed.
Lemma indices_in sig i : In i (indices sig) <-> is_index sig i.
Proof.
  revert i. induction sig as [|n sig IH]; intros i; cbn [indices].
  - split; [intros [<-|[]]; constructor|intros H; inversion H; left; reflexivity].
  - rewrite in_flat_map. split.
    + intros (a & Ha & Hi). apply in_map_iff in Hi. destruct Hi as (i' & <- & Hi). constructor; [apply in_seq in Ha; lia|apply IH; exact Hi].
    + intros H. inversion H; subst. exists x. split; [apply in_seq; lia|]. apply in_map. apply IH. assumption.
Qed.
Lemma indices_nodup sig : NoDup (indices sig).
Proof.
  induction sig as [|n sig IH]; cbn [indices]; [repeat constructor; intros []|]. generalize (seq_NoDup n 0). induction (seq 0 n) as [|a l IHl]; intros N; cbn [flat_map]; [constructor|]. inversion N; subst.
  assert (D : NoDup (map (cons a) (indices sig))) by (apply Injective_map_NoDup; [intros x y E; injection E; auto|exact IH]). assert (X : forall x, In x (map (cons a) (indices sig)) -> ~ In x (flat_map (fun i => map (cons i) (indices sig)) l)).
  { intros x Hx Hx'. apply in_map_iff in Hx. destruct Hx as (u & <- & _). apply in_flat_map in Hx'. destruct Hx' as (b & Hb & Hu). apply in_map_iff in Hu. destruct Hu as (v & E & _). injection E as -> _. contradiction. }
  specialize (IHl H2). clear -D X IHl. induction (map (cons a) (indices sig)) as [|x m IHm]; [exact IHl|]. inversion D; subst. cbn. constructor; [|apply IHm; [exact H2|intros y Hy; apply X; right; exact Hy]]. intros Hx. apply in_app_or in Hx. destruct Hx as [Hx|Hx]; [contradiction|]. apply (X x); [left; reflexivity|exact Hx].
Qed.
Lemma spintotal_spin i : spintotal i = spin i.
Proof.
  unfold spintotal, spin, ups, downs. induction i as [|a i IH]; [reflexivity|]. cbn [map fold_right filter]. rewrite IH. destruct a as [|[|a]]; cbn [Nat.eqb spin_of nth length]; unfold spin_of; cbn [nth]; try lia. destruct a; cbn [nth]; lia.
Qed.
Lemma spin_cons a i : spin (a :: i) = (spin_of a + spin i)%Z.
Proof. rewrite <- !spintotal_spin. reflexivity. Qed.

(** ** Application of symbols *)
Lemma outs_loop sym ell r x i outs j : NoDup outs -> forall out, fold_left (symbol_step sym ell r x i) outs out j
  = out j + if existsb (equal_index j) outs then sym i j (spintotal i) (spintotal j) ell r * x i else 0.
Proof.
  intros N. induction N as [|o outs Ho N IH]; intros out; cbn [fold_left existsb]; [lra|]. rewrite IH. unfold symbol_step. destruct (equal_index j o) eqn:E; cbn [orb]; [|reflexivity].
  apply equal_index_iff in E. subst o. replace (existsb (equal_index j) outs) with false; [lra|]. symmetry. apply not_true_iff_false. intros X. apply existsb_exists in X. destruct X as (y & Y1 & Y2). apply equal_index_iff in Y2. subst y. contradiction.
Qed.
Lemma operate_value sym outs sig ell r x j : (forall i, NoDup (outs i)) ->
  operate sym outs sig ell r x j = sum (indices sig) (fun i => if existsb (equal_index j) (outs i) then sym i j (spintotal i) (spintotal j) ell r * x i else 0).
Proof.
  intros N. unfold operate. assert (G : forall l out, fold_left (fun out i => fold_left (symbol_step sym ell r x i) (outs i) out) l out j = out j + sum l (fun i => if existsb (equal_index j) (outs i) then sym i j (spintotal i) (spintotal j) ell r * x i else 0)).
  { induction l as [|i l IH]; intros out; [unfold sum; cbn; lra|]. cbn [fold_left]. rewrite IH, outs_loop by apply N. unfold sum. cbn. lra. }
  rewrite G. lra.
Qed.
Lemma gradient_nodup i : NoDup (gradient_out i).
Proof. unfold gradient_out. constructor; [intros [H|[]]; discriminate|repeat constructor; intros []]. Qed.
Lemma divergence_nodup i : NoDup (divergence_out i).
Proof. destruct i as [|[|[|a]] i]; cbn; repeat constructor; intros []. Qed.
Lemma same_nodup i : NoDup (same_out i). Proof. repeat constructor; intros []. Qed.
Lemma gradient_at sig ell r x a i : is_index sig i -> (a < 2)%nat -> gradient sig ell r x (a :: i) = gradient_symbol i (a :: i) (spin i) (spin_of a + spin i)%Z ell r * x i.
Proof.
  intros Hi Ha. unfold gradient. rewrite operate_value by apply gradient_nodup. rewrite (sum_single _ _ i); [|apply indices_nodup|apply indices_in; exact Hi|].
  - rewrite !spintotal_spin, spin_cons. replace (existsb (equal_index (a :: i)) (gradient_out i)) with true; [reflexivity|]. symmetry. apply existsb_exists. exists (a :: i). split; [|apply equal_index_refl]. destruct a as [|[|a]]; [left; reflexivity|right; left; reflexivity|lia].
  - intros b _ Hb. replace (existsb (equal_index (a :: i)) (gradient_out b)) with false; [reflexivity|]. symmetry. apply not_true_iff_false. intros X. apply existsb_exists in X. destruct X as (y & Y1 & Y2). apply equal_index_iff in Y2. subst y. destruct Y1 as [Y|[Y|[]]]; injection Y; congruence.
Qed.
Lemma same_at sym sig ell r x i : is_index sig i -> operate sym same_out sig ell r x i = sym i i (spin i) (spin i) ell r * x i.
Proof.
  intros Hi. rewrite operate_value by apply same_nodup. rewrite (sum_single _ _ i); [|apply indices_nodup|apply indices_in; exact Hi|].
  - cbn. rewrite equal_index_refl, spintotal_spin. reflexivity.
  - intros b _ Hb. cbn. destruct (equal_index i b) eqn:E; [apply equal_index_iff in E; congruence|reflexivity].
Qed.
Lemma divergence_at n sig ell r v i : (2 <= n)%nat -> is_index sig i ->
  divergence (n :: sig) ell r v i = divergence_symbol (0%nat :: i) i (spin_of 0 + spin i)%Z (spin i) ell r * v (0%nat :: i) + divergence_symbol (1%nat :: i) i (spin_of 1 + spin i)%Z (spin i) ell r * v (1%nat :: i).
Proof.
  intros Hn Hi. unfold divergence. rewrite operate_value by apply divergence_nodup. cbn [indices]. rewrite sum_flat.
  assert (E : forall a, sum (map (cons a) (indices sig)) (fun i0 => if existsb (equal_index i) (divergence_out i0) then divergence_symbol i0 i (spintotal i0) (spintotal i) ell r * v i0 else 0) = if (a <? 2)%nat then divergence_symbol (a :: i) i (spin_of a + spin i)%Z (spin i) ell r * v (a :: i) else 0).
  { intros a. rewrite sum_map. destruct (Nat.ltb_spec a 2) as [H|H].
    - rewrite (sum_single _ _ i); [|apply indices_nodup|apply indices_in; exact Hi|].
      + replace (divergence_out (a :: i)) with [i] by (destruct a as [|[|a]]; [reflexivity|reflexivity|lia]). cbn [existsb]. rewrite equal_index_refl, !spintotal_spin, spin_cons. reflexivity.
      + intros b _ Hb. replace (divergence_out (a :: b)) with [b] by (destruct a as [|[|a]]; [reflexivity|reflexivity|lia]). cbn [existsb]. destruct (equal_index i b) eqn:E; [apply equal_index_iff in E; congruence|reflexivity].
    - apply sum_zero. intros b _. replace (divergence_out (a :: b)) with (@nil index) by (destruct a as [|[|a]]; [lia|lia|reflexivity]). reflexivity. }
  rewrite (sum_ext _ _ _ (fun a _ => E a)). destruct n as [|[|n]]; [lia|lia|]. cbn [seq]. change (seq 2 n) with (seq 2 n). unfold sum at 1. cbn [map fold_right]. change (0 <? 2)%nat with true. change (1 <? 2)%nat with true.
  replace (fold_right Rplus 0 _) with 0; [lra|]. symmetry. apply (sum_zero (seq 2 n)). intros a Ha. apply in_seq in Ha. destruct (Nat.ltb_spec a 2); [lia|reflexivity].
Qed.

(** ** Symbols *)
Lemma k_up l s : (0 <= (l - s) * (l + s + 1))%Z -> k l s 1 = raising l s.
Proof. intros H. unfold k, raising. rewrite !Z.mul_1_l. rewrite Rmax_right; [lra|]. apply IZR_le in H. lra. Qed.
Lemma k_down l s : (0 <= (l + s) * (l - s + 1))%Z -> k l s (-1) = lowering l s.
Proof. intros H. unfold k, lowering. replace (l - -1 * s)%Z with (l + s)%Z by ring. replace (l + -1 * s + 1)%Z with (l - s + 1)%Z by ring. rewrite Rmax_right; [lra|]. apply IZR_le in H. lra. Qed.
Lemma raising_lowering l s : (0 <= (l - s) * (l + s + 1))%Z -> lowering l (s + 1) * raising l s = - IZR ((l - s) * (l + s + 1)) / 2 /\ raising l s * lowering l (s + 1) = - IZR ((l - s) * (l + s + 1)) / 2.
Proof.
  intros H. apply IZR_le in H. unfold raising, lowering. replace ((l + (s + 1)) * (l - (s + 1) + 1))%Z with ((l - s) * (l + s + 1))%Z by ring. set (X := IZR ((l - s) * (l + s + 1))) in *. assert (Q : sqrt (X / 2) * sqrt (X / 2) = X / 2) by (apply sqrt_def; lra). lra.
Qed.
Lemma in_range l s : (Z.abs s <= l)%Z -> (0 <= (l - s) * (l + s + 1))%Z /\ (0 <= (l + s) * (l - s + 1))%Z.
Proof. intros H. split; apply Z.mul_nonneg_nonneg; lia. Qed.
