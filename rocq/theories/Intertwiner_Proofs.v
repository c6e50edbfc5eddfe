(** Proofs about regularity components. *)
From Coq Require Import List Arith Bool ZArith Reals Lia Lra.
Import ListNotations.
From Verif Require Import TupleTools_Model TupleTools_Spec TupleTools_Proofs Intertwiner_Model Intertwiner_Spec.
Notation zsum := Intertwiner_Model.zsum.
Local Open Scope R_scope.

(** ** Tuples of -1, 1, 0 *)
Definition three (x : Z) : Prop := x = (-1)%Z \/ x = 1%Z \/ x = 0%Z.
Definition pm (x : Z) : Prop := x = (-1)%Z \/ x = 1%Z.
Lemma pm_three x : pm x -> three x. Proof. unfold pm, three. tauto. Qed.
Fixpoint tup (n : nat) (t : tuple) : Prop := match n, t with 0%nat, [] => True | S n, x :: t => three x /\ tup n t | _, _ => False end.
Lemma tup_tuples n t : tup n t <-> tuples ordering n t.
Proof.
  unfold tuples. revert t. induction n as [|n IH]; intros [|x t]; cbn; split; try tauto; try (intros [H _]; discriminate).
  - intros _. split; [reflexivity|constructor].
  - intros [H1 H2]. apply IH in H2. destruct H2 as [H2 H3]. split; [congruence|]. constructor; [|exact H3]. unfold three in H1. cbn. intuition congruence.
  - intros [H1 H2]. inversion H2 as [|? ? H3 H4]; subst. split; [cbn in H3; unfold three; intuition congruence|]. apply IH. split; [congruence|exact H4].
Qed.
Lemma zsum_from t : forall a, fold_left Z.add t a = (a + zsum t)%Z.
Proof. unfold zsum. induction t as [|x t IH]; intros a; cbn; [lia|]. rewrite (IH (a + x)%Z), (IH x). lia. Qed.
Lemma zsum_c x t : zsum (x :: t) = (x + zsum t)%Z.
Proof. unfold zsum at 1. cbn [fold_left]. rewrite zsum_from. lia. Qed.
Lemma zsum_app_ s t : zsum (s ++ t) = (zsum s + zsum t)%Z.
Proof. induction s as [|x s IH]; [reflexivity|]. cbn [app]. rewrite !zsum_c, IH. lia. Qed.
Lemma zsum_rev t : zsum (rev t) = zsum t.
Proof. induction t as [|x t IH]; [reflexivity|]. cbn [rev]. rewrite zsum_app_, IH, !zsum_c. unfold zsum at 2. cbn. lia. Qed.

Fixpoint tsum (n : nat) (h : tuple -> R) : R :=
  match n with 0%nat => h [] | S n => tsum n (fun t => h ((-1)%Z :: t)) + tsum n (fun t => h (1%Z :: t)) + tsum n (fun t => h (0%Z :: t)) end.
Lemma tsum_ext n : forall f g, (forall t, tup n t -> f t = g t) -> tsum n f = tsum n g.
Proof.
  induction n as [|n IH]; intros f g H; cbn; [apply H; exact I|]. rewrite (IH (fun t => f ((-1)%Z :: t)) (fun t => g ((-1)%Z :: t))), (IH (fun t => f (1%Z :: t)) (fun t => g (1%Z :: t))), (IH (fun t => f (0%Z :: t)) (fun t => g (0%Z :: t))); [reflexivity|..].
  all: intros t Ht; apply H; split; [unfold three; tauto|exact Ht].
Qed.
Lemma tsum_lin n : forall a b f g, tsum n (fun t => a * f t + b * g t) = a * tsum n f + b * tsum n g.
Proof. induction n as [|n IH]; intros a b f g; cbn; [reflexivity|]. rewrite !IH. ring. Qed.
Lemma tsum_zero n : forall f, (forall t, tup n t -> f t = 0) -> tsum n f = 0.
Proof. intros f H. rewrite (tsum_ext n f (fun t => 0 * 0 + 0 * 0)) by (intros t Ht; rewrite H by exact Ht; ring). rewrite (tsum_lin n 0 0 (fun _ => 0) (fun _ => 0)). ring. Qed.
Lemma tsum_nonneg n : forall f, (forall t, tup n t -> 0 <= f t) -> 0 <= tsum n f.
Proof.
  induction n as [|n IH]; intros f H; cbn; [apply H; exact I|].
  assert (0 <= tsum n (fun t => f ((-1)%Z :: t))) by (apply IH; intros t Ht; apply H; split; [unfold three; tauto|exact Ht]).
  assert (0 <= tsum n (fun t => f (1%Z :: t))) by (apply IH; intros t Ht; apply H; split; [unfold three; tauto|exact Ht]).
  assert (0 <= tsum n (fun t => f (0%Z :: t))) by (apply IH; intros t Ht; apply H; split; [unfold three; tauto|exact Ht]). lra.
Qed.
Lemma tsum_pos_zero n : forall f, (forall t, tup n t -> 0 <= f t) -> tsum n f = 0 -> forall t, tup n t -> f t = 0.
Proof.
  induction n as [|n IH]; intros f H E t Ht; cbn in E; destruct t as [|x t]; cbn in Ht; try tauto.
  assert (P : forall y, three y -> forall t, tup n t -> 0 <= f (y :: t)) by (intros y Hy t' Ht'; apply H; split; assumption).
  pose proof (tsum_nonneg n (fun t => f ((-1)%Z :: t)) (P (-1)%Z ltac:(unfold three; tauto))). pose proof (tsum_nonneg n (fun t => f (1%Z :: t)) (P 1%Z ltac:(unfold three; tauto))). pose proof (tsum_nonneg n (fun t => f (0%Z :: t)) (P 0%Z ltac:(unfold three; tauto))).
  destruct Ht as [[->|[->| ->]] Ht].
  - apply (IH (fun t => f ((-1)%Z :: t))); [apply P; unfold three; tauto|lra|exact Ht].
  - apply (IH (fun t => f (1%Z :: t))); [apply P; unfold three; tauto|lra|exact Ht].
  - apply (IH (fun t => f (0%Z :: t))); [apply P; unfold three; tauto|lra|exact Ht].
Qed.
Lemma tsum_swap n m : forall h, tsum n (fun s => tsum m (fun t => h s t)) = tsum m (fun t => tsum n (fun s => h s t)).
Proof.
  induction n as [|n IH]; intros h; cbn; [reflexivity|]. rewrite !IH.
  rewrite <- (Rmult_1_l (tsum m (fun t => tsum n (fun s => h ((-1)%Z :: s) t)))), <- (Rmult_1_l (tsum m (fun t => tsum n (fun s => h (1%Z :: s) t)))), <- tsum_lin.
  rewrite <- (Rmult_1_l (tsum m (fun t => 1 * _ + 1 * _))), <- (Rmult_1_l (tsum m (fun t => tsum n (fun s => h (0%Z :: s) t)))), <- tsum_lin. apply tsum_ext. intros t _. ring.
Qed.
Definition teq (s t : tuple) : bool := tuple_eqb s t.
Lemma teq_refl t : teq t t = true. Proof. apply tuple_eqb_spec. reflexivity. Qed.
Lemma teq_cons x y s t : teq (x :: s) (y :: t) = (x =? y)%Z && teq s t.
Proof.
  destruct (teq (x :: s) (y :: t)) eqn:E.
  - apply tuple_eqb_spec in E. injection E as -> ->. rewrite Z.eqb_refl, teq_refl. reflexivity.
  - symmetry. apply not_true_is_false. intros H. apply andb_true_iff in H. destruct H as [H1 H2]. apply Z.eqb_eq in H1. apply tuple_eqb_spec in H2. subst. rewrite teq_refl in E. discriminate.
Qed.
Definition b2R (b : bool) : R := if b then 1 else 0.
Lemma tsum_delta n : forall f t, tup n t -> tsum n (fun s => b2R (teq s t) * f s) = f t.
Proof.
  induction n as [|n IH]; intros f [|x t] Ht; cbn in Ht; try tauto; [cbn; unfold teq, tuple_eqb; cbn; ring|]. cbn [tsum].
  rewrite (tsum_ext n (fun s => b2R (teq ((-1)%Z :: s) (x :: t)) * f ((-1)%Z :: s)) (fun s => b2R (-1 =? x)%Z * (b2R (teq s t) * f ((-1)%Z :: s)) + 0 * 0)) by (intros s _; rewrite teq_cons; destruct (-1 =? x)%Z, (teq s t); cbn; ring).
  rewrite (tsum_ext n (fun s => b2R (teq (1%Z :: s) (x :: t)) * f (1%Z :: s)) (fun s => b2R (1 =? x)%Z * (b2R (teq s t) * f (1%Z :: s)) + 0 * 0)) by (intros s _; rewrite teq_cons; destruct (1 =? x)%Z, (teq s t); cbn; ring).
  rewrite (tsum_ext n (fun s => b2R (teq (0%Z :: s) (x :: t)) * f (0%Z :: s)) (fun s => b2R (0 =? x)%Z * (b2R (teq s t) * f (0%Z :: s)) + 0 * 0)) by (intros s _; rewrite teq_cons; destruct (0 =? x)%Z, (teq s t); cbn; ring).
  rewrite (tsum_lin n _ 0 (fun s => b2R (teq s t) * f ((-1)%Z :: s)) (fun _ => 0)), (tsum_lin n _ 0 (fun s => b2R (teq s t) * f (1%Z :: s)) (fun _ => 0)), (tsum_lin n _ 0 (fun s => b2R (teq s t) * f (0%Z :: s)) (fun _ => 0)).
  destruct Ht as [Hx Ht]. rewrite (IH (fun s => f ((-1)%Z :: s)) t Ht), (IH (fun s => f (1%Z :: s)) t Ht), (IH (fun s => f (0%Z :: s)) t Ht).
  destruct Hx as [->|[->| ->]]; cbn; ring.
Qed.

(** ** Spin generators *)
Fixpoint S_ (sg : Z) (f : tuple -> R) (t : tuple) : R :=
  match t with
  | [] => 0
  | x :: t => (if (x + sg =? 0)%Z then - f (0%Z :: t) else 0) + (if (x =? 0)%Z then f (sg :: t) else 0) + S_ sg (fun t => f (x :: t)) t
  end.
Lemma S_cons sg f x t : S_ sg f (x :: t) = (if (x + sg =? 0)%Z then - f (0%Z :: t) else 0) + (if (x =? 0)%Z then f (sg :: t) else 0) + S_ sg (fun t => f (x :: t)) t.
Proof. reflexivity. Qed.
Lemma S_ext n : forall sg f g t, three sg -> (forall t, tup n t -> f t = g t) -> tup n t -> S_ sg f t = S_ sg g t.
Proof.
  induction n as [|n IH]; intros sg f g [|x t] Hs H Ht; cbn in Ht; try tauto. destruct Ht as [Hx Ht]. cbn. rewrite (H (0%Z :: t)), (H (sg :: t)) by (split; [unfold three in *; tauto|exact Ht]).
  rewrite (IH sg (fun t => f (x :: t)) (fun t => g (x :: t))); [reflexivity|exact Hs| |exact Ht]. intros t' Ht'. apply H. split; assumption.
Qed.
Lemma S_lin sg a b t : forall f g, S_ sg (fun t => a * f t + b * g t) t = a * S_ sg f t + b * S_ sg g t.
Proof. induction t as [|x t IH]; intros f g; cbn; [ring|]. rewrite (IH (fun t => f (x :: t)) (fun t => g (x :: t))). destruct (x + sg =? 0)%Z, (x =? 0)%Z; ring. Qed.
Lemma S_shift sg t : forall h f, S_ sg (fun t => h (zsum t) * f t) t = h (zsum t + sg)%Z * S_ sg f t.
Proof.
  induction t as [|x t IH]; intros h f; cbn [S_]; [ring|].
  assert (E : S_ sg (fun t => h (zsum (x :: t)) * f (x :: t)) t = h (x + (zsum t + sg))%Z * S_ sg (fun t => f (x :: t)) t).
  { rewrite <- (IH (fun s => h (x + s)%Z) (fun t => f (x :: t))). clear. revert f h. generalize t. clear t. intros t. assert (G : forall g g' : tuple -> R, (forall t, g t = g' t) -> S_ sg g t = S_ sg g' t).
    { induction t as [|y t IHt]; intros g g' H; cbn; [reflexivity|]. rewrite !H. rewrite (IHt (fun t => g (y :: t)) (fun t => g' (y :: t))) by (intros; apply H). reflexivity. }
    intros f h. apply G. intros t'. rewrite zsum_c. reflexivity. }
  rewrite E, !zsum_c. replace (x + (zsum t + sg))%Z with (x + zsum t + sg)%Z by lia.
  destruct (x + sg =? 0)%Z eqn:E1; [apply Z.eqb_eq in E1; replace (x + zsum t + sg)%Z with (0 + zsum t)%Z by lia|].
  - destruct (x =? 0)%Z eqn:E2; [apply Z.eqb_eq in E2; replace (sg + zsum t)%Z with (0 + zsum t)%Z by lia|]; ring.
  - destruct (x =? 0)%Z eqn:E2; [apply Z.eqb_eq in E2; replace (sg + zsum t)%Z with (x + zsum t + sg)%Z by lia|]; ring.
Qed.
Lemma S_adj n : forall sg f g, pm sg -> tsum n (fun t => S_ sg f t * g t) = - tsum n (fun t => f t * S_ (- sg) g t).
Proof.
  induction n as [|n IH]; intros sg f g Hs; [cbn; ring|]. cbn [tsum].
  assert (X : forall x, tsum n (fun t => S_ sg f (x :: t) * g (x :: t)) = (if (x + sg =? 0)%Z then -1 else 0) * tsum n (fun t => f (0%Z :: t) * g (x :: t)) + (if (x =? 0)%Z then 1 else 0) * tsum n (fun t => f (sg :: t) * g (x :: t)) + tsum n (fun t => S_ sg (fun t => f (x :: t)) t * g (x :: t))).
  { intros x. rewrite <- tsum_lin. rewrite <- (Rmult_1_l (tsum n (fun t => _ * _ + _ * _))), <- (Rmult_1_l (tsum n (fun t => S_ sg (fun t => f (x :: t)) t * g (x :: t)))), <- tsum_lin. apply tsum_ext. intros t _. cbn [S_]. destruct (x + sg =? 0)%Z, (x =? 0)%Z; ring. }
  assert (Y : forall x, tsum n (fun t => f (x :: t) * S_ (- sg) g (x :: t)) = (if (x - sg =? 0)%Z then -1 else 0) * tsum n (fun t => f (x :: t) * g (0%Z :: t)) + (if (x =? 0)%Z then 1 else 0) * tsum n (fun t => f (x :: t) * g ((- sg)%Z :: t)) + tsum n (fun t => f (x :: t) * S_ (- sg) (fun t => g (x :: t)) t)).
  { intros x. rewrite <- tsum_lin. rewrite <- (Rmult_1_l (tsum n (fun t => _ * _ + _ * _))), <- (Rmult_1_l (tsum n (fun t => f (x :: t) * S_ (- sg) (fun t => g (x :: t)) t))), <- tsum_lin. apply tsum_ext. intros t _. cbn [S_]. replace (x + - sg)%Z with (x - sg)%Z by lia. destruct (x - sg =? 0)%Z, (x =? 0)%Z; ring. }
  rewrite !X, !Y. rewrite !(IH sg _ _ Hs). destruct Hs as [->| ->]; cbn -[tsum]; ring.
Qed.
Lemma S_comm sg t : forall f, pm sg -> Forall three t -> S_ sg (S_ (- sg) f) t - S_ (- sg) (S_ sg f) t = IZR (sg * zsum t) * f t.
Proof.
  induction t as [|x t IH]; intros f Hs Ht; [cbn; unfold zsum; cbn; rewrite Z.mul_0_r; ring|]. inversion Ht as [|? ? Hx Ht']; subst.
  assert (G : forall sg (g g' : tuple -> R) t, (forall t, g t = g' t) -> S_ sg g t = S_ sg g' t).
  { clear. intros sg g g' t. revert g g'. induction t as [|y t IHt]; intros g g' H; cbn; [reflexivity|]. rewrite !H. rewrite (IHt (fun t => g (y :: t)) (fun t => g' (y :: t))) by (intros; apply H). reflexivity. }
  assert (E : forall s1 s2, S_ s1 (fun t => S_ s2 f (x :: t)) t = (if (x + s2 =? 0)%Z then -1 else 0) * S_ s1 (fun t => f (0%Z :: t)) t + (if (x =? 0)%Z then 1 else 0) * S_ s1 (fun t => f (s2 :: t)) t + S_ s1 (S_ s2 (fun t => f (x :: t))) t).
  { intros s1 s2. rewrite <- S_lin. rewrite <- (Rmult_1_l (S_ s1 (fun t => _ * _ + _ * _) t)), <- (Rmult_1_l (S_ s1 (S_ s2 (fun t => f (x :: t))) t)), <- S_lin. apply G. intros t'. cbn [S_]. destruct (x + s2 =? 0)%Z, (x =? 0)%Z; ring. }
  specialize (IH (fun t => f (x :: t)) Hs Ht'). rewrite (S_cons sg (S_ (- sg) f)), (S_cons (- sg) (S_ sg f)), !E, zsum_c, Z.mul_add_distr_l, plus_IZR, Rmult_plus_distr_r, <- IH, !S_cons. clear IH E G Ht Ht'.
  destruct Hs as [->| ->], Hx as [->|[->| ->]]; cbn -[S_]; ring.
Qed.
Lemma treplace_app pre x y t : treplace (List.length pre) y (pre ++ x :: t) = pre ++ y :: t.
Proof.
  unfold treplace, enumerate. rewrite enumerate_app, map_app. cbn [List.length seq combine map]. rewrite Nat.add_0_l. f_equal; [|f_equal].
  - assert (G : forall l k m, (k + List.length l <= m)%nat -> map (fun p => if (fst p =? m)%nat then y else snd p) (combine (seq k (List.length l)) l) = l).
    { clear. induction l as [|z l IH]; intros k m H; cbn; [reflexivity|]. cbn in H. destruct (k =? m)%nat eqn:E; [apply Nat.eqb_eq in E; lia|]. f_equal. apply IH. lia. }
    apply G. lia.
  - cbn [fst]. rewrite Nat.eqb_refl. reflexivity.
  - assert (G : forall l k m, (m < k)%nat -> map (fun p => if (fst p =? m)%nat then y else snd p) (combine (seq k (List.length l)) l) = l).
    { clear. induction l as [|z l IH]; intros k m H; cbn; [reflexivity|]. destruct (k =? m)%nat eqn:E; [apply Nat.eqb_eq in E; lia|]. f_equal. apply IH. lia. }
    apply G. lia.
Qed.
Lemma fold_S sg f t : forall pre acc,
  fold_left (fun R p => let R := if (snd p + sg =? 0)%Z then R - f (treplace (fst p) 0 (pre ++ t)) else R in if (snd p =? 0)%Z then R + f (treplace (fst p) sg (pre ++ t)) else R)
    (combine (seq (List.length pre) (List.length t)) t) acc = acc + S_ sg (fun t => f (pre ++ t)) t.
Proof.
  induction t as [|x t IH]; intros pre acc; [cbn; ring|]. cbn [List.length seq combine fold_left fst snd]. rewrite !treplace_app.
  specialize (IH (pre ++ [x])). rewrite app_length in IH. cbn [List.length] in IH. rewrite Nat.add_1_r in IH.
  assert (E : (pre ++ [x]) ++ t = pre ++ x :: t) by (rewrite <- app_assoc; reflexivity). rewrite E in IH. rewrite IH. rewrite S_cons.
  assert (G : forall (g g' : tuple -> R) t, (forall t, g t = g' t) -> S_ sg g t = S_ sg g' t).
  { clear. intros g g' t. revert g g'. induction t as [|y t IHt]; intros g g' H; cbn; [reflexivity|]. rewrite !H. rewrite (IHt (fun t => g (y :: t)) (fun t => g' (y :: t))) by (intros; apply H). reflexivity. }
  rewrite (G (fun t0 => f ((pre ++ [x]) ++ t0)) (fun t0 => f (pre ++ x :: t0))) by (intros t'; rewrite <- app_assoc; reflexivity).
  destruct (x + sg =? 0)%Z, (x =? 0)%Z; ring.
Qed.
Lemma tup_Forall n t : tup n t -> Forall three t.
Proof. revert t. induction n as [|n IH]; intros [|x t] H; cbn in H; try tauto; constructor; [tauto|apply IH; tauto]. Qed.
Lemma S_zero0 f t : S_ 0 f t = 0.
Proof. revert f. induction t as [|x t IH]; intros f; cbn; [reflexivity|]. rewrite IH, Z.add_0_r. destruct (x =? 0)%Z; ring. Qed.
Lemma S_zero n sg f t : three sg -> (forall t, tup n t -> f t = 0) -> tup n t -> S_ sg f t = 0.
Proof.
  intros Hs H Ht. rewrite (S_ext n sg f (fun t => 0 * 0 + 0 * 0) t Hs) by (try exact Ht; intros t' Ht'; rewrite (H t' Ht'); ring).
  rewrite (S_lin sg 0 0 t (fun _ => 0) (fun _ => 0)). ring.
Qed.

(** ** The operators of the recursion *)
Section Level.
Context (L : Z).
Definition c_ (sg s : Z) : R := sqrt (IZR ((L - s * sg) * (L + s * sg + 1)) / 2).
Definition D_ (sg : Z) (f : tuple -> R) (t : tuple) : R := IZR sg * c_ sg (zsum t) * f t + S_ sg f t.
Definition Ds (sg : Z) (f : tuple -> R) (t : tuple) : R := IZR sg * c_ sg (zsum t) * f t - S_ (- sg) f t.
Definition E_ (sg : Z) (f : tuple -> R) (t : tuple) : R := IZR sg * c_ sg (zsum t + sg) * f t + S_ sg f t.
Definition Es (sg : Z) (f : tuple -> R) (t : tuple) : R := IZR sg * c_ sg (zsum t + sg) * f t - S_ (- sg) f t.
Definition dot (n : nat) (f g : tuple -> R) : R := tsum n (fun t => f t * g t).

Lemma pm_opp sg : pm sg -> pm (- sg). Proof. intros [->| ->]; [right|left]; reflexivity. Qed.
Lemma pm_sq sg : pm sg -> IZR sg * IZR sg = 1. Proof. intros [->| ->]; lra. Qed.
Lemma pm_sqz sg : pm sg -> (sg * sg = 1)%Z. Proof. intros [->| ->]; reflexivity. Qed.
Lemma c_k sg s : k L sg s = - IZR sg * c_ sg s.
Proof. reflexivity. Qed.
Lemma c_swap sg s : pm sg -> c_ (- sg) s = c_ sg (s - sg).
Proof. intros H. unfold c_. f_equal. f_equal. f_equal. destruct H as [->| ->]; ring. Qed.
Lemma c_sq sg s : (- L - 1 <= sg * s <= L)%Z -> c_ sg s * c_ sg s = IZR ((L - s * sg) * (L + s * sg + 1)) / 2.
Proof.
  intros H. unfold c_. apply sqrt_sqrt. assert (0 <= (L - s * sg) * (L + s * sg + 1))%Z by (apply Z.mul_nonneg_nonneg; nia). apply IZR_le in H0. lra.
Qed.
Lemma c_top sg s : (sg * s = L)%Z -> c_ sg s = 0.
Proof. intros H. unfold c_. replace (L - s * sg)%Z with 0%Z by lia. rewrite Z.mul_0_l. replace (IZR 0 / 2) with 0 by lra. apply sqrt_0. Qed.
Lemma c_bottom sg s : (sg * s = - L - 1)%Z -> c_ sg s = 0.
Proof. intros H. unfold c_. replace (L + s * sg + 1)%Z with 0%Z by lia. rewrite Z.mul_0_r. replace (IZR 0 / 2) with 0 by lra. apply sqrt_0. Qed.

Lemma D_ext n sg f g t : three sg -> (forall t, tup n t -> f t = g t) -> tup n t -> D_ sg f t = D_ sg g t.
Proof. intros Hs H Ht. unfold D_. rewrite (H t Ht), (S_ext n sg f g t Hs H Ht). reflexivity. Qed.
Lemma Ds_ext n sg f g t : pm sg -> (forall t, tup n t -> f t = g t) -> tup n t -> Ds sg f t = Ds sg g t.
Proof. intros Hs H Ht. unfold Ds. rewrite (H t Ht), (S_ext n (- sg) f g t (pm_three _ (pm_opp _ Hs)) H Ht). reflexivity. Qed.
Lemma D_lin sg a b f g t : D_ sg (fun t => a * f t + b * g t) t = a * D_ sg f t + b * D_ sg g t.
Proof. unfold D_. rewrite S_lin. ring. Qed.
Lemma Ds_lin sg a b f g t : Ds sg (fun t => a * f t + b * g t) t = a * Ds sg f t + b * Ds sg g t.
Proof. unfold Ds. rewrite S_lin. ring. Qed.
Lemma D_adj n sg f g : pm sg -> dot n (D_ sg f) g = dot n f (Ds sg g).
Proof.
  intros Hs. unfold dot.
  rewrite (tsum_ext n (fun t => D_ sg f t * g t) (fun t => 1 * (IZR sg * c_ sg (zsum t) * f t * g t) + 1 * (S_ sg f t * g t))) by (intros t _; unfold D_; ring).
  rewrite (tsum_ext n (fun t => f t * Ds sg g t) (fun t => 1 * (IZR sg * c_ sg (zsum t) * f t * g t) + (-1) * (f t * S_ (- sg) g t))) by (intros t _; unfold Ds; ring).
  rewrite !tsum_lin, (S_adj n sg f g Hs). ring.
Qed.
Lemma E_adj n sg f g : pm sg -> dot n (E_ sg f) g = dot n f (Es sg g).
Proof.
  intros Hs. unfold dot.
  rewrite (tsum_ext n (fun t => E_ sg f t * g t) (fun t => 1 * (IZR sg * c_ sg (zsum t + sg) * f t * g t) + 1 * (S_ sg f t * g t))) by (intros t _; unfold E_; ring).
  rewrite (tsum_ext n (fun t => f t * Es sg g t) (fun t => 1 * (IZR sg * c_ sg (zsum t + sg) * f t * g t) + (-1) * (f t * S_ (- sg) g t))) by (intros t _; unfold Es; ring).
  rewrite !tsum_lin, (S_adj n sg f g Hs). ring.
Qed.

(** Functions that vanish where the total spin plus [m] exceeds the degree. *)
Definition supp (n : nat) (m : Z) (f : tuple -> R) : Prop := forall t, tup n t -> (L < Z.abs (zsum t + m))%Z -> f t = 0.
Lemma supp_S n m sg f t : three sg -> supp n m f -> tup n t -> (L < Z.abs (zsum t + sg + m))%Z -> S_ sg f t = 0.
Proof.
  intros Hs H Ht G. rewrite (S_ext n sg f (fun t => (if (L <? Z.abs (zsum t + m))%Z then 0 else 1) * f t) t Hs); [|intros t' Ht'|exact Ht].
  - rewrite (S_shift sg t (fun s => if (L <? Z.abs (s + m))%Z then 0 else 1) f). apply Z.ltb_lt in G. rewrite G. ring.
  - destruct (L <? Z.abs (zsum t' + m))%Z eqn:E; [apply Z.ltb_lt in E; rewrite (H t' Ht' E)|]; ring.
Qed.
Lemma D_supp n sg f : pm sg -> supp n 0 f -> supp n sg (D_ sg f).
Proof.
  intros Hs H t Ht G. unfold D_. rewrite (supp_S n 0 sg f t (pm_three _ Hs) H Ht) by (rewrite Z.add_0_r; exact G).
  destruct (Z_lt_le_dec L (Z.abs (zsum t))) as [l|l]; [rewrite (H t Ht) by (rewrite Z.add_0_r; exact l); ring|].
  rewrite c_top by (destruct Hs as [->| ->]; lia). ring.
Qed.
Lemma Ds_supp n sg f : pm sg -> supp n sg f -> supp n 0 (Ds sg f).
Proof.
  intros Hs H t Ht G. unfold Ds. rewrite (supp_S n sg (- sg) f t (pm_three _ (pm_opp _ Hs)) H Ht) by (replace (zsum t + - sg + sg)%Z with (zsum t + 0)%Z by lia; exact G).
  destruct (Z_lt_le_dec L (Z.abs (zsum t + sg))) as [l|l]; [rewrite (H t Ht l); ring|].
  rewrite c_bottom by (destruct Hs as [->| ->]; lia). ring.
Qed.
Lemma DsD_expand n sg f t : pm sg -> tup n t ->
  Ds sg (D_ sg f) t = c_ sg (zsum t) * c_ sg (zsum t) * f t + IZR sg * c_ sg (zsum t) * S_ sg f t - IZR sg * c_ sg (zsum t - sg) * S_ (- sg) f t - S_ (- sg) (S_ sg f) t.
Proof.
  intros Hs Ht. unfold Ds. rewrite (S_ext n (- sg) (D_ sg f) (fun t => IZR sg * ((fun s => c_ sg s) (zsum t) * f t) + 1 * S_ sg f t) t (pm_three _ (pm_opp _ Hs))) by (try exact Ht; intros t' _; unfold D_; ring).
  rewrite S_lin, (S_shift (- sg) t (fun s => c_ sg s) f). unfold D_. replace (zsum t + - sg)%Z with (zsum t - sg)%Z by lia. pose proof (pm_sq sg Hs) as P.
  replace (IZR sg * c_ sg (zsum t) * (IZR sg * c_ sg (zsum t) * f t + S_ sg f t)) with ((IZR sg * IZR sg) * (c_ sg (zsum t) * c_ sg (zsum t) * f t) + IZR sg * c_ sg (zsum t) * S_ sg f t) by ring. rewrite P. ring.
Qed.
Lemma DDs_expand n sg f t : pm sg -> tup n t ->
  D_ sg (Ds sg f) t = c_ sg (zsum t) * c_ sg (zsum t) * f t - IZR sg * c_ sg (zsum t) * S_ (- sg) f t + IZR sg * c_ sg (zsum t + sg) * S_ sg f t - S_ sg (S_ (- sg) f) t.
Proof.
  intros Hs Ht. unfold D_. rewrite (S_ext n sg (Ds sg f) (fun t => IZR sg * ((fun s => c_ sg s) (zsum t) * f t) + (-1) * S_ (- sg) f t) t (pm_three _ Hs)) by (try exact Ht; intros t' _; unfold Ds; ring).
  rewrite S_lin, (S_shift sg t (fun s => c_ sg s) f). unfold Ds. pose proof (pm_sq sg Hs) as P.
  replace (IZR sg * c_ sg (zsum t) * (IZR sg * c_ sg (zsum t) * f t - S_ (- sg) f t)) with ((IZR sg * IZR sg) * (c_ sg (zsum t) * c_ sg (zsum t) * f t) - IZR sg * c_ sg (zsum t) * S_ (- sg) f t) by ring. rewrite P. ring.
Qed.
Lemma EsE_expand n sg f t : pm sg -> tup n t ->
  Es sg (E_ sg f) t = c_ sg (zsum t + sg) * c_ sg (zsum t + sg) * f t + IZR sg * c_ sg (zsum t + sg) * S_ sg f t - IZR sg * c_ sg (zsum t) * S_ (- sg) f t - S_ (- sg) (S_ sg f) t.
Proof.
  intros Hs Ht. unfold Es. rewrite (S_ext n (- sg) (E_ sg f) (fun t => IZR sg * ((fun s => c_ sg (s + sg)) (zsum t) * f t) + 1 * S_ sg f t) t (pm_three _ (pm_opp _ Hs))) by (try exact Ht; intros t' _; unfold E_; ring).
  rewrite S_lin, (S_shift (- sg) t (fun s => c_ sg (s + sg)) f). unfold E_. replace (zsum t + - sg + sg)%Z with (zsum t) by lia. pose proof (pm_sq sg Hs) as P.
  replace (IZR sg * c_ sg (zsum t + sg) * (IZR sg * c_ sg (zsum t + sg) * f t + S_ sg f t)) with ((IZR sg * IZR sg) * (c_ sg (zsum t + sg) * c_ sg (zsum t + sg) * f t) + IZR sg * c_ sg (zsum t + sg) * S_ sg f t) by ring. rewrite P. ring.
Qed.
Lemma A_indep n sg f t : pm sg -> supp n 0 f -> tup n t -> Ds sg (D_ sg f) t = Ds (- sg) (D_ (- sg) f) t.
Proof.
  intros Hs H Ht. rewrite (DsD_expand n sg f t Hs Ht), (DsD_expand n (- sg) f t (pm_opp _ Hs) Ht). rewrite Z.opp_involutive.
  rewrite (c_swap sg (zsum t) Hs), (c_swap sg (zsum t - - sg) Hs). replace (zsum t - - sg - sg)%Z with (zsum t) by lia.
  pose proof (S_comm sg t f Hs (tup_Forall n t Ht)) as C. rewrite opp_IZR.
  cut (c_ sg (zsum t) * c_ sg (zsum t) * f t = c_ sg (zsum t - sg) * c_ sg (zsum t - sg) * f t - IZR (sg * zsum t) * f t); [lra|].
  destruct (Z_lt_le_dec L (Z.abs (zsum t))) as [l|l]; [rewrite (H t Ht) by (rewrite Z.add_0_r; exact l); ring|].
  rewrite !c_sq by (destruct Hs as [->| ->]; lia).
  replace ((L - zsum t * sg) * (L + zsum t * sg + 1))%Z with ((L - (zsum t - sg) * sg) * (L + (zsum t - sg) * sg + 1) - 2 * (sg * zsum t))%Z by (destruct Hs as [->| ->]; ring).
  rewrite minus_IZR, (mult_IZR 2 (sg * zsum t)). lra.
Qed.
Lemma DDs_EsE n sg f t : pm sg -> supp n sg f -> tup n t -> D_ sg (Ds sg f) t = Es sg (E_ sg f) t + f t.
Proof.
  intros Hs H Ht. rewrite (DDs_expand n sg f t Hs Ht), (EsE_expand n sg f t Hs Ht).
  pose proof (S_comm sg t f Hs (tup_Forall n t Ht)) as C.
  cut (c_ sg (zsum t) * c_ sg (zsum t) * f t = c_ sg (zsum t + sg) * c_ sg (zsum t + sg) * f t + IZR (sg * zsum t) * f t + f t); [lra|].
  destruct (Z_lt_le_dec L (Z.abs (zsum t + sg))) as [l|l]; [rewrite (H t Ht l); ring|].
  rewrite !c_sq by (destruct Hs as [->| ->]; lia).
  replace ((L - zsum t * sg) * (L + zsum t * sg + 1))%Z with ((L - (zsum t + sg) * sg) * (L + (zsum t + sg) * sg + 1) + 2 * (sg * zsum t) + 2)%Z by (destruct Hs as [->| ->]; ring).
  rewrite plus_IZR, plus_IZR, (mult_IZR 2 (sg * zsum t)). lra.
Qed.
Lemma Ds_injective n sg f : pm sg -> supp n sg f -> (forall t, tup n t -> Ds sg f t = 0) -> forall t, tup n t -> f t = 0.
Proof.
  intros Hs H Z. assert (F : dot n (E_ sg f) (E_ sg f) + dot n f f = 0).
  { rewrite (E_adj n sg f (E_ sg f) Hs). unfold dot. rewrite <- (Rmult_1_l (tsum n (fun t => f t * Es sg (E_ sg f) t))), <- (Rmult_1_l (tsum n (fun t => f t * f t))), <- tsum_lin.
    apply tsum_zero. intros t Ht. replace (1 * (f t * Es sg (E_ sg f) t) + 1 * (f t * f t)) with (f t * (Es sg (E_ sg f) t + f t)) by ring. rewrite <- (DDs_EsE n sg f t Hs H Ht).
    unfold D_. rewrite (Z t Ht), (S_zero n sg (Ds sg f) t (pm_three _ Hs) Z Ht). ring. }
  assert (P : forall g, 0 <= dot n g g) by (intros g; apply tsum_nonneg; intros t _; apply Rle_0_sqr).
  intros t Ht. pose proof (P f). pose proof (P (E_ sg f)).
  assert (Q : f t * f t = 0) by (apply (tsum_pos_zero n (fun t => f t * f t)); [intros s _; apply Rle_0_sqr|unfold dot in *; lra|exact Ht]). nra.
Qed.

(** ** From rank [n] to rank [S n] *)
Definition Pq (u : tuple -> R) (t : tuple) : R := match t with [] => 0 | x :: t => if (x =? 0)%Z then u t else 0 end.
Definition Gq (e : Z -> R) (u : tuple -> R) (t : tuple) : R := match t with [] => 0 | x :: t => if (x =? 0)%Z then 0 else e x * D_ x u t end.
Lemma D_cons sg f x t : D_ sg f (x :: t) = (if (x + sg =? 0)%Z then - f (0%Z :: t) else 0) + (if (x =? 0)%Z then f (sg :: t) else 0) + (IZR sg * c_ sg (x + zsum t) * f (x :: t) + S_ sg (fun t => f (x :: t)) t).
Proof. unfold D_. rewrite S_cons, zsum_c. ring. Qed.
Lemma Ds_cons sg f x t : Ds sg f (x :: t) = (if (x - sg =? 0)%Z then f (0%Z :: t) else 0) - (if (x =? 0)%Z then f ((- sg)%Z :: t) else 0) + (IZR sg * c_ sg (x + zsum t) * f (x :: t) - S_ (- sg) (fun t => f (x :: t)) t).
Proof. unfold Ds. rewrite S_cons, zsum_c. replace (x + - sg)%Z with (x - sg)%Z by lia. destruct (x - sg =? 0)%Z; ring. Qed.
Ltac pmb := match goal with |- context [(?a =? ?b)%Z] => let E := fresh "E" in destruct (a =? b)%Z eqn:E; [apply Z.eqb_eq in E|apply Z.eqb_neq in E]; try (exfalso; unfold pm, three in *; lia) end.
Lemma D_P n sg u t : pm sg -> tup n t -> D_ sg (Pq u) (0%Z :: t) = D_ sg u t /\ D_ sg (Pq u) (sg :: t) = 0 /\ D_ sg (Pq u) ((- sg)%Z :: t) = - u t.
Proof.
  intros Hs Ht. rewrite !D_cons. cbn [Pq]. repeat split.
  - repeat pmb. unfold D_. change (S_ sg (fun t => u t) t) with (S_ sg u t). cbn [Z.add]. ring.
  - repeat pmb. rewrite (S_zero n sg (fun t => 0) t (pm_three _ Hs)) by (try exact Ht; intros; reflexivity). ring.
  - repeat pmb. rewrite (S_zero n sg (fun t => 0) t (pm_three _ Hs)) by (try exact Ht; intros; reflexivity). ring.
Qed.
Lemma A_P n sg u t : pm sg -> tup n t -> Ds sg (D_ sg (Pq u)) (0%Z :: t) = Ds sg (D_ sg u) t + u t /\ Ds sg (D_ sg (Pq u)) (sg :: t) = D_ sg u t.
Proof.
  intros Hs Ht. destruct (D_P n sg u t Hs Ht) as (P1 & P2 & P3). rewrite !Ds_cons, P1, P2, P3. split.
  - repeat pmb. rewrite (S_ext n (- sg) (fun t => D_ sg (Pq u) (0%Z :: t)) (D_ sg u) t (pm_three _ (pm_opp _ Hs))) by (try exact Ht; intros t' Ht'; apply (D_P n sg u t' Hs Ht')). unfold Ds at 1. cbn [Z.add]. ring.
  - repeat pmb. rewrite (S_zero n (- sg) (fun t => D_ sg (Pq u) (sg :: t)) t (pm_three _ (pm_opp _ Hs))) by (try exact Ht; intros t' Ht'; apply (D_P n sg u t' Hs Ht')). ring.
Qed.
Lemma S_scal n a sg f t : three sg -> tup n t -> S_ sg (fun t => a * f t) t = a * S_ sg f t.
Proof. intros Hs Ht. rewrite (S_ext n sg (fun t => a * f t) (fun t => a * f t + 0 * f t) t Hs) by (try exact Ht; intros; ring). rewrite S_lin. ring. Qed.
Lemma D_G n e sg u t : pm sg -> tup n t -> D_ sg (Gq e u) (0%Z :: t) = e sg * D_ sg u t /\ D_ sg (Gq e u) (sg :: t) = e sg * E_ sg (D_ sg u) t /\ D_ sg (Gq e u) ((- sg)%Z :: t) = - e (- sg)%Z * Ds (- sg) (D_ (- sg) u) t.
Proof.
  intros Hs Ht. rewrite !D_cons. cbn [Gq]. repeat split.
  - repeat pmb. rewrite (S_zero n sg (fun t => 0) t (pm_three _ Hs)) by (try exact Ht; intros; reflexivity). ring.
  - repeat pmb. rewrite (S_scal n (e sg) sg (D_ sg u) t (pm_three _ Hs) Ht). unfold E_. rewrite (Z.add_comm sg). ring.
  - repeat pmb. rewrite (S_scal n (e (- sg)%Z) sg (D_ (- sg) u) t (pm_three _ Hs) Ht). unfold Ds. rewrite Z.opp_involutive, (c_swap sg (zsum t) Hs), opp_IZR. replace (- sg + zsum t)%Z with (zsum t - sg)%Z by lia. ring.
Qed.
Lemma A_G n e sg u t : pm sg -> supp n 0 u -> tup n t ->
  Ds sg (D_ sg (Gq e u)) (0%Z :: t) = e sg * Ds sg (D_ sg u) t + e (- sg)%Z * Ds (- sg) (D_ (- sg) u) t /\ Ds sg (D_ sg (Gq e u)) (sg :: t) = e sg * D_ sg (Ds sg (D_ sg u)) t.
Proof.
  intros Hs H Ht. destruct (D_G n e sg u t Hs Ht) as (P1 & P2 & P3). rewrite !Ds_cons, P1, P2, P3. split.
  - repeat pmb. rewrite (S_ext n (- sg) (fun t => D_ sg (Gq e u) (0%Z :: t)) (fun t => e sg * D_ sg u t) t (pm_three _ (pm_opp _ Hs))) by (try exact Ht; intros t' Ht'; apply (D_G n e sg u t' Hs Ht')).
    rewrite (S_scal n (e sg) (- sg) (D_ sg u) t (pm_three _ (pm_opp _ Hs)) Ht). unfold Ds at 2. cbn [Z.add]. ring.
  - repeat pmb. rewrite (S_ext n (- sg) (fun t => D_ sg (Gq e u) (sg :: t)) (fun t => e sg * E_ sg (D_ sg u) t) t (pm_three _ (pm_opp _ Hs))) by (try exact Ht; intros t' Ht'; apply (D_G n e sg u t' Hs Ht')).
    rewrite (S_scal n (e sg) (- sg) (E_ sg (D_ sg u)) t (pm_three _ (pm_opp _ Hs)) Ht).
    rewrite (DDs_EsE n sg (D_ sg u) t Hs (D_supp n sg u Hs H) Ht). unfold Es. rewrite (Z.add_comm sg). ring.
Qed.
Definition vcol (al be : R) (e : Z -> R) (u : tuple -> R) (t : tuple) : R := al * Pq u t + be * Gq e u t.
Lemma vcol_supp n al be e u : supp n 0 u -> supp (S n) 0 (vcol al be e u).
Proof.
  intros H [|x t] Ht G; cbn in Ht; [tauto|]. destruct Ht as [Hx Ht]. unfold vcol. cbn [Pq Gq]. rewrite zsum_c in G. pmb.
  - rewrite (H t Ht) by (subst x; rewrite Z.add_0_r in *; exact G). ring.
  - assert (Px : pm x) by (unfold pm, three in *; tauto). rewrite (D_supp n x u Px H t Ht) by lia. ring.
Qed.
Definition eigen (n : nat) (lam : R) (u : tuple -> R) : Prop := forall sg t, pm sg -> tup n t -> Ds sg (D_ sg u) t = lam * u t.
Lemma DsD_lin n sg a b f g t : pm sg -> tup n t -> Ds sg (D_ sg (fun t => a * f t + b * g t)) t = a * Ds sg (D_ sg f) t + b * Ds sg (D_ sg g) t.
Proof. intros Hs Ht. rewrite (Ds_ext n sg _ (fun t => a * D_ sg f t + b * D_ sg g t) t Hs) by (try exact Ht; intros; apply D_lin). apply Ds_lin. Qed.
Lemma vcol_eigen n lam mu al be e u : supp n 0 u -> eigen n lam u -> al * (lam + 1) + be * (e 1%Z + e (-1)%Z) * lam = mu * al -> (forall sg, pm sg -> al + be * e sg * lam = mu * (be * e sg)) ->
  eigen (S n) mu (vcol al be e u).
Proof.
  intros H A E0 E1.
  assert (F0 : forall sg t, pm sg -> tup n t -> Ds sg (D_ sg (vcol al be e u)) (0%Z :: t) = mu * vcol al be e u (0%Z :: t)).
  { intros sg t Hs Ht. unfold vcol at 1. rewrite (DsD_lin (S n) sg _ _ _ _ _ Hs) by (split; [unfold three; tauto|exact Ht]).
    destruct (A_P n sg u t Hs Ht) as [P _]. destruct (A_G n e sg u t Hs H Ht) as [G _]. rewrite P, G, (A sg t Hs Ht), (A (- sg)%Z t (pm_opp _ Hs) Ht). unfold vcol. cbn [Pq Gq Z.eqb].
    replace (al * (lam * u t + u t) + be * (e sg * (lam * u t) + e (- sg)%Z * (lam * u t))) with ((al * (lam + 1) + be * (e sg + e (- sg)%Z) * lam) * u t) by ring.
    replace (e sg + e (- sg)%Z) with (e 1%Z + e (-1)%Z) by (destruct Hs as [->| ->]; cbn; ring). rewrite E0. ring. }
  assert (F1 : forall sg t, pm sg -> tup n t -> Ds sg (D_ sg (vcol al be e u)) (sg :: t) = mu * vcol al be e u (sg :: t)).
  { intros sg t Hs Ht. unfold vcol at 1. rewrite (DsD_lin (S n) sg _ _ _ _ _ Hs) by (split; [apply pm_three; exact Hs|exact Ht]).
    destruct (A_P n sg u t Hs Ht) as [_ P]. destruct (A_G n e sg u t Hs H Ht) as [_ G]. rewrite P, G.
    rewrite (D_ext n sg (Ds sg (D_ sg u)) (fun t => lam * u t + 0 * u t) t (pm_three _ Hs)) by (try exact Ht; intros t' Ht'; rewrite (A sg t' Hs Ht'); ring). rewrite D_lin.
    unfold vcol. cbn [Pq Gq]. pmb. specialize (E1 sg Hs).
    replace (al * D_ sg u t + be * (e sg * (lam * D_ sg u t + 0 * D_ sg u t))) with ((al + be * e sg * lam) * D_ sg u t) by ring. rewrite E1. ring. }
  intros sg [|x t] Hs Ht; cbn in Ht; [tauto|]. destruct Ht as [Hx Ht]. destruct (Z.eq_dec x 0) as [->|X0]; [apply F0; assumption|]. destruct (Z.eq_dec x sg) as [->|X1]; [apply F1; assumption|].
  assert (x = - sg)%Z as -> by (unfold pm, three in *; lia). rewrite (A_indep (S n) sg _ _ Hs (vcol_supp n al be e u H)) by (split; assumption). apply F1; [apply pm_opp; exact Hs|exact Ht].
Qed.
Lemma dot_ext n f f' g g' : (forall t, tup n t -> f t = f' t) -> (forall t, tup n t -> g t = g' t) -> dot n f g = dot n f' g'.
Proof. intros H1 H2. apply tsum_ext. intros t Ht. rewrite (H1 t Ht), (H2 t Ht). reflexivity. Qed.
Lemma dot_scal n a f g : dot n f (fun t => a * g t) = a * dot n f g.
Proof. unfold dot. rewrite (tsum_ext n _ (fun t => a * (f t * g t) + 0 * (f t * g t))) by (intros; ring). rewrite tsum_lin. ring. Qed.
Lemma vcol_dot n lam al be e u al' be' e' u' : eigen n lam u' ->
  dot (S n) (vcol al be e u) (vcol al' be' e' u') = (al * al' + be * be' * (e 1%Z * e' 1%Z + e (-1)%Z * e' (-1)%Z) * lam) * dot n u u'.
Proof.
  intros A. unfold dot at 1. cbn [tsum].
  assert (X : forall sg, pm sg -> tsum n (fun t => vcol al be e u (sg :: t) * vcol al' be' e' u' (sg :: t)) = be * be' * (e sg * e' sg) * lam * dot n u u').
  { intros sg Hs. rewrite (tsum_ext n _ (fun t => (be * be' * (e sg * e' sg)) * (D_ sg u t * D_ sg u' t) + 0 * 0)).
    - rewrite (tsum_lin n _ 0 (fun t => D_ sg u t * D_ sg u' t) (fun _ => 0)). change (tsum n (fun t => D_ sg u t * D_ sg u' t)) with (dot n (D_ sg u) (D_ sg u')). rewrite (D_adj n sg u (D_ sg u') Hs).
      rewrite (dot_ext n u u _ (fun t => lam * u' t)) by (try reflexivity; intros t Ht; apply A; assumption). rewrite dot_scal. ring.
    - intros t _. unfold vcol. cbn [Pq Gq]. pmb. ring. }
  rewrite (X (-1)%Z) by (left; reflexivity). rewrite (X 1%Z) by (right; reflexivity).
  rewrite (tsum_ext n _ (fun t => (al * al') * (u t * u' t) + 0 * 0)) by (intros t _; unfold vcol; cbn [Pq Gq Z.eqb]; ring).
  rewrite (tsum_lin n _ 0 (fun t => u t * u' t) (fun _ => 0)). fold (dot n u u'). ring.
Qed.
End Level.

(** ** The recursion of the code *)
Section Columns.
Context (L : Z) (HL : (0 <= L)%Z).
Lemma walks_app l a : forall w, walks_out w (l ++ [a]) = walks_out w l || ((w + zsum l + a <? 0)%Z || ((w + zsum l =? 0)%Z && (w + zsum l + a =? 0)%Z)).
Proof.
  induction l as [|x l IH]; intros w; cbn [app walks_out].
  - unfold zsum. cbn [fold_left]. rewrite Z.add_0_r. destruct ((w + a <? 0)%Z || _); reflexivity.
  - rewrite IH, zsum_c, Z.add_assoc. destruct ((w + x <? 0)%Z || _); reflexivity.
Qed.
Lemma walks_nonneg l : forall w, (0 <= w)%Z -> walks_out w l = false -> (0 <= w + zsum l)%Z.
Proof.
  induction l as [|x l IH]; intros w Hw H; [unfold zsum; cbn; lia|]. cbn [walks_out] in H. destruct (w + x <? 0)%Z eqn:E; [discriminate|]. apply Z.ltb_ge in E. rewrite zsum_c, Z.add_assoc. apply IH; [lia|].
  destruct (false || _); [discriminate|exact H].
Qed.
Lemma walks_short l : forall w, (Z.of_nat (List.length l) <= w)%Z -> Forall three l -> walks_out w l = false.
Proof.
  induction l as [|x l IH]; intros w Hw H; [reflexivity|]. inversion H as [|? ? Hx Hl]; subst. cbn [List.length] in Hw. cbn [walks_out]. unfold three in Hx.
  destruct (w + x <? 0)%Z eqn:E; [apply Z.ltb_lt in E; lia|]. destruct (w =? 0)%Z eqn:E1; [apply Z.eqb_eq in E1; lia|]. cbn [orb andb]. apply IH; [lia|exact Hl].
Qed.
Definition allowed (b : tuple) : Prop := walks_out L (rev b) = false.
Lemma tup_length n t : tup n t -> List.length t = n.
Proof. intros H. apply tup_tuples in H. apply H. Qed.
Lemma tup_rev n t : tup n t -> Forall three (rev t).
Proof. intros H. apply Forall_rev. exact (tup_Forall n t H). Qed.
Lemma forbidden_walks n b : tup n b -> forbidden_regularity L b = walks_out L (rev b).
Proof.
  intros H. unfold forbidden_regularity. destruct (Z.of_nat (List.length b) <=? L)%Z eqn:E; [|reflexivity]. symmetry. apply walks_short; [rewrite rev_length; apply Z.leb_le; exact E|exact (tup_rev n b H)].
Qed.
Lemma allowed_cons a b : three a -> (allowed (a :: b) <-> allowed b /\ (L + zsum b = 0 -> a = 1)%Z).
Proof.
  intros Ha. unfold allowed. cbn [rev]. rewrite walks_app, zsum_rev, orb_false_iff. split.
  - intros [H1 H2]. split; [exact H1|]. intros Z. rewrite Z in H2. unfold three in Ha. destruct Ha as [->|[->| ->]]; cbn in H2; congruence || reflexivity.
  - intros [H1 H2]. split; [exact H1|]. pose proof (walks_nonneg (rev b) L HL H1) as N. rewrite zsum_rev in N. unfold three in Ha.
    apply orb_false_iff. rewrite andb_false_iff, Z.ltb_ge, !Z.eqb_neq. lia.
Qed.
Lemma allowed_nonneg b : allowed b -> (0 <= L + zsum b)%Z.
Proof. intros H. pose proof (walks_nonneg (rev b) L HL H) as N. rewrite zsum_rev in N. exact N. Qed.
Lemma allowed_dec b : allowed b \/ ~ allowed b.
Proof. unfold allowed. destruct (walks_out L (rev b)); [right; discriminate|left; reflexivity]. Qed.

Definition jj (b : tuple) : R := IZR (L + zsum b).
Definition lam (b : tuple) : R := jj b * (jj b + 1) / 2.
Definition al (a : Z) (J : R) : R := if (a =? -1)%Z then J / sqrt (J * (2 * J + 1)) else if (a =? 0)%Z then 0 else (J + 1) / sqrt ((J + 1) * (2 * J + 1)).
Definition be (a : Z) (J : R) : R := if (a =? -1)%Z then - / sqrt (J * (2 * J + 1)) else if (a =? 0)%Z then / sqrt (J * (J + 1)) else / sqrt ((J + 1) * (2 * J + 1)).
Definition ee (a : Z) (sg : Z) : R := if (a =? 0)%Z then IZR sg else 1.
Lemma Q_nil a b : Q L (a :: b) [] = 1. Proof. reflexivity. Qed.
Lemma Q_step n a b : three a -> tup n b -> supp L n 0 (Q L b) -> allowed (a :: b) -> forall t, tup (S n) t -> Q L (a :: b) t = vcol L (al a (jj b)) (be a (jj b)) (ee a) (Q L b) t.
Proof.
  intros Ha Hb H A t Ht. assert (Hab : tup (S n) (a :: b)) by (split; assumption).
  destruct (forbidden_spin L t) eqn:F.
  - unfold forbidden_spin in F. destruct t as [|x t]; [cbn in Ht; tauto|]. rewrite (vcol_supp L n _ _ _ _ H (x :: t) Ht) by (apply Z.ltb_lt in F; rewrite Z.add_0_r; exact F).
    cbn [Q]. unfold forbidden_spin. rewrite F. reflexivity.
  - destruct t as [|x t]; [cbn in Ht; tauto|]. cbn [Q]. rewrite F, (forbidden_walks (S n) _ Hab), A. cbn [orb]. destruct Ht as [Hx Ht].
    pose proof (fold_S x (Q L b) t [] 0) as FS. cbn [app List.length] in FS. unfold enumerate. rewrite FS. clear FS. rewrite c_k.
    change (S_ x (fun t => Q L b t) t) with (S_ x (Q L b) t).
    replace (0 + S_ x (Q L b) t - - IZR x * c_ L x (zsum t) * Q L b t) with (D_ L x (Q L b) t) by (unfold D_; ring).
    fold (jj b). unfold vcol, al, be, ee. cbn [Pq Gq].
    assert (D0 : D_ L 0 (Q L b) t = 0) by (unfold D_; rewrite S_zero0; ring).
    unfold three in Ha. destruct Ha as [->|[->| ->]]; cbn [Z.eqb Pos.eqb]; destruct (x =? 0)%Z eqn:X; try (apply Z.eqb_eq in X; subst x; rewrite D0); unfold Rdiv; ring.
Qed.
Lemma Q_forbidden n a b : tup (S n) (a :: b) -> ~ allowed (a :: b) -> forall t, tup (S n) t -> Q L (a :: b) t = 0.
Proof.
  intros Hab N [|x t] Ht; [cbn in Ht; tauto|]. cbn [Q]. rewrite (forbidden_walks (S n) _ Hab). unfold allowed in N. destruct (walks_out L (rev (a :: b))); [|tauto]. rewrite orb_true_r. reflexivity.
Qed.
Lemma sq_pos x : 0 < x -> sqrt x * sqrt x = x /\ sqrt x <> 0.
Proof. intros H. split; [apply sqrt_sqrt; lra|]. pose proof (sqrt_lt_R0 x H). lra. Qed.
Lemma jj_int b : allowed b -> jj b = 0 \/ 1 <= jj b.
Proof. intros H. apply allowed_nonneg in H. unfold jj. destruct (Z.eq_dec (L + zsum b) 0) as [->|N]; [left; reflexivity|right]. apply IZR_le. lia. Qed.
Lemma jj_cons a b : jj (a :: b) = jj b + IZR a.
Proof. unfold jj. rewrite zsum_c, !plus_IZR. ring. Qed.
Lemma Q_level n : forall b, tup n b -> allowed b -> supp L n 0 (Q L b) /\ eigen L n (lam b) (Q L b).
Proof.
  induction n as [|n IH]; intros [|a b] Hb A; cbn in Hb; try tauto.
  - split.
    + intros [|x t] Ht G; cbn in Ht; [unfold zsum in G; cbn in G; lia|tauto].
    + intros sg [|x t] Hs Ht; cbn in Ht; [|tauto]. rewrite (DsD_expand L 0 sg _ [] Hs I). unfold zsum. cbn [fold_left S_]. rewrite (c_sq L sg 0) by (destruct Hs as [->| ->]; lia).
      unfold lam, jj, zsum. cbn [fold_left]. rewrite Z.mul_0_l, Z.sub_0_r, Z.add_0_r, mult_IZR, plus_IZR. cbn [Q]. field.
  - destruct Hb as [Ha Hb]. pose proof (proj1 (allowed_cons a b Ha) A) as [Ab Az]. destruct (IH b Hb Ab) as [S1 E1].
    pose proof (Q_step n a b Ha Hb S1 A) as St. split.
    + intros t Ht G. rewrite (St t Ht). apply (vcol_supp L n); assumption.
    + assert (V : eigen L (S n) (lam (a :: b)) (vcol L (al a (jj b)) (be a (jj b)) (ee a) (Q L b))).
      { apply (vcol_eigen L n (lam b)); [exact S1|exact E1|..]; unfold lam; rewrite jj_cons; destruct (jj_int b Ab) as [J0|J1].
        - assert (a = 1)%Z as -> by (apply Az; unfold jj in J0; apply eq_IZR in J0; exact J0). rewrite J0. unfold al, be, ee. cbn [Z.eqb Pos.eqb]. destruct (sq_pos ((0 + 1) * (2 * 0 + 1)) ltac:(lra)) as [_ N]. field. exact N.
        - unfold al, be, ee. destruct (sq_pos (jj b * (2 * jj b + 1)) ltac:(nra)) as [_ N1]. destruct (sq_pos (jj b * (jj b + 1)) ltac:(nra)) as [_ N2]. destruct (sq_pos ((jj b + 1) * (2 * jj b + 1)) ltac:(nra)) as [_ N3].
          destruct Ha as [->|[->| ->]]; cbn [Z.eqb Pos.eqb]; field; assumption.
        - assert (a = 1)%Z as -> by (apply Az; unfold jj in J0; apply eq_IZR in J0; exact J0). intros sg Hs. rewrite J0. unfold al, be, ee. cbn [Z.eqb Pos.eqb]. destruct (sq_pos ((0 + 1) * (2 * 0 + 1)) ltac:(lra)) as [_ N]. field. exact N.
        - intros sg Hs. unfold al, be, ee. destruct (sq_pos (jj b * (2 * jj b + 1)) ltac:(nra)) as [_ N1]. destruct (sq_pos (jj b * (jj b + 1)) ltac:(nra)) as [_ N2]. destruct (sq_pos ((jj b + 1) * (2 * jj b + 1)) ltac:(nra)) as [_ N3].
          destruct Ha as [->|[->| ->]]; cbn [Z.eqb Pos.eqb]; field; assumption. }
      intros sg t Hs Ht. rewrite (St t Ht). rewrite <- (V sg t Hs Ht). apply (Ds_ext L (S n) sg _ _ t Hs); [|exact Ht]. intros t' Ht'. apply (D_ext L (S n) sg _ _ t' (pm_three _ Hs)); [exact St|exact Ht'].
Qed.
Lemma teq_false s t : s <> t -> teq s t = false.
Proof. intros H. apply not_true_is_false. intros E. apply tuple_eqb_spec in E. exact (H E). Qed.
(** Columns are orthonormal. *)
Lemma columns n : forall b b', tup n b -> tup n b' -> allowed b -> allowed b' -> dot n (Q L b) (Q L b') = b2R (teq b b').
Proof.
  induction n as [|n IH]; intros [|a b] [|a' b'] Hb Hb' A A'; cbn in Hb, Hb'; try tauto; [unfold dot, teq, tuple_eqb; cbn; ring|].
  destruct Hb as [Ha Hb]. destruct Hb' as [Ha' Hb']. pose proof (proj1 (allowed_cons a b Ha) A) as [Ab Az]. pose proof (proj1 (allowed_cons a' b' Ha') A') as [Ab' Az'].
  destruct (Q_level n b Hb Ab) as [S1 E1]. destruct (Q_level n b' Hb' Ab') as [S1' E1'].
  rewrite (dot_ext (S n) _ _ _ _ (Q_step n a b Ha Hb S1 A) (Q_step n a' b' Ha' Hb' S1' A')), (vcol_dot L n (lam b') _ _ _ _ _ _ _ _ E1'), (IH b b' Hb Hb' Ab Ab'), teq_cons.
  destruct (list_eq_dec Z.eq_dec b b') as [<-|N]; [|rewrite (teq_false b b' N), andb_false_r; cbn; ring]. rewrite teq_refl, andb_true_r. cbn [b2R]. rewrite Rmult_1_r.
  unfold lam. destruct (jj_int b Ab) as [J0|J1].
  - assert (Z0 : (L + zsum b = 0)%Z) by (unfold jj in J0; apply eq_IZR in J0; exact J0). rewrite (Az Z0), (Az' Z0), J0. unfold al, be, ee. cbn [Z.eqb Pos.eqb]. replace ((0 + 1) * (2 * 0 + 1)) with 1 by ring. rewrite sqrt_1. cbn. field.
  - destruct (sq_pos (jj b * (2 * jj b + 1)) ltac:(nra)) as [M1 N1]. destruct (sq_pos (jj b * (jj b + 1)) ltac:(nra)) as [M2 N2]. destruct (sq_pos ((jj b + 1) * (2 * jj b + 1)) ltac:(nra)) as [M3 N3].
    unfold al, be, ee. set (q1 := sqrt (jj b * (2 * jj b + 1))) in *. set (q2 := sqrt (jj b * (jj b + 1))) in *. set (q3 := sqrt ((jj b + 1) * (2 * jj b + 1))) in *. set (J := jj b) in *. clearbody q1 q2 q3 J. clear -J1 M1 N1 M2 N2 M3 N3 Ha Ha'.
    destruct Ha as [->|[->| ->]], Ha' as [->|[->| ->]]; cbn [Z.eqb Pos.eqb b2R].
    + replace (J / q1 * (J / q1) + - / q1 * - / q1 * (1 * 1 + 1 * 1) * (J * (J + 1) / 2)) with ((J * (2 * J + 1)) / (q1 * q1)) by (field; exact N1). rewrite M1. field. nra.
    + field. tauto.
    + field. tauto.
    + field. tauto.
    + replace ((J + 1) / q3 * ((J + 1) / q3) + / q3 * / q3 * (1 * 1 + 1 * 1) * (J * (J + 1) / 2)) with (((J + 1) * (2 * J + 1)) / (q3 * q3)) by (field; exact N3). rewrite M3. field. nra.
    + field. tauto.
    + field. tauto.
    + field. tauto.
    + replace (0 * 0 + / q2 * / q2 * (1 * 1 + -1 * -1) * (J * (J + 1) / 2)) with ((J * (J + 1)) / (q2 * q2)) by (field; exact N2). rewrite M2. field. nra.
Qed.
(** ** Rows are orthonormal *)
Lemma Q_none n b : tup n b -> ~ allowed b -> forall t, tup n t -> Q L b t = 0.
Proof. destruct n as [|n], b as [|a b]; intros Hb N; cbn in Hb; try tauto; [exfalso; apply N; reflexivity|]. apply (Q_forbidden n); assumption. Qed.
Lemma D_zero n sg f t : three sg -> (forall t, tup n t -> f t = 0) -> tup n t -> D_ L sg f t = 0.
Proof. intros Hs H Ht. unfold D_. rewrite (H t Ht), (S_zero n sg f t Hs H Ht). ring. Qed.
Lemma Ds_zero n sg f t : pm sg -> (forall t, tup n t -> f t = 0) -> tup n t -> Ds L sg f t = 0.
Proof. intros Hs H Ht. unfold Ds. rewrite (H t Ht), (S_zero n (- sg) f t (pm_three _ (pm_opp _ Hs)) H Ht). ring. Qed.
Lemma Q_level_all n b : tup n b -> supp L n 0 (Q L b) /\ eigen L n (lam b) (Q L b).
Proof.
  intros Hb. destruct (allowed_dec b) as [A|N]; [apply Q_level; assumption|]. pose proof (Q_none n b Hb N) as Z. split; [intros t Ht _; apply Z; exact Ht|].
  intros sg t Hs Ht. rewrite (Z t Ht), (Ds_zero n sg _ t Hs); [ring| |exact Ht]. intros t' Ht'. apply (D_zero n); [apply pm_three; exact Hs|exact Z|exact Ht'].
Qed.
Definition iota (b : tuple) : R := if (L + zsum b =? 0)%Z then 0 else / lam b.
Lemma D_J0 n b sg t : tup n b -> allowed b -> jj b = 0 -> pm sg -> tup n t -> D_ L sg (Q L b) t = 0.
Proof.
  intros Hb A J0 Hs Ht. destruct (Q_level n b Hb A) as [_ E].
  assert (Z : dot n (D_ L sg (Q L b)) (D_ L sg (Q L b)) = 0).
  { rewrite (D_adj L n sg _ _ Hs). apply tsum_zero. intros t' Ht'. rewrite (E sg t' Hs Ht'). unfold lam. rewrite J0. field. }
  apply Rsqr_0_uniq. apply (tsum_pos_zero n (fun t => D_ L sg (Q L b) t * D_ L sg (Q L b) t)); [intros s _; apply Rle_0_sqr|exact Z|exact Ht].
Qed.
Lemma iota_lam n b sg t : tup n b -> pm sg -> tup n t -> iota b * lam b * D_ L sg (Q L b) t = D_ L sg (Q L b) t.
Proof.
  intros Hb Hs Ht. destruct (allowed_dec b) as [A|N].
  - destruct (jj_int b A) as [J0|J1]; [rewrite (D_J0 n b sg t Hb A J0 Hs Ht); ring|]. unfold iota. destruct (L + zsum b =? 0)%Z eqn:E; [apply Z.eqb_eq in E; unfold jj in J1; rewrite E in J1; lra|].
    rewrite Rinv_l; [ring|]. unfold lam. nra.
  - rewrite (D_zero n sg _ t (pm_three _ Hs) (Q_none n b Hb N) Ht). ring.
Qed.
Lemma K_step n b x y t t' : tup n b -> three x -> three y -> tup n t -> tup n t' ->
  Q L ((-1)%Z :: b) (x :: t) * Q L ((-1)%Z :: b) (y :: t') + Q L (1%Z :: b) (x :: t) * Q L (1%Z :: b) (y :: t') + Q L (0%Z :: b) (x :: t) * Q L (0%Z :: b) (y :: t')
  = if (x =? y)%Z then if (x =? 0)%Z then Q L b t * Q L b t' else iota b * D_ L x (Q L b) t * D_ L x (Q L b) t' else 0.
Proof.
  intros Hb Hx Hy Ht Ht'. assert (T : tup (S n) (x :: t)) by (split; assumption). assert (T' : tup (S n) (y :: t')) by (split; assumption).
  assert (T1 : three (-1)%Z) by (unfold three; tauto). assert (T2 : three 1%Z) by (unfold three; tauto). assert (T3 : three 0%Z) by (unfold three; tauto).
  assert (Nz : forall z, three z -> z <> 0%Z -> pm z) by (unfold three, pm; tauto).
  destruct (allowed_dec b) as [A|N].
  - destruct (Q_level n b Hb A) as [S1 _]. assert (A1 : allowed (1%Z :: b)) by (apply allowed_cons; [exact T2|tauto]).
    destruct (jj_int b A) as [J0|J1].
    + assert (Z0 : (L + zsum b = 0)%Z) by (unfold jj in J0; apply eq_IZR in J0; exact J0).
      assert (N1 : ~ allowed ((-1)%Z :: b)) by (intros C; apply allowed_cons in C; [|exact T1]; destruct C as [_ C]; specialize (C Z0); discriminate).
      assert (N2 : ~ allowed (0%Z :: b)) by (intros C; apply allowed_cons in C; [|exact T3]; destruct C as [_ C]; specialize (C Z0); discriminate).
      rewrite (Q_forbidden n (-1)%Z b (conj T1 Hb) N1 _ T), (Q_forbidden n 0%Z b (conj T3 Hb) N2 _ T), (Q_step n 1%Z b T2 Hb S1 A1 _ T), (Q_step n 1%Z b T2 Hb S1 A1 _ T').
      unfold iota. rewrite (proj2 (Z.eqb_eq _ _) Z0), J0. unfold vcol, al, be, ee. cbn [Z.eqb Pos.eqb Pq Gq]. replace ((0 + 1) * (2 * 0 + 1)) with 1 by ring. rewrite sqrt_1.
      assert (DJ : forall z s, three z -> z <> 0%Z -> tup n s -> D_ L z (Q L b) s = 0) by (intros z s Hz Nz0 Hs; apply (D_J0 n b z s Hb A J0); [apply Nz; assumption|exact Hs]).
      destruct (x =? 0)%Z eqn:X, (y =? 0)%Z eqn:Y; try (apply Z.eqb_eq in X; subst x); try (apply Z.eqb_eq in Y; subst y); try apply Z.eqb_neq in X; try apply Z.eqb_neq in Y; try rewrite Z.eqb_refl; try rewrite (DJ x t Hx X Ht); try rewrite (DJ y t' Hy Y Ht').
      * field.
      * destruct (0 =? y)%Z eqn:E; [apply Z.eqb_eq in E; congruence|]. field.
      * destruct (x =? 0)%Z eqn:E; [apply Z.eqb_eq in E; congruence|]. field.
      * destruct (x =? y)%Z; field.
    + assert (NJ : (L + zsum b)%Z <> 0%Z) by (intros E; unfold jj in J1; rewrite E in J1; lra).
      assert (A0 : allowed ((-1)%Z :: b)) by (apply allowed_cons; [exact T1|tauto]). assert (A2 : allowed (0%Z :: b)) by (apply allowed_cons; [exact T3|tauto]).
      rewrite (Q_step n 1%Z b T2 Hb S1 A1 _ T), (Q_step n 1%Z b T2 Hb S1 A1 _ T'), (Q_step n (-1)%Z b T1 Hb S1 A0 _ T), (Q_step n (-1)%Z b T1 Hb S1 A0 _ T'), (Q_step n 0%Z b T3 Hb S1 A2 _ T), (Q_step n 0%Z b T3 Hb S1 A2 _ T').
      unfold iota. rewrite (proj2 (Z.eqb_neq _ _) NJ). unfold lam.
      destruct (sq_pos (jj b * (2 * jj b + 1)) ltac:(nra)) as [M1 N1]. destruct (sq_pos (jj b * (jj b + 1)) ltac:(nra)) as [M2 N2]. destruct (sq_pos ((jj b + 1) * (2 * jj b + 1)) ltac:(nra)) as [M3 N3].
      unfold vcol, al, be, ee. cbn [Z.eqb Pos.eqb Pq Gq]. set (q1 := sqrt (jj b * (2 * jj b + 1))) in *. set (q2 := sqrt (jj b * (jj b + 1))) in *. set (q3 := sqrt ((jj b + 1) * (2 * jj b + 1))) in *. set (J := jj b) in *.
      set (p := if (x =? 0)%Z then Q L b t else 0). set (p' := if (y =? 0)%Z then Q L b t' else 0).
      set (r := if (x =? 0)%Z then 0 else 1 * D_ L x (Q L b) t). set (r' := if (y =? 0)%Z then 0 else 1 * D_ L y (Q L b) t').
      replace (if (x =? 0)%Z then 0 else IZR x * D_ L x (Q L b) t) with (IZR x * r) by (unfold r; destruct (x =? 0)%Z; ring).
      replace (if (y =? 0)%Z then 0 else IZR y * D_ L y (Q L b) t') with (IZR y * r') by (unfold r'; destruct (y =? 0)%Z; ring).
      assert (I1 : / (q1 * q1) = / (J * (2 * J + 1))) by (rewrite M1; reflexivity). assert (I2 : / (q2 * q2) = / (J * (J + 1))) by (rewrite M2; reflexivity). assert (I3 : / (q3 * q3) = / ((J + 1) * (2 * J + 1))) by (rewrite M3; reflexivity).
      transitivity ((J * p - r) * (J * p' - r') * / (q1 * q1) + ((J + 1) * p + r) * ((J + 1) * p' + r') * / (q3 * q3) + IZR x * IZR y * r * r' * / (q2 * q2)); [field; tauto|]. rewrite I1, I2, I3.
      transitivity (p * p' + (1 + IZR x * IZR y) * r * r' / (J * (J + 1))); [field; repeat split; lra|].
      assert (JJ : J * (J + 1) <> 0) by nra. clear I1 I2 I3 M1 M2 M3. clearbody J. clear q1 q2 q3 N1 N2 N3. unfold p, p', r, r'.
      unfold three in Hx, Hy. destruct Hx as [->|[->| ->]], Hy as [->|[->| ->]]; cbn [Z.eqb Pos.eqb]; field; lra.
  - assert (NN : forall a, three a -> ~ allowed (a :: b)) by (intros a Ha C; apply allowed_cons in C; [tauto|exact Ha]).
    rewrite (Q_forbidden n (-1)%Z b (conj T1 Hb) (NN _ T1) _ T), (Q_forbidden n 0%Z b (conj T3 Hb) (NN _ T3) _ T), (Q_forbidden n 1%Z b (conj T2 Hb) (NN _ T2) _ T).
    pose proof (Q_none n b Hb N) as Z. rewrite (Z t Ht). destruct (x =? y)%Z; [|ring]. destruct (x =? 0)%Z; [ring|]. rewrite (D_zero n x _ t Hx Z Ht). ring.
Qed.
Lemma S_tsum n sg t : forall h, S_ sg (fun t => tsum n (fun b => h b t)) t = tsum n (fun b => S_ sg (h b) t).
Proof.
  induction n as [|n IH]; intros h; cbn [tsum]; [reflexivity|].
  rewrite <- (IH (fun b => h ((-1)%Z :: b))), <- (IH (fun b => h (1%Z :: b))), <- (IH (fun b => h (0%Z :: b))).
  assert (X : forall f g, S_ sg (fun t => f t + g t) t = S_ sg f t + S_ sg g t).
  { clear. revert t. induction t as [|x t IHt]; intros f g; [cbn; ring|]. rewrite !S_cons, IHt. destruct (x + sg =? 0)%Z, (x =? 0)%Z; ring. }
  rewrite X, X. reflexivity.
Qed.
Lemma tsum_scal n a f : tsum n (fun t => a * f t) = a * tsum n f.
Proof. rewrite (tsum_ext n _ (fun t => a * f t + 0 * f t)) by (intros; ring). rewrite tsum_lin. ring. Qed.
Lemma D_tsum n sg h t : D_ L sg (fun t => tsum n (fun b => h b t)) t = tsum n (fun b => D_ L sg (h b) t).
Proof.
  unfold D_. rewrite S_tsum. rewrite (tsum_ext n (fun b => _ * h b t + _) (fun b => (IZR sg * c_ L sg (zsum t)) * h b t + 1 * S_ sg (h b) t)) by (intros; ring). rewrite tsum_lin. ring.
Qed.
Lemma Ds_tsum n sg h t : Ds L sg (fun t => tsum n (fun b => h b t)) t = tsum n (fun b => Ds L sg (h b) t).
Proof.
  unfold Ds. rewrite S_tsum. rewrite (tsum_ext n (fun b => _ * h b t - _) (fun b => (IZR sg * c_ L sg (zsum t)) * h b t + (-1) * S_ (- sg) (h b) t)) by (intros; ring). rewrite tsum_lin. ring.
Qed.
Definition ind (s : Z) : R := if (L <? Z.abs s)%Z then 0 else 1.
Definition complete (n : nat) : Prop := forall t t', tup n t -> tup n t' -> tsum n (fun b => Q L b t * Q L b t') = b2R (teq t t') * ind (zsum t).
Lemma teq_sym s t : teq s t = teq t s.
Proof. destruct (list_eq_dec Z.eq_dec s t) as [->|N]; [reflexivity|]. rewrite !teq_false by congruence. reflexivity. Qed.
Lemma projector n sg : complete n -> pm sg -> forall t t', tup n t -> tup n t' -> tsum n (fun b => iota b * D_ L sg (Q L b) t * D_ L sg (Q L b) t') = b2R (teq t t') * ind (zsum t + sg).
Proof.
  intros C Hs t t' Ht Ht'. unfold ind.
  destruct (L <? Z.abs (zsum t' + sg))%Z eqn:F.
  { apply Z.ltb_lt in F. rewrite tsum_zero; [destruct (list_eq_dec Z.eq_dec t t') as [->|N]; [apply Z.ltb_lt in F; rewrite F; ring|rewrite (teq_false _ _ N); cbn; ring]|].
    intros b Hb. rewrite (D_supp L n sg (Q L b) Hs (proj1 (Q_level_all n b Hb)) t' Ht' F). ring. }
  set (f := fun t => 1 * tsum n (fun b => iota b * D_ L sg (Q L b) t * D_ L sg (Q L b) t') + (-1) * b2R (teq t t')).
  assert (G : f t = 0).
  { apply (Ds_injective L n sg f Hs); [|clear t Ht|exact Ht].
    - intros s Hs' l. unfold f. rewrite tsum_zero by (intros b Hb; rewrite (D_supp L n sg (Q L b) Hs (proj1 (Q_level_all n b Hb)) s Hs' l); ring).
      rewrite (teq_false s t'); [cbn; ring|]. intros ->. apply Z.ltb_lt in l. congruence.
    - intros s Hs'. unfold f. rewrite Ds_lin, Ds_tsum.
      assert (E1 : tsum n (fun b => Ds L sg (fun t => iota b * D_ L sg (Q L b) t * D_ L sg (Q L b) t') s) = tsum n (fun b => Q L b s * D_ L sg (Q L b) t')).
      { apply tsum_ext. intros b Hb. rewrite (Ds_ext L n sg _ (fun t => (iota b * D_ L sg (Q L b) t') * D_ L sg (Q L b) t + 0 * 0) s Hs) by (try exact Hs'; intros; ring).
        rewrite (Ds_lin L sg _ 0 (D_ L sg (Q L b)) (fun _ => 0)), (proj2 (Q_level_all n b Hb) sg s Hs Hs'). rewrite <- (iota_lam n b sg t' Hb Hs Ht') at 2. ring. }
      rewrite E1.
      assert (E2 : tsum n (fun b => Q L b s * D_ L sg (Q L b) t') = ind (zsum s) * D_ L sg (fun t => b2R (teq s t)) t').
      { transitivity (D_ L sg (fun t => tsum n (fun b => Q L b s * Q L b t)) t').
        - rewrite D_tsum. apply tsum_ext. intros b Hb. rewrite (D_ext L n sg (fun t => Q L b s * Q L b t) (fun t => Q L b s * Q L b t + 0 * 0) t' (pm_three _ Hs)) by (try exact Ht'; intros; ring). rewrite (D_lin L sg _ 0 (Q L b) (fun _ => 0)). ring.
        - rewrite (D_ext L n sg _ (fun t => ind (zsum s) * b2R (teq s t) + 0 * 0) t' (pm_three _ Hs)) by (try exact Ht'; intros t1 Ht1; rewrite (C s t1 Hs' Ht1); ring). rewrite (D_lin L sg _ 0 (fun t => b2R (teq s t)) (fun _ => 0)). ring. }
      rewrite E2.
      assert (E3 : D_ L sg (fun t => b2R (teq s t)) t' = Ds L sg (fun t => b2R (teq t t')) s).
      { pose proof (D_adj L n sg (fun t => b2R (teq s t)) (fun t => b2R (teq t t')) Hs) as A. unfold dot in A.
        rewrite (tsum_ext n (fun t => D_ L sg (fun t0 => b2R (teq s t0)) t * b2R (teq t t')) (fun t => b2R (teq t t') * D_ L sg (fun t0 => b2R (teq s t0)) t)) in A by (intros; ring). rewrite (tsum_delta n _ t' Ht') in A.
        rewrite (tsum_ext n (fun t => b2R (teq s t) * Ds L sg (fun t0 => b2R (teq t0 t')) t) (fun t => b2R (teq t s) * Ds L sg (fun t0 => b2R (teq t0 t')) t)) in A by (intros; rewrite teq_sym; reflexivity). rewrite (tsum_delta n _ s Hs') in A. exact A. }
      rewrite E3. unfold ind. destruct (L <? Z.abs (zsum s))%Z eqn:Fs; [|ring]. apply Z.ltb_lt in Fs.
      rewrite (Ds_supp L n sg (fun t => b2R (teq t t')) Hs) by (try exact Hs'; try (rewrite Z.add_0_r; exact Fs); intros t1 _ l; rewrite (teq_false t1 t') by (intros ->; apply Z.ltb_lt in l; congruence); reflexivity). ring. }
  unfold f in G. destruct (list_eq_dec Z.eq_dec t t') as [->|N]; [rewrite F, teq_refl in *; lra|]. rewrite (teq_false _ _ N) in *. cbn [b2R] in *. lra.
Qed.
Lemma rows n : complete n.
Proof.
  induction n as [|n IH]; intros [|x t] [|y t'] Ht Ht'; cbn in Ht, Ht'; try tauto; [unfold ind, zsum, teq, tuple_eqb; cbn; destruct (L <? 0)%Z eqn:E; [apply Z.ltb_lt in E; lia|ring]|].
  destruct Ht as [Hx Ht]. destruct Ht' as [Hy Ht']. cbn [tsum].
  transitivity (tsum n (fun b => if (x =? y)%Z then if (x =? 0)%Z then Q L b t * Q L b t' else iota b * D_ L x (Q L b) t * D_ L x (Q L b) t' else 0)).
  - rewrite <- (Rmult_1_l (tsum n (fun t0 => Q L ((-1)%Z :: t0) (x :: t) * _))), <- (Rmult_1_l (tsum n (fun t0 => Q L (1%Z :: t0) (x :: t) * _))), <- tsum_lin.
    rewrite <- (Rmult_1_l (tsum n (fun t0 => 1 * _ + _))), <- (Rmult_1_l (tsum n (fun t0 => Q L (0%Z :: t0) (x :: t) * _))), <- tsum_lin. apply tsum_ext. intros b Hb. rewrite <- (K_step n b x y t t' Hb Hx Hy Ht Ht'). ring.
  - rewrite teq_cons, zsum_c. destruct (x =? y)%Z eqn:E; [|rewrite tsum_zero by reflexivity; cbn; ring]. apply Z.eqb_eq in E. subst y. cbn [andb].
    destruct (x =? 0)%Z eqn:E; [apply Z.eqb_eq in E; subst x; rewrite (IH t t' Ht Ht'); reflexivity|]. apply Z.eqb_neq in E.
    rewrite (projector n x IH) by (try assumption; unfold pm, three in *; tauto). rewrite (Z.add_comm x). reflexivity.
Qed.
End Columns.

(** ** The statements of the theorems *)
Lemma sumZ_zsum t : sumZ t = zsum t.
Proof. induction t as [|x t IH]; [reflexivity|]. rewrite zsum_c, <- IH. reflexivity. Qed.
Lemma rsum_app l m : rsum (l ++ m) = rsum l + rsum m.
Proof. unfold rsum. induction l as [|x l IH]; cbn; [ring|]. rewrite IH. ring. Qed.
Lemma rsum_tsum n : forall h, rsum (map h (components n)) = tsum n h.
Proof.
  unfold components. induction n as [|n IH]; intros h; [cbn; ring|]. cbn [range flat_map]. rewrite app_nil_r, !map_app, !rsum_app, !map_map.
  cbn [tsum]. rewrite <- !IH. ring.
Qed.
Lemma sum_tsum n h : sumR (map h (components n)) = tsum n h. Proof. apply rsum_tsum. Qed.
Lemma in_components n t : In t (components n) <-> tup n t.
Proof. unfold components. rewrite in_range. symmetry. apply tup_tuples. Qed.
Lemma exists_allowed L n b : (0 <= L)%Z -> tup n b -> (regularity_exists L b <-> allowed L b).
Proof.
  intros HL. revert b. induction n as [|n IH]; intros [|a b] Hb; cbn in Hb; try tauto.
  - split; [reflexivity|]. intros _ [|] a b E; discriminate.
  - destruct Hb as [Ha Hb]. rewrite (allowed_cons L HL a b Ha), <- (IH b Hb). split.
    + intros H. split; [intros pre a' b' ->; apply (H (a :: pre)); reflexivity|]. specialize (H [] a b eq_refl). rewrite sumZ_zsum in H. unfold three in Ha. lia.
    + intros [H1 H2] [|p pre] a' b' E; [injection E as <- <-; rewrite sumZ_zsum|injection E as <- ->; apply (H1 pre); reflexivity].
      apply (IH b Hb) in H1. apply (allowed_nonneg L HL) in H1. unfold three in Ha. lia.
Qed.
Lemma teq_dec s t : (if list_eq_dec Z.eq_dec s t then 1 else 0) = b2R (teq s t).
Proof. unfold teq, tuple_eqb, b2R. destruct (list_eq_dec Z.eq_dec s t); reflexivity. Qed.
Lemma rows_ l order s t : (0 <= l)%Z -> In s (components order) -> In t (components order) ->
  let product := sumR (map (fun r => Q l r s * Q l r t) (components order)) in
  (spin_exists l s -> product = if list_eq_dec Z.eq_dec s t then 1 else 0) /\ (~ spin_exists l s -> product = 0).
Proof.
  intros Hl Hs Ht product. apply in_components in Hs, Ht. unfold product. rewrite sum_tsum, (rows l Hl order s t Hs Ht), teq_dec. unfold spin_exists, ind. rewrite sumZ_zsum.
  destruct (l <? Z.abs (zsum s))%Z eqn:E; [apply Z.ltb_lt in E|apply Z.ltb_ge in E]; split; intros H; try lia; ring.
Qed.
Lemma columns_ l order r r' : (0 <= l)%Z -> In r (components order) -> In r' (components order) ->
  let product := sumR (map (fun s => Q l r s * Q l r' s) (components order)) in
  (regularity_exists l r -> product = if list_eq_dec Z.eq_dec r r' then 1 else 0) /\ (~ regularity_exists l r -> product = 0).
Proof.
  intros Hl Hr Hr' product. apply in_components in Hr, Hr'. unfold product. rewrite sum_tsum, teq_dec, (exists_allowed l order r Hl Hr). split; intros A.
  - destruct (allowed_dec l r') as [A'|N']; [apply (columns l Hl order); assumption|].
    rewrite tsum_zero by (intros t Ht; rewrite (Q_none l order r' Hr' N' t Ht); ring). rewrite teq_false by (intros ->; exact (N' A)). reflexivity.
  - apply tsum_zero. intros t Ht. rewrite (Q_none l order r Hr A t Ht). ring.
Qed.
Lemma tup_app_set n pre x y t : tup n (pre ++ x :: t) -> three y -> tup n (pre ++ y :: t).
Proof. revert n. induction pre as [|z pre IH]; intros [|n] H Hy; cbn in H |- *; try tauto. split; [tauto|]. apply IH; tauto. Qed.
Lemma in_combine_nth (t : tuple) : forall k i y, In (i, y) (combine (seq k (List.length t)) t) -> exists pre post, t = pre ++ y :: post /\ i = (k + List.length pre)%nat.
Proof.
  induction t as [|x t IH]; intros k i y H; cbn in H; [tauto|]. destruct H as [H|H]; [injection H as <- <-; exists [], t; split; [reflexivity|cbn; lia]|].
  destruct (IH _ _ _ H) as (pre & post & -> & ->). exists (x :: pre), post. split; [reflexivity|cbn; lia].
Qed.
Lemma evaluates_all L : (0 <= L)%Z -> forall n b t, tup n b -> tup n t -> evaluates L b t.
Proof.
  intros HL. induction n as [|n IH]; intros [|a b] [|x t] Hb Ht; cbn in Hb, Ht; try tauto. cbn [evaluates].
  destruct (forbidden_spin L (x :: t) || forbidden_regularity L (a :: b)) eqn:F; [exact I|]. apply orb_false_iff in F. destruct F as [F1 F2]. rewrite (forbidden_walks L (S n)) in F2 by exact Hb. destruct Hb as [Ha Hb]. destruct Ht as [Hx Ht].
  pose proof (proj1 (allowed_cons L HL a b Ha) F2) as [Ab Az]. pose proof (allowed_nonneg L HL b Ab) as N. unfold forbidden_spin in F1. apply Z.ltb_ge in F1. rewrite zsum_c in F1.
  split; [|split; [apply IH; assumption|split]].
  - intros [i y] Hp. apply in_combine_nth in Hp.
    destruct Hp as (pre & post & -> & Hi). rewrite Nat.add_0_l in Hi. subst i. cbn [fst snd]. rewrite !treplace_app. split; intros _; apply IH; try exact Hb; apply (tup_app_set n pre y); try exact Ht; [unfold three; tauto|exact Hx].
  - unfold three in Hx. destruct Hx as [->|[->| ->]]; apply Z.mul_nonneg_nonneg; lia.
  - cbn zeta. repeat split; intros ->; apply Z.mul_pos_pos; lia.
Qed.
Lemma entries_ l order r s : (0 <= l)%Z -> In r (components (S order)) -> In s (components (S order)) -> evaluates l r s /\ (~ spin_exists l s \/ ~ regularity_exists l r -> Q l r s = 0).
Proof.
  intros Hl Hr Hs. apply in_components in Hr, Hs. split; [apply (evaluates_all l Hl (S order)); assumption|]. intros [N|N].
  - apply (proj1 (Q_level_all l Hl (S order) r Hr) s Hs). unfold spin_exists in N. rewrite sumZ_zsum in N. lia.
  - rewrite (exists_allowed l (S order) r Hl Hr) in N. apply (Q_none l (S order)); assumption.
Qed.
Lemma vectorized_false : forall l w, snd (fold_left (fun (p : Z * bool) dr => let walk := (fst p + dr)%Z in let valid := if (walk <? 0)%Z then false else snd p in let valid := if (dr =? 0)%Z then if (walk =? 0)%Z then false else valid else valid in (walk, valid)) l (w, false)) = false.
Proof. induction l as [|x l IH]; intros w; [reflexivity|]. cbn [fold_left fst snd]. destruct (w + x <? 0)%Z, (x =? 0)%Z, (w + x =? 0)%Z; apply IH. Qed.
Lemma vectorized_walks : forall l w, Forall three l -> snd (fold_left (fun (p : Z * bool) dr => let walk := (fst p + dr)%Z in let valid := if (walk <? 0)%Z then false else snd p in let valid := if (dr =? 0)%Z then if (walk =? 0)%Z then false else valid else valid in (walk, valid)) l (w, true)) = negb (walks_out w l).
Proof.
  induction l as [|x l IH]; intros w H; [reflexivity|]. inversion H as [|? ? Hx Hl]; subst. cbn [fold_left fst snd walks_out].
  destruct (w + x <? 0)%Z eqn:E1; cbn [orb]; [destruct (x =? 0)%Z, (w + x =? 0)%Z; apply vectorized_false|].
  destruct (w + x =? 0)%Z eqn:E2; [apply Z.eqb_eq in E2|rewrite andb_false_r; destruct (x =? 0)%Z; apply (IH _ Hl)]. rewrite andb_true_r.
  destruct (x =? 0)%Z eqn:E3, (w =? 0)%Z eqn:E4; rewrite ?Z.eqb_eq, ?Z.eqb_neq in *; try lia; [apply vectorized_false|apply (IH _ Hl)].
Qed.
Lemma tests_ l order r : (0 <= l)%Z -> In r (components order) -> (regularity_allowed l r = true <-> regularity_exists l r) /\ regularity_allowed_vectorized l r = regularity_allowed l r.
Proof.
  intros Hl Hr. apply in_components in Hr. assert (E : regularity_allowed l r = negb (walks_out l (rev r))) by (destruct r; [reflexivity|]; cbn [regularity_allowed]; rewrite (forbidden_walks l order _ Hr); reflexivity).
  split; [rewrite E, (exists_allowed l order r Hl Hr); unfold allowed; destruct (walks_out l (rev r)); cbn; split; congruence|]. rewrite E. apply vectorized_walks. exact (tup_rev order r Hr).
Qed.

(** ** Recombination *)
Lemma combine_map_ {A B C} (f : A -> B) (g : A -> C) l : combine (map f l) (map g l) = map (fun t => (f t, g t)) l.
Proof. induction l as [|x l IH]; cbn; [reflexivity|]. rewrite IH. reflexivity. Qed.
Lemma Q_row ell n : Q_matrix ell n = map (fun s => map (fun r => Q ell r s) (components n)) (components n).
Proof. reflexivity. Qed.
Lemma Q_column ell n : transposed (Q_matrix ell n) (List.length (Q_matrix ell n)) = map (fun r => map (fun s => Q ell r s) (components n)) (components n).
Proof.
  unfold transposed. rewrite Q_row, map_length. set (l := components n). apply nth_ext with (d := []) (d' := []); [rewrite !map_length, seq_length; reflexivity|]. intros i Hi. rewrite map_length, seq_length in Hi.
  rewrite (nth_indep _ [] ((fun j => map (fun row => nth j row 0) (map (fun s => map (fun r => Q ell r s) l) l)) 0%nat)) by (rewrite map_length, seq_length; exact Hi). rewrite (map_nth (fun j => map (fun row => nth j row 0) (map (fun s => map (fun r => Q ell r s) l) l))), seq_nth by exact Hi. cbn [Nat.add].
  rewrite (nth_indep _ [] ((fun r => map (fun s => Q ell r s) l) [])) by (rewrite map_length; exact Hi). rewrite (map_nth (fun r => map (fun s => Q ell r s) l)). rewrite map_map. apply map_ext. intros s.
  rewrite (nth_indep _ 0 ((fun r => Q ell r s) [])) by (rewrite map_length; exact Hi). apply (map_nth (fun r => Q ell r s)).
Qed.
Lemma matvec_map (M : tuple -> tuple -> R) n v : matvec (map (fun s => map (M s) (components n)) (components n)) (map v (components n)) = map (fun s => tsum n (fun r => M s r * v r)) (components n).
Proof. unfold matvec. rewrite map_map. apply map_ext. intros s. rewrite combine_map_, map_map. apply rsum_tsum. Qed.
Lemma as_map n : forall x, List.length x = List.length (components n) -> exists v : tuple -> R, x = map v (components n).
Proof.
  intros x H. assert (ND : NoDup (components n)) by (apply range_nodup; repeat constructor; cbn; intuition discriminate). revert x H. induction ND as [|t l Hn ND IH]; intros [|y x] H; cbn in H; try discriminate; [exists (fun _ => 0); reflexivity|].
  destruct (IH x ltac:(congruence)) as [v ->]. exists (fun s => if list_eq_dec Z.eq_dec s t then y else v s). cbn [map]. f_equal; [destruct (list_eq_dec Z.eq_dec t t); congruence|].
  apply map_ext_in. intros s Hs. destruct (list_eq_dec Z.eq_dec s t) as [->|]; [tauto|reflexivity].
Qed.
Lemma fold_recombine {point} f order (maps : list (Z * (point -> bool))) : disjoint_maps maps -> forall data x,
  (forall m, In m maps -> snd m x = true -> fold_left (recombine f order) maps data x = matvec (f (Q_matrix (fst m) order)) (data x))
  /\ ((forall m, In m maps -> snd m x = false) -> fold_left (recombine f order) maps data x = data x).
Proof.
  intros H. induction H as [|m0 maps H0 _ IH]; intros data x; cbn [fold_left]; [split; [intros m []|reflexivity]|]. destruct (IH (recombine f order data m0) x) as [I1 I2]. split.
  - intros m [<-|Hm] X.
    + rewrite I2; [unfold recombine; rewrite X; reflexivity|]. intros m' Hm'. destruct (snd m' x) eqn:E; [|reflexivity]. rewrite Forall_forall in H0. exfalso. exact (H0 m' Hm' x (conj X E)).
    + rewrite (I1 m Hm X). unfold recombine. destruct (snd m0 x) eqn:E; [|reflexivity]. rewrite Forall_forall in H0. exfalso. exact (H0 m Hm x (conj E X)).
  - intros N. rewrite I2 by (intros m Hm; apply N; right; exact Hm). unfold recombine. rewrite (N m0 (or_introl eq_refl)). reflexivity.
Qed.
Lemma combine_map_r {A} (l : list A) (v : A -> R) : combine l (map v l) = map (fun t => (t, v t)) l.
Proof. induction l as [|x l IH]; cbn; [reflexivity|]. rewrite IH. reflexivity. Qed.
Lemma forward_ {point} order (data out : point -> list R) maps :
  disjoint_maps maps -> (forall x, List.length (data x) = List.length (components order)) -> (0 < order)%nat -> forward_recombination true order data maps = Ok out ->
  forall m x, In m maps -> snd m x = true ->
  out x = map (fun r => sumR (map (fun p => Q (fst m) r (fst p) * snd p) (combine (components order) (data x)))) (components order).
Proof.
  intros D HL Ho E m x Hm X. unfold forward_recombination, recombination in E. destruct order as [|order]; [lia|]. injection E as <-.
  rewrite (proj1 (fold_recombine _ (S order) maps D data x) m Hm X). destruct (as_map (S order) (data x) (HL x)) as [v ->]. rewrite Q_column, matvec_map. apply map_ext. intros r. rewrite combine_map_r, map_map. symmetry. apply sum_tsum.
Qed.
Lemma backward_ {point} order (data out : point -> list R) maps :
  disjoint_maps maps -> (forall x, List.length (data x) = List.length (components order)) -> (0 < order)%nat -> backward_recombination true order data maps = Ok out ->
  forall m x, In m maps -> snd m x = true ->
  out x = map (fun s => sumR (map (fun p => Q (fst m) (fst p) s * snd p) (combine (components order) (data x)))) (components order).
Proof.
  intros D HL Ho E m x Hm X. unfold backward_recombination, recombination in E. destruct order as [|order]; [lia|]. injection E as <-.
  rewrite (proj1 (fold_recombine _ (S order) maps D data x) m Hm X). destruct (as_map (S order) (data x) (HL x)) as [v ->]. rewrite Q_row, (matvec_map (fun s r => Q (fst m) r s)). apply map_ext. intros r. rewrite combine_map_r, map_map. symmetry. apply sum_tsum.
Qed.
Lemma kept_map order (P : tuple -> Prop) (v w : tuple -> R) : (forall t, tup order t -> (P t -> w t = v t) /\ (~ P t -> w t = 0)) -> kept order P (map v (components order)) (map w (components order)).
Proof.
  intros H. split; [rewrite !map_length; reflexivity|]. intros j t Hj. assert (Ht : tup order t) by (apply in_components; eapply nth_error_In; exact Hj).
  rewrite (nth_error_nth (map w (components order)) j 0 (x := w t)) by (rewrite nth_error_map, Hj; reflexivity). rewrite (nth_error_nth (map v (components order)) j 0 (x := v t)) by (rewrite nth_error_map, Hj; reflexivity). apply H. exact Ht.
Qed.
Lemma compose_delta order (M N : tuple -> tuple -> R) v t (d : tuple -> R) : tup order t ->
  (forall s, tup order s -> tsum order (fun r => M t r * N r s) = b2R (teq s t) * d s) -> tsum order (fun r => M t r * tsum order (fun s => N r s * v s)) = d t * v t.
Proof.
  intros Ht H. rewrite (tsum_ext order _ (fun r => tsum order (fun s => M t r * N r s * v s))) by (intros r _; rewrite <- tsum_scal; apply tsum_ext; intros; ring).
  rewrite tsum_swap. rewrite <- (tsum_delta order (fun s => d s * v s) t Ht). apply tsum_ext. intros s Hs. rewrite <- Rmult_assoc, <- (H s Hs), Rmult_comm, <- tsum_scal. apply tsum_ext. intros; ring.
Qed.
Lemma there_and_back_ {point} order (data forward backward : point -> list R) maps :
  disjoint_maps maps -> (forall m, In m maps -> (0 <= fst m)%Z) -> (forall x, List.length (data x) = List.length (components order)) ->
  forward_recombination true order data maps = Ok forward -> backward_recombination true order forward maps = Ok backward ->
  forall x, (forall m, In m maps -> snd m x = true -> kept order (spin_exists (fst m)) (data x) (backward x))
            /\ ((forall m, In m maps -> snd m x = false) -> forward x = data x /\ backward x = data x).
Proof.
  intros D Hm HL E1 E2 x. unfold forward_recombination, backward_recombination, recombination in E1, E2. destruct order as [|order].
  - injection E1 as <-. injection E2 as <-. split; [|tauto]. intros m Im X. destruct (as_map 0 (data x) (HL x)) as [v ->]. apply kept_map. intros [|] Ht; cbn in Ht; [|tauto]. split; [reflexivity|]. intros N. exfalso. apply N. unfold spin_exists. cbn. apply Hm. exact Im.
  - injection E1 as <-. injection E2 as <-. split.
    + intros m Im X. rewrite (proj1 (fold_recombine _ (S order) maps D _ x) m Im X), (proj1 (fold_recombine _ (S order) maps D _ x) m Im X).
      destruct (as_map (S order) (data x) (HL x)) as [v ->]. rewrite Q_column, matvec_map, Q_row, (matvec_map (fun s r => Q (fst m) r s)). apply kept_map. intros t Ht.
      rewrite (compose_delta (S order) (fun s r => Q (fst m) r s) (fun r s => Q (fst m) r s) v t (fun s => ind (fst m) (zsum s)) Ht).
      * unfold spin_exists, ind. rewrite sumZ_zsum. destruct (fst m <? Z.abs (zsum t))%Z eqn:F; [apply Z.ltb_lt in F|apply Z.ltb_ge in F]; split; intros; try lia; ring.
      * intros s Hs. rewrite (rows (fst m) (Hm m Im) (S order) t s Ht Hs), teq_sym. destruct (list_eq_dec Z.eq_dec s t) as [->|N]; [reflexivity|]. rewrite (teq_false s t N). cbn. ring.
    + intros N. rewrite !(proj2 (fold_recombine _ (S order) maps D _ x) N). tauto.
Qed.
Lemma back_and_there_ {point} order (data forward backward : point -> list R) maps :
  disjoint_maps maps -> (forall m, In m maps -> (0 <= fst m)%Z) -> (forall x, List.length (data x) = List.length (components order)) ->
  backward_recombination true order data maps = Ok backward -> forward_recombination true order backward maps = Ok forward ->
  forall x, (forall m, In m maps -> snd m x = true -> kept order (regularity_exists (fst m)) (data x) (forward x))
            /\ ((forall m, In m maps -> snd m x = false) -> backward x = data x /\ forward x = data x).
Proof.
  intros D Hm HL E1 E2 x. unfold forward_recombination, backward_recombination, recombination in E1, E2. destruct order as [|order].
  - injection E1 as <-. injection E2 as <-. split; [|tauto]. intros m Im X. destruct (as_map 0 (data x) (HL x)) as [v ->]. apply kept_map. intros [|] Ht; cbn in Ht; [|tauto]. split; [reflexivity|]. intros N. exfalso. apply N. intros [|] ? ? E; discriminate.
  - injection E1 as <-. injection E2 as <-. split.
    + intros m Im X. rewrite (proj1 (fold_recombine _ (S order) maps D _ x) m Im X), (proj1 (fold_recombine _ (S order) maps D _ x) m Im X).
      destruct (as_map (S order) (data x) (HL x)) as [v ->]. rewrite Q_column, Q_row, (matvec_map (fun s r => Q (fst m) r s)), matvec_map. apply kept_map. intros t Ht. pose proof (Hm m Im) as H0.
      rewrite (compose_delta (S order) (fun r s => Q (fst m) r s) (fun s r => Q (fst m) r s) v t (fun s => if walks_out (fst m) (rev s) then 0 else 1) Ht).
      * rewrite (exists_allowed (fst m) (S order) t H0 Ht). unfold allowed. destruct (walks_out (fst m) (rev t)); split; intros; try congruence; ring.
      * intros s Hs. destruct (columns_ (fst m) (S order) t s H0 (proj2 (in_components _ _) Ht) (proj2 (in_components _ _) Hs)) as [C1 C2]. rewrite (exists_allowed (fst m) (S order) t H0 Ht) in C1, C2. rewrite sum_tsum, teq_dec in *.
        rewrite teq_sym. destruct (allowed_dec (fst m) t) as [A|N]; [rewrite (C1 A)|rewrite (C2 N)].
        -- destruct (list_eq_dec Z.eq_dec t s) as [<-|N]; [unfold allowed in A; rewrite A; ring|rewrite (teq_false t s N); cbn; ring].
        -- destruct (list_eq_dec Z.eq_dec t s) as [<-|N']; [unfold allowed in N; destruct (walks_out (fst m) (rev t)); [ring|congruence]|rewrite (teq_false t s N'); cbn; ring].
    + intros N. rewrite !(proj2 (fold_recombine _ (S order) maps D _ x) N). tauto.
Qed.
Lemma cases_ {point} (data : point -> list R) maps :
  (forall spherical, forward_recombination spherical 0 data maps = Ok data /\ backward_recombination spherical 0 data maps = Ok data)
  /\ (forall order, (0 < order)%nat -> forward_recombination false order data maps = Raises ValueError /\ backward_recombination false order data maps = Raises ValueError)
  /\ (forall order, exists out out', forward_recombination true order data maps = Ok out /\ backward_recombination true order data maps = Ok out').
Proof.
  split; [intros; split; reflexivity|split].
  - intros [|order] H; [lia|]. split; reflexivity.
  - intros [|order]; eexists; eexists; split; reflexivity.
Qed.
Lemma xi_ l : (0 <= l)%Z ->
  (forall mu, mu = (-1)%Z \/ mu = 1%Z -> xi mu l = basis_xi mu l) /\ (xi (-1) l)² + (xi 1 l)² = 1 /\ xi (-1) 0 = 0 /\ xi 1 0 = 1 /\ ((0 < l)%Z -> 0 < xi (-1) l /\ 0 < xi 1 l).
Proof.
  intros H. apply IZR_le in H. assert (X1 : xi (-1) l = sqrt (IZR l / (2 * IZR l + 1))) by (unfold xi; cbn [Z.abs]; rewrite Rmult_1_l; f_equal; field; lra).
  assert (X2 : xi 1 l = sqrt ((IZR l + 1) / (2 * IZR l + 1))) by (unfold xi; cbn [Z.abs]; rewrite Rmult_1_l; f_equal; field; lra).
  assert (P1 : 0 <= IZR l / (2 * IZR l + 1)) by (apply Rmult_le_pos; [exact H|apply Rlt_le, Rinv_0_lt_compat; lra]). assert (P2 : 0 < (IZR l + 1) / (2 * IZR l + 1)) by (apply Rdiv_lt_0_compat; lra).
  split; [|split; [|split; [|split]]].
  - intros mu [->| ->]; [rewrite X1|rewrite X2]; unfold basis_xi; f_equal; f_equal; [replace (l + (-1 + 1) / 2)%Z with l by (cbn; lia); reflexivity|replace (l + (1 + 1) / 2)%Z with (l + 1)%Z by (cbn; lia); rewrite plus_IZR; reflexivity].
  - rewrite X1, X2, !Rsqr_sqrt by lra. field. lra.
  - unfold xi. cbn [Z.abs]. replace ((1 + IZR (-1) / (2 * IZR 0 + 1)) / 2) with 0 by field. rewrite sqrt_0. ring.
  - unfold xi. cbn [Z.abs]. replace ((1 + IZR 1 / (2 * IZR 0 + 1)) / 2) with 1 by field. rewrite sqrt_1. ring.
  - intros Hl. apply IZR_lt in Hl. rewrite X1, X2. split; apply sqrt_lt_R0; [apply Rdiv_lt_0_compat; lra|exact P2].
Qed.
