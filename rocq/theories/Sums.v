(** Finite sums of real numbers and orthogonality of the discrete Fourier modes. *)
From Coq Require Import Reals ZArith Lia Lra.
From stdpp Require Import list.
From Verif Require Import Fourier_Model.
Local Open Scope R_scope.

Lemma rsum_ext n f g : (forall i, (i < n)%nat -> f i = g i) -> rsum n f = rsum n g.
Proof.
  induction n as [|n IH]; intros H; simpl; [done|]. rewrite IH by (intros; apply H; lia).
  by rewrite H by lia.
Qed.
Lemma rsum_zero n f : (forall i, (i < n)%nat -> f i = 0) -> rsum n f = 0.
Proof.
  induction n as [|n IH]; intros H; simpl; [done|]. rewrite IH by (intros; apply H; lia).
  rewrite H by lia. lra.
Qed.
Lemma rsum_const n r : rsum n (fun _ => r) = INR n * r.
Proof. induction n as [|n IH]; [simpl; lra|]. cbn [rsum]. rewrite IH, S_INR. lra. Qed.
Lemma rsum_plus n f g : rsum n (fun i => f i + g i) = rsum n f + rsum n g.
Proof. induction n as [|n IH]; simpl; [lra|]. rewrite IH. lra. Qed.
Lemma rsum_minus n f g : rsum n (fun i => f i - g i) = rsum n f - rsum n g.
Proof. induction n as [|n IH]; simpl; [lra|]. rewrite IH. lra. Qed.
Lemma rsum_opp n f : rsum n (fun i => - f i) = - rsum n f.
Proof. induction n as [|n IH]; simpl; [lra|]. rewrite IH. lra. Qed.
Lemma rsum_scal n r f : rsum n (fun i => r * f i) = r * rsum n f.
Proof. induction n as [|n IH]; simpl; [lra|]. rewrite IH. lra. Qed.
Lemma rsum_scal_r n r f : rsum n (fun i => f i * r) = rsum n f * r.
Proof. induction n as [|n IH]; simpl; [lra|]. rewrite IH. lra. Qed.
Lemma rsum_add n m f : rsum (n + m) f = rsum n f + rsum m (fun i => f (n + i)%nat).
Proof.
  induction m as [|m IH]; simpl; [rewrite Nat.add_0_r; lra|].
  rewrite Nat.add_succ_r. simpl. rewrite IH. lra.
Qed.
Lemma rsum_first n f : rsum (S n) f = f 0%nat + rsum n (fun i => f (S i)).
Proof.
  replace (S n) with (1 + n)%nat by lia. rewrite rsum_add. simpl. lra.
Qed.
Lemma rsum_swap n m f : rsum n (fun i => rsum m (fun j => f i j)) = rsum m (fun j => rsum n (fun i => f i j)).
Proof.
  induction n as [|n IH]; simpl; [by rewrite rsum_zero|]. rewrite IH. by rewrite <- rsum_plus.
Qed.
Lemma rsum_single n k f : (k < n)%nat -> (forall i, (i < n)%nat -> i <> k -> f i = 0) -> rsum n f = f k.
Proof.
  intros Hk H. replace n with (k + (1 + (n - k - 1)))%nat by lia. rewrite !rsum_add. simpl.
  rewrite (rsum_zero k) by (intros; apply H; lia). rewrite (rsum_zero (n - k - 1)) by (intros; apply H; lia).
  rewrite Nat.add_0_r. lra.
Qed.
Lemma rsum_trunc n m f : (n <= m)%nat -> (forall i, (n <= i < m)%nat -> f i = 0) -> rsum m f = rsum n f.
Proof.
  intros Hnm H. replace m with (n + (m - n))%nat by lia. rewrite rsum_add.
  rewrite (rsum_zero (m - n)) by (intros; apply H; lia). lra.
Qed.
Lemma rsum_telescope n f : rsum n (fun i => f (S i) - f i) = f n - f 0%nat.
Proof. induction n as [|n IH]; simpl; [lra|]. rewrite IH. lra. Qed.
Lemma rsum_pairs n f : rsum (2 * n) f = rsum n (fun k => f (2 * k)%nat + f (2 * k + 1)%nat).
Proof.
  induction n as [|n IH]; [done|]. replace (2 * S n)%nat with (2 * n + 2)%nat by lia.
  rewrite rsum_add, IH. simpl. rewrite Nat.add_0_r. lra.
Qed.

(** ** Trigonometric sums *)
Lemma INR_pos n : (0 < n)%nat -> 0 < INR n.
Proof. intros. apply lt_0_INR. lia. Qed.

Lemma sum_cos_shift n h s : sin (h / 2) <> 0 ->
  rsum n (fun x => cos (INR x * h + s)) = (sin (INR n * h - h / 2 + s) - sin (s - h / 2)) / (2 * sin (h / 2)).
Proof.
  intros Hs. apply Rmult_eq_reg_l with (2 * sin (h / 2)); [|lra].
  rewrite <- rsum_scal. rewrite (rsum_ext _ _ (fun i => sin (INR (S i) * h - h / 2 + s) - sin (INR i * h - h / 2 + s))).
  - rewrite (rsum_telescope n (fun i => sin (INR i * h - h / 2 + s))). cbn [INR].
    replace (0 * h - h / 2 + s) with (s - h / 2) by lra. field. lra.
  - intros i _. rewrite S_INR.
    replace ((INR i + 1) * h - h / 2 + s) with ((INR i * h + s) + h / 2) by lra.
    replace (INR i * h - h / 2 + s) with ((INR i * h + s) - h / 2) by lra.
    rewrite sin_plus, sin_minus. lra.
Qed.

Lemma sin_2PI_k x (k : Z) : sin (x + 2 * IZR k * PI) = sin x.
Proof.
  destruct (Z_le_gt_dec 0 k) as [H|H].
  - rewrite <- (Z2Nat.id k H), <- INR_IZR_INZ. apply sin_period.
  - rewrite <- (sin_period (x + 2 * IZR k * PI) (Z.to_nat (- k))). f_equal.
    rewrite INR_IZR_INZ, Z2Nat.id by lia. rewrite opp_IZR. lra.
Qed.
Lemma cos_2PI_k x (k : Z) : cos (x + 2 * IZR k * PI) = cos x.
Proof.
  destruct (Z_le_gt_dec 0 k) as [H|H].
  - rewrite <- (Z2Nat.id k H), <- INR_IZR_INZ. apply cos_period.
  - rewrite <- (cos_period (x + 2 * IZR k * PI) (Z.to_nat (- k))). f_equal.
    rewrite INR_IZR_INZ, Z2Nat.id by lia. rewrite opp_IZR. lra.
Qed.

Lemma sin_half_nz N (k : Z) : (0 < N)%nat -> ~ (Z.of_nat N | k)%Z -> sin (PI * IZR k / INR N) <> 0.
Proof.
  intros HN Hd Hs. apply sin_eq_0_0 in Hs as [m Hm]. apply Hd. exists m.
  pose proof PI_RGT_0 as HP. pose proof (INR_pos N HN) as HR.
  apply eq_IZR. rewrite mult_IZR, <- INR_IZR_INZ.
  apply Rmult_eq_reg_l with (PI / INR N); [|apply Rgt_not_eq, Rdiv_lt_0_compat; lra].
  replace (PI / INR N * IZR k) with (PI * IZR k / INR N) by (field; lra). rewrite Hm. field. lra.
Qed.

Lemma angle_alt N k x : angle N k x = INR x * (2 * PI * IZR k / INR N).
Proof. unfold angle, Rdiv. ring. Qed.

Lemma sum_cos N k : (0 < N)%nat -> ~ (Z.of_nat N | k)%Z -> rsum N (fun x => cos (angle N k x)) = 0.
Proof.
  intros HN Hd. pose proof (INR_pos N HN). set (h := 2 * PI * IZR k / INR N).
  rewrite (rsum_ext _ _ (fun x => cos (INR x * h + 0))) by (intros; rewrite angle_alt; f_equal; unfold h; lra).
  assert (h / 2 = PI * IZR k / INR N) as Hh by (unfold h; field; lra).
  rewrite sum_cos_shift by (rewrite Hh; by apply sin_half_nz).
  replace (INR N * h - h / 2 + 0) with ((0 - h / 2) + 2 * IZR k * PI) by (unfold h; field; lra).
  rewrite sin_2PI_k. unfold Rdiv. ring.
Qed.
Lemma sum_sin N k : (0 < N)%nat -> ~ (Z.of_nat N | k)%Z -> rsum N (fun x => sin (angle N k x)) = 0.
Proof.
  intros HN Hd. pose proof (INR_pos N HN). set (h := 2 * PI * IZR k / INR N).
  rewrite (rsum_ext _ _ (fun x => cos (INR x * h + - (PI / 2)))).
  2:{ intros. rewrite angle_alt. fold h.
      replace (INR i * h + - (PI / 2)) with (- (PI / 2 - INR i * h)) by lra. by rewrite cos_neg, cos_shift. }
  assert (h / 2 = PI * IZR k / INR N) as Hh by (unfold h; field; lra).
  rewrite sum_cos_shift by (rewrite Hh; by apply sin_half_nz).
  replace (INR N * h - h / 2 + - (PI / 2)) with ((- (PI / 2) - h / 2) + 2 * IZR k * PI) by (unfold h; field; lra).
  rewrite sin_2PI_k. unfold Rdiv. ring.
Qed.

Lemma angle_0 N x : angle N 0 x = 0.
Proof. unfold angle, Rdiv. ring. Qed.
Lemma angle_plus N k l x : angle N (k + l) x = angle N k x + angle N l x.
Proof. unfold angle. rewrite plus_IZR. unfold Rdiv. ring. Qed.
Lemma angle_minus N k l x : angle N (k - l) x = angle N k x - angle N l x.
Proof. unfold angle. rewrite minus_IZR. unfold Rdiv. ring. Qed.
Lemma angle_neg N k x : angle N (- k) x = - angle N k x.
Proof. unfold angle. rewrite opp_IZR. unfold Rdiv. ring. Qed.
(** Modes that differ by a multiple of N agree on the grid. *)
Lemma angle_alias N k m x : (0 < N)%nat ->
  angle N (k + m * Z.of_nat N) x = angle N k x + 2 * IZR (m * Z.of_nat x) * PI.
Proof.
  intros HN. pose proof (INR_pos N HN). unfold angle.
  rewrite plus_IZR, !mult_IZR, <- !INR_IZR_INZ. field. lra.
Qed.

(** Sum of cosines over a full period. *)
Lemma sum_cos_all N k : (0 < N)%nat -> (Z.abs k < Z.of_nat N)%Z ->
  rsum N (fun x => cos (angle N k x)) = if decide (k = 0%Z) then INR N else 0.
Proof.
  intros HN Hk. case_decide as E.
  - subst k. rewrite (rsum_ext _ _ (fun _ => 1)); [rewrite rsum_const; lra|].
    intros. by rewrite angle_0, cos_0.
  - apply sum_cos; [done|]. intros Hm. apply Z.divide_abs_r in Hm. apply Z.divide_pos_le in Hm; lia.
Qed.
Lemma sum_sin_all N k : (0 < N)%nat -> (Z.abs k < Z.of_nat N)%Z ->
  rsum N (fun x => sin (angle N k x)) = 0.
Proof.
  intros HN Hk. destruct (decide (k = 0%Z)) as [->|E].
  - apply rsum_zero. intros. by rewrite angle_0, sin_0.
  - apply sum_sin; [done|]. intros Hm. apply Z.divide_abs_r in Hm. apply Z.divide_pos_le in Hm; lia.
Qed.

(** ** Complex sums *)
Lemma C_ext (a b : C) : fst a = fst b -> snd a = snd b -> a = b.
Proof. destruct a, b; simpl; congruence. Qed.
Lemma csum_ext n f g : (forall i, (i < n)%nat -> f i = g i) -> csum n f = csum n g.
Proof. intros H. apply C_ext; apply rsum_ext; intros; by rewrite H. Qed.
Lemma csum_add n m f : csum (n + m) f = (fst (csum n f) + fst (csum m (fun i => f (n + i)%nat)),
                                        snd (csum n f) + snd (csum m (fun i => f (n + i)%nat))).
Proof. unfold csum. simpl. by rewrite !rsum_add. Qed.
Lemma csum_zero n f : (forall i, (i < n)%nat -> f i = C0) -> csum n f = C0.
Proof. intros H. apply C_ext; apply rsum_zero; intros; by rewrite H. Qed.
Lemma csum_single n k f : (k < n)%nat -> (forall i, (i < n)%nat -> i <> k -> f i = C0) -> csum n f = f k.
Proof.
  intros Hk H. apply C_ext; simpl; apply (rsum_single n k (fun i => _ (f i))); try done; intros; by rewrite H.
Qed.
Lemma csum_scal n z f : csum n (fun i => Cmul z (f i)) = Cmul z (csum n f).
Proof. apply C_ext; simpl; rewrite ?rsum_minus, ?rsum_plus, !rsum_scal; done. Qed.
Lemma csum_cscale n r f : csum n (fun i => Cscale r (f i)) = Cscale r (csum n f).
Proof. apply C_ext; simpl; rewrite !rsum_scal; done. Qed.
Lemma csum_swap n m f : csum n (fun i => csum m (fun j => f i j)) = csum m (fun j => csum n (fun i => f i j)).
Proof. apply C_ext; simpl; apply rsum_swap. Qed.
Lemma Cmul_csum_r n f z : Cmul (csum n f) z = csum n (fun i => Cmul (f i) z).
Proof. apply C_ext; simpl; rewrite ?rsum_minus, ?rsum_plus, !rsum_scal_r; done. Qed.
Lemma Cmul_assoc a b c : Cmul (Cmul a b) c = Cmul a (Cmul b c).
Proof. apply C_ext; simpl; ring. Qed.
Lemma Cmul_comm a b : Cmul a b = Cmul b a.
Proof. apply C_ext; simpl; ring. Qed.
Lemma Cmul_0_l a : Cmul C0 a = C0.
Proof. apply C_ext; simpl; ring. Qed.
Lemma Cmul_0_r a : Cmul a C0 = C0.
Proof. apply C_ext; simpl; ring. Qed.
Lemma Cscale_Cmul r a b : Cmul (Cscale r a) b = Cscale r (Cmul a b).
Proof. apply C_ext; simpl; ring. Qed.
Lemma Cscale_Cmul_r r a b : Cmul a (Cscale r b) = Cscale r (Cmul a b).
Proof. apply C_ext; simpl; ring. Qed.
Lemma Cscale_Cscale r s a : Cscale r (Cscale s a) = Cscale (r * s) a.
Proof. apply C_ext; simpl; ring. Qed.
Lemma Cscale_1 a : Cscale 1 a = a.
Proof. apply C_ext; simpl; ring. Qed.
Lemma Cscale_0 r : Cscale r C0 = C0.
Proof. apply C_ext; simpl; ring. Qed.
Lemma cis_plus a b : cis (a + b) = Cmul (cis a) (cis b).
Proof. apply C_ext; simpl; [rewrite cos_plus|rewrite sin_plus]; ring. Qed.
Lemma cis_alias N k m x : (0 < N)%nat -> cis (angle N (k + m * Z.of_nat N) x) = cis (angle N k x).
Proof. intros. unfold cis. rewrite angle_alias by done. by rewrite cos_2PI_k, sin_2PI_k. Qed.
Lemma cis_alias_neg N k m x : (0 < N)%nat -> cis (- angle N (k + m * Z.of_nat N) x) = cis (- angle N k x).
Proof.
  intros. unfold cis. rewrite !cos_neg, !sin_neg, angle_alias by done. by rewrite cos_2PI_k, sin_2PI_k.
Qed.
Lemma csum_cis N k : (0 < N)%nat -> (Z.abs k < Z.of_nat N)%Z ->
  csum N (fun x => cis (angle N k x)) = if decide (k = 0%Z) then (INR N, 0) else C0.
Proof.
  intros. apply C_ext; simpl.
  - rewrite sum_cos_all by done. by case_decide.
  - rewrite sum_sin_all by done. by case_decide.
Qed.
