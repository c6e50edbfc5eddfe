(** Proofs about codomains and operators. *)
From Coq Require Import List ZArith Reals Bool Lia Lra.
Import ListNotations.
From Verif Require Import MatSolvers_Model CSR_Spec MatSolvers_Spec MatSolvers_Proofs Codomain_Model Codomain_Spec.
Local Open Scope R_scope.

(** ** Codomains *)
Lemma valid_iff x : valid x = true <-> admissible x.
Proof. destruct x as [[n a] b]. unfold valid, admissible. destruct (Rle_dec a (-1)), (Rle_dec b (-1)); cbn; split; intros; try discriminate; try lra; try (split; lra). Qed.
Lemma jcall_some c x y : jcall c x = Some y <-> y = shift c x /\ admissible y.
Proof.
  unfold jcall. cbv zeta. destruct (valid (shift c x)) eqn:E.
  - rewrite valid_iff in E. split; [intros H; injection H as <-; split; [reflexivity|exact E]|intros [-> _]; reflexivity].
  - split; [discriminate|]. intros [-> H]. rewrite <- valid_iff in H. congruence.
Qed.
Lemma shift_add s o x : shift (jadd s o) x = shift s (shift o x).
Proof.
  destruct x as [[n a] b]. unfold jadd, shift. destruct s as [n1 a1 b1 [|]], o as [n2 a2 b2 [|]]; cbn [flip dn da db xorb];
  rewrite !plus_IZR; f_equal; try (f_equal; [lia|lra]); lra.
Qed.
Lemma jadd_assoc s o t : jadd s (jadd o t) = jadd (jadd s o) t.
Proof. unfold jadd. destruct s as [n1 a1 b1 [|]], o as [n2 a2 b2 [|]], t as [n3 a3 b3 [|]]; cbn [flip dn da db xorb]; f_equal; lia. Qed.
Lemma jadd_zero_l s : jadd jzero s = s.
Proof. unfold jadd, jzero. destruct s as [n a b p]. cbn [flip dn da db xorb]. f_equal. destruct p; reflexivity. Qed.
Lemma jadd_zero_r s : jadd s jzero = s.
Proof. unfold jadd, jzero. destruct s as [n a b [|]]; cbn [flip dn da db xorb]; f_equal; lia. Qed.
Lemma jneg_l s : jadd (jneg s) s = jzero.
Proof. unfold jadd, jneg, jzero. destruct s as [n a b [|]]; cbn [flip dn da db xorb]; f_equal; lia. Qed.
Lemma jneg_r s : jadd s (jneg s) = jzero.
Proof. unfold jadd, jneg, jzero. destruct s as [n a b [|]]; cbn [flip dn da db xorb]; f_equal; lia. Qed.
Lemma shift_zero x : shift jzero x = x.
Proof. destruct x as [[n a] b]. unfold shift, jzero. cbn [flip dn da db]. f_equal; [f_equal; lra|lra]. Qed.
Lemma multiple_iterated k s x : shift (neg_multiple jadd jneg jzero k s) x = iterated k (shift (jneg s)) x.
Proof. induction k as [|k IH]; [apply shift_zero|]. cbn [neg_multiple iterated]. rewrite shift_add, IH. reflexivity. Qed.
Lemma jeq_spec s o : jeq s o = true <-> da s = da o /\ db s = db o /\ flip s = flip o.
Proof. unfold jeq. rewrite !andb_true_iff, !Z.eqb_eq, eqb_true_iff. tauto. Qed.

Lemma arrow_add_assoc s o t : arrow_add s (arrow_add o t) = arrow_add (arrow_add s o) t.
Proof. revert o t. induction s as [|a s IH]; intros [|b o] [|c t]; try reflexivity. cbn. rewrite Z.add_assoc. f_equal. apply IH. Qed.
Lemma arrow_neg_l s : arrow_add (arrow_neg s) s = repeat 0%Z (length s).
Proof. induction s as [|a s IH]; [reflexivity|]. cbn. f_equal; [lia|apply IH]. Qed.
Lemma arrow_call_add s o x : arrow_call (arrow_add s o) x = arrow_call s (arrow_call o x).
Proof. symmetry. apply arrow_add_assoc. Qed.
Lemma arrow_zero_r (s x : arrow) : length x = length s -> arrow_call (repeat 0%Z (length s)) x = x.
Proof. revert x. induction s as [|a s IH]; intros [|b x] H; try discriminate; [reflexivity|]. cbn. f_equal. apply IH. injection H as H. exact H. Qed.
Lemma arrow_multiple_iterated k (s x : arrow) : length x = length s -> arrow_call (neg_multiple arrow_add arrow_neg (repeat 0%Z (length s)) k s) x = iterated k (arrow_call (arrow_neg s)) x.
Proof.
  intros H. induction k as [|k IH]; [apply arrow_zero_r; exact H|]. cbn [neg_multiple iterated]. rewrite arrow_call_add, IH. reflexivity.
Qed.

(** ** Sums *)
Notation Rf := RealField.Rfield.
Notation total := (CSR_Spec.total 0 Rplus).
Lemma Rtotal_S n f : total (S n) f = total n f + f n. Proof. exact (total_S 0 1 Rplus Rmult Rminus Rdiv Ropp Rinv Rf n f). Qed.
Lemma Rtotal_ext n f g : (forall j, (j < n)%nat -> f j = g j) -> total n f = total n g. Proof. exact (total_ext 0 1 Rplus Rmult Rminus Rdiv Ropp Rinv Rf n f g). Qed.
Lemma Rtotal_more n m f : (n <= m)%nat -> (forall i, (n <= i < m)%nat -> f i = 0) -> total m f = total n f.
Proof.
  intros H. induction H as [|m H IH]; intros Hz; [reflexivity|]. rewrite Rtotal_S, IH, Hz by (intros; try apply Hz; lia). lra.
Qed.

Section Represents.
Context {V : Type} (f : domain -> nat -> V -> R).
Notation combination := (combination f).
Notation represents_at := (represents_at f).
Lemma linear_combination m (L : (V -> R) -> (V -> R) -> Prop) (c : nat -> R) (g h : nat -> V -> R) : linear L -> (forall i, (i < m)%nat -> L (g i) (h i)) ->
  L (fun v => total m (fun i => c i * g i v)) (fun v => total m (fun i => c i * h i v)).
Proof.
  intros (Hx & H0 & Ha & Hm) Hi. induction m as [|m IH]; [exact H0|].
  eapply Hx; [apply (Ha _ _ _ _ (IH ltac:(intros; apply Hi; lia)) (Hm (c m) _ _ (Hi m ltac:(lia))))|intros v; rewrite Rtotal_S; reflexivity..].
Qed.
Definition composed (c : jcod) (L2 L1 : domain -> (V -> R) -> (V -> R) -> Prop) : domain -> (V -> R) -> (V -> R) -> Prop :=
  fun x g h => exists u, L1 x g u /\ L2 (shift c x) u h.
Lemma product_represents s o L2 L1 x : represents_at o L1 x -> (forall y, jcall (cod o) x = Some y -> represents_at s L2 y /\ linear (L2 y)) ->
  represents_at (omatmul s o) (composed (cod o) L2 L1) x.
Proof.
  intros (y & B & Ey & EB & Hr & Hc & Ho) Hs. destruct (Hs y Ey) as [(w & A & Ew & EA & Hra & Hca & Hsa) Hl].
  pose proof Ey as Ey'. apply jcall_some in Ey'. destruct Ey' as [Es Hy]. pose proof Ew as Ew'. apply jcall_some in Ew'. destruct Ew' as [Es' Hw].
  exists w, (mmul 0 Rplus Rmult A B). split; [apply jcall_some; split; [cbn [cod omatmul]; rewrite shift_add, <- Es; exact Es'|exact Hw]|].
  split; [cbn [fn omatmul]; rewrite Ey, EA, EB; unfold imatmul; rewrite Hca, Hr, Nat.eqb_refl; reflexivity|].
  split; [exact Hra|]. split; [exact Hc|]. intros j Hj. exists (combination (size y) (fun i => at_ B i j) y). split; [apply Ho; exact Hj|].
  rewrite <- Es. destruct Hl as (Hx & Hlin).
  refine (Hx _ _ _ _ (linear_combination (size y) (L2 y) (fun i => at_ B i j) (fun i => f y i) (fun i => combination (size w) (fun l => at_ A l i) w) (conj Hx Hlin) _) _ _).
  - intros i Hi. apply Hsa. exact Hi.
  - intros v. reflexivity.
  - intros v. unfold Codomain_Spec.combination.
    transitivity (total (size w) (fun l => total (size y) (fun i => at_ B i j * (at_ A l i * f w l v)))).
    + rewrite (total_swap 0 1 Rplus Rmult Rminus Rdiv Ropp Rinv Rf (size w) (size y) (fun l i => at_ B i j * (at_ A l i * f w l v))).
      apply Rtotal_ext. intros i _. rewrite (total_mul_l 0 1 Rplus Rmult Rminus Rdiv Ropp Rinv Rf). reflexivity.
    + apply Rtotal_ext. intros l _. rewrite (at_mmul 0 Rplus Rmult A B l j), Hca. unfold applied.
      rewrite <- (total_mul_r 0 1 Rplus Rmult Rminus Rdiv Ropp Rinv Rf). apply Rtotal_ext. intros i _. ring.
Qed.
Lemma scale_represents c o (L : domain -> (V -> R) -> (V -> R) -> Prop) x : represents_at o L x ->
  represents_at (oscale c o) (fun x g h => exists u, L x g u /\ forall v, h v = c * u v) x.
Proof.
  intros (y & B & Ey & EB & Hr & Hc & Ho). exists y, (mscale Rmult c B). split; [exact Ey|]. split; [cbn; rewrite EB; reflexivity|].
  split; [exact Hr|]. split; [exact Hc|]. intros j Hj. eexists. split; [apply Ho; exact Hj|].
  intros v. unfold Codomain_Spec.combination. rewrite <- (total_mul_l 0 1 Rplus Rmult Rminus Rdiv Ropp Rinv Rf). apply Rtotal_ext. intros i _. cbn. ring.
Qed.
Lemma sum_represents s o t L2 L1 x : unsized f -> oadd s o = Some t -> represents_at o L1 x -> represents_at s L2 x ->
  represents_at t (fun x g h => exists u1 u2, L1 x g u1 /\ L2 x g u2 /\ forall v, h v = u2 v + u1 v) x.
Proof.
  intros Hu Et (y & B & Ey & EB & Hr & Hc & Ho) (w & A & Ew & EA & Hra & Hca & Hs). unfold oadd in Et. unfold jor in Et.
  destruct (jeq (cod s) (cod o)) eqn:Ej; [|discriminate]. apply jeq_spec in Ej. destruct Ej as (E1 & E2 & E3).
  injection Et as <-. apply jcall_some in Ey, Ew. destruct Ey as [-> Hy], Ew as [-> Hw].
  set (c := if (dn (cod o) <=? dn (cod s))%Z then cod s else cod o) in *.
  assert (Ec : shift c x = ((Z.max (dn (cod s)) (dn (cod o)) + fst (fst x))%Z, snd (fst (shift (cod s) x)), snd (shift (cod s) x))).
  { unfold c, shift. destruct x as [[n a] b]. destruct (Z.leb_spec (dn (cod o)) (dn (cod s))); rewrite <- ?E1, <- ?E2, <- ?E3; destruct (flip (cod s)); cbn; repeat f_equal; lia. }
  assert (Es : size (shift c x) = Nat.max (size (shift (cod s) x)) (size (shift (cod o) x))).
  { rewrite Ec. unfold size, shift. destruct x as [[n a] b]. destruct (flip (cod s)), (flip (cod o)); cbn; lia. }
  assert (Ef : forall i v, f (shift c x) i v = f (shift (cod s) x) i v /\ f (shift c x) i v = f (shift (cod o) x) i v).
  { intros i v. rewrite Ec. unfold shift. destruct x as [[n a] b]. rewrite <- E1, <- E2, <- E3. destruct (flip (cod s)); cbn; split; apply Hu. }
  exists (shift c x), (Mat (Nat.max (nr A) (nr B)) (nc A) (fun i j => padded A i j + padded B i j)).
  split; [apply jcall_some; split; [reflexivity|]|].
  { rewrite Ec. unfold shift in *. destruct x as [[n a] b]. destruct (flip (cod s)); cbn in *; apply Hw. }
  split; [cbn [fn]; rewrite EA, EB; unfold iadd; rewrite Hca, Hc, Nat.eqb_refl; reflexivity|].
  split; [cbn; rewrite Hra, Hr; symmetry; exact Es|]. split; [exact Hca|]. intros j Hj.
  exists (combination (size (shift (cod o) x)) (fun i => at_ B i j) (shift (cod o) x)), (combination (size (shift (cod s) x)) (fun i => at_ A i j) (shift (cod s) x)).
  split; [apply Ho; exact Hj|]. split; [apply Hs; exact Hj|]. intros v. unfold Codomain_Spec.combination. cbn [at_].
  transitivity (total (size (shift c x)) (fun i => padded A i j * f (shift (cod s) x) i v) + total (size (shift c x)) (fun i => padded B i j * f (shift (cod o) x) i v)).
  - rewrite <- (total_add 0 1 Rplus Rmult Rminus Rdiv Ropp Rinv Rf). apply Rtotal_ext. intros i _. destruct (Ef i v) as [<- <-]. ring.
  - f_equal; rewrite Es.
    + rewrite (Rtotal_more (size (shift (cod s) x))); [|lia|].
      * apply Rtotal_ext. intros i Hi. unfold padded. rewrite Hra. destruct (Nat.ltb_spec i (size (shift (cod s) x))); [reflexivity|lia].
      * intros i Hi. unfold padded. rewrite Hra. destruct (Nat.ltb_spec i (size (shift (cod s) x))); [lia|ring].
    + rewrite (Rtotal_more (size (shift (cod o) x))); [|lia|].
      * apply Rtotal_ext. intros i Hi. unfold padded. rewrite Hr. destruct (Nat.ltb_spec i (size (shift (cod o) x))); [reflexivity|lia].
      * intros i Hi. unfold padded. rewrite Hr. destruct (Nat.ltb_spec i (size (shift (cod o) x))); [lia|ring].
Qed.
End Represents.
