(** C59: the algebra of codomains and operators. *)
From Coq Require Import List ZArith Reals Bool Lia Lra.
Import ListNotations.
From Verif Require Import MatSolvers_Model CSR_Spec MatSolvers_Spec Codomain_Model Codomain_Spec Codomain_Proofs.
Local Open Scope R_scope.

(** A codomain moves the parameters, exchanging them first if it reflects, and refuses parameters below -1. *)
Theorem codomain_value c n a b y : jcall c (n, a, b) = Some y <->
  admissible y /\ y = (if flip c then ((n + dn c)%Z, b + IZR (da c), a + IZR (db c)) else ((n + dn c)%Z, a + IZR (da c), b + IZR (db c))).
Proof.
  rewrite jcall_some. unfold shift. rewrite (Z.add_comm n). destruct (flip c); rewrite !(Rplus_comm (IZR _)); split; intros [H1 H2]; split; assumption.
Qed.
(** The codomain of a sum is the composition. *)
Theorem codomain_compose s o x y : jcall o x = Some y -> jcall (jadd s o) x = jcall s y.
Proof. intros H. apply jcall_some in H. destruct H as [-> H]. unfold jcall. rewrite shift_add. reflexivity. Qed.
(** It does not refuse parameters on the way. *)
Theorem codomain_compose_refuted : exists s o x y, jcall (jadd s o) x = Some y /\ jcall o x = None.
Proof.
  exists (Jcod 0 1 0 false), (Jcod 0 (-1) 0 false), (1%Z, 0, 0). eexists. split.
  - apply jcall_some. split; [reflexivity|]. rewrite shift_add. unfold shift, admissible. cbn. lra.
  - destruct (jcall _ _) as [z|] eqn:E; [|reflexivity]. apply jcall_some in E. destruct E as [-> H]. unfold admissible, shift in H. cbn in H. lra.
Qed.
Theorem codomain_assoc s o t : jadd s (jadd o t) = jadd (jadd s o) t /\ jadd s jzero = s /\ jadd jzero s = s.
Proof. split; [apply jadd_assoc|]. split; [apply jadd_zero_r|apply jadd_zero_l]. Qed.
(** The negative is the inverse, with reflections. *)
Theorem codomain_inverse s : jadd (jneg s) s = jzero /\ jadd s (jneg s) = jzero
  /\ forall x y, admissible x -> jcall s x = Some y -> jcall (jneg s) y = Some x.
Proof.
  split; [apply jneg_l|]. split; [apply jneg_r|]. intros x y Hx H. apply jcall_some in H. destruct H as [-> H].
  apply jcall_some. split; [|exact Hx]. rewrite <- shift_add, jneg_l, shift_zero. reflexivity.
Qed.
(** Multiples: none for 0, the inverse iterated for negative numbers, nothing for positive numbers. *)
Theorem codomain_multiples s : jmul 0 s = Some jzero
  /\ (forall k, exists c, jmul (- Z.of_nat k) s = Some c /\ forall x, shift c x = iterated k (shift (jneg s)) x).
Proof.
  split; [reflexivity|]. intros [|k]; [exists jzero; split; [reflexivity|]; intros x; apply shift_zero|].
  exists (neg_multiple jadd jneg jzero (S k) s). split; [|intros x; apply multiple_iterated].
  unfold jmul, multiple. change (- Z.of_nat (S k))%Z with (Z.neg (Pos.of_succ_nat k)). cbv iota. rewrite SuccNat2Pos.id_succ. reflexivity.
Qed.
Theorem codomain_positive_multiple_refuted s m : (0 < m)%Z -> jmul m s = None.
Proof. destruct m; [lia|reflexivity|lia]. Qed.
(** Alternatives agree up to the size, of which the larger is taken. *)
Theorem codomain_or s o : (forall c, jor s o = Some c -> (forall n a b, snd (shift s (n, a, b)) = snd (shift o (n, a, b)) /\ snd (fst (shift s (n, a, b))) = snd (fst (shift o (n, a, b))))
    /\ forall n a b, shift c (n, a, b) = ((Z.max (dn s) (dn o) + n)%Z, snd (fst (shift s (n, a, b))), snd (shift s (n, a, b))))
  /\ (jor s o = None -> da s <> da o \/ db s <> db o \/ flip s <> flip o).
Proof.
  split.
  - unfold jor. intros c. destruct (jeq s o) eqn:E; [|discriminate]. apply jeq_spec in E. destruct E as (E1 & E2 & E3). intros H. injection H as <-. split.
    + intros n a b. unfold shift. rewrite E1, E2, E3. destruct (flip o); split; reflexivity.
    + intros n a b. unfold shift. destruct (Z.leb_spec (dn o) (dn s)); rewrite <- ?E1, <- ?E2, <- ?E3; destruct (flip s); cbn; repeat f_equal; lia.
  - unfold jor. destruct (jeq s o) eqn:E; [discriminate|]. intros _. destruct (Z.eq_dec (da s) (da o)) as [E1|]; [|left; assumption].
    destruct (Z.eq_dec (db s) (db o)) as [E2|]; [|right; left; assumption]. right. right. intros E3.
    assert (jeq s o = true) by (apply jeq_spec; tauto). congruence.
Qed.
(** The same for codomains of any number of parameters. *)
Theorem arrow_algebra (s o t x : arrow) :
  arrow_add s (arrow_add o t) = arrow_add (arrow_add s o) t /\ arrow_call (arrow_add s o) x = arrow_call s (arrow_call o x)
  /\ arrow_add (arrow_neg s) s = repeat 0%Z (length s) /\ arrow_mul 0 s = Some (repeat 0%Z (length s))
  /\ (length x = length s -> forall k, exists c, arrow_mul (- Z.of_nat k) s = Some c /\ arrow_call c x = iterated k (arrow_call (arrow_neg s)) x)
  /\ forall m, (0 < m)%Z -> arrow_mul m s = None.
Proof.
  split; [apply arrow_add_assoc|]. split; [apply arrow_call_add|]. split; [apply arrow_neg_l|]. split; [reflexivity|]. split.
  - intros H k. exists (neg_multiple arrow_add arrow_neg (repeat 0%Z (length s)) k s). split; [|apply arrow_multiple_iterated; exact H].
    destruct k as [|k]; [reflexivity|]. unfold arrow_mul, multiple. change (- Z.of_nat (S k))%Z with (Z.neg (Pos.of_succ_nat k)). cbv iota. rewrite SuccNat2Pos.id_succ. reflexivity.
  - intros m Hm. destruct m; [lia|reflexivity|lia].
Qed.

(** Operators: products represent compositions, sums and multiples represent sums and multiples, in the space of
    their codomain. *)
Theorem operator_product {V} (f : domain -> nat -> V -> R) s o L2 L1 x : represents_at f o L1 x ->
  (forall y, jcall (cod o) x = Some y -> represents_at f s L2 y /\ linear (L2 y)) ->
  represents_at f (omatmul s o) (fun x g h => exists y u, jcall (cod o) x = Some y /\ L1 x g u /\ L2 y u h) x.
Proof.
  intros Ho Hs. pose proof (product_represents f s o L2 L1 x Ho Hs) as (w & M & E1 & E2 & E3 & E4 & E5). exists w, M. repeat (split; [assumption|]).
  intros j Hj. destruct (E5 j Hj) as (u & H1 & H2). destruct Ho as (y & _ & Ey & _). exists y, u. split; [exact Ey|]. split; [exact H1|].
  apply jcall_some in Ey. destruct Ey as [-> _]. exact H2.
Qed.
Theorem operator_sum {V} (f : domain -> nat -> V -> R) s o t L2 L1 x : unsized f -> oadd s o = Some t -> represents_at f s L2 x -> represents_at f o L1 x ->
  represents_at f t (fun x g h => exists u2 u1, L2 x g u2 /\ L1 x g u1 /\ forall v, h v = u2 v + u1 v) x.
Proof.
  intros Hu Et Hs Ho. destruct (sum_represents f s o t L2 L1 x Hu Et Ho Hs) as (w & M & E1 & E2 & E3 & E4 & E5). exists w, M. repeat (split; [assumption|]).
  intros j Hj. destruct (E5 j Hj) as (u1 & u2 & H1 & H2 & H3). exists u2, u1. tauto.
Qed.
Theorem operator_multiple {V} (f : domain -> nat -> V -> R) c o L x : represents_at f o L x ->
  represents_at f (oscale c o) (fun x g h => exists u, L x g u /\ forall v, h v = c * u v) x.
Proof. apply scale_represents. Qed.
(** The transpose maps back: its matrix is the transpose of the matrix of the space it came from. *)
Theorem operator_transpose o x y M : admissible x -> jcall (cod o) x = Some y -> fn o x = Some M ->
  jcall (cod (oT o)) y = Some x /\ fn (oT o) y = Some (Mat (nc M) (nr M) (fun i j => at_ M j i)).
Proof.
  intros Hx Hy HM. cbn [oT cod fn]. destruct (codomain_inverse (cod o)) as (_ & _ & Hi). rewrite (Hi x y Hx Hy), HM. split; reflexivity.
Qed.
(** Powers: as many compositions. *)
Fixpoint power {V} (c : jcod) (L : domain -> (V -> R) -> (V -> R) -> Prop) (k : nat) : domain -> (V -> R) -> (V -> R) -> Prop :=
  match k with O => fun _ g h => forall v, g v = h v | S k => fun x g h => exists u, power c L k x g u /\ L (iterated k (shift c) x) u h end.
Theorem operator_power {V} (f : domain -> nat -> V -> R) o L x k : unsized f -> admissible x ->
  (forall i, (i <= k)%nat -> represents_at f o L (iterated i (shift (cod o)) x) /\ linear (L (iterated i (shift (cod o)) x))) ->
  represents_at f (opow o k) (power (cod o) L k) x /\ (forall y, shift (cod (opow o k)) y = iterated k (shift (cod o)) y).
Proof.
  intros Hu Hx. induction k as [|k IH]; intros Hi.
  - destruct (Hi 0%nat ltac:(lia)) as [(y & M & E1 & E2 & E3 & E4 & E5) _]. cbn [iterated] in *. split; [|intros y'; apply shift_zero].
    exists x, (identity 0 1 (nc M)). cbn [opow oidentity cod fn]. rewrite E2. split; [apply jcall_some; rewrite shift_zero; split; [reflexivity|exact Hx]|].
    split; [reflexivity|]. split; [exact E4|]. split; [exact E4|]. intros j Hj v. unfold combination. cbn [identity at_].
    rewrite (MatSolvers_Proofs.total_single 0 1 Rplus Rmult Rminus Rdiv Ropp Rinv RealField.Rfield (size x) j) by (assumption || (intros i _ Hne; apply Nat.eqb_neq in Hne; rewrite Hne; ring)).
    rewrite Nat.eqb_refl. ring.
  - destruct (IH ltac:(intros; apply Hi; lia)) as [Hr Hs]. cbn [opow omatmul cod]. split; [|intros y; rewrite shift_add, Hs; reflexivity].
    pose proof (product_represents f o (opow o k) L (power (cod o) L k) x Hr) as Hp.
    destruct Hp as (w & M & E1 & E2 & E3 & E4 & E5).
    + intros y Hy. apply jcall_some in Hy. destruct Hy as [-> _]. rewrite Hs. apply Hi. lia.
    + exists w, M. repeat (split; [assumption|]). intros j Hj. destruct (E5 j Hj) as (u & H1 & H2). rewrite Hs in H2. exists u. split; assumption.
Qed.
Print Assumptions codomain_value.
Print Assumptions codomain_compose.
Print Assumptions codomain_compose_refuted.
Print Assumptions codomain_assoc.
Print Assumptions codomain_inverse.
Print Assumptions codomain_multiples.
Print Assumptions codomain_positive_multiple_refuted.
Print Assumptions codomain_or.
Print Assumptions arrow_algebra.
Print Assumptions operator_product.
Print Assumptions operator_sum.
Print Assumptions operator_multiple.
Print Assumptions operator_transpose.
Print Assumptions operator_power.

(** ** Examples *)
Example codomain_reflection : jcall (Jcod (-1) 1 2 true) (5%Z, 0, 1/2) = Some (4%Z, 3/2, 2).
Proof. apply jcall_some. unfold shift, admissible. cbn. split; [f_equal; [f_equal; lra|lra]|lra]. Qed.
(** Monomials of a real number, whatever the parameters: multiplication by the number is represented by the shift. *)
Definition monomials (x : domain) (n : nat) (v : R) : R := v ^ n.
Definition shift_up : operator := Op (fun x => let n := size x in Some (Mat (S n) n (fun i j => if (i =? S j)%nat then 1 else 0))) (Jcod 1 0 0 false).
Example shift_up_represents n : represents_at monomials shift_up (fun _ g h => forall v, h v = v * g v) (Z.of_nat n, 0, 0).
Proof.
  exists (shift (Jcod 1 0 0 false) (Z.of_nat n, 0, 0)), (Mat (S n) n (fun i j => if (i =? S j)%nat then 1 else 0)).
  split; [apply jcall_some; split; [reflexivity|]; unfold shift, admissible; cbn; lra|].
  assert (E : size (shift (Jcod 1 0 0 false) (Z.of_nat n, 0, 0)) = S n) by (unfold size, shift; cbn [flip dn fst snd]; lia).
  split; [cbn; unfold size; cbn [fst]; rewrite Nat2Z.id; reflexivity|]. rewrite E. split; [reflexivity|].
  split; [unfold size; cbn [fst nc]; rewrite Nat2Z.id; reflexivity|]. intros j Hj v. unfold size in Hj. cbn [fst] in Hj. rewrite Nat2Z.id in Hj. unfold combination, monomials. cbn [at_].
  rewrite (MatSolvers_Proofs.total_single 0 1 Rplus Rmult Rminus Rdiv Ropp Rinv RealField.Rfield (S n) (S j)) by (lia || (intros i _ Hne; apply Nat.eqb_neq in Hne; rewrite Hne; ring)).
  rewrite Nat.eqb_refl. cbn [pow]. ring.
Qed.
Example shift_up_linear : unsized monomials /\ linear (fun (g h : R -> R) => forall v, h v = v * g v).
Proof.
  split; [intros n n' a b i v; reflexivity|]. split; [|split; [|split]].
  - intros g h g' h' H H1 H2 v. rewrite <- H1, <- H2. apply H.
  - intros v. ring.
  - intros g h g' h' H H' v. rewrite H, H'. ring.
  - intros c g h H v. rewrite H. ring.
Qed.
