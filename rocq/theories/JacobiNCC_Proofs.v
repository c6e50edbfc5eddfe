(** Proofs about [JacobiNCC_Model]. *)
From Coq Require Import List ZArith Reals Bool Lia Lra Factorial.
From Coquelicot Require Import Coquelicot.
Import ListNotations.
From Verif Require Import CSR_Spec MatSolvers_Model MatSolvers_Spec Clenshaw_Model Clenshaw_Spec Clenshaw_Props Codomain_Model Codomain_Proofs JacobiCalc_Model JacobiCalc_Spec JacobiCalc_Proofs JacobiCalc_Ops JacobiCalc_Props JacobiOps_Model JacobiOps_Spec JacobiOps_Proofs JacobiNCC_Model JacobiNCC_Spec.
Local Open Scope R_scope.
Notation total := (CSR_Spec.total 0 Rplus).

Lemma Rtotal_scale_r n f x : total n (fun j => f j * x) = total n f * x.
Proof. rewrite Rmult_comm, <- Rtotal_scale. apply Rtotal_ext. intros. ring. Qed.
Lemma Rtotal_three_term n x y f g h : (total n f - x * total n g - total n h) * y = total n (fun i => (f i - x * g i - h i) * y).
Proof. induction n as [|n IH]; [change (total 0 f) with 0; change (total 0 g) with 0; change (total 0 h) with 0; change (total 0 _) with 0; ring|]. rewrite !Rtotal_S, <- IH. ring. Qed.
(** ** Independence of the polynomials *)
Lemma ev_zero n c : (forall z, ev n c z = 0) -> forall k, (k < n)%nat -> c k = 0.
Proof.
  revert c. induction n as [|n IH]; intros c H k Hk; [lia|].
  assert (H0 : c 0%nat = 0).
  { specialize (H 1). unfold ev in H. rewrite Rtotal_first in H. replace ((1 - 1) / 2) with 0 in H by field. cbn [pow] in H. rewrite Rtotal_zero in H by (intros j _; rewrite Rmult_0_l; ring). lra. }
  destruct k as [|k]; [exact H0|]. assert (Hd : forall z, ev n (fun k => (INR k + 1) * c (S k)) z = 0).
  { intros z. pose proof (ev_derive n c z) as D. apply is_derive_unique in D. rewrite (Derive_ext _ (fun _ => 0)) in D by exact H. rewrite Derive_const in D. lra. }
  specialize (IH _ Hd k ltac:(lia)). cbn beta in IH. pose proof (pos_INR k). apply Rmult_integral in IH. lra.
Qed.
Lemma leading_pos n a b : -1 < a -> -1 < b -> 0 < coefficient n a b n.
Proof.
  intros Ha Hb. rewrite coeff_in by lia. rewrite Nat.sub_diag. cbn [rising]. change (INR (fact 0)) with 1. pose proof (fact_pos n) as Hf. rewrite !Rmult_1_r. apply Rdiv_lt_0_compat; [|exact Hf].
  destruct n as [|n]; [cbn [rising]; lra|]. apply rising_pos. rewrite S_INR. pose proof (pos_INR n). lra.
Qed.
Section Mass.
Context (mass : R -> R -> R) (Hm : mass_rules mass).
Notation unit := (unit_polynomial mass).
Lemma unit_ev M n a b z : (n < M)%nat -> unit n a b z = ev M (fun k => coefficient n a b k / sqrt (norm2 mass n a b)) z.
Proof.
  intros H. unfold unit_polynomial. rewrite <- (ev_classical M n a b z H). unfold Rdiv. rewrite Rmult_comm, <- ev_scale. apply ev_ext. intros. ring.
Qed.
Lemma unit_independent n a b c : -1 < a -> -1 < b -> (forall z, total n (fun i => c i * unit i a b z) = 0) -> forall i, (i < n)%nat -> c i = 0.
Proof.
  intros Ha Hb. induction n as [|n IH]; intros H i Hi; [lia|].
  assert (Hn : c n = 0).
  { pose proof (ev_zero (S n) (fun k => total (S n) (fun i => c i * (coefficient i a b k / sqrt (norm2 mass i a b))))) as E. assert (K : forall z, ev (S n) (fun k => total (S n) (fun i => c i * (coefficient i a b k / sqrt (norm2 mass i a b)))) z = 0).
    { intros z. refine (eq_trans _ (H z)). unfold ev. transitivity (total (S n) (fun k => total (S n) (fun i => c i * (coefficient i a b k / sqrt (norm2 mass i a b)) * ((z - 1) / 2) ^ k))).
      - apply Rtotal_ext. intros k _. symmetry. apply Rtotal_scale_r.
      - rewrite Rtotal_swap. apply Rtotal_ext. intros j Hj. rewrite (unit_ev (S n)) by exact Hj. unfold ev. rewrite <- Rtotal_scale. apply Rtotal_ext. intros. ring. }
    specialize (E K n ltac:(lia)). cbn beta in E. rewrite Rtotal_S, Rtotal_zero in E.
    - pose proof (leading_pos n a b Ha Hb). pose proof (sqrt_lt_R0 _ (norm2_pos mass Hm n a b Ha Hb)). assert (Hq : 0 < coefficient n a b n / sqrt (norm2 mass n a b)) by (apply Rdiv_lt_0_compat; assumption). rewrite Rplus_0_l in E. apply Rmult_integral in E. destruct E; lra.
    - intros j Hj. rewrite coeff_out by exact Hj. unfold Rdiv. ring. }
  destruct (Nat.eq_dec i n) as [->|Hne]; [exact Hn|]. apply IH; [|lia]. intros z. specialize (H z). rewrite Rtotal_S, Hn in H. lra.
Qed.
Lemma unit_unique n a b c d : -1 < a -> -1 < b -> (forall z, total n (fun i => c i * unit i a b z) = total n (fun i => d i * unit i a b z)) -> forall i, (i < n)%nat -> c i = d i.
Proof.
  intros Ha Hb H i Hi. pose proof (unit_independent n a b (fun i => c i + -1 * d i) Ha Hb) as K. assert (c i + -1 * d i = 0); [|lra]. apply K; [|exact Hi]. intros z.
  rewrite (Rtotal_ext n _ (fun i => c i * unit i a b z + -1 * (d i * unit i a b z))) by (intros; ring). rewrite Rtotal_add, Rtotal_scale, H. ring.
Qed.

(** ** Conversions are banded *)
Lemma up_a j a b : -1 < a -> -1 < b -> exists x y, forall z, unit j a b z = x * unit j (a + 1) b z + match j with O => 0 | S i => y * unit i (a + 1) b z end.
Proof.
  intros Ha Hb. destruct j as [|j].
  - pose proof (sqrt_lt_R0 _ (proj1 (Hm a b Ha Hb))). pose proof (sqrt_lt_R0 _ (proj1 (Hm (a + 1) b ltac:(lra) Hb))). exists (sqrt (mass (a + 1) b) / sqrt (mass a b)), 0. intros z. rewrite !unit_0. field. lra.
  - pose proof (sqrt_lt_R0 _ (norm2_pos mass Hm (S j) a b Ha Hb)) as P1. pose proof (sqrt_lt_R0 _ (norm2_pos mass Hm (S j) (a + 1) b ltac:(lra) Hb)) as P2. pose proof (sqrt_lt_R0 _ (norm2_pos mass Hm j (a + 1) b ltac:(lra) Hb)) as P3.
    eexists. eexists. intros z. pose proof (poly_A_up j a b z) as E. rewrite S_INR in E. pose proof (pos_INR j) as Pj. unfold unit_polynomial.
    replace (classical (S j) a b z) with (((INR j + 1 + a + b + 1) * classical (S j) (a + 1) b z - (INR j + 1 + b) * classical j (a + 1) b z) / (2 * (INR j + 1) + a + b + 1)) by (rewrite <- E; field; lra).
    instantiate (1 := - ((INR j + 1 + b) / (2 * (INR j + 1) + a + b + 1) * sqrt (norm2 mass j (a + 1) b) / sqrt (norm2 mass (S j) a b))).
    instantiate (1 := (INR j + 1 + a + b + 1) / (2 * (INR j + 1) + a + b + 1) * sqrt (norm2 mass (S j) (a + 1) b) / sqrt (norm2 mass (S j) a b)). field. lra.
Qed.
Lemma up_b j a b : -1 < a -> -1 < b -> exists x y, forall z, unit j a b z = x * unit j a (b + 1) z + match j with O => 0 | S i => y * unit i a (b + 1) z end.
Proof.
  intros Ha Hb. destruct j as [|j].
  - pose proof (sqrt_lt_R0 _ (proj1 (Hm a b Ha Hb))). pose proof (sqrt_lt_R0 _ (proj1 (Hm a (b + 1) Ha ltac:(lra)))). exists (sqrt (mass a (b + 1)) / sqrt (mass a b)), 0. intros z. rewrite !unit_0. field. lra.
  - pose proof (sqrt_lt_R0 _ (norm2_pos mass Hm (S j) a b Ha Hb)) as P1. pose proof (sqrt_lt_R0 _ (norm2_pos mass Hm (S j) a (b + 1) Ha ltac:(lra))) as P2. pose proof (sqrt_lt_R0 _ (norm2_pos mass Hm j a (b + 1) Ha ltac:(lra))) as P3.
    eexists. eexists. intros z. pose proof (poly_B_up j a b z) as E. rewrite S_INR in E. pose proof (pos_INR j) as Pj. unfold unit_polynomial.
    replace (classical (S j) a b z) with (((INR j + 1 + a + b + 1) * classical (S j) a (b + 1) z + (INR j + 1 + a) * classical j a (b + 1) z) / (2 * (INR j + 1) + a + b + 1)) by (rewrite <- E; field; lra).
    instantiate (1 := (INR j + 1 + a) / (2 * (INR j + 1) + a + b + 1) * sqrt (norm2 mass j a (b + 1)) / sqrt (norm2 mass (S j) a b)).
    instantiate (1 := (INR j + 1 + a + b + 1) / (2 * (INR j + 1) + a + b + 1) * sqrt (norm2 mass (S j) a (b + 1)) / sqrt (norm2 mass (S j) a b)). field. lra.
Qed.
(** One more step of a banded expansion. *)
Lemma band_step (P Q : nat -> R -> R) : (forall i, exists x y, forall z, P i z = x * Q i z + match i with O => 0 | S h => y * Q h z end) ->
  forall n c, exists d, (forall z, total n (fun i => c i * P i z) = total n (fun i => d i * Q i z)) /\ forall i, c i = 0 -> c (S i) = 0 -> d i = 0.
Proof.
  intros H n. induction n as [|n IH]; intros c.
  - exists (fun _ => 0). split; [intros z; reflexivity|reflexivity].
  - destruct (IH c) as (d & Hd & Hz). destruct (H n) as (x & y & E). exists (fun i => if (i =? n)%nat then c n * x else if (S i =? n)%nat then d i + c n * y else d i). split.
    + intros z. rewrite !Rtotal_S, Hd, Nat.eqb_refl, E. destruct n as [|m].
      * cbn [Nat.eqb]. change (total 0 _) with 0. change (total 0 _) with 0. ring.
      * rewrite !Rtotal_S. destruct (Nat.eqb_spec m (S m)); [lia|]. rewrite Nat.eqb_refl.
        assert (Ee : total m (fun i => (if (i =? S m)%nat then c (S m) * x else if (S i =? S m)%nat then d i + c (S m) * y else d i) * Q i z) = total m (fun i => d i * Q i z)) by (apply Rtotal_ext; intros i Hi; destruct (Nat.eqb_spec i (S m)); [lia|]; destruct (Nat.eqb_spec (S i) (S m)); [lia|reflexivity]).
        rewrite Ee. ring.
    + intros i H1 H2. destruct (Nat.eqb_spec i n) as [->|]; [rewrite H1; ring|]. destruct (Nat.eqb_spec (S i) n) as [<-|]; [rewrite H2, Hz by assumption; ring|apply Hz; assumption].
Qed.
Lemma banded_expansion k m j a b : -1 < a -> -1 < b ->
  exists c, (forall z, unit j a b z = total (S j) (fun i => c i * unit i (a + INR k) (b + INR m) z)) /\ forall i, (i + k + m < j)%nat -> c i = 0.
Proof.
  intros Ha Hb. pose proof (pos_INR k). induction m as [|m IHm].
  - change (INR 0) with 0. rewrite Rplus_0_r. clear H. induction k as [|k IHk].
    + exists (fun i => if (i =? j)%nat then 1 else 0). change (INR 0) with 0. rewrite Rplus_0_r. split.
      * intros z. rewrite (Rtotal_single (S j) j) by (lia || (intros i Hi Hne; destruct (Nat.eqb_spec i j); [congruence|ring])). rewrite Nat.eqb_refl. ring.
      * intros i Hi. destruct (Nat.eqb_spec i j); [lia|reflexivity].
    + destruct IHk as (c & Hc & Hz). pose proof (pos_INR k). rewrite S_INR, <- Rplus_assoc.
      destruct (band_step (fun i => unit i (a + INR k) b) (fun i => unit i (a + INR k + 1) b) ltac:(intros i; apply up_a; lra) (S j) c) as (d & Hd & Hdz). exists d. split.
      * intros z. rewrite Hc. apply Hd.
      * intros i Hi. apply Hdz; apply Hz; lia.
  - destruct IHm as (c & Hc & Hz). pose proof (pos_INR m). rewrite S_INR, <- Rplus_assoc.
    destruct (band_step (fun i => unit i (a + INR k) (b + INR m)) (fun i => unit i (a + INR k) (b + INR m + 1)) ltac:(intros i; apply up_b; lra) (S j) c) as (d & Hd & Hdz). exists d. split.
    + intros z. rewrite Hc. apply Hd.
    + intros i Hi. apply Hdz; apply Hz; lia.
Qed.
Lemma conversion_entries k m a b : -1 < a -> -1 < b -> exists C : nat -> nat -> R,
  (forall i j, (i + k + m < j)%nat -> C i j = 0) /\ (forall i j, (j < i)%nat -> C i j = 0)
  /\ (forall n j z, (j < n)%nat -> unit j a b z = total n (fun i => C i j * unit i (a + INR k) (b + INR m) z))
  /\ forall n, (1 <= n)%nat -> exists M, conversion_matrix n a b (a + INR k) (b + INR m) = Some M /\ nr M = n /\ nc M = n /\ forall i j, (i < n)%nat -> (j < n)%nat -> at_ M i j = C i j.
Proof.
  intros Ha Hb. pose proof (pos_INR k). pose proof (pos_INR m).
  exists (fun i j => match conversion_matrix (S (i + j)) a b (a + INR k) (b + INR m) with Some M => at_ M i j | None => 0 end).
  assert (G : forall n M, (1 <= n)%nat -> conversion_matrix n a b (a + INR k) (b + INR m) = Some M -> forall j z, (j < n)%nat -> unit j a b z = total n (fun i => at_ M i j * unit i (a + INR k) (b + INR m) z)).
  { intros n M Hn E. destruct (conversion_value mass Hm n a b k m Hn Ha Hb) as (M' & E' & _ & _ & H'). rewrite E in E'. injection E' as <-. exact H'. }
  assert (U : forall n M i j, (i < n)%nat -> (j < n)%nat -> conversion_matrix n a b (a + INR k) (b + INR m) = Some M -> forall c, (forall z, unit j a b z = total n (fun i => c i * unit i (a + INR k) (b + INR m) z)) -> at_ M i j = c i).
  { intros n M i j Hi Hj E c Hc. apply (unit_unique n (a + INR k) (b + INR m) (fun i => at_ M i j) c ltac:(lra) ltac:(lra)); [|exact Hi]. intros z. rewrite <- Hc. symmetry. apply (G n M); [lia|exact E|exact Hj]. }
  assert (T : forall j, exists c, (forall n z, (j < n)%nat -> unit j a b z = total n (fun i => c i * unit i (a + INR k) (b + INR m) z)) /\ (forall i, (i + k + m < j)%nat -> c i = 0) /\ forall i, (j < i)%nat -> c i = 0).
  { intros j. destruct (banded_expansion k m j a b Ha Hb) as (c & Hc & Hz). exists (fun i => if (i <=? j)%nat then c i else 0). split; [|split].
    - intros n z Hn. rewrite (Rtotal_more (S j) n) by (lia || (intros i Hi; destruct (Nat.leb_spec i j); [lia|ring])). rewrite Hc. apply Rtotal_ext. intros i Hi. destruct (Nat.leb_spec i j); [reflexivity|lia].
    - intros i Hi. destruct (Nat.leb_spec i j); [apply Hz; exact Hi|reflexivity].
    - intros i Hi. destruct (Nat.leb_spec i j); [lia|reflexivity]. }
  assert (V : forall i j c, (forall n z, (j < n)%nat -> unit j a b z = total n (fun i => c i * unit i (a + INR k) (b + INR m) z)) -> match conversion_matrix (S (i + j)) a b (a + INR k) (b + INR m) with Some M => at_ M i j | None => 0 end = c i).
  { intros i j c Hc. destruct (conversion_value mass Hm (S (i + j)) a b k m ltac:(lia) Ha Hb) as (M & E & _). rewrite E. apply (U (S (i + j)) M); [lia|lia|exact E|]. intros z. apply Hc. lia. }
  split; [|split; [|split]].
  - intros i j Hij. destruct (T j) as (c & Hc & Hz & _). rewrite (V i j c Hc). apply Hz, Hij.
  - intros i j Hij. destruct (T j) as (c & Hc & _ & Hz). rewrite (V i j c Hc). apply Hz, Hij.
  - intros n j z Hj. destruct (T j) as (c & Hc & _). rewrite (Hc n z Hj). apply Rtotal_ext. intros i _. rewrite (V i j c Hc). reflexivity.
  - intros n Hn. destruct (conversion_value mass Hm n a b k m Hn Ha Hb) as (M & E & Hr & Hcn & _). exists M. split; [exact E|]. split; [exact Hr|]. split; [exact Hcn|].
    intros i j Hi Hj. destruct (T j) as (c & Hc & _). rewrite (V i j c Hc). apply (U n M); [exact Hi|exact Hj|exact E|]. intros z. apply Hc, Hj.
Qed.

(** ** Functions of a Jacobi matrix *)
Section Functions.
Context (a b an bn : R) (Ha : -1 < a) (Hb : -1 < b) (Han : -1 < an) (Hbn : -1 < bn).
Let Z := Z_entry true a b.
Let Zn := Z_entry true an bn.
(** The polynomials of a tridiagonal matrix, which acts on columns by [X]. *)
Fixpoint pf (X : (nat -> R) -> nat -> R) (n : nat) : nat -> nat -> R :=
  match n with
  | O => fun i j => if (i =? j)%nat then 1 / sqrt (mass an bn) else 0
  | S n1 => fun i j => (X (fun k => pf X n1 k j) i - Zn n1 n1 * pf X n1 i j - match n1 with O => 0 | S n2 => Zn n1 n2 * pf X n2 i j end) / Zn n1 n
  end.
Definition whole (v : nat -> R) (i : nat) : R := total (S (S i)) (fun k => Z i k * v k).
Definition cut (m : nat) (v : nat -> R) (i : nat) : R := total m (fun k => Z i k * v k).
Definition local (X : (nat -> R) -> nat -> R) : Prop := forall v i, (forall k, (i <= S k)%nat -> v k = 0) -> X v i = 0.
Lemma whole_local : local whole.
Proof. intros v i H. apply Rtotal_zero. intros k Hk. destruct (le_lt_dec i (S k)) as [H'|H']; [rewrite H by exact H'; ring|]. unfold Z. rewrite Z_entry_far by lia. ring. Qed.
Lemma cut_local m : local (cut m).
Proof. intros v i H. apply Rtotal_zero. intros k Hk. destruct (le_lt_dec i (S k)) as [H'|H']; [rewrite H by exact H'; ring|]. unfold Z. rewrite Z_entry_far by lia. ring. Qed.
Lemma pf_S X n i j : pf X (S n) i j = (X (fun k => pf X n k j) i - Zn n n * pf X n i j - match n with O => 0 | S n2 => Zn n n2 * pf X n2 i j end) / Zn n (S n).
Proof. reflexivity. Qed.
Lemma two_steps (P : nat -> Prop) : P O -> (forall n, P n -> (match n with O => True | S m => P m end) -> P (S n)) -> forall n, P n.
Proof.
  intros H0 HS n. enough (P n /\ match n with O => True | S m => P m end) by tauto. induction n as [|n [IH1 IH2]]; [split; [exact H0|exact I]|]. split; [apply HS; assumption|exact IH1].
Qed.
Lemma pf_band X : local X -> forall n i j, (j + n < i)%nat -> pf X n i j = 0.
Proof.
  intros HX n. pattern n. apply two_steps; clear n.
  - intros i j H. cbn [pf]. destruct (Nat.eqb_spec i j); [lia|reflexivity].
  - intros n IH1 IH2 i j H. rewrite pf_S, HX by (intros k Hk; apply IH1; lia). rewrite IH1 by lia. replace (match n with O => 0 | S n2 => Zn n n2 * pf X n2 i j end) with 0; [unfold Rdiv; ring|].
    destruct n as [|n2]; [reflexivity|]. rewrite IH2 by lia. ring.
Qed.
Lemma Zn_pos n : 0 < Zn n (S n).
Proof. unfold Zn. rewrite <- (Z_entry_sym mass Hm an bn n Han Hbn). apply (Z_entry_pos mass Hm); assumption. Qed.
(** Multiplication by the variable. *)
Lemma times_z L v z : (forall k, (L <= k)%nat -> v k = 0) -> z * total L (fun k => v k * unit k a b z) = total (S L) (fun i => whole v i * unit i a b z).
Proof.
  intros Hv. transitivity (total (S L) (fun i => total L (fun k => v k * (Z i k * unit i a b z)))).
  - rewrite Rtotal_swap, <- Rtotal_scale. apply Rtotal_ext. intros k Hk. rewrite Rtotal_scale. rewrite <- (Rmult_assoc z), (Rmult_comm z), Rmult_assoc. f_equal.
    rewrite (unit_recursion mass Hm a b z k Ha Hb). symmetry. apply (total_three (S L) k); [lia|]. intros i Hi H1 H2 H3. unfold Z. rewrite Z_entry_far by lia. ring.
  - apply Rtotal_ext. intros i Hi. rewrite (Rtotal_ext L _ (fun k => Z i k * v k * unit i a b z)) by (intros; ring). rewrite Rtotal_scale_r. f_equal. unfold whole.
    destruct (le_lt_dec L (S (S i))) as [H|H].
    + symmetry. apply Rtotal_more; [exact H|]. intros k Hk. rewrite Hv by lia. ring.
    + apply Rtotal_more; [lia|]. intros k Hk. unfold Z. rewrite Z_entry_far by lia. ring.
Qed.
(** The product of two polynomials. *)
Lemma product_expansion n : forall L j z, (j + n < L)%nat -> unit n an bn z * unit j a b z = total L (fun i => pf whole n i j * unit i a b z).
Proof.
  pattern n. apply two_steps; clear n.
  - intros L j z H. rewrite (Rtotal_single L j) by (lia || (intros i Hi Hne; cbn [pf]; destruct (Nat.eqb_spec i j); [congruence|ring])). cbn [pf]. rewrite Nat.eqb_refl, unit_0. reflexivity.
  - intros n IH1 IH2 L j z H. pose proof (Zn_pos n) as Hp. destruct L as [|L]; [lia|].
    assert (E : unit (S n) an bn z = (z * unit n an bn z - Zn n n * unit n an bn z - match n with O => 0 | S m => Zn n m * unit m an bn z end) / Zn n (S n)).
    { pose proof (unit_recursion mass Hm an bn z n Han Hbn) as E. fold Zn in E. rewrite E. replace (Zn (S n) n) with (Zn n (S n)) by (unfold Zn; symmetry; apply (Z_entry_sym mass Hm); assumption).
      destruct n as [|m]; [field; lra|]. replace (Zn m (S m)) with (Zn (S m) m) by (unfold Zn; apply (Z_entry_sym mass Hm); assumption). field. lra. }
    rewrite E. transitivity ((z * (unit n an bn z * unit j a b z) - Zn n n * (unit n an bn z * unit j a b z) - match n with O => 0 | S m => Zn n m * (unit m an bn z * unit j a b z) end) * / Zn n (S n)); [destruct n; field; lra|].
    rewrite (IH1 L j z) at 1 by lia. rewrite (times_z L (fun k => pf whole n k j)) by (intros k Hk; apply pf_band; [apply whole_local|lia]). rewrite (IH1 (S L) j z) by lia.
    replace (match n with O => 0 | S m => Zn n m * (unit m an bn z * unit j a b z) end) with (total (S L) (fun i => match n with O => 0 | S m => Zn n m * pf whole m i j end * unit i a b z)).
    + rewrite Rtotal_three_term. apply Rtotal_ext. intros i Hi. rewrite pf_S. unfold Rdiv. ring.
    + destruct n as [|m]; [apply Rtotal_zero; intros; ring|]. rewrite (IH2 (S L) j z) by lia. rewrite <- Rtotal_scale. apply Rtotal_ext. intros. ring.
Qed.
(** The rows and columns a truncated matrix gets right. *)
Lemma truncation m n : forall i j, (i < m)%nat -> (j < m)%nat -> (i + j + n < 2 * m)%nat -> pf (cut m) n i j = pf whole n i j.
Proof.
  pattern n. apply two_steps; clear n; [reflexivity|]. intros n IH1 IH2 i j Hi Hj H. rewrite !pf_S. rewrite (IH1 i j) by lia.
  assert (E : cut m (fun k => pf (cut m) n k j) i = whole (fun k => pf whole n k j) i).
  { change (total m (fun k => Z i k * pf (cut m) n k j) = total (S (S i)) (fun k => Z i k * pf whole n k j)). destruct (Nat.eq_dec (S i) m) as [Em|Em].
    - rewrite (Rtotal_S (S i)), (pf_band whole whole_local n (S i) j) by lia. rewrite Rmult_0_r, Rplus_0_r, Em. apply Rtotal_ext. intros k Hk. destruct (le_lt_dec i (S k)) as [H'|H']; [rewrite IH1 by lia; reflexivity|]. unfold Z. rewrite Z_entry_far by lia. ring.
    - rewrite (Rtotal_more (S (S i)) m) by (lia || (intros k Hk; unfold Z; rewrite Z_entry_far by lia; ring)). apply Rtotal_ext. intros k Hk. destruct (le_lt_dec i (S k)) as [H'|H']; [rewrite IH1 by lia; reflexivity|]. unfold Z. rewrite Z_entry_far by lia. ring. }
  rewrite E. destruct n as [|n2]; [reflexivity|]. rewrite (IH2 i j) by lia. reflexivity.
Qed.
End Functions.

(** ** The padded size *)
Ltac Zify.zify_post_hook ::= Z.div_mod_to_equations.
Lemma round_nat k : round (INR k) = Z.of_nat k.
Proof.
  unfold round. rewrite INR_IZR_INZ. destruct (base_Int_part (IZR (Z.of_nat k) + 1 / 2)) as [H1 H2]. set (n := Int_part _) in *.
  assert (n < Z.of_nat k + 1)%Z by (apply lt_IZR; rewrite plus_IZR; lra). assert (Z.of_nat k - 1 < n)%Z by (apply lt_IZR; rewrite minus_IZR; lra). lia.
Qed.
Lemma padded_bounds N k m : (1 <= N)%nat -> let P := padded_size N (Z.of_nat k) (Z.of_nat m) in (N <= P)%nat /\
  forall r j n i, (r < N)%nat -> (j < N)%nat -> (n < N)%nat -> (i <= j + n)%nat -> ((i < P)%nat -> (i <= r + k + m)%nat -> (i + j + n < 2 * P)%nat) /\ ((P <= i)%nat -> (r + k + m < i)%nat).
Proof.
  intros HN P. unfold P, padded_size. clear P. split; [lia|]. intros r j n i Hr Hj Hn Hi. split; intros H; [intros H'|]; lia.
Qed.
Ltac Zify.zify_post_hook ::= idtac.
(** ** The matrix of a component *)
Lemma jacobi_entries N a b : (1 <= N)%nat -> -1 < a -> -1 < b -> exists J, jacobi_matrix N a b = Some J /\ nr J = N /\ nc J = N /\ forall i j, (i < N)%nat -> (j < N)%nat -> at_ J i j = Z_entry true a b i j.
Proof.
  intros Hn Ha Hb. destruct (Z_matrix true N a b Hn Ha Hb) as (Zo & M & E1 & E2 & Hr & Hc & HM). exists (Codomain_Model.square M). unfold jacobi_matrix. rewrite E1, E2. split; [reflexivity|]. cbn [Codomain_Model.square nr nc]. rewrite Hc. split; [reflexivity|]. split; [reflexivity|].
  intros i j Hi Hj; cbn [Codomain_Model.square at_]; unfold padded; rewrite Hr; destruct (Nat.ltb_spec i (S N)); [apply HM; lia|lia].
Qed.
Lemma row_exact N k m a b an bn (C : nat -> nat -> R) r j n L : -1 < a -> -1 < b -> -1 < an -> -1 < bn -> (r < N)%nat -> (j < N)%nat -> (n < N)%nat -> (j + n < L)%nat ->
  (forall i j, (i + k + m < j)%nat -> C i j = 0) -> let P := padded_size N (Z.of_nat k) (Z.of_nat m) in
  total P (fun i => C r i * pf an bn (cut a b P) n i j) = total L (fun i => C r i * pf an bn (whole a b) n i j).
Proof.
  intros Ha Hb Han Hbn Hr Hj Hn HL HC P. destruct (padded_bounds N k m ltac:(lia)) as [HP HB]. fold P in HP, HB.
  transitivity (total (P + L) (fun i => C r i * (if (i <? P)%nat then pf an bn (cut a b P) n i j else 0))).
  - rewrite (Rtotal_more P (P + L)) by (lia || (intros i Hi; destruct (Nat.ltb_spec i P); [lia|ring])). apply Rtotal_ext. intros i Hi. destruct (Nat.ltb_spec i P); [reflexivity|lia].
  - symmetry. rewrite <- (Rtotal_more L (P + L) (fun i => C r i * pf an bn (whole a b) n i j)) by (lia || (intros i Hi; rewrite (pf_band a b an bn (whole a b) (whole_local a b)) by lia; ring)). apply Rtotal_ext. intros i Hi.
    destruct (le_lt_dec i (j + n)) as [Hb'|Hb'].
    + destruct (HB r j n i Hr Hj Hn Hb') as [H1 H2]. destruct (Nat.ltb_spec i P) as [Hp|Hp].
      * destruct (le_lt_dec i (r + k + m)) as [Hc|Hc]; [rewrite truncation; [reflexivity|lia..|specialize (H1 Hp Hc); lia]|rewrite HC by exact Hc; ring].
      * rewrite HC by (apply H2, Hp). ring.
    + rewrite (pf_band a b an bn (whole a b) (whole_local a b)) by lia. destruct (Nat.ltb_spec i P); [rewrite (pf_band a b an bn (cut a b P) (cut_local a b P)) by lia; ring|ring].
Qed.
Lemma component_exact ncc arg out k m K c cutoff : (1 <= bsize arg)%nat -> (K <= padded_size (bsize arg) (Z.of_nat k) (Z.of_nat m))%nat ->
  -1 < ba ncc -> -1 < bb ncc -> -1 < ba arg -> -1 < bb arg -> ba out = ba arg + INR k -> bb out = bb arg + INR m ->
  exists M, component_matrix mass ncc arg out K c cutoff = Some M /\ nr M = bsize arg /\ nc M = bsize arg /\
    ((K <= bsize arg)%nat -> forall u, exists d, product_coefficients mass K (ba ncc) (bb ncc) (fun n => significant cutoff (c n)) (bsize arg) (ba arg) (bb arg) u (ba out) (bb out) d
      /\ forall i, (i < bsize arg)%nat -> image (bsize arg) (at_ M) u i = d i).
Proof.
  intros HN HK Han Hbn Ha Hb Ea Eb. unfold component_matrix. rewrite Ea, Eb. replace (ba arg + INR k - ba arg) with (INR k) by ring. replace (bb arg + INR m - bb arg) with (INR m) by ring. rewrite !round_nat.
  set (N := bsize arg) in *. rename HK into HKP. set (P := padded_size N (Z.of_nat k) (Z.of_nat m)). destruct (padded_bounds N k m HN) as [HP _]. fold P in HP. unfold Jacobi_matrix.
  destruct (jacobi_entries P (ba arg) (bb arg) ltac:(lia) Ha Hb) as (J & EJ & Jr & Jc & HJ). destruct (jacobi_entries P (ba ncc) (bb ncc) ltac:(lia) Han Hbn) as (JA & EA & Ar & Ac & HA).
  rewrite EJ, EA, (polynomials_value mass Hm) by assumption. cbn [seq map nth].
  destruct (conversion_entries k m (ba arg) (bb arg) Ha Hb) as (C & C1 & C2 & C3 & C4). destruct (C4 P ltac:(lia)) as (MC & EC & Cr & Cc & HC).
  set (f := fun n i j => pf (ba ncc) (bb ncc) (cut (ba arg) (bb arg) P) n i j). set (f0 := mscale Rmult (unit 0 (ba ncc) (bb ncc) 1) (identity 0 1 P)).
  assert (Hpos : forall n, (n + 1 < P)%nat -> 0 < at_ JA n (n + 1)).
  { intros n Hn. rewrite HA by lia. rewrite Nat.add_1_r. apply Zn_pos; assumption. }
  pose proof (clenshaw_jacobi 0 1 Rplus Rmult Rminus Rdiv Ropp Rinv Rabs Rf P (at_ JA) P J f0 K c cutoff f ltac:(lia)) as CJ.
  destruct (jacobi_recursion 0 1 Rmult Rminus Rdiv Ropp P (at_ JA) J) as [A B]. destruct CJ as (T & ET & [Tr Tc] & HT).
  - split; assumption.
  - split; reflexivity.
  - intros i j Hi Hj. unfold applied. rewrite (Rtotal_single P j) by (exact Hj || (intros h Hh Hne; cbn [f0 mscale identity at_]; destruct (Nat.eqb_spec h j); [congruence|ring])).
    rewrite (Rtotal_single P i) by (exact Hi || (intros h Hh Hne; cbn [f0 mscale identity at_]; destruct (Nat.eqb_spec i h); [congruence|ring])).
    cbn [f0 mscale identity at_]. rewrite !Nat.eqb_refl. ring.
  - intros h Hh. specialize (Hpos h Hh). lra.
  - intros n i j Hn Hi Hj. specialize (Hpos n Hn). unfold f. rewrite Nat.add_1_r in *. rewrite pf_S. rewrite <- !HA by lia.
    replace (applied 0 Rplus Rmult P (at_ J) _ i) with (cut (ba arg) (bb arg) P (fun h => pf (ba ncc) (bb ncc) (cut (ba arg) (bb arg) P) n h j) i) by (apply Rtotal_ext; intros h Hh; rewrite HJ by assumption; reflexivity).
    unfold below. destruct n as [|n2]; [field; lra|]. rewrite <- HA by lia. field. lra.
  - intros i j Hi Hj. cbn [f f0 pf mscale identity at_]. rewrite unit_0. destruct (i =? j)%nat; ring.
  - rewrite ET, EC. eexists. split; [reflexivity|]. unfold get, bounds. cbn [fst snd nr nc mmul at_ Nat.max]. rewrite Cr, Tc, MatSolvers_Proofs.clip_pos by exact HP. rewrite !Nat.sub_0_r. split; [reflexivity|]. split; [reflexivity|].
    intros HK u. exists (fun r => total N (fun j => u j * total K (fun n => significant cutoff (c n) * total (N + K) (fun i => C r i * pf (ba ncc) (bb ncc) (whole (ba arg) (bb arg)) n i j)))). split.
    + intros l r t. unfold series. set (z := scaled l r t).
      transitivity (total N (fun j => u j * total K (fun n => significant cutoff (c n) * (unit n (ba ncc) (bb ncc) z * unit j (ba arg) (bb arg) z)))).
      * rewrite Rmult_comm, <- Rtotal_scale_r. apply Rtotal_ext. intros j Hj. rewrite Rmult_assoc, <- Rtotal_scale. f_equal. apply Rtotal_ext. intros n Hn. ring.
      * transitivity (total N (fun j => total (N + K) (fun r0 => u j * total K (fun n => significant cutoff (c n) * total (N + K) (fun i => C r0 i * pf (ba ncc) (bb ncc) (whole (ba arg) (bb arg)) n i j)) * unit r0 (ba arg + INR k) (bb arg + INR m) z))).
        -- apply Rtotal_ext. intros j Hj. transitivity (u j * total (N + K) (fun r0 => total K (fun n => significant cutoff (c n) * total (N + K) (fun i => C r0 i * pf (ba ncc) (bb ncc) (whole (ba arg) (bb arg)) n i j)) * unit r0 (ba arg + INR k) (bb arg + INR m) z)); [f_equal|rewrite <- Rtotal_scale; apply Rtotal_ext; intros; ring].
           transitivity (total (N + K) (fun r0 => total K (fun n => significant cutoff (c n) * (total (N + K) (fun i => C r0 i * pf (ba ncc) (bb ncc) (whole (ba arg) (bb arg)) n i j) * unit r0 (ba arg + INR k) (bb arg + INR m) z)))).
           ++ rewrite Rtotal_swap. apply Rtotal_ext. intros n Hn. rewrite Rtotal_scale. f_equal. rewrite (product_expansion (ba arg) (bb arg) (ba ncc) (bb ncc) Ha Hb Han Hbn n (N + K) j z) by lia.
              transitivity (total (N + K) (fun i => total (N + K) (fun r0 => C r0 i * pf (ba ncc) (bb ncc) (whole (ba arg) (bb arg)) n i j * unit r0 (ba arg + INR k) (bb arg + INR m) z))).
              ** apply Rtotal_ext. intros i Hi. rewrite (C3 (N + K)%nat i z Hi). rewrite <- Rtotal_scale. apply Rtotal_ext. intros. ring.
              ** rewrite Rtotal_swap. apply Rtotal_ext. intros r0 _. rewrite <- Rtotal_scale_r. reflexivity.
           ++ apply Rtotal_ext. intros r0 _. rewrite <- Rtotal_scale_r. apply Rtotal_ext. intros. ring.
        -- rewrite Rtotal_swap. apply Rtotal_ext. intros r0 _. rewrite Rtotal_scale_r. reflexivity.
    + intros r Hr. unfold image. apply Rtotal_ext. intros j Hj. cbn [plus]. rewrite Cc. change (msum 0 Rplus) with total. rewrite Rmult_comm. f_equal.
      transitivity (total P (fun i => total K (fun n => significant cutoff (c n) * (C r i * f n i j)))).
      * apply Rtotal_ext. intros i Hi. rewrite HC, HT by lia. rewrite <- Rtotal_scale. apply Rtotal_ext. intros n Hn. rewrite !Nat.add_0_l; unfold kept, significant. destruct (Rlt_dec cutoff (Rabs (c n))); ring.
      * rewrite Rtotal_swap. apply Rtotal_ext. intros n Hn. rewrite Rtotal_scale. f_equal. apply row_exact; try assumption; lia.
Qed.
End Mass.
