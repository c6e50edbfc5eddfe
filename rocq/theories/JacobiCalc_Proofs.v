(** Proofs about Jacobi polynomials and their operators. *)
From Coq Require Import List ZArith Reals Bool Lia Lra Factorial.
From Coquelicot Require Import Coquelicot.
Import ListNotations.
From Verif Require Import MatSolvers_Model CSR_Spec MatSolvers_Spec MatSolvers_Proofs Codomain_Model Codomain_Spec Codomain_Proofs JacobiCalc_Model JacobiCalc_Spec.
Local Open Scope R_scope.
Notation total := (CSR_Spec.total 0 Rplus).

(** ** Rising factorials *)
Lemma rising_shift x k : rising x (S k) = x * rising (x + 1) k.
Proof. induction k as [|k IH]; [cbn; ring|]. change (rising x (S (S k))) with (rising x (S k) * (x + INR (S k))). rewrite IH, S_INR. cbn [rising]. ring. Qed.
Lemma rising_both x k : x * rising (x + 1) k = rising x k * (x + INR k).
Proof. rewrite <- rising_shift. reflexivity. Qed.
Lemma rising_pos x k : 0 < x -> 0 < rising x k.
Proof. intros H. induction k as [|k IH]; [cbn; lra|]. cbn [rising]. apply Rmult_lt_0_compat; [exact IH|]. pose proof (pos_INR k). lra. Qed.
Lemma fact_pos n : 0 < INR (fact n). Proof. apply lt_0_INR, lt_O_fact. Qed.
Lemma fact_S_R n : INR (fact (S n)) = (INR n + 1) * INR (fact n). Proof. rewrite fact_simpl, mult_INR, S_INR. reflexivity. Qed.

(** ** Coefficient identities *)
Lemma coeff_in n a b k : (k <= n)%nat -> coefficient n a b k = rising (INR n + a + b + 1) k * rising (a + INR k + 1) (n - k) / (INR (fact k) * INR (fact (n - k))).
Proof. intros H. unfold coefficient. destruct (Nat.leb_spec k n); [reflexivity|lia]. Qed.
Lemma coeff_out n a b k : (n < k)%nat -> coefficient n a b k = 0.
Proof. intros H. unfold coefficient. destruct (Nat.leb_spec k n); [lia|reflexivity]. Qed.
(** The same with [n = k + m]. *)
Lemma coeff_at m a b k : coefficient (k + m) a b k = rising (INR k + INR m + a + b + 1) k * rising (a + INR k + 1) m / (INR (fact k) * INR (fact m)).
Proof. rewrite coeff_in by lia. rewrite plus_INR. replace (k + m - k)%nat with m by lia. reflexivity. Qed.
(** A(+1), B(+1). *)
Lemma coeff_A_up n a b k : (2 * INR (S n) + a + b + 1) * coefficient (S n) a b k
  = (INR (S n) + a + b + 1) * coefficient (S n) (a + 1) b k - (INR (S n) + b) * coefficient n (a + 1) b k.
Proof.
  destruct (le_lt_dec k (S n)) as [H|H]; [|rewrite !coeff_out by lia; ring].
  destruct (Nat.eq_dec k (S n)) as [->|Hne].
  - rewrite (coeff_out n) by lia. rewrite !coeff_in, Nat.sub_diag by lia. change (rising _ 0) with 1. change (fact 0) with 1%nat. change (INR 1) with 1.
    replace (INR (S n) + (a + 1) + b + 1) with ((INR (S n) + a + b + 1) + 1) by ring.
    pose proof (rising_both (INR (S n) + a + b + 1) (S n)) as E. pose proof (fact_pos (S n)) as HF.
    revert E HF. generalize (INR (fact (S n))), (rising (INR (S n) + a + b + 1) (S n)), (rising (INR (S n) + a + b + 1 + 1) (S n)). intros F X Y E HF.
    transitivity ((INR (S n) + a + b + 1) * Y / F); [rewrite E|]; field; lra.
  - destruct (Nat.le_exists_sub k n ltac:(lia)) as (m & -> & _). rewrite Nat.add_comm. replace (S (k + m)) with (k + S m)%nat by lia. rewrite !coeff_at.
    replace (INR k + INR (S m) + (a + 1) + b + 1) with ((INR k + INR (S m) + a + b + 1) + 1) by ring.
    replace (INR k + INR m + (a + 1) + b + 1) with (INR k + INR (S m) + a + b + 1) by (rewrite S_INR; ring).
    replace (a + 1 + INR k + 1) with ((a + INR k + 1) + 1) by ring.
    pose proof (rising_both (INR k + INR (S m) + a + b + 1) k) as E.
    rewrite (rising_shift (a + INR k + 1) m). cbn [rising]. rewrite fact_S_R. rewrite plus_INR.
    set (X := rising (INR k + INR (S m) + a + b + 1) k) in *. set (Y := rising (INR k + INR (S m) + a + b + 1 + 1) k) in *. set (W := rising (a + INR k + 1 + 1) m).
    pose proof (fact_pos k). pose proof (fact_pos m). pose proof (pos_INR m).
    replace ((INR k + INR (S m) + a + b + 1) * (Y * (W * (a + INR k + 1 + 1 + INR m)) / (INR (fact k) * ((INR m + 1) * INR (fact m)))))
      with (((INR k + INR (S m) + a + b + 1) * Y) * (W * (a + INR k + 1 + 1 + INR m)) / (INR (fact k) * ((INR m + 1) * INR (fact m)))) by (field; repeat split; lra).
    rewrite E. rewrite S_INR. field. repeat split; lra.
Qed.
Lemma coeff_B_up n a b k : (2 * INR (S n) + a + b + 1) * coefficient (S n) a b k
  = (INR (S n) + a + b + 1) * coefficient (S n) a (b + 1) k + (INR (S n) + a) * coefficient n a (b + 1) k.
Proof.
  destruct (le_lt_dec k (S n)) as [H|H]; [|rewrite !coeff_out by lia; ring].
  destruct (Nat.eq_dec k (S n)) as [->|Hne].
  - rewrite (coeff_out n) by lia. rewrite !coeff_in, Nat.sub_diag by lia. change (rising _ 0) with 1. change (fact 0) with 1%nat. change (INR 1) with 1.
    replace (INR (S n) + a + (b + 1) + 1) with ((INR (S n) + a + b + 1) + 1) by ring.
    pose proof (rising_both (INR (S n) + a + b + 1) (S n)) as E. pose proof (fact_pos (S n)) as HF.
    revert E HF. generalize (INR (fact (S n))), (rising (INR (S n) + a + b + 1) (S n)), (rising (INR (S n) + a + b + 1 + 1) (S n)). intros F X Y E HF.
    transitivity ((INR (S n) + a + b + 1) * Y / F); [rewrite E|]; field; lra.
  - destruct (Nat.le_exists_sub k n ltac:(lia)) as (m & -> & _). rewrite Nat.add_comm. replace (S (k + m)) with (k + S m)%nat by lia. rewrite !coeff_at.
    replace (INR k + INR (S m) + a + (b + 1) + 1) with ((INR k + INR (S m) + a + b + 1) + 1) by ring.
    replace (INR k + INR m + a + (b + 1) + 1) with (INR k + INR (S m) + a + b + 1) by (rewrite S_INR; ring).
    pose proof (rising_both (INR k + INR (S m) + a + b + 1) k) as E.
    cbn [rising]. rewrite fact_S_R. rewrite plus_INR.
    set (X := rising (INR k + INR (S m) + a + b + 1) k) in *. set (Y := rising (INR k + INR (S m) + a + b + 1 + 1) k) in *. set (W := rising (a + INR k + 1) m).
    pose proof (fact_pos k). pose proof (fact_pos m). pose proof (pos_INR m).
    replace ((INR k + INR (S m) + a + b + 1) * (Y * (W * (a + INR k + 1 + INR m)) / (INR (fact k) * ((INR m + 1) * INR (fact m)))))
      with (((INR k + INR (S m) + a + b + 1) * Y) * (W * (a + INR k + 1 + INR m)) / (INR (fact k) * ((INR m + 1) * INR (fact m)))) by (field; repeat split; lra).
    rewrite E. rewrite S_INR. field. repeat split; lra.
Qed.
Ltac finish k m := rewrite ?fact_S_R, ?S_INR, ?plus_INR, ?S_INR; change (INR 0) with 0; pose proof (fact_pos k); pose proof (fact_pos m); pose proof (pos_INR k); pose proof (pos_INR m); field; repeat split; lra.
(** A(-1). *)
Lemma coeff_A_down n a b k : (2 * INR n + a + b + 2) * match k with O => 0 | S k => -2 * coefficient n (a + 1) b k end
  = 2 * (INR n + a + 1) * coefficient n a b k - 2 * (INR n + 1) * coefficient (S n) a b k.
Proof.
  destruct k as [|k].
  - rewrite !coeff_in, !Nat.sub_0_r by lia. cbn [rising]. change (INR 0) with 0. change (fact 0) with 1%nat. change (INR 1) with 1.
    replace (a + 0 + 1) with (a + 1) by ring. finish 0%nat n.
  - destruct (le_lt_dec k n) as [H|H]; [|rewrite !coeff_out by lia; ring].
    destruct (Nat.le_exists_sub k n H) as (m & -> & _). rewrite (Nat.add_comm m k). change (S (k + m)) with (S k + m)%nat. rewrite !coeff_at.
    replace (a + 1 + INR k + 1) with (a + INR (S k) + 1) by (rewrite S_INR; ring).
    replace (INR k + INR m + (a + 1) + b + 1) with (INR (S k) + INR m + a + b + 1) by (rewrite S_INR; ring).
    set (x := INR (S k) + INR m + a + b + 1). cbn [rising]. set (y := a + INR (S k) + 1).
    destruct m as [|m].
    + rewrite coeff_out by lia. cbn [rising]. change (fact 0) with 1%nat. change (INR 1) with 1. generalize (rising x k). intros X. unfold x. change (INR 0) with 0. finish k 0%nat.
    + replace (k + S m)%nat with (S k + m)%nat by lia. rewrite coeff_at. fold y.
      replace (INR (S k) + INR m + a + b + 1) with (x - 1) by (unfold x; rewrite (S_INR m); ring).
      rewrite (rising_shift (x - 1) k). replace (x - 1 + 1) with x by ring. cbn [rising]. generalize (rising x k), (rising y m). intros X Y. unfold x, y. finish k m.
Qed.
Lemma coeff_B_down n a b k : (2 * INR n + a + b + 2) * (2 * coefficient n a (b + 1) k + match k with O => 0 | S k => 2 * coefficient n a (b + 1) k end)
  = 2 * (INR n + b + 1) * coefficient n a b k + 2 * (INR n + 1) * coefficient (S n) a b k.
Proof.
  destruct k as [|k].
  - rewrite !coeff_in, !Nat.sub_0_r by lia. cbn [rising]. change (INR 0) with 0. change (fact 0) with 1%nat. change (INR 1) with 1.
    replace (a + 0 + 1) with (a + 1) by ring. finish 0%nat n.
  - destruct (le_lt_dec k n) as [H|H]; [|rewrite !coeff_out by lia; ring].
    destruct (Nat.le_exists_sub k n H) as (m & -> & _). rewrite (Nat.add_comm m k). change (S (k + m)) with (S k + m)%nat. rewrite !coeff_at.
    replace (INR k + INR m + a + (b + 1) + 1) with (INR (S k) + INR m + a + b + 1) by (rewrite S_INR; ring).
    set (x := INR (S k) + INR m + a + b + 1). set (y := a + INR (S k) + 1). replace (a + INR k + 1) with (y - 1) by (unfold y; rewrite S_INR; ring).
    destruct m as [|m].
    + rewrite !coeff_out by lia. cbn [rising]. change (fact 0) with 1%nat. change (INR 1) with 1. generalize (rising x k). intros X. unfold x. change (INR 0) with 0. finish k 0%nat.
    + replace (k + S m)%nat with (S k + m)%nat by lia. rewrite !coeff_at. fold y.
      replace (INR (S k) + INR m + a + b + 1) with (x - 1) by (unfold x; rewrite (S_INR m); ring).
      replace (INR (S k) + INR m + a + (b + 1) + 1) with x by (unfold x; rewrite (S_INR m); ring).
      rewrite (rising_shift (x - 1) k), (rising_shift (y - 1) m). replace (x - 1 + 1) with x by ring. replace (y - 1 + 1) with y by ring.
      cbn [rising]. generalize (rising x k), (rising y m). intros X Y. unfold x, y. finish k m.
Qed.
(** C(+1), C(-1). *)
Lemma coeff_C_up n a b k : (b + 1 + INR k) * coefficient n a (b + 1) k + (INR k + 1) * coefficient n a (b + 1) (S k) = (INR n + b + 1) * coefficient n (a + 1) b k.
Proof.
  destruct (le_lt_dec k n) as [H|H]; [|rewrite !coeff_out by lia; ring].
  destruct (Nat.le_exists_sub k n H) as (m & -> & _). rewrite (Nat.add_comm m k). rewrite !coeff_at.
  replace (INR k + INR m + (a + 1) + b + 1) with (INR k + INR m + a + (b + 1) + 1) by ring. set (x := INR k + INR m + a + (b + 1) + 1).
  replace (a + 1 + INR k + 1) with ((a + INR k + 1) + 1) by ring. set (y := a + INR k + 1).
  destruct m as [|m].
  - rewrite coeff_out by lia. cbn [rising]. change (fact 0) with 1%nat. change (INR 1) with 1. generalize (rising x k). intros X. finish k 0%nat.
  - replace (k + S m)%nat with (S k + m)%nat by lia. rewrite coeff_at.
    replace (INR (S k) + INR m + a + (b + 1) + 1) with x by (unfold x; rewrite !S_INR; ring). replace (a + INR (S k) + 1) with (y + 1) by (unfold y; rewrite S_INR; ring).
    rewrite (rising_shift y m). cbn [rising]. generalize (rising x k), (rising (y + 1) m). intros X Y. unfold x, y. finish k m.
Qed.
Lemma coeff_C_down n a b k : (a + 1 + INR k) * coefficient n (a + 1) b k = (INR n + a + 1) * coefficient n a (b + 1) k.
Proof.
  destruct (le_lt_dec k n) as [H|H]; [|rewrite !coeff_out by lia; ring].
  destruct (Nat.le_exists_sub k n H) as (m & -> & _). rewrite (Nat.add_comm m k). rewrite !coeff_at.
  replace (INR k + INR m + (a + 1) + b + 1) with (INR k + INR m + a + (b + 1) + 1) by ring. set (x := INR k + INR m + a + (b + 1) + 1).
  replace (a + 1 + INR k + 1) with ((a + INR k + 1) + 1) by ring. pose proof (rising_both (a + INR k + 1) m) as E.
  revert E. generalize (rising x k), (rising (a + INR k + 1 + 1) m), (rising (a + INR k + 1) m). intros X Y W E.
  transitivity (((a + INR k + 1) * Y) * X / (INR (fact k) * INR (fact m))); [|rewrite E]; finish k m.
Qed.
(** D(+1), D(-1). *)
Lemma coeff_D_up n a b k : (INR k + 1) * coefficient (S n) a b (S k) = (INR (S n) + a + b + 1) * coefficient n (a + 1) (b + 1) k.
Proof.
  destruct (le_lt_dec k n) as [H|H]; [|rewrite !coeff_out by lia; ring].
  destruct (Nat.le_exists_sub k n H) as (m & -> & _). rewrite (Nat.add_comm m k). change (S (k + m)) with (S k + m)%nat. rewrite !coeff_at.
  set (x := INR (S k) + INR m + a + b + 1). replace (INR k + INR m + (a + 1) + (b + 1) + 1) with (x + 1) by (unfold x; rewrite S_INR; ring).
  rewrite rising_shift. replace (a + 1 + INR k + 1) with (a + INR (S k) + 1) by (rewrite S_INR; ring).
  generalize (rising (x + 1) k), (rising (a + INR (S k) + 1) m). intros X Y. unfold x. change (S k + m)%nat with (S (k + m)). finish k m.
Qed.
Lemma coeff_D_down n a b k : (a + 1 + INR k) * coefficient n (a + 1) (b + 1) k + match k with O => 0 | S k => (a + b + 2 + INR k) * coefficient n (a + 1) (b + 1) k end
  = (INR n + 1) * coefficient (S n) a b k.
Proof.
  destruct k as [|k].
  - rewrite !coeff_in, !Nat.sub_0_r by lia. change (rising _ 0) with 1. change (INR 0) with 0. change (fact 0) with 1%nat. change (INR 1) with 1.
    replace (a + 0 + 1) with (a + 1) by ring. rewrite rising_shift. replace (a + 1 + 0 + 1) with (a + 1 + 1) by ring. finish 0%nat n.
  - destruct (le_lt_dec k n) as [H|H]; [|rewrite !coeff_out by lia; ring].
    destruct (Nat.le_exists_sub k n H) as (m & -> & _). rewrite (Nat.add_comm m k). change (S (k + m)) with (S k + m)%nat. rewrite !coeff_at.
    set (x := INR (S k) + INR m + a + b + 1). replace (INR k + INR m + (a + 1) + (b + 1) + 1) with (x + 1) by (unfold x; rewrite S_INR; ring).
    replace (a + 1 + INR k + 1) with (a + INR (S k) + 1) by (rewrite S_INR; ring). set (y := a + INR (S k) + 1).
    rewrite (rising_shift x k). destruct m as [|m].
    + rewrite coeff_out by lia. cbn [rising]. change (fact 0) with 1%nat. change (INR 1) with 1. generalize (rising (x + 1) k). intros X. unfold x. change (INR 0) with 0. finish k 0%nat.
    + replace (k + S m)%nat with (S k + m)%nat by lia. rewrite coeff_at.
      replace (INR (S k) + INR m + (a + 1) + (b + 1) + 1) with (x + 1) by (unfold x; rewrite (S_INR m); ring).
      replace (a + 1 + INR (S k) + 1) with (y + 1) by (unfold y; ring). rewrite (rising_shift y m). cbn [rising].
      generalize (rising (x + 1) k), (rising (y + 1) m). intros X Y. unfold x, y. finish k m.
Qed.

(** ** Polynomials *)
Definition ev (M : nat) (c : nat -> R) (z : R) : R := total M (fun k => c k * ((z - 1) / 2) ^ k).
Lemma Rtotal_add n f g : total n (fun j => f j + g j) = total n f + total n g. Proof. exact (total_add 0 1 Rplus Rmult Rminus Rdiv Ropp Rinv Rf n f g). Qed.
Lemma Rtotal_scale n a f : total n (fun j => a * f j) = a * total n f. Proof. exact (total_mul_l 0 1 Rplus Rmult Rminus Rdiv Ropp Rinv Rf n a f). Qed.
Lemma Rtotal_first n f : total (S n) f = f O + total n (fun i => f (S i)).
Proof. induction n as [|n IH]; [rewrite Rtotal_S; cbn; ring|]. rewrite Rtotal_S, IH, Rtotal_S. ring. Qed.
Lemma ev_ext M c d z : (forall k, c k = d k) -> ev M c z = ev M d z. Proof. intros H. apply Rtotal_ext. intros k _. rewrite H. reflexivity. Qed.
Lemma ev_scale M x c z : ev M (fun k => x * c k) z = x * ev M c z.
Proof. unfold ev. rewrite <- Rtotal_scale. apply Rtotal_ext. intros. ring. Qed.
Lemma ev_add M c d z : ev M (fun k => c k + d k) z = ev M c z + ev M d z.
Proof. unfold ev. rewrite <- Rtotal_add. apply Rtotal_ext. intros. ring. Qed.
Lemma ev_sub M c d z : ev M (fun k => c k - d k) z = ev M c z - ev M d z.
Proof.
  transitivity (ev M c z + -1 * ev M d z); [|ring]. rewrite <- ev_scale, <- ev_add. apply ev_ext. intros. ring.
Qed.
Lemma ev_shift M c z : ev (S M) (fun k => match k with O => 0 | S k => c k end) z = (z - 1) / 2 * ev M c z.
Proof. unfold ev. rewrite Rtotal_first, <- Rtotal_scale, Rmult_0_l, Rplus_0_l. apply Rtotal_ext. intros. cbn [pow]. ring. Qed.
Lemma ev_classical M n a b z : (n < M)%nat -> ev M (coefficient n a b) z = classical n a b z.
Proof.
  intros H. unfold ev, classical. apply Rtotal_more; [lia|]. intros i Hi. rewrite coeff_out by lia. ring.
Qed.
Lemma ev_derive M c z : is_derive (ev (S M) c) z (1 / 2 * ev M (fun k => (INR k + 1) * c (S k)) z).
Proof.
  induction M as [|M IH].
  - apply (is_derive_ext (fun _ => c 0%nat)); [intros t; unfold ev; rewrite Rtotal_S; cbn; ring|]. replace (1 / 2 * _) with 0 by (unfold ev; cbn; ring). exact (is_derive_const (c 0%nat) z).
  - apply (is_derive_ext (fun t => ev (S M) c t + c (S M) * ((t - 1) / 2) ^ (S M))); [intros t; unfold ev; rewrite (Rtotal_S (S M)); reflexivity|].
    replace (1 / 2 * ev (S M) _ z) with (1 / 2 * ev M (fun k => (INR k + 1) * c (S k)) z + c (S M) * (INR (S M) * (1 / 2) * ((z - 1) / 2) ^ M)).
    + apply (is_derive_plus (ev (S M) c) (fun t => c (S M) * ((t - 1) / 2) ^ (S M))); [exact IH|]. auto_derive; [trivial|]. change (match M with O => 1 | S _ => INR M + 1 end) with (INR (S M)). change (z + - (1)) with (z - 1). unfold Rdiv. generalize (((z - 1) * / 2) ^ M), (INR (S M)). intros; lra.
    + unfold ev. rewrite (Rtotal_S M), S_INR. field.
Qed.
Lemma ev_derive_scaled M c z : ev (S M) (fun k => INR k * c k) z = (z - 1) / 2 * ev M (fun k => (INR k + 1) * c (S k)) z.
Proof. rewrite <- ev_shift. apply ev_ext. intros [|k]; [cbn; ring|]. rewrite S_INR. reflexivity. Qed.
(** The derivative, as a polynomial. *)
Definition slope (n : nat) (a b z : R) : R := 1 / 2 * ev n (fun k => (INR k + 1) * coefficient n a b (S k)) z.
Lemma classical_derive n a b z : is_derive (classical n a b) z (slope n a b z).
Proof. apply (is_derive_ext (ev (S n) (coefficient n a b))); [intros t; apply ev_classical; lia|apply ev_derive]. Qed.
Lemma ev_more N M c z : (N <= M)%nat -> (forall k, (N <= k)%nat -> c k = 0) -> ev M c z = ev N c z.
Proof. intros H Hc. apply Rtotal_more; [exact H|]. intros i Hi. rewrite Hc by lia. ring. Qed.
Lemma slope_ev M n a b z : (n <= M)%nat -> slope n a b z = 1 / 2 * ev M (fun k => (INR k + 1) * coefficient n a b (S k)) z.
Proof. intros H. unfold slope. f_equal. symmetry. apply ev_more; [exact H|]. intros k Hk. rewrite coeff_out by lia. ring. Qed.

Lemma poly_0 a b z : classical 0 a b z = 1.
Proof. unfold classical. rewrite Rtotal_S. cbn. field. Qed.
Lemma poly_A_up n a b z : (2 * INR (S n) + a + b + 1) * classical (S n) a b z
  = (INR (S n) + a + b + 1) * classical (S n) (a + 1) b z - (INR (S n) + b) * classical n (a + 1) b z.
Proof.
  rewrite <- !(ev_classical (S (S n))) by lia. rewrite <- !ev_scale, <- ev_sub. apply ev_ext. intros k. apply coeff_A_up.
Qed.
Lemma poly_B_up n a b z : (2 * INR (S n) + a + b + 1) * classical (S n) a b z
  = (INR (S n) + a + b + 1) * classical (S n) a (b + 1) z + (INR (S n) + a) * classical n a (b + 1) z.
Proof.
  rewrite <- !(ev_classical (S (S n))) by lia. rewrite <- !ev_scale, <- ev_add. apply ev_ext. intros k. apply coeff_B_up.
Qed.
Lemma poly_A_down n a b z : (2 * INR n + a + b + 2) * ((1 - z) * classical n (a + 1) b z)
  = 2 * (INR n + a + 1) * classical n a b z - 2 * (INR n + 1) * classical (S n) a b z.
Proof.
  replace ((1 - z) * classical n (a + 1) b z) with ((z - 1) / 2 * (-2 * classical n (a + 1) b z)) by field.
  rewrite <- (ev_classical (S n) n (a + 1)) by lia. rewrite <- (ev_classical (S (S n)) n a), <- (ev_classical (S (S n)) (S n)) by lia.
  rewrite <- ev_scale, <- ev_shift, <- !ev_scale, <- ev_sub. apply ev_ext. intros k. rewrite <- coeff_A_down. destruct k; reflexivity.
Qed.
Lemma poly_B_down n a b z : (2 * INR n + a + b + 2) * ((1 + z) * classical n a (b + 1) z)
  = 2 * (INR n + b + 1) * classical n a b z + 2 * (INR n + 1) * classical (S n) a b z.
Proof.
  replace ((1 + z) * classical n a (b + 1) z) with (2 * classical n a (b + 1) z + (z - 1) / 2 * (2 * classical n a (b + 1) z)) by field.
  rewrite <- (ev_classical (S (S n)) n a (b + 1)) at 1 by lia. rewrite <- (ev_classical (S n) n a (b + 1)) by lia. rewrite <- (ev_classical (S (S n)) n a b), <- (ev_classical (S (S n)) (S n)) by lia.
  rewrite <- (ev_scale (S n)), <- ev_shift, <- !ev_scale, <- !ev_add, <- ev_scale. apply ev_ext. intros k. rewrite <- coeff_B_down. destruct k; reflexivity.
Qed.
Lemma poly_C_up n a b z : (b + 1) * classical n a (b + 1) z + (1 + z) * slope n a (b + 1) z = (INR n + b + 1) * classical n (a + 1) b z.
Proof.
  rewrite (slope_ev (S n)) by lia. set (g := fun k : nat => (INR k + 1) * coefficient n a (b + 1) (S k)).
  replace ((1 + z) * (1 / 2 * ev (S n) g z)) with ((z - 1) / 2 * ev (S n) g z + ev (S n) g z) by field.
  unfold g at 1. rewrite <- ev_derive_scaled. replace (ev (S n) g z) with (ev (S (S n)) g z) by (apply ev_more; [lia|]; intros k Hk; unfold g; rewrite coeff_out by lia; ring).
  rewrite <- !(ev_classical (S (S n))) by lia. rewrite <- !ev_scale, <- !ev_add. apply ev_ext. intros k. rewrite <- coeff_C_up. unfold g. ring.
Qed.
Lemma poly_C_down n a b z : (a + 1) * classical n (a + 1) b z - (1 - z) * slope n (a + 1) b z = (INR n + a + 1) * classical n a (b + 1) z.
Proof.
  rewrite (slope_ev (S n)) by lia. set (g := fun k : nat => (INR k + 1) * coefficient n (a + 1) b (S k)).
  replace (_ - (1 - z) * (1 / 2 * ev (S n) g z)) with ((a + 1) * classical n (a + 1) b z + (z - 1) / 2 * ev (S n) g z) by field.
  unfold g. rewrite <- ev_derive_scaled. rewrite <- !(ev_classical (S (S n))) by lia. rewrite <- !ev_scale, <- !ev_add. apply ev_ext. intros k. rewrite <- coeff_C_down. ring.
Qed.
Lemma slope_0 a b z : slope 0 a b z = 0. Proof. unfold slope, ev. cbn. ring. Qed.
Lemma poly_D_up n a b z : slope (S n) a b z = (INR (S n) + a + b + 1) / 2 * classical n (a + 1) (b + 1) z.
Proof.
  unfold slope. rewrite <- (ev_classical (S n)) by lia. rewrite <- !ev_scale. apply ev_ext. intros k. rewrite coeff_D_up. field.
Qed.
Lemma poly_D_down n a b z : ((a + 1) * (1 + z) - (b + 1) * (1 - z)) * classical n (a + 1) (b + 1) z - (1 - z ^ 2) * slope n (a + 1) (b + 1) z
  = 2 * (INR n + 1) * classical (S n) a b z.
Proof.
  rewrite (slope_ev (S n)) by lia. set (g := fun k : nat => (INR k + 1) * coefficient n (a + 1) (b + 1) (S k)).
  set (c := coefficient n (a + 1) (b + 1)).
  transitivity (2 * (((a + 1) * classical n (a + 1) (b + 1) z + (z - 1) / 2 * ev (S n) g z) + (z - 1) / 2 * ((a + b + 2) * classical n (a + 1) (b + 1) z + (z - 1) / 2 * ev n g z))).
  { replace (ev (S n) g z) with (ev n g z) by (symmetry; apply ev_more; [lia|]; intros k Hk; unfold g; rewrite coeff_out by lia; ring). field. }
  rewrite Rmult_assoc. f_equal. unfold g. rewrite <- (ev_derive_scaled (S n)), <- (ev_derive_scaled n).
  rewrite <- (ev_classical (S n) n) by lia. rewrite <- (ev_scale (S n) (a + b + 2)), <- ev_add, <- ev_shift.
  rewrite <- (ev_scale (S n) (a + 1)). replace (ev (S n) (fun k => (a + 1) * coefficient n (a + 1) (b + 1) k) z) with (ev (S (S n)) (fun k => (a + 1) * coefficient n (a + 1) (b + 1) k) z)
    by (apply ev_more; [lia|]; intros k Hk; rewrite coeff_out by lia; ring).
  rewrite <- (ev_classical (S (S n)) (S n)) by lia. rewrite <- ev_scale, <- !ev_add. apply ev_ext. intros k. rewrite <- coeff_D_down. destruct k; ring.
Qed.
(** Reflection. *)
Lemma poly_reflect n : forall a b z, classical n b a (- z) = (-1) ^ n * classical n a b z.
Proof.
  induction n as [|n IH]; intros a b z; [rewrite !poly_0; cbn; ring|].
  assert (Hs : slope n (b + 1) (a + 1) (- z) = - ((-1) ^ n * slope n (a + 1) (b + 1) z)).
  { assert (E : is_derive (fun t => classical n (b + 1) (a + 1) (- t)) z (- slope n (b + 1) (a + 1) (- z))).
    { replace (- slope n (b + 1) (a + 1) (- z)) with (scal (-1) (slope n (b + 1) (a + 1) (- z))) by (unfold scal; cbn; unfold mult; cbn; ring).
      apply (is_derive_comp (classical n (b + 1) (a + 1)) (fun t => - t)); [apply classical_derive|]. auto_derive; [trivial|ring]. }
    assert (E' : is_derive (fun t => classical n (b + 1) (a + 1) (- t)) z ((-1) ^ n * slope n (a + 1) (b + 1) z)).
    { apply (is_derive_ext (fun t => (-1) ^ n * classical n (a + 1) (b + 1) t)); [intros t; symmetry; apply IH|]. apply (is_derive_scal (classical n (a + 1) (b + 1)) z ((-1) ^ n)). apply classical_derive. }
    apply is_derive_unique in E, E'. rewrite E in E'. lra. }
  pose proof (poly_D_down n b a (- z)) as E1. pose proof (poly_D_down n a b z) as E2. rewrite Hs, IH in E1. pose proof (pos_INR n).
  apply (Rmult_eq_reg_l (2 * (INR n + 1))); [|lra]. rewrite <- E1. cbn [pow]. transitivity (-1 * (-1) ^ n * (2 * (INR n + 1) * classical (S n) a b z)); [rewrite <- E2; ring|ring].
Qed.

(** ** Norms *)
Lemma tricky_0 a b : -1 < a -> -1 < b -> tricky 0 a b = 1.
Proof. intros Ha Hb. unfold tricky. destruct (Req_EM_T (a + b) (-1)); [cbn; lra|]. field. lra. Qed.
Lemma tricky_S n a b : -1 < a -> -1 < b -> tricky (Z.of_nat (S n)) a b = (2 * INR (S n) + a + b + 1) / (INR (S n) + a + b + 1).
Proof.
  intros Ha Hb. unfold tricky. rewrite <- INR_IZR_INZ. pose proof (pos_INR n). rewrite S_INR. destruct (Req_EM_T (a + b) (-1)) as [E|E]; [|reflexivity].
  destruct (Z.eqb_spec (Z.of_nat (S n)) 0); [lia|]. replace (2 * (INR n + 1) + a + b + 1) with (2 * (INR n + 1)) by lra. replace (INR n + 1 + a + b + 1) with (INR n + 1) by lra. field. lra.
Qed.
Section Norms.
Context (mass : R -> R -> R) (Hm : mass_rules mass).
Notation norm2 := (norm2 mass).
Lemma norm2_pos n a b : -1 < a -> -1 < b -> 0 < norm2 n a b.
Proof.
  intros Ha Hb. unfold JacobiCalc_Spec.norm2. apply Rmult_lt_0_compat; [apply Hm; assumption|]. destruct n as [|n]; [lra|].
  pose proof (pos_INR n). apply Rdiv_lt_0_compat; repeat apply Rmult_lt_0_compat; try apply rising_pos; try apply fact_pos; rewrite ?S_INR; lra.
Qed.
Lemma norm2_n n a b : -1 < a -> -1 < b -> norm2 (S n) a b = n_step (Z.of_nat n) a b * norm2 n a b.
Proof.
  intros Ha Hb. unfold n_step. rewrite <- INR_IZR_INZ. destruct n as [|n].
  - cbn [Z.of_nat]. rewrite tricky_0 by assumption. unfold JacobiCalc_Spec.norm2. cbn. field. lra.
  - rewrite tricky_S by assumption. unfold JacobiCalc_Spec.norm2. rewrite (fact_S_R (S n)). cbn [rising].
    assert (0 < rising (a + b + 2) n) by (apply rising_pos; lra). pose proof (fact_pos (S n)). pose proof (pos_INR n).
    rewrite !S_INR. field. repeat split; lra.
Qed.
Lemma norm2_a n a b : -1 < a -> -1 < b -> norm2 n (a + 1) b = ab_step (Z.of_nat n) a b * norm2 n a b.
Proof.
  intros Ha Hb. unfold ab_step. rewrite <- INR_IZR_INZ. destruct (Hm a b Ha Hb) as (H0 & Hma & _). unfold JacobiCalc_Spec.norm2. rewrite Hma. destruct n as [|n].
  - cbn [Z.of_nat]. rewrite tricky_0 by assumption. cbn [INR]. field. lra.
  - rewrite tricky_S by assumption. pose proof (pos_INR n).
    assert (E : rising (a + 1 + 1) (S n) = rising (a + 1) (S n) * (a + 1 + INR (S n)) / (a + 1)) by (rewrite <- rising_both; field; lra).
    assert (E2 : rising (a + 1 + b + 2) n = rising (a + b + 2) n * (a + b + 2 + INR n) / (a + b + 2)) by (rewrite <- rising_both; replace (a + b + 2 + 1) with (a + 1 + b + 2) by ring; field; lra).
    rewrite E, E2. assert (0 < rising (a + b + 2) n) by (apply rising_pos; lra). pose proof (fact_pos (S n)). rewrite !S_INR.
    generalize (rising (a + 1) (S n)), (rising (b + 1) (S n)). intros X Y. field. repeat split; lra.
Qed.
Lemma norm2_b n a b : -1 < a -> -1 < b -> norm2 n a (b + 1) = ab_step (Z.of_nat n) b a * norm2 n a b.
Proof.
  intros Ha Hb. unfold ab_step. rewrite <- INR_IZR_INZ. destruct (Hm a b Ha Hb) as (H0 & _ & Hmb). unfold JacobiCalc_Spec.norm2. rewrite Hmb. destruct n as [|n].
  - cbn [Z.of_nat]. rewrite tricky_0 by assumption. cbn [INR]. field. lra.
  - rewrite tricky_S by assumption. pose proof (pos_INR n).
    assert (E : rising (b + 1 + 1) (S n) = rising (b + 1) (S n) * (b + 1 + INR (S n)) / (b + 1)) by (rewrite <- rising_both; field; lra).
    assert (E2 : rising (a + (b + 1) + 2) n = rising (a + b + 2) n * (a + b + 2 + INR n) / (a + b + 2)) by (rewrite <- rising_both; replace (a + b + 2 + 1) with (a + (b + 1) + 2) by ring; field; lra).
    rewrite E, E2. assert (0 < rising (a + b + 2) n) by (apply rising_pos; lra). pose proof (fact_pos (S n)). rewrite !S_INR.
    generalize (rising (a + 1) (S n)), (rising (b + 1) (S n)). intros X Y. field. repeat split; lra.
Qed.
Definition nf (normalised : bool) (n : nat) (a b : R) : R := if normalised then sqrt (norm2 n a b) else 1.
Lemma nf_pos s n a b : -1 < a -> -1 < b -> 0 < nf s n a b.
Proof. intros. destruct s; [apply sqrt_lt_R0, norm2_pos; assumption|cbn; lra]. Qed.
Lemma step_quot x y s : 0 < y -> x = s * y -> s = x / y. Proof. intros H ->. field. lra. Qed.
Lemma n_step_eq n a b : -1 < a -> -1 < b -> n_step (Z.of_nat n) a b = norm2 (S n) a b / norm2 n a b.
Proof. intros. apply step_quot; [apply norm2_pos|apply norm2_n]; assumption. Qed.
Lemma a_step_eq n a b : -1 < a -> -1 < b -> ab_step (Z.of_nat n) a b = norm2 n (a + 1) b / norm2 n a b.
Proof. intros. apply step_quot; [apply norm2_pos|apply norm2_a]; assumption. Qed.
Lemma b_step_eq n a b : -1 < a -> -1 < b -> ab_step (Z.of_nat n) b a = norm2 n a (b + 1) / norm2 n a b.
Proof. intros. apply step_quot; [apply norm2_pos|apply norm2_b]; assumption. Qed.
Lemma ratio_val (s : bool) x y n a b n' a' b' : 0 < norm2 n a b -> 0 < norm2 n' a' b' -> (s = true -> x = sqrt (norm2 n' a' b' / norm2 n a b)) -> y = nf s n' a' b' / nf s n a b ->
  (if s then x else 1) = y.
Proof.
  intros H1 H2 Hx ->. destruct s; cbn [nf]; [|field]. rewrite Hx by reflexivity. apply sqrt_div; lra.
Qed.
Ltac rsimp := unfold norm_ratio, n_ratio, ab_ratio; cbn [Z.ltb Z.compare Z.opp Z.to_nat Pos.to_nat Pos.iter_op n_ratio_nat ab_ratio_nat Pos.compare]; unfold Pos.to_nat; cbn [Pos.iter_op n_ratio_nat ab_ratio_nat].
Lemma ratio_0p0 (s : bool) n a b : -1 < a -> -1 < b -> (if s then norm_ratio 0 1 0 (Z.of_nat n) a b else 1) = nf s n (a + 1) b / nf s n a b.
Proof.
  intros Ha Hb. apply (ratio_val s _ _ n a b n (a + 1) b); try (apply norm2_pos; lra); [intros _|reflexivity]. rsimp. f_equal.
  rewrite Rplus_0_r, a_step_eq by assumption. ring.
Qed.
Lemma ratio_mp0 (s : bool) n a b : -1 < a -> -1 < b -> (if s then norm_ratio (-1) 1 0 (Z.of_nat (S n)) a b else 1) = nf s n (a + 1) b / nf s (S n) a b.
Proof.
  intros Ha Hb. pose proof (norm2_pos n (a + 1) b ltac:(lra) Hb). pose proof (norm2_pos (S n) (a + 1) b ltac:(lra) Hb). pose proof (norm2_pos (S n) a b Ha Hb).
  apply (ratio_val s _ _ (S n) a b n (a + 1) b); try (apply norm2_pos; lra); [intros _|reflexivity]. rsimp. f_equal. replace (Z.of_nat (S n) + -1)%Z with (Z.of_nat n) by lia.
  rewrite Rplus_0_r, a_step_eq, n_step_eq by lra. field. lra.
Qed.
Lemma ratio_0m0 (s : bool) n a b : 0 < a -> -1 < b -> (if s then norm_ratio 0 (-1) 0 (Z.of_nat n) a b else 1) = nf s n (a - 1) b / nf s n a b.
Proof.
  intros Ha Hb. pose proof (norm2_pos n (a - 1) b ltac:(lra) Hb). pose proof (norm2_pos n a b ltac:(lra) Hb).
  apply (ratio_val s _ _ n a b n (a - 1) b); try (apply norm2_pos; lra); [intros _|reflexivity]. rsimp. f_equal.
  rewrite Rplus_0_r. replace (a + -1) with (a - 1) by ring. rewrite a_step_eq by lra. replace (a - 1 + 1) with a by ring. field. lra.
Qed.
Lemma ratio_pm0 (s : bool) n a b : 0 < a -> -1 < b -> (if s then norm_ratio 1 (-1) 0 (Z.of_nat n) a b else 1) = nf s (S n) (a - 1) b / nf s n a b.
Proof.
  intros Ha Hb. pose proof (norm2_pos n (a - 1) b ltac:(lra) Hb). pose proof (norm2_pos n a b ltac:(lra) Hb). pose proof (norm2_pos (S n) (a - 1) b ltac:(lra) Hb).
  apply (ratio_val s _ _ n a b (S n) (a - 1) b); try (apply norm2_pos; lra); [intros _|reflexivity]. rsimp. f_equal.
  rewrite Rplus_0_r. replace (a + -1) with (a - 1) by ring. rewrite a_step_eq, n_step_eq by lra. replace (a - 1 + 1) with a by ring. field. lra.
Qed.
(** The same with the parameters exchanged. *)
Lemma ratio_0p0' (s : bool) n a b : -1 < a -> -1 < b -> (if s then norm_ratio 0 1 0 (Z.of_nat n) b a else 1) = nf s n a (b + 1) / nf s n a b.
Proof.
  intros Ha Hb. apply (ratio_val s _ _ n a b n a (b + 1)); try (apply norm2_pos; lra); [intros _|reflexivity]. rsimp. f_equal.
  rewrite Rplus_0_r, b_step_eq by assumption. ring.
Qed.
Lemma n_step_sym n a b : n_step n a b = n_step n b a.
Proof.
  unfold n_step, tricky. replace (a + b) with (b + a) by ring. replace (2 * IZR n + a + b + 3) with (2 * IZR n + b + a + 3) by ring.
  replace (2 * IZR n + a + b + 1) with (2 * IZR n + b + a + 1) by ring. replace (IZR n + a + b + 1) with (IZR n + b + a + 1) by ring.
  rewrite (Rmult_comm (IZR n + a + 1)). reflexivity.
Qed.
Lemma ratio_mp0' (s : bool) n a b : -1 < a -> -1 < b -> (if s then norm_ratio (-1) 1 0 (Z.of_nat (S n)) b a else 1) = nf s n a (b + 1) / nf s (S n) a b.
Proof.
  intros Ha Hb. pose proof (norm2_pos n a (b + 1) Ha ltac:(lra)). pose proof (norm2_pos (S n) a (b + 1) Ha ltac:(lra)). pose proof (norm2_pos (S n) a b Ha Hb).
  apply (ratio_val s _ _ (S n) a b n a (b + 1)); try (apply norm2_pos; lra); [intros _|reflexivity]. rsimp. f_equal. replace (Z.of_nat (S n) + -1)%Z with (Z.of_nat n) by lia.
  rewrite Rplus_0_r, n_step_sym, b_step_eq, n_step_eq by lra. field. lra.
Qed.
Lemma ratio_0m0' (s : bool) n a b : -1 < a -> 0 < b -> (if s then norm_ratio 0 (-1) 0 (Z.of_nat n) b a else 1) = nf s n a (b - 1) / nf s n a b.
Proof.
  intros Ha Hb. pose proof (norm2_pos n a (b - 1) Ha ltac:(lra)). pose proof (norm2_pos n a b ltac:(lra) ltac:(lra)).
  apply (ratio_val s _ _ n a b n a (b - 1)); try (apply norm2_pos; lra); [intros _|reflexivity]. rsimp. f_equal.
  rewrite Rplus_0_r. replace (b + -1) with (b - 1) by ring. rewrite b_step_eq by lra. replace (b - 1 + 1) with b by ring. field. lra.
Qed.
Lemma ratio_pm0' (s : bool) n a b : -1 < a -> 0 < b -> (if s then norm_ratio 1 (-1) 0 (Z.of_nat n) b a else 1) = nf s (S n) a (b - 1) / nf s n a b.
Proof.
  intros Ha Hb. pose proof (norm2_pos n a (b - 1) Ha ltac:(lra)). pose proof (norm2_pos n a b Ha ltac:(lra)). pose proof (norm2_pos (S n) a (b - 1) Ha ltac:(lra)).
  apply (ratio_val s _ _ n a b (S n) a (b - 1)); try (apply norm2_pos; lra); [intros _|reflexivity]. rsimp. f_equal.
  rewrite Rplus_0_r. replace (b + -1) with (b - 1) by ring. rewrite n_step_sym, b_step_eq, n_step_eq by lra. replace (b - 1 + 1) with b by ring. field. lra.
Qed.
Lemma ratio_0pm (s : bool) n a b : -1 < a -> 0 < b -> (if s then norm_ratio 0 1 (-1) (Z.of_nat n) a b else 1) = nf s n (a + 1) (b - 1) / nf s n a b.
Proof.
  intros Ha Hb. pose proof (norm2_pos n a (b - 1) Ha ltac:(lra)). pose proof (norm2_pos n a b Ha ltac:(lra)).
  apply (ratio_val s _ _ n a b n (a + 1) (b - 1)); try (apply norm2_pos; lra); [intros _|reflexivity]. rsimp. f_equal.
  replace (b + -1) with (b - 1) by ring. rewrite a_step_eq, b_step_eq by lra. replace (b - 1 + 1) with b by ring. field. lra.
Qed.
Lemma ratio_0mp (s : bool) n a b : 0 < a -> -1 < b -> (if s then norm_ratio 0 (-1) 1 (Z.of_nat n) a b else 1) = nf s n (a - 1) (b + 1) / nf s n a b.
Proof.
  intros Ha Hb. pose proof (norm2_pos n a (b + 1) ltac:(lra) ltac:(lra)). pose proof (norm2_pos n a b ltac:(lra) Hb). pose proof (norm2_pos n (a - 1) (b + 1) ltac:(lra) ltac:(lra)).
  apply (ratio_val s _ _ n a b n (a - 1) (b + 1)); try (apply norm2_pos; lra); [intros _|reflexivity]. rsimp. f_equal.
  replace (a + -1) with (a - 1) by ring. rewrite a_step_eq, b_step_eq by lra. replace (a - 1 + 1) with a by ring. field. lra.
Qed.
Lemma ratio_mpp (s : bool) n a b : -1 < a -> -1 < b -> (if s then norm_ratio (-1) 1 1 (Z.of_nat (S n)) a b else 1) = nf s n (a + 1) (b + 1) / nf s (S n) a b.
Proof.
  intros Ha Hb. pose proof (norm2_pos n (a + 1) (b + 1) ltac:(lra) ltac:(lra)). pose proof (norm2_pos (S n) (a + 1) (b + 1) ltac:(lra) ltac:(lra)). pose proof (norm2_pos (S n) a b Ha Hb). pose proof (norm2_pos (S n) a (b + 1) Ha ltac:(lra)).
  apply (ratio_val s _ _ (S n) a b n (a + 1) (b + 1)); try (apply norm2_pos; lra); [intros _|reflexivity]. rsimp. f_equal. replace (Z.of_nat (S n) + -1)%Z with (Z.of_nat n) by lia.
  rewrite a_step_eq, b_step_eq, n_step_eq by lra. field. lra.
Qed.
Lemma ratio_pmm (s : bool) n a b : 0 < a -> 0 < b -> (if s then norm_ratio 1 (-1) (-1) (Z.of_nat n) a b else 1) = nf s (S n) (a - 1) (b - 1) / nf s n a b.
Proof.
  intros Ha Hb. pose proof (norm2_pos n (a - 1) (b - 1) ltac:(lra) ltac:(lra)). pose proof (norm2_pos (S n) (a - 1) (b - 1) ltac:(lra) ltac:(lra)). pose proof (norm2_pos n a b ltac:(lra) ltac:(lra)). pose proof (norm2_pos n a (b - 1) ltac:(lra) ltac:(lra)).
  apply (ratio_val s _ _ n a b (S n) (a - 1) (b - 1)); try (apply norm2_pos; lra); [intros _|reflexivity]. rsimp. f_equal.
  replace (a + -1) with (a - 1) by ring. replace (b + -1) with (b - 1) by ring. rewrite a_step_eq, b_step_eq, n_step_eq by lra. replace (a - 1 + 1) with a by ring. replace (b - 1 + 1) with b by ring. field. lra.
Qed.
End Norms.

(** ** A mass *)
Definition above (a : R) : nat := Z.to_nat (- Int_part (- a)).
Lemma above_spec a : -1 < a -> -1 < a - INR (above a) <= 0 /\ above (a + 1) = S (above a).
Proof.
  intros Ha. unfold above. pose proof (base_Int_part (- a)) as [H1 H2]. pose proof (base_Int_part (- (a + 1))) as [H3 H4].
  set (p := Int_part (- a)) in *. set (q := Int_part (- (a + 1))) in *.
  assert (Hp : (p <= 0)%Z) by (apply Z.lt_succ_r, lt_IZR; rewrite succ_IZR; lra).
  assert (Hq : (q = p - 1)%Z) by (assert (q < p)%Z by (apply lt_IZR; lra); assert (p - 2 < q)%Z by (apply lt_IZR; rewrite minus_IZR; lra); lia).
  split; [|lia]. rewrite INR_IZR_INZ, Z2Nat.id by lia. rewrite opp_IZR. lra.
Qed.
Definition sample_mass (a b : R) : R := let k := above a in let l := above b in
  2 * 2 ^ (k + l) * rising (a - INR k + 1) k * rising (b - INR l + 1) l / rising (a - INR k + (b - INR l) + 2) (k + l).
Lemma sample_rules : mass_rules sample_mass.
Proof.
  intros a b Ha Hb. destruct (above_spec a Ha) as [Hk Ek]. destruct (above_spec b Hb) as [Hl El]. unfold sample_mass. rewrite Ek, El. set (k := above a) in *. set (l := above b) in *.
  assert (P1 : forall m, 0 < rising (a - INR k + 1) m) by (intros; apply rising_pos; lra). assert (P2 : forall m, 0 < rising (b - INR l + 1) m) by (intros; apply rising_pos; lra).
  assert (P3 : forall m, 0 < rising (a - INR k + (b - INR l) + 2) m) by (intros; apply rising_pos; lra). assert (P4 : forall m, 0 < 2 ^ m) by (intros; apply pow_lt; lra).
  split; [apply Rdiv_lt_0_compat; [repeat apply Rmult_lt_0_compat; auto; lra|auto]|].
  pose proof (P3 (k + l)%nat) as Hd. split.
  - change (S k + l)%nat with (S (k + l)). rewrite S_INR. replace (a + 1 - (INR k + 1)) with (a - INR k) by ring. cbn [rising pow]. rewrite plus_INR. field. repeat split; lra.
  - rewrite Nat.add_succ_r. rewrite S_INR. replace (b + 1 - (INR l + 1)) with (b - INR l) by ring. cbn [rising pow]. rewrite plus_INR. field. repeat split; lra.
Qed.
Lemma above_0 : above 0 = 0%nat.
Proof. unfold above. replace (- 0) with (INR 0) by (cbn; ring). rewrite Int_part_INR. reflexivity. Qed.
Lemma sample_legendre : sample_mass 0 0 = 2.
Proof. unfold sample_mass. rewrite above_0. cbn. field. Qed.
