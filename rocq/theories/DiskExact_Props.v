(** C100, continued: on disks the matrices are not padded (basis.py:2569-2574 uses the size [N] of the order for the matrix of
    the coordinate), so the highest modes of products are not those of the product. *)
From Coq Require Import List Arith ZArith Reals Bool Lia Lra.
Import ListNotations.
From Verif Require Import MatSolvers_Model CSR_Spec MatSolvers_Spec Clenshaw_Model Clenshaw_Spec JacobiNCC_Spec DiskNCC_Model DiskNCC_Spec DiskNCC_Proofs DiskNCC_Props BallNCC_Proofs.
Local Open Scope R_scope.

Lemma total_S n g : CSR_Spec.total 0 Rplus (S n) g = CSR_Spec.total 0 Rplus n g + g n.
Proof.
  unfold CSR_Spec.total. rewrite seq_S, fold_right_app. cbn [fold_right]. rewrite Nat.add_0_l, Rplus_0_r. induction (seq 0 n) as [|x l IH]; cbn; [ring|]. rewrite IH. ring.
Qed.
Section Exact.
(** The matrix [J] of the coordinate for all modes, and the polynomials [f] and [f'] of its parts with [N] and [P'] modes. *)
Context (J JA p : nat -> nat -> R) (p0 cutoff : R) (N P' : nat) (f f' : nat -> nat -> nat -> R).
Context (HJ : forall i j, (S i < j \/ S j < i)%nat -> J i j = 0) (HA : forall k, (k + 1 < N)%nat -> JA k (k + 1)%nat <> 0) (HP : (N <= P')%nat).
Context (Hf : jacobi_functions_matrix 0 Rplus Rmult N N JA (Mat N N J) f) (H0 : forall i j, (i < N)%nat -> (j < N)%nat -> f 0%nat i j = if (i =? j)%nat then p0 else 0).
Context (Hf' : jacobi_functions_matrix 0 Rplus Rmult N P' JA (Mat P' P' J) f') (H0' : forall i j, (i < P')%nat -> (j < P')%nat -> f' 0%nat i j = if (i =? j)%nat then p0 else 0).
(** The entries with [P'] modes. *)
Definition with_more_modes (c : nat -> R) (i j : nat) : R :=
  CSR_Spec.total 0 Rplus P' (fun k => p i k * CSR_Spec.total 0 Rplus N (fun n => significant cutoff (c n) * f' n k j)).

Lemma truncation_exact w L c i j : (forall i j, (i + w < j)%nat -> p i j = 0) -> (forall n, (L <= n)%nat -> c n = 0) ->
  (i < N)%nat -> (j < N)%nat -> (i + w + j + L <= N + N)%nat -> multiplication p N cutoff c f i j = with_more_modes c i j.
Proof.
  intros Hp Hc Hi Hj Hs. unfold multiplication, with_more_modes. rewrite (total_cut N P' _ HP).
  - apply total_ext. intros k Hk. destruct (Nat.lt_ge_cases (i + w) k); [rewrite Hp by lia; ring|]. f_equal. apply total_ext. intros n Hn.
    destruct (Nat.lt_ge_cases n L); [|rewrite Hc, significant_0 by lia; ring]. rewrite (same J JA p0 N HJ HA N P' f f' HP (conj Hf H0) (conj Hf' H0') n) by lia. reflexivity.
  - intros k Hk. destruct (Nat.lt_ge_cases (i + w) k); [rewrite Hp by lia; ring|]. rewrite (total_zero N); [ring|]. intros n Hn.
    destruct (Nat.lt_ge_cases n L); [|rewrite Hc, significant_0 by lia; ring]. rewrite (band J JA p0 N HJ HA P' f' (conj Hf' H0') n) by lia. ring.
Qed.
Lemma truncation_differs : (3 <= N)%nat -> (N < P')%nat -> p0 <> 0 -> cutoff < 1 -> J (N - 1)%nat N * J N (N - 1)%nat <> 0 ->
  (forall i k, p i k = if (i =? k)%nat then 1 else 0) -> multiplication p N cutoff (mode 2) f (N - 1) (N - 1) <> with_more_modes (mode 2) (N - 1) (N - 1).
Proof.
  intros HN HP1 Hp0 Hc HJ2 Hp. set (i := (N - 1)%nat) in *.
  assert (Hs : significant cutoff (mode 2 2) = 1) by (unfold significant, mode; cbn [Nat.eqb]; rewrite Rabs_R1; destruct (Rlt_dec cutoff 1); [reflexivity|contradiction]).
  assert (pick : forall Q g, (N <= Q)%nat -> CSR_Spec.total 0 Rplus Q (fun k => p i k * CSR_Spec.total 0 Rplus N (fun n => significant cutoff (mode 2 n) * g n k)) = g 2%nat i).
  { intros Q g HQ. rewrite (total_pick Q _ i); [rewrite Hp, Nat.eqb_refl|unfold i; lia|].
    - rewrite (total_pick N _ 2%nat); [rewrite Hs; ring|lia|]. intros n Hn. unfold mode. rewrite (proj2 (Nat.eqb_neq n 2) Hn), significant_0. ring.
    - intros k Hk. rewrite Hp, (proj2 (Nat.eqb_neq i k)) by auto. ring. }
  unfold multiplication, with_more_modes. rewrite (pick N (fun n k => f n k i) (le_n N)), (pick P' (fun n k => f' n k i) HP).
  pose proof (HA 0%nat ltac:(lia)) as A0. pose proof (HA 1%nat ltac:(lia)) as A1. cbn [Nat.add] in A0, A1.
  rewrite (next J JA p0 N HA N f 1 i i (conj Hf H0)), (next J JA p0 N HA P' f' 1 i i (conj Hf' H0')) by (unfold i; lia). cbn [below Nat.add].
  assert (Same : forall n k, (n <= 1)%nat -> (k < N)%nat -> f n k i = f' n k i) by (intros n k Hn Hk; apply (same J JA p0 N HJ HA N P' f f' HP (conj Hf H0) (conj Hf' H0') n); unfold i; lia).
  rewrite (total_cut (S N) P' (fun k => J i k * f' 1%nat k i)) by (try lia; intros k Hk; rewrite HJ by (unfold i; lia); ring). rewrite total_S.
  rewrite (total_ext N (fun k => J i k * f 1%nat k i) (fun k => J i k * f' 1%nat k i)) by (intros k Hk; rewrite Same by lia; reflexivity).
  rewrite !Same by (unfold i; lia).
  assert (E : f' 1%nat N i = J N i * p0 / JA 0%nat 1%nat).
  { rewrite (next J JA p0 N HA P' f' 0 N i (conj Hf' H0')) by (unfold i; lia). cbn [below Nat.add].
    rewrite (total_ext P' _ (fun k => J N k * (if (k =? i)%nat then p0 else 0))) by (intros k Hk; rewrite H0' by (unfold i; lia); reflexivity).
    rewrite (total_pick P' _ i); [|unfold i; lia|intros k Hk; rewrite (proj2 (Nat.eqb_neq k i) Hk); ring].
    rewrite H0' by (unfold i; lia). rewrite Nat.eqb_refl, (proj2 (Nat.eqb_neq N i)) by (unfold i; lia). field. exact A0. }
  rewrite E. intros X. assert (Y : J i N * J N i * p0 / (JA 0%nat 1%nat * JA 1%nat 2%nat) = 0).
  { apply (Rplus_eq_compat_r (- ((CSR_Spec.total 0 Rplus N (fun k => J i k * f' 1%nat k i) - JA 1%nat 0%nat * f' 0%nat i i - JA 1%nat 1%nat * f' 1%nat i i) / JA 1%nat 2%nat))) in X.
    rewrite Rplus_opp_r in X. rewrite X. field. split; assumption. }
  assert (Z : J i N * J N i * p0 = 0) by (apply (Rmult_eq_compat_r (JA 0%nat 1%nat * JA 1%nat 2%nat)) in Y; rewrite Rmult_0_l in Y; rewrite <- Y; field; split; assumption).
  apply Rmult_integral in Z. destruct Z; contradiction.
Qed.

Context (N0 : nat) (m spin_ncc spin_arg : Z) (EN : N = (N0 - Z.to_nat (Z.abs m) / 2)%nat).
(** Entries far enough from the last mode, for a function with [L] coefficients and a prefactor with [w] bands above the
    diagonal: more modes make no difference. *)
Theorem disk_truncation_exact w L c : (forall i j, (i + w < j)%nat -> p i j = 0) -> (forall n, (L <= n)%nat -> c n = 0) -> (L <= N)%nat ->
  exists M, disk_real (Mat N N J) (Mat N N p) JA p0 cutoff N0 m spin_ncc spin_arg (spin_ncc + spin_arg) c (fun _ => 0) = Some M
    /\ forall i j, (i < N)%nat -> (j < N)%nat -> (i + w + j + L <= N + N)%nat -> at_ M i j = with_more_modes c i j.
Proof.
  intros Hp Hc HL. destruct (disk_resolved (Mat N N J) (Mat N N p) JA p0 cutoff N N0 m f (conj eq_refl eq_refl) (conj eq_refl eq_refl) HA Hf H0 EN spin_ncc spin_arg c (fun _ => 0)) as (M & EM & _ & _ & HM).
  - reflexivity.
  - intros k Hk. apply Hc. lia.
  - exists M. split; [exact EM|]. intros i j Hi Hj Hs. destruct (HM i j Hi Hj) as [E _]. rewrite E. apply (truncation_exact w L c i j Hp Hc Hi Hj Hs).
Qed.
(** The last mode of the product of the last mode with the function's polynomial of degree 2, without prefactor: more modes
    always make a difference. *)
Theorem disk_truncation_refuted : (3 <= N)%nat -> (N < P')%nat -> p0 <> 0 -> cutoff < 1 -> J (N - 1)%nat N * J N (N - 1)%nat <> 0 ->
  (forall i k, p i k = if (i =? k)%nat then 1 else 0) ->
  exists M, disk_real (Mat N N J) (Mat N N p) JA p0 cutoff N0 m spin_ncc spin_arg (spin_ncc + spin_arg) (mode 2) (fun _ => 0) = Some M
    /\ at_ M (N - 1)%nat (N - 1)%nat <> with_more_modes (mode 2) (N - 1) (N - 1).
Proof.
  intros HN HP1 Hp0 Hc HJ2 Hp. destruct (disk_resolved (Mat N N J) (Mat N N p) JA p0 cutoff N N0 m f (conj eq_refl eq_refl) (conj eq_refl eq_refl) HA Hf H0 EN spin_ncc spin_arg (mode 2) (fun _ => 0)) as (M & EM & _ & _ & HM).
  - reflexivity.
  - intros k Hk. unfold mode. rewrite (proj2 (Nat.eqb_neq k 2)) by lia. reflexivity.
  - exists M. split; [exact EM|]. destruct (HM (N - 1) (N - 1) ltac:(lia) ltac:(lia))%nat as [E _]. rewrite E. apply truncation_differs; assumption.
Qed.
End Exact.
(** Spins that do not match give zero. *)
Theorem disk_unmatched (J prefactor : mat R) (JA : nat -> nat -> R) (p0 cutoff : R) (N0 : nat) (m spin_ncc spin_arg spin_out : Z) cos msin :
  (Z.abs spin_ncc < Z.abs (Z.abs (m + spin_out) - Z.abs (m + spin_arg)))%Z \/ Z.Odd (Z.abs spin_ncc - Z.abs (Z.abs (m + spin_out) - Z.abs (m + spin_arg))) ->
  exists M, disk_real J prefactor JA p0 cutoff N0 m spin_ncc spin_arg spin_out cos msin = Some M /\ multiplies (N0 - Z.to_nat (Z.abs m) / 2) M (fun _ _ => 0) (fun _ _ => 0).
Proof.
  intros H. unfold disk_real. assert (E : forall d, (d < 0)%Z \/ Z.Odd d -> ((0 <=? d)%Z && (d mod 2 =? 0)%Z)%bool = false).
  { intros d Hd. apply andb_false_iff. destruct Hd as [Hd|[h Eh]]; [left; apply Z.leb_gt; lia|right; apply Z.eqb_neq]. rewrite Eh, (Z.mul_comm 2 h), Z.add_comm, Z_mod_plus_full. discriminate. }
  rewrite E by (destruct H as [H|H]; [left; lia|right; exact H]). change (n_size N0 m) with (N0 - Z.to_nat (Z.abs m) / 2)%nat.
  eexists. split; [reflexivity|]. unfold multiplies. cbn [nr nc at_ zeros]. split; [lia|]. split; [lia|]. intros. rewrite Ropp_0. auto.
Qed.
Print Assumptions disk_unmatched.
Print Assumptions disk_truncation_exact.
Print Assumptions disk_truncation_refuted.

(** ** Example.  Three modes and four, of a matrix with ones beside the diagonal. *)
Definition J_beside (i j : nat) : R := if ((i =? S j) || (j =? S i))%nat then 1 else 0.
Fixpoint f_beside (Q n i j : nat) : R := match n with O => if (i =? j)%nat then 1 else 0 | S O => J_beside i j
  | S (S m as n') => CSR_Spec.total 0 Rplus Q (fun k => J_beside i k * f_beside Q n' k j) - f_beside Q m i j end.
Example disk_exact_example : (forall i j, (S i < j \/ S j < i)%nat -> J_beside i j = 0) /\ (forall k, (k + 1 < 3)%nat -> J_beside k (k + 1) <> 0)
  /\ jacobi_functions_matrix 0 Rplus Rmult 3 3 J_beside (Mat 3 3 J_beside) (f_beside 3) /\ jacobi_functions_matrix 0 Rplus Rmult 3 4 J_beside (Mat 4 4 J_beside) (f_beside 4)
  /\ J_beside (3 - 1) 3 * J_beside 3 (3 - 1) <> 0 /\ f_beside 3 2 2 2 = 0 /\ f_beside 4 2 2 2 = 1.
Proof.
  split; [intros i j H; unfold J_beside; rewrite (proj2 (Nat.eqb_neq i (S j))), (proj2 (Nat.eqb_neq j (S i))) by lia; reflexivity|].
  split; [intros [|[|k]] Hk; try lia; cbn; lra|].
  split; [intros [|[|n]] [|[|[|i]]] [|[|[|j]]] Hn Hi Hj; try lia; cbn; lra|]. split; [intros [|[|n]] [|[|[|[|i]]]] [|[|[|[|j]]]] Hn Hi Hj; try lia; cbn; lra|]. cbn. lra.
Qed.
Example disk_unmatched_example : (Z.abs 1 < Z.abs (Z.abs (3 + 2) - Z.abs (3 + 0)))%Z.
Proof. cbn. lia. Qed.
