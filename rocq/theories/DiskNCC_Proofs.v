From Coq Require Import List Arith ZArith Reals Bool Lia Lra.
Import ListNotations.
From Verif Require Import MatSolvers_Model CSR_Spec MatSolvers_Spec Clenshaw_Model Clenshaw_Spec Clenshaw_Proofs Clenshaw_Props ShellNCC_Model JacobiNCC_Spec DiskNCC_Model DiskNCC_Spec.
Local Open Scope R_scope.

(** Spins that add up always meet the condition of the code. *)
Lemma spins_meet m sn sa : let d := (Z.abs sn - Z.abs (Z.abs (m + (sn + sa)) - Z.abs (m + sa)))%Z in ((0 <=? d)%Z && (d mod 2 =? 0)%Z)%bool = true.
Proof.
  intros d. apply andb_true_intro. split; [apply Z.leb_le; unfold d; lia|]. apply Z.eqb_eq. unfold d. clear d.
  set (x := (m + sa)%Z). replace (m + (sn + sa))%Z with (x + sn)%Z by (unfold x; lia). generalize x. clear x. intros x.
  assert (exists k, (Z.abs sn - Z.abs (Z.abs (x + sn) - Z.abs x) = 2 * k)%Z) as (k & ->).
  { destruct (Z.abs_spec sn) as [[_ E1]|[_ E1]], (Z.abs_spec (x + sn)) as [[_ E2]|[_ E2]], (Z.abs_spec x) as [[_ E3]|[_ E3]], (Z.abs_spec (Z.abs (x + sn) - Z.abs x)) as [[_ E4]|[_ E4]];
    rewrite E1, E4, E2, E3;
    solve [exists 0%Z; lia|exists sn; lia|exists (- sn)%Z; lia|exists x; lia|exists (- x)%Z; lia|exists (x + sn)%Z; lia|exists (- x - sn)%Z; lia]. }
  rewrite Z.mul_comm. apply Z_mod_mult.
Qed.
Lemma total_ext n f g : (forall k, (k < n)%nat -> f k = g k) -> CSR_Spec.total 0 Rplus n f = CSR_Spec.total 0 Rplus n g.
Proof.
  intros H. unfold CSR_Spec.total. assert (X : forall k, In k (seq 0 n) -> f k = g k) by (intros k Hk; apply in_seq in Hk; apply H; lia). clear H.
  induction (seq 0 n) as [|x l IH]; cbn; [reflexivity|]. rewrite (X x), IH; cbn; auto. intros; apply X; cbn; auto.
Qed.
Lemma multiplication_ext p N cutoff c c' f i j : (forall k, (k < N)%nat -> c k = c' k) -> multiplication p N cutoff c f i j = multiplication p N cutoff c' f i j.
Proof. intros H. unfold multiplication. apply total_ext. intros k Hk. f_equal. apply total_ext. intros n Hn. rewrite H; auto. Qed.

Section Disk.
Context (J prefactor : mat R) (JA : nat -> nat -> R) (p0 cutoff : R) (N : nat) (f : nat -> nat -> nat -> R).
Context (HJ : square N J) (Hp : square N prefactor) (HA : forall k, (k + 1 < N)%nat -> JA k (k + 1)%nat <> 0).
Context (Hf : jacobi_functions_matrix 0 Rplus Rmult N N JA J f) (H0 : forall i j, (i < N)%nat -> (j < N)%nat -> f 0%nat i j = if (i =? j)%nat then p0 else 0).

Lemma total_pick n (g : nat -> R) x : (x < n)%nat -> (forall k, k <> x -> g k = 0) -> CSR_Spec.total 0 Rplus n g = g x.
Proof using.
  unfold CSR_Spec.total. intros Hx Hg. enough (X : forall s l, fold_right (fun j a => g j + a) 0 (seq s l) = if ((s <=? x) && (x <? s + l))%nat%bool then g x else 0).
  { specialize (X 0%nat n). rewrite (proj2 (Nat.ltb_lt x (0 + n)) Hx) in X. exact X. }
  intros s l. revert s. induction l as [|l IH]; intros s; cbn [seq fold_right].
  - destruct (Nat.leb_spec s x), (Nat.ltb_spec x (s + 0)); cbn; try reflexivity; lia.
  - rewrite IH. destruct (Nat.eq_dec s x) as [->|E].
    + rewrite (proj2 (Nat.leb_le x x) (le_n x)), (proj2 (Nat.leb_gt (S x) x) ltac:(lia)), (proj2 (Nat.ltb_lt x (x + S l)) ltac:(lia)). cbn. ring.
    + rewrite (Hg s E). destruct (Nat.leb_spec s x), (Nat.leb_spec (S s) x), (Nat.ltb_spec x (s + S l)), (Nat.ltb_spec x (S s + l)); cbn; try ring; lia.
Qed.
Lemma p0_commutes : commute 0 Rplus Rmult N J (mscale Rmult p0 (identity 0 1 N)).
Proof using.
  intros i j Hi Hj. unfold applied. cbn [at_ mscale identity].
  rewrite (total_pick N _ j Hj), (total_pick N _ i Hi); [rewrite !Nat.eqb_refl; ring|..]; intros k Hk.
  - rewrite (proj2 (Nat.eqb_neq i k) ltac:(auto)). ring.
  - rewrite (proj2 (Nat.eqb_neq k j) Hk). ring.
Qed.
Lemma disk_matrix_entries c : exists M, disk_matrix J prefactor JA p0 cutoff N c = Some M /\ square N M
  /\ forall i j, (i < N)%nat -> (j < N)%nat -> at_ M i j = multiplication (at_ prefactor) N cutoff c f i j.
Proof.
  assert (Hi : square N (mscale Rmult p0 (identity 0 1 N))) by (split; reflexivity).
  assert (E0 : forall i j, (i < N)%nat -> (j < N)%nat -> f 0%nat i j = at_ (mscale Rmult p0 (identity 0 1 N)) i j) by (intros i j Hi' Hj; rewrite H0 by assumption; cbn; destruct (i =? j)%nat; ring).
  pose proof (clenshaw_jacobi 0 1 Rplus Rmult Rminus Rdiv Ropp Rinv Rabs Rfield N JA N J _ N c cutoff f (le_n N) HJ Hi p0_commutes HA Hf E0) as X.
  unfold disk_matrix. destruct (jacobi_recursion _ _ _ _ _ _ N JA J) as [A B]. destruct X as (S & -> & (Sr & Sc) & HS).
  destruct Hp as [Pr Pc]. eexists. split; [reflexivity|]. split; [split; assumption|]. intros i j Hi' Hj. cbn [at_ mmul]. rewrite Pc.
  change (CSR_Spec.total 0 Rplus N (fun k => at_ prefactor i k * at_ S k j) = multiplication (at_ prefactor) N cutoff c f i j).
  apply total_ext. intros k Hk. rewrite HS by assumption. reflexivity.
Qed.
Lemma disk_real_entries N0 m sn sa cos msin : n_size N0 m = N -> exists M, disk_real J prefactor JA p0 cutoff N0 m sn sa (sn + sa) cos msin = Some M
  /\ multiplies N M (multiplication (at_ prefactor) N cutoff (ravel N0 cos msin) f) (multiplication (at_ prefactor) N cutoff (from N (ravel N0 cos msin)) f).
Proof.
  intros EN. unfold disk_real. rewrite EN, spins_meet.
  destruct (disk_matrix_entries (ravel N0 cos msin)) as (Mc & Ec & (Cr & Cc) & HC). destruct (disk_matrix_entries (from N (ravel N0 cos msin))) as (Ms & Es & (Sr & Sc) & HS).
  rewrite Ec, Es. eexists. split; [reflexivity|]. unfold multiplies, bmat. cbn [nr nc at_]. rewrite Cr, Cc, Sr, Sc. split; [reflexivity|]. split; [reflexivity|]. intros i j Hi Hj.
  rewrite (proj2 (Nat.ltb_lt i N) Hi), (proj2 (Nat.ltb_lt j N) Hj), (proj2 (Nat.ltb_ge (N + i) N) ltac:(lia)), (proj2 (Nat.ltb_ge (N + j) N) ltac:(lia)).
  rewrite !(Nat.add_comm N), !Nat.add_sub, HC, HS by assumption. auto.
Qed.
End Disk.
Lemma total_0 n : CSR_Spec.total 0 Rplus n (fun _ => 0) = 0.
Proof. unfold CSR_Spec.total. induction (seq 0 n) as [|x l IH]; cbn; [reflexivity|]. rewrite IH. ring. Qed.
Lemma significant_0 cutoff : significant cutoff 0 = 0.
Proof. unfold significant. destruct (Rlt_dec _ _); reflexivity. Qed.
Lemma multiplication_zero p N cutoff f i j : multiplication p N cutoff (fun _ => 0) f i j = 0.
Proof.
  unfold multiplication. rewrite (total_ext N _ (fun _ => 0)); [apply total_0|]. intros k _.
  rewrite (total_ext N _ (fun _ => 0)); [rewrite total_0; ring|]. intros n _. rewrite significant_0. ring.
Qed.
Lemma multiplication_first N (HN : (1 <= N)%nat) p0 cutoff p (f : nat -> nat -> nat -> R) : (forall i j, (i < N)%nat -> (j < N)%nat -> f 0%nat i j = if (i =? j)%nat then p0 else 0) -> cutoff < 1 ->
  multiplication p N cutoff (mode 0) f 0 0 = p 0%nat 0%nat * p0.
Proof.
  intros H0 Hc. unfold multiplication. rewrite (total_ext N _ (fun k => p 0%nat k * (if (k =? 0)%nat then p0 else 0))).
  - rewrite (total_pick N _ 0%nat ltac:(lia)); [reflexivity|]. intros k Hk. rewrite (proj2 (Nat.eqb_neq k 0) Hk). ring.
  - intros k Hk. f_equal. rewrite (total_pick N _ 0%nat ltac:(lia)).
    + unfold mode. cbn [Nat.eqb]. unfold significant. rewrite Rabs_R1. destruct (Rlt_dec cutoff 1); [|contradiction]. rewrite H0 by lia. ring.
    + intros n Hn. unfold mode. rewrite (proj2 (Nat.eqb_neq n 0) Hn), significant_0. ring.
Qed.
