From Coq Require Import List Arith ZArith Reals Bool Lia Lra Field.
Import ListNotations.
From Coquelicot Require Import Complex.
From Verif Require Import MatSolvers_Model CSR_Spec MatSolvers_Spec MatSolvers_Proofs Clenshaw_Model Clenshaw_Spec Clenshaw_Proofs Clenshaw_Props BallNCC_Model BallNCC_Spec.
Local Open Scope nat_scope.

Lemma padding_large N0 ell kn ka : ball_size N0 ell <= ball_padding N0 kn ka.
Proof. unfold ball_size, ball_padding. cbv zeta. pose proof (Nat.div_mod (N0 + 1) 2 ltac:(lia)). pose proof (Nat.mod_upper_bound (N0 + 1) 2 ltac:(lia)). lia. Qed.

Section Numbers.
Context {K : Type} (k0 k1 : K) (kadd kmul ksub kdiv : K -> K -> K) (kopp kinv : K -> K) (mag : K -> R).
Context (Hf : field_theory k0 k1 kadd kmul ksub kopp kdiv kinv eq).
Add Field Kf : Hf.
Lemma ball_entries (J radial conversion : mat K) JA p0 cutoff N0 P N c f : N <= P -> square P J -> square P radial -> square P conversion ->
  (forall k, k + 1 < N0 -> JA k (k + 1) <> k0) -> jacobi_functions_matrix k0 kadd kmul N0 P JA J f ->
  (forall i j, i < P -> j < P -> f 0 i j = if i =? j then p0 else k0) ->
  exists M, ball_matrix k0 k1 kadd kmul ksub kdiv kopp mag J JA p0 cutoff radial conversion N0 P N c = Some M /\ square N M
  /\ forall i j, i < N -> j < N -> at_ M i j = multiplied k0 kadd kmul (at_ conversion) (at_ radial) P N0 (fun n => kept k0 (mag (c n)) cutoff (c n)) f i j.
Proof.
  intros HP HJ [Rr Rc] [Er Ec] HA HF H0. unfold ball_matrix. set (f0 := mscale kmul p0 (identity k0 k1 P)).
  pose proof (clenshaw_jacobi k0 k1 kadd kmul ksub kdiv kopp kinv mag Hf N0 JA P J f0 N0 c cutoff f (le_n N0) HJ) as CJ.
  destruct (jacobi_recursion k0 k1 kmul ksub kdiv kopp N0 JA J) as [A B]. destruct CJ as (T & ET & [Tr Tc] & HT).
  - split; reflexivity.
  - intros i j Hi Hj. unfold applied. rewrite (total_single k0 k1 kadd kmul ksub kdiv kopp kinv Hf P j) by (exact Hj || (intros h Hh Hne; cbn [f0 mscale identity at_]; destruct (Nat.eqb_spec h j); [congruence|ring])).
    rewrite (total_single k0 k1 kadd kmul ksub kdiv kopp kinv Hf P i) by (exact Hi || (intros h Hh Hne; cbn [f0 mscale identity at_]; destruct (Nat.eqb_spec i h); [congruence|ring])).
    cbn [f0 mscale identity at_]. rewrite !Nat.eqb_refl. ring.
  - exact HA.
  - exact HF.
  - intros i j Hi Hj. rewrite H0 by assumption. cbn [f0 mscale identity at_]. destruct (i =? j); ring.
  - rewrite ET. eexists. split; [reflexivity|]. unfold get, bounds, square. cbn [fst snd nr nc mmul at_ Nat.max]. rewrite Er, Tc, MatSolvers_Proofs.clip_pos by exact HP. rewrite !Nat.sub_0_r. split; [split; reflexivity|].
    intros i j Hi Hj. rewrite !Nat.add_0_l, Rc, Ec. change (msum k0 kadd) with (CSR_Spec.total k0 kadd). unfold multiplied.
    apply (total_ext k0 k1 kadd kmul ksub kdiv kopp kinv Hf). intros k Hk. rewrite HT by lia. reflexivity.
Qed.
End Numbers.

(** ** The padding *)
From Verif Require DiskNCC_Proofs.
Local Open Scope R_scope.
Notation rtotal := (CSR_Spec.total 0 Rplus).
Lemma total_cut P P' g : (P <= P')%nat -> (forall k, (P <= k < P')%nat -> g k = 0) -> rtotal P' g = rtotal P g.
Proof.
  intros H Hg. replace P' with (P + (P' - P))%nat by lia. unfold CSR_Spec.total. rewrite seq_app, fold_right_app. f_equal. rewrite Nat.add_0_l.
  assert (X : forall k, In k (seq P (P' - P)) -> g k = 0) by (intros k Hk; apply in_seq in Hk; apply Hg; lia). clear -X.
  induction (seq P (P' - P)) as [|x l IH]; cbn; [reflexivity|]. rewrite (X x), IH; cbn; auto; [ring|]. intros; apply X; cbn; auto.
Qed.
Lemma total_zero n g : (forall k, (k < n)%nat -> g k = 0) -> rtotal n g = 0.
Proof. intros H. rewrite (total_cut 0 n g) by (try lia; intros; apply H; lia). reflexivity. Qed.
Section Padding.
Context (J JA : nat -> nat -> R) (p0 : R) (N0 : nat).
Context (HJ : forall i j, (S i < j \/ S j < i)%nat -> J i j = 0) (HA : forall k, (k + 1 < N0)%nat -> JA k (k + 1)%nat <> 0).
Definition polynomials_of (Q : nat) (f : nat -> nat -> nat -> R) : Prop :=
  jacobi_functions_matrix 0 Rplus Rmult N0 Q JA (Mat Q Q J) f /\ forall i j, (i < Q)%nat -> (j < Q)%nat -> f 0%nat i j = if (i =? j)%nat then p0 else 0.
Lemma next Q f n i j : polynomials_of Q f -> (n + 1 < N0)%nat -> (i < Q)%nat -> (j < Q)%nat ->
  f (S n) i j = (rtotal Q (fun k => J i k * f n k j) - below 0 Rmult JA (fun n => f n i j) n - JA n n * f n i j) / JA n (n + 1)%nat.
Proof using HA.
  intros [H _] Hn Hi Hj. specialize (H n i j Hn Hi Hj). unfold applied in H. cbn [at_] in H. rewrite H, !Nat.add_1_r. field. rewrite <- Nat.add_1_r. apply HA, Hn.
Qed.
Lemma band Q f : polynomials_of Q f -> forall n, (n < N0)%nat -> forall i j, (i < Q)%nat -> (j < Q)%nat -> (j + n < i)%nat -> f n i j = 0.
Proof using HJ HA.
  intros H. induction n as [n IH] using lt_wf_ind. intros Hn i j Hi Hj Hij. destruct n as [|n].
  - rewrite (proj2 H) by assumption. rewrite (proj2 (Nat.eqb_neq i j)) by lia. reflexivity.
  - rewrite (next Q f n i j H) by (assumption || lia). rewrite total_zero by (intros k Hk; destruct (Nat.lt_ge_cases (S k) i); [rewrite HJ by lia; ring|rewrite (IH n) by lia; ring]).
    rewrite (IH n) by lia.
    assert (Z : below 0 Rmult JA (fun n => f n i j) n = 0) by (destruct n as [|m]; cbn [below]; [reflexivity|rewrite (IH m) by lia; ring]).
    rewrite Z. unfold Rdiv. ring.
Qed.
Lemma same P P' f f' : (P <= P')%nat -> polynomials_of P f -> polynomials_of P' f' -> forall n, (n < N0)%nat -> forall i j, (i < P)%nat -> (j < P)%nat -> (i + j + n < P + P)%nat -> f n i j = f' n i j.
Proof using HJ HA.
  intros HP H H'. induction n as [n IH] using lt_wf_ind. intros Hn i j Hi Hj Hs. destruct n as [|n].
  - rewrite (proj2 H), (proj2 H') by (assumption || lia). reflexivity.
  - rewrite (next P f n i j H), (next P' f' n i j H') by (assumption || lia).
    rewrite (total_cut P P' (fun k => J i k * f' n k j) HP).
    + rewrite (DiskNCC_Proofs.total_ext P (fun k => J i k * f n k j) (fun k => J i k * f' n k j)).
      * rewrite (IH n) by lia. do 3 f_equal. destruct n as [|m]; cbn [below]; [reflexivity|]. rewrite (IH m) by lia. reflexivity.
      * intros k Hk. destruct (Nat.lt_ge_cases (S i) k); [rewrite HJ by lia; ring|]. rewrite (IH n) by lia. reflexivity.
    + intros k Hk. destruct (Nat.lt_ge_cases (S i) k); [rewrite HJ by lia; ring|]. rewrite (band P' f' H' n) by lia. ring.
Qed.
Lemma padding_exact (conv rad : nat -> nat -> R) we wr c P P' f f' : (forall i j, (i + we < j)%nat -> conv i j = 0) -> (forall i j, (i + wr < j)%nat -> rad i j = 0) ->
  (N0 + N0 + N0 + we + wr < P + P + 3)%nat -> (N0 + we <= P)%nat -> (P <= P')%nat -> polynomials_of P f -> polynomials_of P' f' ->
  forall i j, (i < N0)%nat -> (j < N0)%nat -> multiplied 0 Rplus Rmult conv rad P N0 c f i j = multiplied 0 Rplus Rmult conv rad P' N0 c f' i j.
Proof using HJ HA.
  intros He Hr Hw Hq HP H H' i j Hi Hj. unfold multiplied.
  assert (L : forall k, rtotal P' (fun l => conv i l * rad l k) = rtotal P (fun l => conv i l * rad l k)) by (intros k; apply total_cut; [exact HP|]; intros l Hl; rewrite He by lia; ring).
  assert (Z : forall k, (i + we + wr < k)%nat -> rtotal P (fun l => conv i l * rad l k) = 0).
  { intros k Hk. apply total_zero. intros l Hl. destruct (Nat.lt_ge_cases (i + we) l); [rewrite He by lia; ring|rewrite Hr by lia; ring]. }
  rewrite (total_cut P P' _ HP).
  - apply DiskNCC_Proofs.total_ext. intros k Hk. rewrite L. destruct (Nat.lt_ge_cases (i + we + wr) k); [rewrite Z by lia; ring|]. f_equal. apply DiskNCC_Proofs.total_ext. intros n Hn. rewrite (same P P' f f' HP H H' n) by lia. reflexivity.
  - intros k Hk. rewrite L. destruct (Nat.lt_ge_cases (i + we + wr) k); [rewrite Z by lia; ring|].
    rewrite (total_zero N0); [ring|]. intros n Hn. rewrite (band P' f' H' n) by lia. ring.
Qed.
End Padding.
