From Coq Require Import Reals Lia Lra FunctionalExtensionality.
From stdpp Require Import list.
From Verif Require Import Multistep_Model Multistep_Spec.
Local Open Scope R_scope.

Lemma peval_deriv p t : derivable_pt_lim (peval p) t (pderiv p t).
Proof.
  induction p as [|a p IH]; simpl.
  - apply (derivable_pt_lim_const 0).
  - replace (peval p t + t * pderiv p t) with (0 + (1 * peval p t + t * pderiv p t)) by ring.
    apply (derivable_pt_lim_plus (fun _ => a) (fun t => t * peval p t)); [apply derivable_pt_lim_const|].
    apply (derivable_pt_lim_mult (fun t => t) (peval p)); [apply derivable_pt_lim_id|done].
Qed.

Lemma weighted_ext w f g : (forall j, f j = g j) -> weighted w f = weighted w g.
Proof. revert f g. induction w as [|x w IH]; intros f g H; simpl; [done|]. rewrite H. f_equal. apply IH. auto. Qed.
Lemma weighted_plus w f g : weighted w (fun j => f j + g j) = weighted w f + weighted w g.
Proof. revert f g. induction w as [|x w IH]; intros; simpl; [lra|]. rewrite (IH (fun j => f (S j))). lra. Qed.
Lemma weighted_scal w r f : weighted w (fun j => r * f j) = r * weighted w f.
Proof. revert f. induction w as [|x w IH]; intros; simpl; [lra|]. rewrite (IH (fun j => f (S j))). lra. Qed.

Lemma weighted_zero w f : (forall j, f j = 0) -> weighted w f = 0.
Proof. revert f. induction w as [|x w IH]; intros f H; simpl; [done|]. rewrite H, IH by auto. lra. Qed.

(** Moments: enough to check monomials. *)
Lemma moments_exact n a b c (T : nat -> R) :
  (forall m, (m <= n)%nat -> weighted a (fun j => T j ^ m) = weighted b (fun j => INR m * T j ^ (m - 1)) /\
                        weighted a (fun j => T j ^ m) = weighted c (fun j => INR m * T j ^ (m - 1))) ->
  forall p, (length p <= n + 1)%nat ->
  weighted a (fun j => peval p (T j)) = weighted b (fun j => pderiv p (T j)) /\
  weighted a (fun j => peval p (T j)) = weighted c (fun j => pderiv p (T j)).
Proof.
  intros H p Hp.
  assert (forall q k, (length q + k <= n + 1)%nat ->
    weighted a (fun j => T j ^ k * peval q (T j))
    = weighted b (fun j => T j ^ k * pderiv q (T j) + INR k * T j ^ (k - 1) * peval q (T j)) /\
    weighted a (fun j => T j ^ k * peval q (T j))
    = weighted c (fun j => T j ^ k * pderiv q (T j) + INR k * T j ^ (k - 1) * peval q (T j))) as G.
  { induction q as [|x q IH]; intros k Hk; simpl in *.
    - split; rewrite !weighted_zero by (intros; ring); done.
    - destruct (H k ltac:(lia)) as [H1 H2]. destruct (IH (S k) ltac:(lia)) as [I1 I2].
      assert (forall w, weighted w (fun j => T j ^ k * (x + T j * peval q (T j)))
              = x * weighted w (fun j => T j ^ k) + weighted w (fun j => T j ^ S k * peval q (T j))) as EA.
      { intros w. rewrite <- weighted_scal, <- weighted_plus. apply weighted_ext. intros. simpl. ring. }
      assert (forall w, weighted w (fun j => T j ^ k * (peval q (T j) + T j * pderiv q (T j)) + INR k * T j ^ (k - 1) * (x + T j * peval q (T j)))
              = x * weighted w (fun j => INR k * T j ^ (k - 1))
                + weighted w (fun j => T j ^ S k * pderiv q (T j) + INR (S k) * T j ^ (S k - 1) * peval q (T j))) as EB.
      { intros w. rewrite <- weighted_scal, <- weighted_plus. apply weighted_ext. intros j.
        replace (S k - 1)%nat with k by lia. rewrite S_INR. destruct k as [|k]; [simpl; ring|].
        replace (S k - 1)%nat with k by lia. simpl. ring. }
      rewrite EA, !EB, <- I1, <- I2. rewrite <- H1, <- H2. done. }
  destruct (G p 0%nat ltac:(lia)) as [G1 G2].
  rewrite !(weighted_ext _ (fun j => T j ^ 0 * peval p (T j)) (fun j => peval p (T j))) in G1 by (intros; simpl; ring).
  rewrite !(weighted_ext _ (fun j => T j ^ 0 * peval p (T j)) (fun j => peval p (T j))) in G2 by (intros; simpl; ring).
  rewrite G1 at 1. rewrite G2. split; apply weighted_ext; intros; simpl; ring.
Qed.

Ltac pos := repeat first [assumption | lra | apply Rplus_lt_0_compat | apply Rmult_lt_0_compat
  | apply Rinv_0_lt_compat | apply pow_lt | apply Rdiv_lt_0_compat].
Ltac nz := repeat split; apply Rgt_not_eq; unfold Rgt; pos.
Ltac moments := split; [unfold past; apply moments_exact; intros m Hm;
   repeat (destruct m as [|m]; [clear Hm; simpl; split; field; nz|]); exfalso; lia
  |simpl; repeat split; try (field; nz)].

Lemma CNAB1_order k0 r i : 0 < k0 ->
  exists a b c, CNAB1 (k0 :: r) i = Some (a, b, c) /\ length a = 2%nat /\ length b = 2%nat /\ length c = 2%nat /\
  exact_to_order 1 (k0 :: r) a b c.
Proof. intros H. eexists _, _, _. do 4 (split; [done|]). moments. Qed.
Lemma SBDF1_order k0 r i : 0 < k0 ->
  exists a b c, SBDF1 (k0 :: r) i = Some (a, b, c) /\ length a = 2%nat /\ length b = 2%nat /\ length c = 2%nat /\
  exact_to_order 1 (k0 :: r) a b c.
Proof. intros H. eexists _, _, _. do 4 (split; [done|]). moments. Qed.
Lemma CNAB2_order k1 k0 r i : 0 < k1 -> 0 < k0 ->
  exists a b c, CNAB2 (k1 :: k0 :: r) (S i) = Some (a, b, c) /\ length a = 3%nat /\ length b = 3%nat /\ length c = 3%nat /\
  exact_to_order 2 (k1 :: k0 :: r) a b c.
Proof. intros H1 H0. eexists _, _, _. unfold CNAB2. rewrite decide_False by lia. do 4 (split; [done|]). moments. Qed.
Lemma MCNAB2_order k1 k0 r i : 0 < k1 -> 0 < k0 ->
  exists a b c, MCNAB2 (k1 :: k0 :: r) (S i) = Some (a, b, c) /\ length a = 3%nat /\ length b = 3%nat /\ length c = 3%nat /\
  exact_to_order 2 (k1 :: k0 :: r) a b c.
Proof. intros H1 H0. eexists _, _, _. unfold MCNAB2. rewrite decide_False by lia. do 4 (split; [done|]). moments. Qed.
Lemma SBDF2_order k1 k0 r i : 0 < k1 -> 0 < k0 ->
  exists a b c, SBDF2 (k1 :: k0 :: r) (S i) = Some (a, b, c) /\ length a = 3%nat /\ length b = 3%nat /\ length c = 3%nat /\
  exact_to_order 2 (k1 :: k0 :: r) a b c.
Proof. intros H1 H0. eexists _, _, _. unfold SBDF2. rewrite decide_False by lia. do 4 (split; [done|]). moments. Qed.
Lemma CNLF2_order k1 k0 r i : 0 < k1 -> 0 < k0 ->
  exists a b c, CNLF2 (k1 :: k0 :: r) (S i) = Some (a, b, c) /\ length a = 3%nat /\ length b = 3%nat /\ length c = 3%nat /\
  exact_to_order 2 (k1 :: k0 :: r) a b c.
Proof. intros H1 H0. eexists _, _, _. unfold CNLF2. rewrite decide_False by lia. do 4 (split; [done|]). moments. Qed.
Lemma SBDF3_order k2 k1 k0 r i : 0 < k2 -> 0 < k1 -> 0 < k0 ->
  exists a b c, SBDF3 (k2 :: k1 :: k0 :: r) (S (S i)) = Some (a, b, c) /\ length a = 4%nat /\ length b = 4%nat /\ length c = 4%nat /\
  exact_to_order 3 (k2 :: k1 :: k0 :: r) a b c.
Proof. intros H2 H1 H0. eexists _, _, _. unfold SBDF3. rewrite decide_False by lia. do 4 (split; [done|]). moments. Qed.
Lemma SBDF4_order k3 k2 k1 k0 r i : 0 < k3 -> 0 < k2 -> 0 < k1 -> 0 < k0 ->
  exists a b c, SBDF4 (k3 :: k2 :: k1 :: k0 :: r) (S (S (S i))) = Some (a, b, c) /\ length a = 5%nat /\ length b = 5%nat /\ length c = 5%nat /\
  exact_to_order 4 (k3 :: k2 :: k1 :: k0 :: r) a b c.
Proof. intros H3 H2 H1 H0. eexists _, _, _. unfold SBDF4. rewrite decide_False by lia. do 4 (split; [done|]). moments. Qed.
