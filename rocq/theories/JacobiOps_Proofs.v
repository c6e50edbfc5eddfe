(** Proofs about [JacobiOps_Model]. *)
From Coq Require Import List ZArith Reals Bool Lia Lra String.
From Coquelicot Require Import Coquelicot.
Import ListNotations.
From Verif Require Import CSR_Spec CSR_Proofs MatSolvers_Model MatSolvers_Proofs Clenshaw_Model Codomain_Model Codomain_Proofs JacobiCalc_Model JacobiCalc_Spec JacobiCalc_Proofs JacobiCalc_Ops JacobiCalc_Props AffineCOV_Model FourierCalc_Model JacobiOps_Model JacobiOps_Spec.
Local Open Scope R_scope.
Notation total := (CSR_Spec.total 0 Rplus).

Lemma Rtotal_swap n m f : total n (fun i => total m (fun j => f i j)) = total m (fun j => total n (fun i => f i j)).
Proof.
  induction n as [|n IH].
  - change (total 0 _) with 0. symmetry. apply Rtotal_zero. reflexivity.
  - rewrite Rtotal_S, IH, <- Rtotal_add. apply Rtotal_ext. intros j _. rewrite Rtotal_S. reflexivity.
Qed.
(** A linear map on functions, given on the modes. *)
Lemma image_series n m (M : nat -> nat -> R) u (g : nat -> R) (h : nat -> R) : (forall j, (j < n)%nat -> h j = total m (fun i => M i j * g i)) ->
  total m (fun i => image n M u i * g i) = total n (fun j => u j * h j).
Proof.
  intros H. unfold image. rewrite (Rtotal_ext m _ (fun i => total n (fun j => u j * (M i j * g i)))).
  - rewrite Rtotal_swap. apply Rtotal_ext. intros j Hj. rewrite Rtotal_scale, <- H by exact Hj. reflexivity.
  - intros i _. rewrite Rmult_comm, <- Rtotal_scale. apply Rtotal_ext. intros j _. ring.
Qed.
Lemma total_abs n f : Rabs (total n f) <= total n (fun j => Rabs (f j)).
Proof.
  induction n as [|n IH]; [change (total 0 _) with 0; change (total 0 _) with 0; rewrite Rabs_R0; lra|]. rewrite !Rtotal_S. eapply Rle_trans; [apply Rabs_triang|]. lra.
Qed.
Lemma total_le n f g : (forall j, (j < n)%nat -> f j <= g j) -> total n f <= total n g.
Proof. intros H. induction n as [|n IH]; [change (total 0 _) with 0; change (total 0 _) with 0; lra|]. rewrite !Rtotal_S. apply Rplus_le_compat; [apply IH; intros j Hj; apply H; lia|apply H; lia]. Qed.

Lemma jcov_some N a b l r : jcov (Jb N a b (l, r)) = Some (Cov (-1) 1 2 0 l r (r - l) ((l + r) / 2) ((r - l) / 2)).
Proof.
  unfold jcov, jacobi_bounds. cbn [bbounds affine_cov]. unfold pydiv. replace (1 - -1) with 2 by ring. destruct (Req_EM_T 2 0); [lra|]. replace (-1 + 1) with 0 by ring. replace (0 / 2) with 0 by field. reflexivity.
Qed.
Lemma scaled_derive l r x : l <> r -> is_derive (scaled l r) x (2 / (r - l)).
Proof. intros H. unfold scaled. auto_derive; [trivial|]. field. lra. Qed.

Lemma total_derive n (f : nat -> R -> R) x d : (forall j, (j < n)%nat -> is_derive (f j) x (d j)) -> is_derive (fun t => total n (fun j => f j t)) x (total n d).
Proof.
  induction n as [|n IH]; intros H.
  - exact (is_derive_const 0 x).
  - rewrite Rtotal_S. apply (is_derive_ext (fun t => total n (fun j => f j t) + f n t)); [intros t; rewrite Rtotal_S; reflexivity|]. apply (is_derive_plus (fun t => total n (fun j => f j t)) (f n)); [apply IH; intros j Hj; apply H; lia|apply H; lia].
Qed.
Lemma total_integral n (f : nat -> R -> R) l r v : (forall j, (j < n)%nat -> is_RInt (f j) l r (v j)) -> is_RInt (fun t => total n (fun j => f j t)) l r (total n v).
Proof.
  induction n as [|n IH]; intros H.
  - change (total 0 v) with 0. pose proof (is_RInt_const l r (0:R)) as E. change (scal (r - l) 0) with ((r - l) * 0) in E. rewrite Rmult_0_r in E. exact E.
  - rewrite Rtotal_S. apply (is_RInt_ext (fun t => total n (fun j => f j t) + f n t)); [intros t _; rewrite Rtotal_S; reflexivity|]. apply (is_RInt_plus (fun t => total n (fun j => f j t)) (f n)); [apply IH; intros j Hj; apply H; lia|apply H; lia].
Qed.

Section Mass.
Context (mass : R -> R -> R) (Hm : mass_rules mass).
Lemma unit_derivable n a b z : ex_derive (unit_polynomial mass n a b) z.
Proof. eexists. exact (fam_derive mass true 0 a b n z). Qed.
Lemma unit_integrable n a b : ex_RInt (unit_polynomial mass n a b) (-1) 1.
Proof. apply (@ex_RInt_continuous R_CompleteNormedModule). intros z _. apply (@ex_derive_continuous R_AbsRing R_NormedModule). apply unit_derivable. Qed.
Lemma unit_integral n a b l r : l <> r -> is_RInt (fun x => unit_polynomial mass n a b (scaled l r x)) l r ((r - l) / 2 * RInt (unit_polynomial mass n a b) (-1) 1).
Proof.
  intros H. set (f := unit_polynomial mass n a b). assert (E : forall x, scaled l r x = 2 / (r - l) * x + (- (2 * l / (r - l)) - 1)) by (intros x; unfold scaled; field; lra).
  assert (E1 : 2 / (r - l) * l + (- (2 * l / (r - l)) - 1) = -1) by (field; lra). assert (E2 : 2 / (r - l) * r + (- (2 * l / (r - l)) - 1) = 1) by (field; lra).
  pose proof (is_RInt_comp_lin f (2 / (r - l)) (- (2 * l / (r - l)) - 1) l r (RInt f (-1) 1)) as K. rewrite E1, E2 in K. specialize (K (RInt_correct f (-1) 1 (unit_integrable n a b))).
  apply (is_RInt_scal _ l r ((r - l) / 2)) in K. eapply is_RInt_ext; [|exact K]. intros x _. cbn beta. rewrite E. unfold scal; cbn [Hierarchy.scal]. unfold mult; cbn. field. lra.
Qed.
Lemma series_derive N a b l r u x d : l <> r -> (forall j, (j < N)%nat -> is_derive (unit_polynomial mass j a b) (scaled l r x) (d j)) ->
  is_derive (series mass N a b l r u) x (2 / (r - l) * total N (fun j => u j * d j)).
Proof.
  intros Hlr Hd. rewrite <- Rtotal_scale. unfold series. apply (total_derive N (fun j t => u j * unit_polynomial mass j a b (scaled l r t))). intros j Hj.
  replace (2 / (r - l) * (u j * d j)) with (u j * (2 / (r - l) * d j)) by ring. apply (is_derive_scal (fun t => unit_polynomial mass j a b (scaled l r t)) x (u j)).
  apply (is_derive_comp (unit_polynomial mass j a b) (scaled l r) x (d j) (2 / (r - l))); [apply Hd; exact Hj|apply scaled_derive; exact Hlr].
Qed.
Lemma series_integral N a b l r u : l <> r -> is_RInt (series mass N a b l r u) l r (total N (fun j => u j * ((r - l) / 2 * RInt (unit_polynomial mass j a b) (-1) 1))).
Proof. intros H. unfold series. apply (total_integral N (fun j t => u j * unit_polynomial mass j a b (scaled l r t))). intros j _. apply (is_RInt_scal (fun t => unit_polynomial mass j a b (scaled l r t)) l r (u j)), unit_integral, H. Qed.
End Mass.

(** ** Kronecker products with identities *)
Lemma skron_entry (A B : mat R) i i' j j' : (i' < nr B)%nat -> (j' < nc B)%nat -> at_ (skron Rmult A B) (i * nr B + i') (j * nc B + j') = at_ A i j * at_ B i' j'.
Proof. intros Hi Hj. cbn [skron at_]. rewrite !Nat.div_add_l, !(Nat.add_comm (_ * _) _), !Nat.mod_add, !Nat.div_small, !Nat.mod_small, !Nat.add_0_r by lia. reflexivity. Qed.
Lemma total_block n m f : total (n * m) f = total n (fun i => total m (fun j => f (i * m + j)%nat)).
Proof.
  induction n as [|n IH]; [reflexivity|]. rewrite Rtotal_S, <- IH. replace (S n * m)%nat with (n * m + m)%nat by lia. clear IH. induction m as [|m IH] in |- *.
  - rewrite Nat.add_0_r. change (total 0 _) with 0. ring.
  - generalize (n * S m)%nat. clear IH. intros k. induction (S m) as [|p IHp]; [rewrite Nat.add_0_r; change (total 0 _) with 0; ring|]. rewrite Nat.add_succ_r, !Rtotal_S, IHp. ring.
Qed.
Lemma image_ext n M M' u u' i i' : (forall j, (j < n)%nat -> M i j = M' i' j /\ u j = u' j) -> image n M u i = image n M' u' i'.
Proof. intros H. apply Rtotal_ext. intros j Hj. destruct (H j Hj) as [-> ->]. reflexivity. Qed.
Lemma before_image k (M : mat R) u p i : (p < k)%nat -> (i < nr M)%nat ->
  image (k * nc M) (at_ (skron Rmult (identity 0 1 k) M)) u (p * nr M + i) = image (nc M) (at_ M) (fun j => u (p * nc M + j)%nat) i.
Proof.
  intros Hp Hi. unfold image. rewrite total_block. rewrite (Rtotal_single k p) by (exact Hp || (intros j Hj Hne; apply Rtotal_zero; intros j' Hj'; rewrite skron_entry by assumption; cbn [identity at_]; destruct (Nat.eqb_spec p j); [congruence|ring])).
  apply Rtotal_ext. intros j Hj. rewrite skron_entry by assumption. cbn [identity at_]. rewrite Nat.eqb_refl. ring.
Qed.
Lemma after_image k (M : mat R) u i q : (i < nr M)%nat -> (q < k)%nat ->
  image (nc M * k) (at_ (skron Rmult M (identity 0 1 k))) u (i * k + q) = image (nc M) (at_ M) (fun j => u (j * k + q)%nat) i.
Proof.
  intros Hi Hq. unfold image. rewrite total_block. apply Rtotal_ext. intros j Hj. pose proof (skron_entry M (identity 0 1 k) i q j) as E. cbn [identity nr nc at_] in E.
  rewrite (Rtotal_single k q) by (exact Hq || (intros j' Hj' Hne; rewrite E by assumption; destruct (Nat.eqb_spec q j'); [congruence|ring])). rewrite E by assumption. rewrite Nat.eqb_refl. ring.
Qed.
