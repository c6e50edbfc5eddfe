(** Products with the cosine of the colatitude: proofs. *)
From Coq Require Import List ZArith Reals Bool Lia Lra.
Import ListNotations.
From Verif Require Import CSR_Spec MatSolvers_Model MatSolvers_Proofs Codomain_Model Codomain_Proofs JacobiCalc_Model JacobiCalc_Spec JacobiCalc_Proofs JacobiCalc_Ops JacobiCalc_Props Radial_Model Integrals_Proofs Sphere_Model Sphere_Spec Sphere_Proofs Sphere_Props Harmonics_Model Harmonics_Spec Cosine_Model Cosine_Spec.
Local Open Scope R_scope.

Section Mass.
Context (mass : R -> R -> R) (Hm : true_mass mass).
Notation Y := (harmonic mass).
Notation total := (CSR_Spec.total 0 Rplus).

(** ** The matrix *)
Lemma cosine_matrix_some L m s : (Z.abs m <= Z.of_nat L)%Z -> (Z.abs s <= Z.of_nat L)%Z ->
  exists A J, cosine_matrix (Z.of_nat L) m s = Some A /\ nr A = Z.to_nat (Z.of_nat L + 1 - Z.abs m) /\ nc A = nr A
  /\ (forall i j, (i < nr A)%nat -> (j < nr A)%nat -> let o := Z.to_nat (lowest m s - Z.abs m) in at_ A i j = if ((i <? o) || (j <? o))%nat then 0 else at_ J (i - o) (j - o))
  /\ let N := Z.to_nat (Z.of_nat L + 1 - lowest m s) in let a := INR (Z.abs_nat (m + s)) in let b := INR (Z.abs_nat (m - s)) in
     (forall i j, (i < N)%nat -> (j < N)%nat -> at_ J i j = at_ J j i)
  /\ (forall j z, (S j < N)%nat -> z * unit_polynomial mass j a b z = total N (fun i => at_ J i j * unit_polynomial mass i a b z))
  /\ exists c, 0 < c /\ forall z, z * unit_polynomial mass (N - 1) a b z = total N (fun i => at_ J i (N - 1) * unit_polynomial mass i a b z) + c * unit_polynomial mass N a b z.
Proof.
  intros H1 H2. set (N := Z.to_nat (Z.of_nat L + 1 - lowest m s)). set (a := INR (Z.abs_nat (m + s))). set (b := INR (Z.abs_nat (m - s))).
  assert (HN : (1 <= N)%nat) by (unfold N, lowest; lia). assert (Ha : -1 < a) by (unfold a; pose proof (pos_INR (Z.abs_nat (m + s))); lra). assert (Hb : -1 < b) by (unfold b; pose proof (pos_INR (Z.abs_nat (m - s))); lra).
  destruct (jacobi_matrix_value mass (proj1 Hm) N a b HN Ha Hb) as (J & EJ & Hr & Hc & HJ). unfold jacobi_matrix in EJ. unfold cosine_matrix, spin2Jacobi. cbn iota beta.
  destruct (Z_op true) as [o|] eqn:EZ; [|discriminate]. unfold obind at 1.
  replace (Z.of_nat L + 1 - Z.max (Z.abs m) (Z.abs s))%Z with (Z.of_nat N) by (unfold N, lowest in *; lia). replace (IZR (Z.abs (m + s))) with a by (unfold a; rewrite INR_IZR_INZ, Zabs2Nat.id_abs; reflexivity). replace (IZR (Z.abs (m - s))) with b by (unfold b; rewrite INR_IZR_INZ, Zabs2Nat.id_abs; reflexivity).
  unfold squared. destruct (fn o (Z.of_nat N, a, b)) as [M|] eqn:EM; [|discriminate]. injection EJ as <-. cbn [obind]. eexists. exists (square M). split; [reflexivity|].
  destruct (Z.ltb_spec 0 (Z.abs s - Z.abs m)) as [H|H].
  - cbn [zero_block_first nr nc at_]. rewrite Hr, Hc. split; [unfold N, lowest; lia|]. split; [reflexivity|]. split; [|exact HJ].
    intros i j Hi Hj. replace (Z.to_nat (lowest m s - Z.abs m)) with (Z.to_nat (Z.abs s - Z.abs m)) by (unfold lowest; lia). reflexivity.
  - rewrite Hr, Hc. split; [unfold N, lowest; lia|]. split; [reflexivity|]. split; [|exact HJ]. intros i j Hi Hj. replace (Z.to_nat (lowest m s - Z.abs m)) with O by (unfold lowest; lia). cbv zeta. cbn [Nat.ltb Nat.leb orb]. rewrite !Nat.sub_0_r. reflexivity.
Qed.
Lemma cosine_matrix_none L m s : (Z.of_nat L < Z.abs s)%Z -> cosine_matrix (Z.of_nat L) m s = None.
Proof.
  intros H. unfold cosine_matrix, spin2Jacobi. cbn iota beta. destruct (Z_op_some true) as (c & _ & _ & _ & _ & ->). unfold obind at 1. unfold squared. set (x := (_, IZR (Z.abs (m + s)), IZR (Z.abs (m - s)))).
  assert (E : fn (oneg (omatmul (A_op true (-1)) (A_op true 1))) x = None).
  { unfold oneg, oscale, omatmul. cbn [fn]. destruct (jcall _ x) as [y|]; [|reflexivity]. replace (fn (A_op true 1) x) with (@None (mat R)); [destruct (fn (A_op true (-1)) y); reflexivity|]. unfold x. cbn [A_op fn A_fn]. destruct (Z.leb_spec (Z.of_nat L + 1 - Z.max (Z.abs m) (Z.abs s)) 0); [reflexivity|lia]. }
  unfold odiv, oscale. cbn [fn]. rewrite E. destruct (fn (omatmul (B_op true (-1)) (B_op true 1)) x); reflexivity.
Qed.
(** The matrix on coefficients. *)
Lemma sum_tail m s L c z : (lowest m s <= Z.of_nat L)%Z -> harmonic_sum mass m s (L + 1) c z = total (Z.to_nat (Z.of_nat L + 1 - lowest m s)) (fun k => c (Z.to_nat (lowest m s) + k)%nat * Y m s (lowest m s + Z.of_nat k) z).
Proof.
  intros H. assert (Hp : (0 <= lowest m s)%Z) by (unfold lowest; lia). unfold harmonic_sum. replace (L + 1)%nat with (Z.to_nat (lowest m s) + Z.to_nat (Z.of_nat L + 1 - lowest m s))%nat by lia. rewrite (total_tail 0 1 Rplus Rmult Rminus Rdiv Ropp Rinv Rf).
  - apply Rtotal_ext. intros k Hk. rewrite (proj2 (Z.leb_le _ _)) by lia. do 2 f_equal. lia.
  - intros j Hj. destruct (Z.leb_spec (lowest m s) (Z.of_nat j)); [lia|reflexivity].
Qed.
Lemma matrix_product L m s A c c' : (Z.abs m <= Z.of_nat L)%Z -> (Z.abs s <= Z.of_nat L)%Z -> cosine_matrix (Z.of_nat L) m s = Some A ->
  (forall i, (i < nr A)%nat -> c' (Z.to_nat (Z.abs m) + i)%nat = total (nc A) (fun j => at_ A i j * c (Z.to_nat (Z.abs m) + j)%nat)) -> truncated_product mass m s L c c'.
Proof.
  intros H1 H2 EA Hc'. destruct (cosine_matrix_some L m s H1 H2) as (A' & J & EA' & Hr & Hc & HA & HJ). rewrite EA in EA'. injection EA' as <-. cbv zeta in HA, HJ. set (o := Z.to_nat (lowest m s - Z.abs m)) in *.
  set (N := Z.to_nat (Z.of_nat L + 1 - lowest m s)) in *. set (a := INR (Z.abs_nat (m + s))) in *. set (b := INR (Z.abs_nat (m - s))) in *. destruct HJ as (Hsym & Hrec & g & Hg & Hlast). assert (Hp : (0 <= lowest m s)%Z) by (unfold lowest; lia).
  assert (HoN : nr A = (o + N)%nat) by (unfold o, N, lowest; lia). assert (HN : (1 <= N)%nat) by (unfold N, lowest; lia). split.
  - intros ell He HL. replace ell with (Z.to_nat (Z.abs m) + (ell - Z.to_nat (Z.abs m)))%nat by lia. rewrite Hc' by lia. apply Rtotal_zero. intros j Hj. rewrite HA by lia. destruct (Nat.ltb_spec (ell - Z.to_nat (Z.abs m)) o); [cbn [orb]; ring|unfold o, lowest in *; lia].
  - assert (Hv : forall i, (i < N)%nat -> c' (Z.to_nat (lowest m s) + i)%nat = total N (fun j => at_ J i j * c (Z.to_nat (lowest m s) + j)%nat)).
    { intros i Hi. replace (Z.to_nat (lowest m s) + i)%nat with (Z.to_nat (Z.abs m) + (o + i))%nat by (unfold o, lowest; lia). rewrite Hc' by lia. rewrite Hc, HoN. rewrite (total_tail 0 1 Rplus Rmult Rminus Rdiv Ropp Rinv Rf).
      - apply Rtotal_ext. intros j Hj. rewrite HA by lia. destruct (Nat.ltb_spec (o + i) o); [lia|]. destruct (Nat.ltb_spec (o + j) o); [lia|]. cbn [orb]. f_equal; [f_equal; lia|f_equal; unfold o, lowest; lia].
      - intros j Hj. rewrite HA by lia. destruct (Nat.ltb_spec j o); [|lia]. rewrite orb_true_r. ring. }
    set (C := fun k => c (Z.to_nat (lowest m s) + k)%nat). exists g. split; [exact Hg|]. intros z. replace (c L) with (C (N - 1)%nat) by (unfold C; f_equal; unfold N, lowest; lia). rewrite !sum_tail by (unfold lowest; lia). fold N. rewrite <- Rtotal_scale.
    set (w := (if Z.even (Z.max m (- s)) then 1 else -1) * sqrt (weight_function (Z.abs_nat (m + s)) (Z.abs_nat (m - s)) z)).
    assert (EY : forall k, Y m s (lowest m s + Z.of_nat k) z = w * unit_polynomial mass k a b z) by (intros k; unfold harmonic; fold w a b; do 2 f_equal; lia).
    assert (EL : Y m s (Z.of_nat (L + 1)) z = w * unit_polynomial mass N a b z) by (rewrite <- EY; f_equal; unfold N, lowest; lia).
    rewrite (Rtotal_ext N (fun j => z * (c (Z.to_nat (lowest m s) + j)%nat * Y m s (lowest m s + Z.of_nat j) z)) (fun j => total N (fun i => at_ J i j * C j * (w * unit_polynomial mass i a b z)) + if (j =? N - 1)%nat then g * C j * (w * unit_polynomial mass N a b z) else 0)).
    + rewrite Rtotal_add. f_equal.
      * rewrite (MatSolvers_Proofs.total_swap 0 1 Rplus Rmult Rminus Rdiv Ropp Rinv Rf). apply Rtotal_ext. intros i Hi. rewrite Hv by exact Hi. rewrite EY. fold (C). rewrite (Rmult_comm (total N _)), <- Rtotal_scale. apply Rtotal_ext. intros j Hj. unfold C. ring.
      * rewrite (Rtotal_single N (N - 1)) by (lia || (intros j Hj Hne; destruct (Nat.eqb_spec j (N - 1)); [lia|reflexivity])). rewrite Nat.eqb_refl, EL. reflexivity.
    + intros j Hj. rewrite EY. fold (C j). destruct (Nat.eqb_spec j (N - 1)) as [->|Hne].
      * transitivity (C (N - 1)%nat * w * (z * unit_polynomial mass (N - 1) a b z)); [ring|]. rewrite Hlast. rewrite Rmult_plus_distr_l. f_equal; [|ring]. rewrite <- Rtotal_scale. apply Rtotal_ext. intros i Hi. ring.
      * transitivity (C j * w * (z * unit_polynomial mass j a b z)); [ring|]. rewrite Hrec by lia. rewrite Rplus_0_r, <- Rtotal_scale. apply Rtotal_ext. intros i Hi. ring.
Qed.

(** ** The loop *)
Section Grid.
Context (d : dtype) (Nphi Ntheta c0 n : nat).
Notation L := (top_degree d Ntheta).
Notation order e := (fst (fst (fst (e : m_map)))).
(** What an entry adds. *)
Definition added (s : Z) (x : nat -> nat -> R) (e : m_map) (a b : nat) : R :=
  let '(m, _, mc, es) := e in let cols := slice_columns es in
  if inside a mc then match index_of b cols, cosine_matrix (Z.of_nat L) m s with Some q, Some A => total (nc A) (fun j => at_ A q j * x a (nth j cols 0%nat)) | _, _ => 0 end else 0.
Definition covering (e : m_map) (a b : nat) : Prop := in_range a (snd (fst e)) /\ In b (slice_columns (snd e)).
Lemma covering_dec e a b : {covering e a b} + {~ covering e a b}.
Proof.
  unfold covering, in_range. destruct (le_dec (fst (snd (fst e))) a); [|right; tauto]. destruct (lt_dec a (snd (snd (fst e)))); [|right; tauto]. destruct (in_dec Nat.eq_dec b (slice_columns (snd e))); [left; tauto|right; tauto].
Qed.
Lemma order_of e a b : right_entry d Nphi Ntheta c0 n e -> covering e a b -> fst (coeff_group d Nphi Ntheta (coeff_chunk d * c0 + a) b) = order e.
Proof.
  destruct e as [[[m mg] mc] es]. intros (_ & _ & _ & _ & _ & _ & _ & H) [Ha Hb]. cbn [fst snd] in *. specialize (H a Ha). apply (in_map (fun b => coeff_group d Nphi Ntheta (coeff_chunk d * c0 + a) b)) in Hb. rewrite H in Hb. unfold modes_of_order in Hb. apply in_map_iff in Hb as (k & E & _). rewrite <- E. reflexivity.
Qed.
Lemma entry_size e : right_entry d Nphi Ntheta c0 n e -> length (slice_columns (snd e)) = Z.to_nat (Z.of_nat L + 1 - Z.abs (order e)).
Proof.
  destruct e as [[[m mg] mc] es]. intros (H1 & _ & _ & _ & _ & _ & _ & H). cbn [fst snd] in *. specialize (H (fst mc)). pose proof (parts_pos d) as HP. specialize (H ltac:(split; lia)). apply (f_equal (@length _)) in H. unfold modes_of_order in H. rewrite !map_length, seq_length in H. exact H.
Qed.
Context (s : Z) (Hs : (Z.abs s <= Z.of_nat L)%Z).
Lemma step_value x e out : right_entry d Nphi Ntheta c0 n e -> exists out', cosine_step (Lmax d Ntheta) s x e out = Some out' /\ forall a b, out' a b = out a b + added s x e a b.
Proof.
  intros He. pose proof (entry_size e He) as Hl. destruct e as [[[m mg] mc] es]. destruct He as (H1 & _). cbn [fst snd] in *. pose proof (parts_pos d) as HP. unfold cosine_step, added. change (Lmax d Ntheta) with L. destruct (Nat.ltb_spec 0 (snd mc - fst mc)); [|lia]. cbn [andb].
  destruct (Nat.ltb_spec 0 (length (slice_columns es))) as [Hc|Hc].
  - destruct (cosine_matrix_some L m s ltac:(lia) Hs) as (A & J & -> & Hr & Hn' & _). unfold obind. rewrite Hn', Hr, <- Hl, Nat.eqb_refl. cbn [andb orb]. eexists. split; [reflexivity|]. intros a b. cbv beta. destruct (inside a mc); [|ring].
    destruct (index_of b (slice_columns es)) as [q|] eqn:Eq; [|ring]. f_equal. rewrite ?Hn', ?Hr, <- ?Hl. destruct (Nat.eqb_spec (length (slice_columns es)) 1) as [E1|E1]; [|reflexivity].
    assert (Hq : (q < length (slice_columns es))%nat). { clear -Eq. revert q Eq. induction (slice_columns es) as [|y l IH]; intros q Eq; [discriminate|]. cbn [index_of] in Eq. destruct (y =? b)%nat; [injection Eq as <-; cbn; lia|]. destruct (index_of b l) as [q'|]; [|discriminate]. injection Eq as <-. specialize (IH q' eq_refl). cbn. lia. }
    replace q with O by lia. reflexivity.
  - exists out. split; [reflexivity|]. intros a b. destruct (inside a mc); [|ring]. destruct (slice_columns es); [cbn [index_of]; ring|cbn in Hc; lia].
Qed.
Lemma not_added x e a b : ~ covering e a b -> added s x e a b = 0.
Proof.
  destruct e as [[[m mg] mc] es]. unfold covering, added. cbn [fst snd]. intros H. destruct (inside a mc) eqn:E; [|reflexivity]. apply inside_iff in E. rewrite index_of_none; [reflexivity|]. intros Hb. apply H. split; assumption.
Qed.
Lemma loop_value x maps out : Forall (right_entry d Nphi Ntheta c0 n) maps -> NoDup (map (fun e => order e) maps) -> exists out', cosine_loop (Lmax d Ntheta) s x maps out = Some out'
  /\ forall a b, (forall e, In e maps -> covering e a b -> out' a b = out a b + added s x e a b) /\ ((forall e, In e maps -> ~ covering e a b) -> out' a b = out a b).
Proof.
  revert out. induction maps as [|e maps IH]; intros out HF Hd; [exists out; split; [reflexivity|]; intros a b; split; [intros e []|reflexivity]|]. inversion HF as [|? ? He HF']. inversion Hd as [|? ? Hnot Hd']. subst. cbn [cosine_loop].
  destruct (step_value x e out He) as (o1 & -> & H1). destruct (IH o1 HF' Hd') as (o2 & E2 & H2). exists o2. split; [exact E2|]. intros a b. destruct (H2 a b) as [H3 H4]. clear H2.
  assert (Hother : covering e a b -> forall e', In e' maps -> ~ covering e' a b).
  { intros Hcv e' Hin Hcv'. apply Hnot. apply in_map_iff. exists e'. split; [|exact Hin]. rewrite Forall_forall in HF'. rewrite <- (order_of e a b He Hcv), <- (order_of e' a b (HF' e' Hin) Hcv'). reflexivity. }
  split.
  - intros e' [<-|Hin] Hcv; [rewrite H4 by (apply Hother; exact Hcv); apply H1|]. rewrite (H3 e' Hin Hcv), H1, not_added; [ring|]. intros Hcv'. exact (Hother Hcv' e' Hin Hcv).
  - intros Hno. rewrite H4 by (intros e' Hin; apply Hno; right; exact Hin). rewrite H1, not_added; [ring|]. apply Hno. left. reflexivity.
Qed.
End Grid.
End Mass.
