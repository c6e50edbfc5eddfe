(** Products with the cosine of the colatitude: the properties. *)
From Coq Require Import List ZArith Reals Bool Lia Lra.
Import ListNotations.
From Verif Require Import CSR_Spec MatSolvers_Model MatSolvers_Proofs Codomain_Model Codomain_Proofs JacobiCalc_Model JacobiCalc_Spec JacobiCalc_Proofs JacobiCalc_Ops JacobiCalc_Props Radial_Model Integrals_Proofs Sphere_Model Sphere_Spec Sphere_Proofs Sphere_Props Harmonics_Model Harmonics_Spec Harmonics_Proofs Harmonics_Props Cosine_Model Cosine_Spec Cosine_Proofs.
Local Open Scope R_scope.

Section Mass.
Context (mass : R -> R -> R) (Hm : true_mass mass).
Notation total := (CSR_Spec.total 0 Rplus).

Section Grid.
Context (d : dtype) (Nphi Ntheta Ng c0 n : nat) (Hg : good_resolution d Nphi) (H0 : (0 < Ntheta)%nat) (HN : (Nphi <= 2 * Ntheta)%nat) (HNg : (0 < Ng)%nat) (Hn : (c0 + n <= pieces d Nphi)%nat).
Notation L := (top_degree d Ntheta).
Context (s : Z) (Hs : (Z.abs s <= Z.of_nat L)%Z).
(** Every local element is in one entry of the table, which alone adds to it. *)
Lemma multiply_added x : exists maps y, m_maps d Nphi Ntheta Ng c0 n = Some maps /\ multiply_cosine d Nphi Ntheta Ng c0 n s x = Some y /\ Forall (right_entry d Nphi Ntheta c0 n) maps
  /\ (forall a b e, In e maps -> covering e a b -> y a b = added d Ntheta s x e a b)
  /\ (forall a b, (a < coeff_chunk d * n)%nat -> (b < columns d Nphi Ntheta)%nat -> exists e, In e maps /\ covering e a b).
Proof.
  destruct (sphere_order_table d Nphi Ntheta Ng c0 n Hg H0 HN HNg Hn) as (maps & Em & Hd & HF & Hcov). destruct (loop_value mass Hm d Nphi Ntheta c0 n s Hs x maps (fun _ _ => 0) HF Hd) as (y & Ey & Hy).
  exists maps, y. split; [exact Em|]. split; [unfold multiply_cosine; rewrite Em; exact Ey|]. split; [exact HF|]. split.
  - intros a b e He Hc. rewrite (proj1 (Hy a b) e He Hc). ring.
  - intros a b Ha Hb. destruct (Hcov a b Ha Hb) as (e & He & H1 & H2). exists e. split; [exact He|split; assumption].
Qed.
(** Where the modes of an entry are. *)
Lemma entry_modes e a q : right_entry d Nphi Ntheta c0 n e -> in_range a (snd (fst e)) -> (q < length (slice_columns (snd e)))%nat ->
  coeff_group d Nphi Ntheta (coeff_chunk d * c0 + a) (nth q (slice_columns (snd e)) 0%nat) = (fst (fst (fst e)), Z.abs (fst (fst (fst e))) + Z.of_nat q)%Z.
Proof.
  intros He Ha Hq. pose proof (entry_size d Nphi Ntheta c0 n e He) as Hl. destruct e as [[[m mg] mc] es]. destruct He as (_ & _ & _ & _ & _ & _ & _ & H). cbn [fst snd] in *. specialize (H a Ha).
  apply (f_equal (fun l => nth q l (coeff_group d Nphi Ntheta (coeff_chunk d * c0 + a) 0))) in H. rewrite (map_nth (fun b => coeff_group d Nphi Ntheta (coeff_chunk d * c0 + a) b)) in H. rewrite H. unfold modes_of_order.
  rewrite (nth_indep _ _ ((fun k => (m, (Z.abs m + Z.of_nat k)%Z)) 0%nat)) by (rewrite map_length, seq_length; lia). rewrite (map_nth (fun k => (m, (Z.abs m + Z.of_nat k)%Z))), seq_nth by lia. reflexivity.
Qed.
Lemma total_reverse N f : total N (fun j => f (N - 1 - j)%nat) = total N f.
Proof.
  revert f. induction N as [|N IH]; intros f; [reflexivity|]. rewrite Rtotal_first, (Rtotal_S N f). replace (S N - 1 - 0)%nat with N by lia. rewrite Rplus_comm. f_equal. rewrite <- IH. apply Rtotal_ext. intros j Hj. f_equal. lia.
Qed.
Lemma nodup_index l q : NoDup l -> (q < length l)%nat -> index_of (nth q l 0%nat) l = Some q.
Proof.
  revert q. induction l as [|x l IH]; intros q Hd Hq; [cbn in Hq; lia|]. inversion Hd as [|? ? Hx Hd']. subst. destruct q as [|q]; cbn [nth index_of]; [rewrite Nat.eqb_refl; reflexivity|].
  cbn in Hq. destruct (Nat.eqb_spec x (nth q l 0%nat)) as [->|Hne]; [exfalso; apply Hx; apply nth_In; lia|]. rewrite IH by (assumption || lia). reflexivity.
Qed.
Lemma slice_nodup es : NoDup (slice_columns es).
Proof. destruct es as [[u v] []]; cbn; [apply NoDup_rev|]; apply seq_NoDup. Qed.

(** ** Products *)
(** The product exists for any data, and its coefficients are those of the function of colatitude times its cosine, for every order on
    the process and both its parts, up to one function: the harmonic of the degree after the largest. *)
Theorem cosine_product x : exists y, multiply_cosine d Nphi Ntheta Ng c0 n s x = Some y
  /\ forall m r row col, (Z.abs m <= Z.of_nat L)%Z -> places d Nphi Ntheta c0 n m r row col -> truncated_product mass m s L (fun l => x (row l) (col l)) (fun l => y (row l) (col l)).
Proof.
  destruct (multiply_added x) as (maps & y & Em & Ey & HF & Hy & Hcov). exists y. split; [exact Ey|]. intros m r row col HmL Hp.
  destruct (cosine_matrix_some mass Hm L m s HmL Hs) as (A & J & EA & Hr & Hc & _). apply (matrix_product mass Hm L m s A _ _ HmL Hs EA).
  intros i Hi. set (l := (Z.to_nat (Z.abs m) + i)%nat). destruct (Hp l ltac:(unfold l; lia) ltac:(unfold l; lia)) as (P1 & P2 & P3 & P4). destruct (Hcov _ _ P1 P2) as (e & He & Hce).
  rewrite (Hy _ _ e He Hce). rewrite Forall_forall in HF. specialize (HF e He). pose proof (order_of d Nphi Ntheta c0 n e _ _ HF Hce) as Ho. rewrite P4 in Ho. cbn [fst] in Ho.
  pose proof (entry_size d Nphi Ntheta c0 n e HF) as Hl. pose proof (fun q => entry_modes e (row l) q HF (proj1 Hce)) as Hmo. destruct Hce as [Ha Hb]. destruct e as [[[m' mg] mc] es]. cbn [fst snd] in *. subst m'. unfold added.
  rewrite (proj2 (inside_iff (row l) mc) Ha), EA. destruct (index_of_nth _ _ Hb) as (q & -> & Hq & Hqb).
  assert (q = i). { pose proof (Hmo q Hq) as E. rewrite Hqb, P4 in E. injection E as E. unfold l in E. lia. } subst q.
  apply Rtotal_ext. intros j Hj. f_equal. assert (Hj' : (j < length (slice_columns es))%nat) by lia. destruct (Hp (Z.to_nat (Z.abs m) + j)%nat ltac:(lia) ltac:(lia)) as (Q1 & Q2 & Q3 & Q4).
  assert (Hcol : (nth j (slice_columns es) 0 < columns d Nphi Ntheta)%nat).
  { pose proof (nth_In (slice_columns es) 0%nat Hj') as Hin. destruct (m_maps_entries d Nphi Ntheta Ng c0 n Hg HNg Hn) as (maps' & Em' & _ & Hen). rewrite Em in Em'. injection Em' as <-. apply Hen in He as (c & u & Hh & Ee). pose proof (slice_in d Nphi Ntheta c0 c u (nth j (slice_columns es) 0%nat)) as Hsl. rewrite <- Ee in Hsl. cbn [snd] in Hsl. apply Hsl in Hin. pose proof (span_columns d Nphi Ntheta c u). lia. }
  destruct (same_place d Nphi Ntheta Ntheta c0 n Hg H0 HN H0 HN Hn (row l) (nth j (slice_columns es) 0%nat) (row (Z.to_nat (Z.abs m) + j)%nat) (col (Z.to_nat (Z.abs m) + j)%nat) P1 Q1 Hcol Q2) as [-> ->]; [congruence| |reflexivity].
  rewrite Q4, (Hmo j Hj'). f_equal. lia.
Qed.
(** Every order that is stored has places: on one process, all of them. *)
Theorem product_places m r : c0 = 0%nat -> n = pieces d Nphi -> stored_order d Nphi m -> (r < parts d)%nat -> exists row col, places d Nphi Ntheta c0 n m r row col.
Proof.
  intros -> -> Hm' Hr. assert (K : forall l, exists ij : nat * nat, (Z.abs m <= Z.of_nat l)%Z -> (l <= L)%nat -> (fst ij < coeff_chunk d * pieces d Nphi)%nat /\ (snd ij < columns d Nphi Ntheta)%nat /\ (fst ij mod parts d = r)%nat /\ coeff_group d Nphi Ntheta (coeff_chunk d * 0 + fst ij) (snd ij) = (m, Z.of_nat l)).
  { intros l. destruct (Z_le_dec (Z.abs m) (Z.of_nat l)) as [H1|H1]; [|exists (0, 0)%nat; intros; contradiction]. destruct (le_dec l L) as [H2|H2]; [|exists (0, 0)%nat; intros; contradiction].
    destruct (sphere_modes_stored d Nphi Ntheta m (Z.of_nat l) r Hg ltac:(split; [exact Hm'|lia]) Hr) as (ij & (E1 & E2 & E3 & E4) & _). exists ij. intros _ _. rewrite (proj1 (sphere_pieces d Nphi Ntheta Hg)) in E1. rewrite Nat.mul_0_r. cbn [plus]. auto. }
  assert (K' : exists f : nat -> nat * nat, forall l, (Z.abs m <= Z.of_nat l)%Z -> (l <= L)%nat -> (fst (f l) < coeff_chunk d * pieces d Nphi)%nat /\ (snd (f l) < columns d Nphi Ntheta)%nat /\ (fst (f l) mod parts d = r)%nat /\ coeff_group d Nphi Ntheta (coeff_chunk d * 0 + fst (f l)) (snd (f l)) = (m, Z.of_nat l)).
  { assert (KK : forall N, exists f : nat -> nat * nat, forall l, (l < N)%nat -> (Z.abs m <= Z.of_nat l)%Z -> (l <= L)%nat -> (fst (f l) < coeff_chunk d * pieces d Nphi)%nat /\ (snd (f l) < columns d Nphi Ntheta)%nat /\ (fst (f l) mod parts d = r)%nat /\ coeff_group d Nphi Ntheta (coeff_chunk d * 0 + fst (f l)) (snd (f l)) = (m, Z.of_nat l)).
    { induction N as [|N (f & IH)]; [exists (fun _ => (0, 0)%nat); intros; lia|]. destruct (K N) as (ij & Hij). exists (fun l => if (l =? N)%nat then ij else f l). intros l Hl H1 H2. destruct (Nat.eqb_spec l N) as [->|]; [apply Hij; assumption|apply IH; (assumption || lia)]. }
    destruct (KK (S L)) as (f & Hf). exists f. intros l H1 H2. apply Hf; (assumption || lia). }
  destruct K' as (f & Hf). exists (fun l => fst (f l)), (fun l => snd (f l)). exact Hf.
Qed.

(** ** Matrices of solvers *)
(** For every order on the process the matrix that solvers use is the product, on the elements of the order in the order of memory. *)
Theorem cosine_group_product x : exists maps y, m_maps d Nphi Ntheta Ng c0 n = Some maps /\ multiply_cosine d Nphi Ntheta Ng c0 n s x = Some y
  /\ forall e, In e maps -> let '(m, _, mc, (start, stop, _)) := e in
       exists B, cosine_group_matrix (Lmax d Ntheta) s e = Some B /\ nr B = (stop - start)%nat /\ nc B = (stop - start)%nat
       /\ forall a i, in_range a mc -> (i < stop - start)%nat -> y a (start + i)%nat = total (stop - start) (fun j => at_ B i j * x a (start + j)%nat).
Proof.
  destruct (multiply_added x) as (maps & y & Em & Ey & HF & Hy & Hcov). exists maps, y. split; [exact Em|]. split; [exact Ey|]. intros e He. rewrite Forall_forall in HF. specialize (HF e He). pose proof (entry_size d Nphi Ntheta c0 n e HF) as Hl.
  assert (Hshape : snd (snd e) = true -> fst (fst (snd e)) = 0%nat). { destruct (m_maps_entries d Nphi Ntheta Ng c0 n Hg HNg Hn) as (maps' & Em' & _ & Hen). rewrite Em in Em'. injection Em' as <-. apply Hen in He as (c & u & Hh & ->). unfold entry_at. cbn [fst snd]. intros E. apply andb_prop in E as [E _]. apply Nat.eqb_eq. exact E. }
  assert (HL : (0 < length (slice_columns (snd e)))%nat). { destruct (m_maps_entries d Nphi Ntheta Ng c0 n Hg HNg Hn) as (maps' & Em' & _ & Hen). rewrite Em in Em'. injection Em' as <-. apply Hen in He as (c & u & Hh & Ee). pose proof (slice_in d Nphi Ntheta c0 c u (fst (span d Nphi Ntheta c u))) as Hsl. rewrite <- Ee in Hsl. destruct Hh as (_ & _ & Hh). destruct (slice_columns (snd e)); [|cbn; lia]. exfalso. apply Hsl. lia. }
  pose proof (fun a b => Hy a b e He) as Hye. clear Hy. destruct e as [[[m mg] mc] [[start stop] rv]]. cbn [fst snd] in *.
  destruct (cosine_matrix_some mass Hm L m s ltac:(lia) Hs) as (A & J & EA & Hr & Hc & _). unfold cosine_group_matrix. cbn [fst snd]. change (Lmax d Ntheta) with L. rewrite EA. cbn [obind]. eexists. split; [reflexivity|].
  pose proof (slice_nodup (start, stop, rv)) as Hnd.
  assert (Hval : forall a q, in_range a mc -> (q < length (slice_columns (start, stop, rv)))%nat -> y a (nth q (slice_columns (start, stop, rv)) 0%nat) = total (nc A) (fun j => at_ A q j * x a (nth j (slice_columns (start, stop, rv)) 0%nat))).
  { intros a q Ha Hq. rewrite Hye by (split; [exact Ha|apply nth_In; exact Hq]). unfold added. rewrite (proj2 (inside_iff a mc) Ha), nodup_index by assumption. rewrite EA. reflexivity. }
  destruct rv; cbn [slice_columns] in *.
  - specialize (Hshape eq_refl). subst start. rewrite rev_length, seq_length in *. assert (HA : nr A = stop) by lia. cbn [reversed_matrix nr nc at_]. rewrite Hc, HA, Nat.sub_0_r. split; [reflexivity|]. split; [reflexivity|]. intros a i Ha Hi. cbn [plus].
    specialize (Hval a (stop - 1 - i)%nat Ha ltac:(lia)). assert (Hrev : forall j, (j < stop)%nat -> nth j (rev (seq 0 stop)) 0%nat = (stop - 1 - j)%nat) by (intros j Hj; rewrite rev_nth by (rewrite seq_length; exact Hj); rewrite seq_length, seq_nth by lia; lia).
    rewrite Hrev in Hval by lia. replace (stop - 1 - (stop - 1 - i))%nat with i in Hval by lia. rewrite Hval, Hc, HA. rewrite <- (total_reverse stop). apply Rtotal_ext. intros j Hj. rewrite Hrev by lia. f_equal. f_equal. lia.
  - rewrite seq_length in *. rewrite Hc. assert (HA : nr A = (stop - start)%nat) by lia. rewrite HA. split; [reflexivity|]. split; [reflexivity|]. intros a i Ha Hi. specialize (Hval a i Ha Hi). rewrite seq_nth in Hval by exact Hi. rewrite Hval, Hc, HA. apply Rtotal_ext. intros j Hj. rewrite seq_nth by exact Hj. reflexivity.
Qed.
End Grid.
End Mass.

(** A process with coefficients cannot multiply components of spin above the largest degree, which have no harmonics and should give zero. *)
Theorem cosine_high_spin_refuted d Nphi Ntheta Ng c0 n s x : good_resolution d Nphi -> (0 < Ntheta)%nat -> (Nphi <= 2 * Ntheta)%nat -> (0 < Ng)%nat -> (0 < n)%nat -> (c0 + n <= pieces d Nphi)%nat -> (Z.of_nat (top_degree d Ntheta) < Z.abs s)%Z ->
  multiply_cosine d Nphi Ntheta Ng c0 n s x = None.
Proof.
  intros Hg H0 HN HNg Hn0 Hn Hs. destruct (sphere_order_table d Nphi Ntheta Ng c0 n Hg H0 HN HNg Hn) as (maps & Em & Hd & HF & Hcov). unfold multiply_cosine. rewrite Em. cbn [obind].
  assert (HW : (0 < columns d Nphi Ntheta)%nat) by (rewrite columns_offset; lia). destruct (Hcov 0%nat 0%nat ltac:(pose proof (parts_pos d); change (coeff_chunk d) with (parts d); nia) HW) as (e0 & He0 & _).
  destruct (m_maps_entries d Nphi Ntheta Ng c0 n Hg HNg Hn) as (maps' & Em' & _ & Hen). rewrite Em in Em'. injection Em' as <-. destruct maps as [|e maps]; [destruct He0|]. cbn [cosine_loop].
  assert (E : cosine_step (Lmax d Ntheta) s x e (fun _ _ => 0) = None); [|rewrite E; reflexivity].
  inversion HF as [|? ? He _]. subst. pose proof (proj1 (Hen e) (or_introl eq_refl)) as (c & u & Hh & Ee). pose proof (slice_in d Nphi Ntheta c0 c u (fst (span d Nphi Ntheta c u))) as Hsl. rewrite <- Ee in Hsl. destruct Hh as (_ & _ & Hh).
  destruct e as [[[m mg] mc] es]. destruct He as (H1 & _). cbn [fst snd] in *. pose proof (parts_pos d) as HP. unfold cosine_step. destruct (Nat.ltb_spec 0 (snd mc - fst mc)); [|lia]. cbn [andb].
  destruct (slice_columns es) as [|b l]; [exfalso; apply Hsl; lia|]. cbn [length Nat.ltb Nat.leb]. change (Lmax d Ntheta) with (top_degree d Ntheta). rewrite cosine_matrix_none by exact Hs. reflexivity.
Qed.

Print Assumptions cosine_product.
Print Assumptions product_places.
Print Assumptions cosine_group_product.
Print Assumptions cosine_high_spin_refuted.

(** ** Examples *)
(** Real data with eight azimuths and degrees up to four, on the second of two processes, which has the orders one and two: the reversed columns of
    the order two, here for a vector component. *)
Example sample_product x : exists y, multiply_cosine Float64 8 6 6 1 1 1 x = Some y
  /\ truncated_product sample_mass 2 1 4 (fun l => x 1%nat (4 - l)%nat) (fun l => y 1%nat (4 - l)%nat).
Proof.
  assert (Hg : good_resolution Float64 8) by (split; [lia|right; reflexivity]). assert (Hn : (1 + 1 <= pieces Float64 8)%nat) by (cbn; lia).
  destruct (cosine_product sample_mass sample_true Float64 8 6 6 1 1 Hg ltac:(lia) ltac:(lia) ltac:(lia) Hn 1 ltac:(cbn; lia) x) as (y & E & H). exists y. split; [exact E|].
  apply (H 2%Z 1%nat (fun _ => 1%nat) (fun l => (4 - l)%nat)); [cbn; lia|]. intros l Hl HL. assert (l = 2 \/ l = 3 \/ l = 4)%nat as [->|[->| ->]] by (cbn in HL; lia); (split; [cbn; lia|split; [vm_compute; lia|split; reflexivity]]).
Qed.
Example sample_high_spin_product x : multiply_cosine Complex128 4 2 2 0 2 2 x = None.
Proof. apply cosine_high_spin_refuted; try lia; try (cbn; lia). split; [lia|right; reflexivity]. Qed.
