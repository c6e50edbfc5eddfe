From Coq Require Import Reals ZArith Lia Lra ZifyNat ZifyBool.
From stdpp Require Import list list_numbers.
From Verif Require Import Numpy_Model Numpy_Proofs Fourier_Model Fourier_Spec Sums.
Local Open Scope R_scope.
Local Ltac Zify.zify_post_hook ::= Z.div_mod_to_equations.

Ltac zlit := try change (Some 0%Z) with (Some (Z.of_nat 0)); try change (Some 1%Z) with (Some (Z.of_nat 1));
  try change (Some 2%Z) with (Some (Z.of_nat 2)); try change (Some 3%Z) with (Some (Z.of_nat 3)).

Lemma Kmax_bounds N M : (0 < N)%nat -> (0 < M)%nat -> (2 * Kmax N M + 1 <= N /\ 2 * Kmax N M + 1 <= M)%nat.
Proof. unfold Kmax. lia. Qed.

(** ** Complex Fourier *)
Lemma scaled_map r n (f : nat -> C) :
  scaled r (map f (seq 0 n)) = map (fun i => match r with None => f i | Some s => Cscale s (f i) end) (seq 0 n).
Proof. destruct r; simpl; [by rewrite map_map|done]. Qed.

Definition sc (r : option R) (z : C) : C := match r with None => z | Some s => Cscale s z end.

Lemma resize_coeffs_spec K r x y : (2 * K + 1 <= length x)%nat -> (2 * K + 1 <= length y)%nat ->
  exists out, resize_coeffs K r x y = Some out /\ length out = length y /\
    forall j, (j < length y)%nat ->
      out !! j = Some (if decide (j <= K)%nat then sc r (cat x j)
                       else if decide (length y - K <= j)%nat then sc r (cat x (length x - (length y - j)))
                       else C0).
Proof.
  intros Hx Hy. unfold resize_coeffs. cbv zeta. zlit. destruct (decide (K = 0)%nat) as [->|HK].
  - rewrite (slice_range 0 1 (length y)), (slice_range 0 1 (length x)) by lia.
    rewrite (slice_from 1) by lia. rewrite (np_get_at _ C0) by lia.
    rewrite scaled_map, np_set_map. cbn [mbind option_bind]. rewrite np_fill_map.
    eexists. split; [done|]. split; [by rewrite !write_all_length|]. intros j Hj.
    rewrite write_range by (rewrite write_all_length; lia). rewrite write_range by lia.
    unfold sc, cat. repeat case_decide; try lia; destruct r; repeat f_equal; lia.
  - rewrite (slice_range 0 (K+1) (length y)), (slice_range 0 (K+1) (length x)) by lia.
    rewrite (slice_mid (K+1) K), (slice_last K (length x)), (slice_last K (length y)) by lia.
    rewrite !(np_get_at _ C0) by lia. rewrite !scaled_map, !np_set_map. cbn [mbind option_bind].
    rewrite np_fill_map, np_set_map. eexists. split; [done|]. split; [by rewrite !write_all_length|].
    intros j Hj. rewrite write_range by (rewrite !write_all_length; lia).
    rewrite write_range by (rewrite !write_all_length; lia). rewrite write_range by lia.
    unfold sc, cat. repeat case_decide; try lia; destruct r; repeat f_equal; lia.
Qed.

Lemma cat_seq n (f : nat -> C) j : (j < n)%nat -> cat (map f (seq 0 n)) j = f j.
Proof. intros. unfold cat. by rewrite list_lookup_fmap, lookup_seq_lt. Qed.
Lemma rat_seq n (f : nat -> R) j : (j < n)%nat -> rat (map f (seq 0 n)) j = f j.
Proof. intros. unfold rat. by rewrite list_lookup_fmap, lookup_seq_lt. Qed.
Lemma lookup_seq_map {A} n (f : nat -> A) j : (j < n)%nat -> map f (seq 0 n) !! j = Some (f j).
Proof. intros. by rewrite list_lookup_fmap, lookup_seq_lt. Qed.

Lemma slot_pos M k : (0 <= k < Z.of_nat M)%Z -> slot M k = Z.to_nat k.
Proof. intros. unfold slot. by rewrite Z.mod_small. Qed.
Lemma slot_neg M k : (- Z.of_nat M <= k < 0)%Z -> slot M k = Z.to_nat (k + Z.of_nat M).
Proof.
  intros. unfold slot. f_equal. symmetry. apply (Z.mod_unique_pos _ _ (-1)); lia.
Qed.
Lemma slot_lt M k : (0 < M)%nat -> (slot M k < M)%nat.
Proof. intros. unfold slot. pose proof (Z.mod_pos_bound k (Z.of_nat M)). lia. Qed.

(** The wavenumber of a slot, resolved or not. *)
Lemma wavenumber_low M j : (j < M)%nat -> (j <= (M - 1) / 2)%nat -> wavenumber M j = Z.of_nat j.
Proof. intros. unfold wavenumber. rewrite Z.mod_small by lia. lia. Qed.
Lemma wavenumber_slot M j : (j < M)%nat -> slot M (wavenumber M j) = j.
Proof.
  intros H. unfold slot, wavenumber. rewrite Zminus_mod_idemp_l.
  replace (Z.of_nat j + Z.of_nat ((M - 1) / 2) - Z.of_nat ((M - 1) / 2))%Z with (Z.of_nat j) by lia.
  rewrite Z.mod_small by lia. lia.
Qed.
Lemma wavenumber_range M j : (0 < M)%nat ->
  (- Z.of_nat ((M - 1) / 2) <= wavenumber M j < Z.of_nat M - Z.of_nat ((M - 1) / 2))%Z.
Proof.
  intros H. unfold wavenumber. pose proof (Z.mod_pos_bound (Z.of_nat j + Z.of_nat ((M - 1) / 2)) (Z.of_nat M)). lia.
Qed.
Lemma slot_wavenumber M k : (0 < M)%nat -> (Z.abs k <= Z.of_nat ((M - 1) / 2))%Z -> wavenumber M (slot M k) = k.
Proof.
  intros H Hk. unfold wavenumber, slot. rewrite Z2Nat.id by (apply Z.mod_pos_bound; lia).
  rewrite Zplus_mod_idemp_l. rewrite Z.mod_small by lia. lia.
Qed.

(** Resolved slots are the low and the high ones. *)
Lemma resolved_iff M K j : (2 * K + 1 <= M)%nat -> (j < M)%nat ->
  (Z.abs (wavenumber M j) <= Z.of_nat K)%Z <-> (j <= K \/ M - K <= j)%nat.
Proof.
  intros HK Hj. pose proof (wavenumber_slot M j Hj) as HS. pose proof (wavenumber_range M j ltac:(lia)) as HR.
  set (k := wavenumber M j) in *. destruct (decide (0 <= k)%Z).
  - rewrite slot_pos in HS by lia. lia.
  - rewrite slot_neg in HS by lia. lia.
Qed.

Lemma fft_coefficient N g k : (0 < N)%nat -> (0 <= k + Z.of_nat N)%Z ->
  Cscale (/ INR N) (cat (fft N g) (slot N k)) = complex_coefficient N g k.
Proof.
  intros HN Hk. unfold fft. rewrite cat_seq by (by apply slot_lt). unfold complex_coefficient. f_equal.
  apply csum_ext. intros x _. f_equal. unfold slot. rewrite Z2Nat.id by (apply Z.mod_pos_bound; lia).
  rewrite <- (cis_alias_neg N (k mod Z.of_nat N) (k / Z.of_nat N)) by done. do 3 f_equal.
  pose proof (Z.div_mod k (Z.of_nat N)). lia.
Qed.

Lemma complex_forward_ok N M g c : (0 < N)%nat -> length c = M -> (0 < M)%nat -> 
  exists out, complex_forward N M g c = Some out /\ length out = M /\
    forall j, (j < M)%nat ->
      out !! j = Some (if decide (Z.abs (wavenumber M j) <= Z.of_nat (Kmax N M))%Z
                       then complex_coefficient N g (wavenumber M j) else C0).
Proof.
  intros HN Hc HM. destruct (Kmax_bounds N M HN HM) as [B1 B2]. unfold complex_forward.
  set (K := Kmax N M) in *.
  assert (length (fft N g) = N) as HL by (unfold fft; by rewrite map_length, seq_length).
  destruct (resize_coeffs_spec K (Some (/ INR N)) (fft N g) c ltac:(lia) ltac:(lia)) as (out & E & L & H).
  exists out. split; [done|]. split; [lia|]. intros j Hj. rewrite H by lia.
  pose proof (resolved_iff M K j B2 Hj) as HR. pose proof (wavenumber_slot M j Hj) as HS.
  pose proof (wavenumber_range M j HM) as HRg. f_equal.
  destruct (decide (Z.abs (wavenumber M j) <= Z.of_nat K)%Z) as [Hr|Hr].
  - rewrite <- fft_coefficient by lia. simpl. set (k := wavenumber M j) in *.
    destruct (decide (0 <= k)%Z).
    + rewrite slot_pos in HS by lia. rewrite decide_True by lia. do 2 f_equal. rewrite slot_pos by lia. lia.
    + rewrite slot_neg in HS by lia. rewrite decide_False by lia. rewrite decide_True by lia.
      do 2 f_equal. rewrite slot_neg by lia. rewrite HL. lia.
  - repeat case_decide; try lia. done.
Qed.

Lemma series_of_slots N K (t : list C) x : (0 < N)%nat -> (2 * K + 1 <= N)%nat ->
  (forall j, (K < j < N - K)%nat -> cat t j = C0) ->
  csum N (fun j => Cmul (cat t j) (cis (angle N (Z.of_nat j) x))) = complex_series N N K t x.
Proof.
  intros HN HK H. unfold complex_series.
  replace (2 * K + 1)%nat with (K + (K + 1))%nat by lia. rewrite csum_add.
  replace N with ((K + 1) + ((N - 2 * K - 1) + K))%nat at 1 by lia.
  rewrite (csum_add (K + 1)), (csum_add (N - 2 * K - 1)).
  rewrite (csum_zero (N - 2 * K - 1)).
  2:{ intros i Hi. rewrite H by lia. apply Cmul_0_l. }
  assert (csum K (fun i => Cmul (cat t (K + 1 + (N - 2 * K - 1 + i))) (cis (angle N (Z.of_nat (K + 1 + (N - 2 * K - 1 + i))) x)))
    = csum K (fun i => Cmul (cat t (slot N (Z.of_nat i - Z.of_nat K))) (cis (angle N (Z.of_nat i - Z.of_nat K) x)))) as ->.
  { apply csum_ext. intros i Hi. rewrite slot_neg by lia. f_equal; [f_equal; lia|].
    rewrite <- (cis_alias N (Z.of_nat i - Z.of_nat K) 1) by done. do 2 f_equal. lia. }
  assert (csum (K + 1) (fun i => Cmul (cat t i) (cis (angle N (Z.of_nat i) x)))
    = csum (K + 1) (fun i => Cmul (cat t (slot N (Z.of_nat (K + i) - Z.of_nat K))) (cis (angle N (Z.of_nat (K + i) - Z.of_nat K) x)))) as ->.
  { apply csum_ext. intros i Hi. rewrite slot_pos by lia. f_equal; [f_equal; lia|]. do 2 f_equal. lia. }
  apply C_ext; simpl; ring.
Qed.

Lemma complex_series_ext N M M' K c c' x r : (0 < M)%nat -> (0 < M')%nat ->
  (forall k, (Z.abs k <= Z.of_nat K)%Z -> cat c' (slot M' k) = sc r (cat c (slot M k))) ->
  complex_series N M' K c' x = sc r (complex_series N M K c x).
Proof.
  intros HM HM' H. unfold complex_series. destruct r as [r|]; simpl.
  - rewrite <- csum_cscale. apply csum_ext. intros i Hi. rewrite H by lia. simpl. by rewrite Cscale_Cmul.
  - apply csum_ext. intros i Hi. rewrite H by lia. done.
Qed.

Lemma resized_series N M r c temp out x : (0 < N)%nat -> (0 < M)%nat -> length c = M -> length temp = N ->
  resize_coeffs (Kmax N M) r c temp = Some out ->
  csum N (fun j => Cmul (cat out j) (cis (angle N (Z.of_nat j) x))) = sc r (complex_series N M (Kmax N M) c x).
Proof.
  intros HN HM Hc Ht E. destruct (Kmax_bounds N M HN HM) as [B1 B2]. set (K := Kmax N M) in *.
  destruct (resize_coeffs_spec K r c temp ltac:(lia) ltac:(lia)) as (out' & E' & L & H).
  rewrite E in E'. injection E' as <-.
  assert (forall j, (j < N)%nat -> cat out j = if decide (j <= K)%nat then sc r (cat c j)
                       else if decide (N - K <= j)%nat then sc r (cat c (M - (N - j))) else C0) as HC.
  { intros j Hj. unfold cat at 1. rewrite H by lia. simpl. by rewrite Ht, Hc. }
  rewrite series_of_slots with (K := K); [|done|done|].
  - apply complex_series_ext; [done|done|]. intros k Hk. destruct (decide (0 <= k)%Z).
    + rewrite !slot_pos by lia. rewrite HC by lia. rewrite decide_True by lia. done.
    + rewrite !slot_neg by lia. rewrite HC by lia. rewrite decide_False by lia. rewrite decide_True by lia.
      do 2 f_equal. lia.
  - intros j Hj. rewrite HC by lia. repeat case_decide; try lia. done.
Qed.

Lemma complex_backward_fftw_ok N M c temp : (0 < N)%nat -> (0 < M)%nat -> length c = M -> length temp = N ->
  complex_backward_fftw N M c temp = Some (map (complex_series N M (Kmax N M) c) (seq 0 N)).
Proof.
  intros HN HM Hc Ht. unfold complex_backward_fftw.
  destruct (Kmax_bounds N M HN HM) as [B1 B2].
  destruct (resize_coeffs_spec (Kmax N M) None c temp ltac:(lia) ltac:(lia)) as (out & E & L & H).
  rewrite E. simpl. f_equal. unfold fftw_backward. apply map_ext. intros x.
  by rewrite (resized_series N M None c temp out x).
Qed.
Lemma complex_backward_scipy_ok N M c temp : (0 < N)%nat -> (0 < M)%nat -> length c = M -> length temp = N ->
  complex_backward_scipy N M c temp = Some (map (complex_series N M (Kmax N M) c) (seq 0 N)).
Proof.
  intros HN HM Hc Ht. unfold complex_backward_scipy.
  destruct (Kmax_bounds N M HN HM) as [B1 B2]. pose proof (INR_pos N HN).
  destruct (resize_coeffs_spec (Kmax N M) (Some (INR N)) c temp ltac:(lia) ltac:(lia)) as (out & E & L & H').
  rewrite E. simpl. f_equal. unfold ifft, fftw_backward. rewrite map_map. apply map_ext. intros x.
  rewrite (resized_series N M (Some (INR N)) c temp out x) by done. simpl. rewrite Cscale_Cscale.
  rewrite Rinv_l by lra. apply Cscale_1.
Qed.

(** The resolved coefficients of a truncated series are its own. *)
Lemma coefficient_of_series N M K c k : (0 < N)%nat -> (2 * K + 1 <= N)%nat -> (Z.abs k <= Z.of_nat K)%Z ->
  complex_coefficient N (map (complex_series N M K c) (seq 0 N)) k = cat c (slot M k).
Proof.
  intros HN HK Hk. pose proof (INR_pos N HN). unfold complex_coefficient.
  rewrite (csum_ext _ _ (fun x => csum (2 * K + 1) (fun i =>
     Cmul (cat c (slot M (Z.of_nat i - Z.of_nat K))) (cis (angle N (Z.of_nat i - Z.of_nat K - k) x))))).
  2:{ intros x Hx. rewrite cat_seq by done. unfold complex_series. rewrite Cmul_csum_r. apply csum_ext.
      intros i _. rewrite Cmul_assoc, <- cis_plus. do 2 f_equal.
      rewrite <- angle_neg, <- angle_plus. f_equal. }
  rewrite csum_swap.
  rewrite (csum_single _ (Z.to_nat (k + Z.of_nat K))) by (try lia; intros i Hi Hne; rewrite csum_scal, csum_cis by lia; rewrite decide_False by lia; apply Cmul_0_r).
  rewrite csum_scal, csum_cis by lia. rewrite decide_True by lia.
  replace (Z.of_nat (Z.to_nat (k + Z.of_nat K)) - Z.of_nat K)%Z with k by lia.
  apply C_ext; simpl; field; lra.
Qed.

Lemma mmt_angle N k x : (0 < N)%nat -> IZR k * INR x / (INR N / 2 / PI) = angle N k x.
Proof. intros HN. pose proof (INR_pos N HN). pose proof PI_RGT_0. unfold angle. field. lra. Qed.

Lemma cmmt_forward_ok N M g j : (0 < N)%nat -> (j < M)%nat ->
  cmmt_forward N M g !! j = Some (if decide (Z.abs (wavenumber M j) <= Z.of_nat (Kmax N M))%Z
                       then complex_coefficient N g (wavenumber M j) else C0).
Proof.
  intros HN Hj. unfold cmmt_forward, mat_apply_c. rewrite lookup_seq_map by done. f_equal.
  unfold cmmt_forward_entry. case_decide.
  - unfold complex_coefficient. rewrite <- csum_cscale. apply csum_ext. intros x _.
    rewrite mmt_angle by done. by rewrite Cscale_Cmul_r.
  - apply csum_zero. intros. apply Cmul_0_r.
Qed.

Lemma cmmt_series N M c x : (0 < N)%nat -> (0 < M)%nat ->
  csum M (fun j => Cmul (cat c j) (cmmt_backward_entry N M x j)) = complex_series N M (Kmax N M) c x.
Proof.
  intros HN HM. destruct (Kmax_bounds N M HN HM) as [B1 B2].
  set (K := Kmax N M) in *. unfold complex_series.
  set (f j := Cmul (cat c j) (cmmt_backward_entry N M x j)).
  assert (forall k, (Z.abs k <= Z.of_nat K)%Z -> f (slot M k) = Cmul (cat c (slot M k)) (cis (angle N k x))) as Hf.
  { intros k Hk. unfold f, cmmt_backward_entry. fold K.
    rewrite slot_wavenumber by (try lia; unfold K, Kmax in *; lia).
    rewrite decide_True by done. by rewrite mmt_angle. }
  replace (2 * K + 1)%nat with (K + (K + 1))%nat by lia. rewrite csum_add.
  replace M with ((K + 1) + ((M - 2 * K - 1) + K))%nat at 1 by lia.
  rewrite (csum_add (K + 1)), (csum_add (M - 2 * K - 1)).
  rewrite (csum_zero (M - 2 * K - 1)).
  2:{ intros i Hi. unfold f, cmmt_backward_entry. fold K. rewrite decide_False; [apply Cmul_0_r|].
      rewrite resolved_iff by lia. lia. }
  assert (csum K (fun i => f (K + 1 + (M - 2 * K - 1 + i))%nat)
    = csum K (fun i => Cmul (cat c (slot M (Z.of_nat i - Z.of_nat K))) (cis (angle N (Z.of_nat i - Z.of_nat K) x)))) as ->.
  { apply csum_ext. intros i Hi. rewrite <- Hf by lia. f_equal. rewrite slot_neg by lia. lia. }
  assert (csum (K + 1) f
    = csum (K + 1) (fun i => Cmul (cat c (slot M (Z.of_nat (K + i) - Z.of_nat K))) (cis (angle N (Z.of_nat (K + i) - Z.of_nat K) x)))) as ->.
  { apply csum_ext. intros i Hi. rewrite <- Hf by lia. f_equal. rewrite slot_pos by lia. lia. }
  apply C_ext; simpl; ring.
Qed.
