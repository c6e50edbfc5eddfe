(** C08 - C12: Fourier and Chebyshev transforms. *)
From Coq Require Import Reals ZArith Lia Lra ZifyNat ZifyBool.
From stdpp Require Import list list_numbers.
From Verif Require Import Numpy_Model Fourier_Model Fourier_Spec Sums Fourier_Proofs RealFourier_Proofs.
Local Open Scope R_scope.
Local Ltac Zify.zify_post_hook ::= Z.div_mod_to_equations.

Lemma Kmax_resolved N M : Kmax N M = resolved N M.
Proof. unfold Kmax, resolved. lia. Qed.
Lemma resolved_bounds N M : (0 < N)%nat -> (0 < M)%nat ->
  (2 * resolved N M + 1 <= N /\ 2 * resolved N M + 1 <= M)%nat.
Proof. intros. rewrite <- Kmax_resolved. by apply Kmax_bounds. Qed.

(** [out] holds the value [f k] of every wavenumber |k| <= K at its FFT slot, and zero in all
    other slots. *)
Definition exactly_modes (M K : nat) (f : Z -> C) (out : list C) : Prop :=
  length out = M /\
  (forall k, (Z.abs k <= Z.of_nat K)%Z -> out !! slot M k = Some (f k)) /\
  (forall j, (j < M)%nat -> (forall k, (Z.abs k <= Z.of_nat K)%Z -> slot M k <> j) -> out !! j = Some C0).

Lemma exactly_modes_intro M K f out : (2 * K + 1 <= M)%nat -> length out = M ->
  (forall j, (j < M)%nat -> out !! j = Some (if decide (Z.abs (wavenumber M j) <= Z.of_nat K)%Z then f (wavenumber M j) else C0)) ->
  exactly_modes M K f out.
Proof.
  intros HK HL H. split; [done|]. split.
  - intros k Hk. rewrite H by (apply slot_lt; lia). rewrite slot_wavenumber by lia. by rewrite decide_True.
  - intros j Hj Hs. rewrite H by done. rewrite decide_False; [done|]. intros Hw. apply (Hs _ Hw). by apply wavenumber_slot.
Qed.

(** C08.  Forward complex transform, whatever the output buffer held before. *)
Theorem complex_fft_forward : forall N M grid old,
  (0 < N)%nat -> (0 < M)%nat -> length old = M ->
  exists out, complex_forward N M grid old = Some out /\
    exactly_modes M (resolved N M) (complex_coefficient N grid) out.
Proof.
  intros N M g c HN HM Hc. destruct (complex_forward_ok N M g c HN Hc HM) as (out & E & L & H).
  exists out. split; [done|]. rewrite Kmax_resolved in H. apply exactly_modes_intro; [|done|done].
  by apply resolved_bounds.
Qed.
Print Assumptions complex_fft_forward.

Example complex_fft_forward_ex :
  exists out, complex_forward 6 4 [(1,0);(2,0);(3,0);(4,0);(5,0);(6,0)] [(9,9);(9,9);(9,9);(9,9)] = Some out /\
   exactly_modes 4 1 (complex_coefficient 6 [(1,0);(2,0);(3,0);(4,0);(5,0);(6,0)]) out /\ out !! 2%nat = Some C0.
Proof.
  destruct (complex_fft_forward 6 4 [(1,0);(2,0);(3,0);(4,0);(5,0);(6,0)] [(9,9);(9,9);(9,9);(9,9)]) as (out & E & H); [lia|lia|done|].
  change (resolved 6 4) with 1%nat in H. exists out. split; [done|]. split; [done|].
  destruct H as (L & _ & H). apply H; [lia|]. intros k Hk. assert (k = -1 \/ k = 0 \/ k = 1)%Z as [->|[->| ->]] by lia; done.
Qed.

(** C08.  Backward complex transforms evaluate the truncated series at every grid point; the
    scratch buffer does not matter. *)
Theorem complex_fft_backward : forall N M coeffs scratch,
  (0 < N)%nat -> (0 < M)%nat -> length coeffs = M -> length scratch = N ->
  complex_backward_scipy N M coeffs scratch = Some (map (complex_series N M (resolved N M) coeffs) (seq 0 N)) /\
  complex_backward_fftw N M coeffs scratch = Some (map (complex_series N M (resolved N M) coeffs) (seq 0 N)).
Proof.
  intros. rewrite <- Kmax_resolved. split; [by apply complex_backward_scipy_ok|by apply complex_backward_fftw_ok].
Qed.
Print Assumptions complex_fft_backward.

Example complex_resize_ex (a b c d : C) (x : C) :
  resize_coeffs 1 None [a;b;c;d] [x;x;x;x;x;x] = Some [a;b;C0;C0;C0;d] /\
  resize_coeffs (Kmax 3 4) None [a;b;c;d] [x;x;x] = Some [a;b;d].
Proof. done. Qed.

(** C08.  Backward then forward keeps exactly the resolved modes. *)
Theorem complex_fft_round_trip : forall N M coeffs scratch old,
  (0 < N)%nat -> (0 < M)%nat -> length coeffs = M -> length scratch = N -> length old = M ->
  exists grid out,
    complex_backward_fftw N M coeffs scratch = Some grid /\
    complex_backward_scipy N M coeffs scratch = Some grid /\
    complex_forward N M grid old = Some out /\
    exactly_modes M (resolved N M) (fun k => cat coeffs (slot M k)) out.
Proof.
  intros N M c t o HN HM Hc Ht Ho. destruct (complex_fft_backward N M c t HN HM Hc Ht) as [E1 E2].
  destruct (complex_fft_forward N M (map (complex_series N M (resolved N M) c) (seq 0 N)) o HN HM Ho) as (out & E & HL & H1 & H2).
  eexists _, out. split; [done|]. split; [done|]. split; [done|]. split; [done|]. split; [|done].
  intros k Hk. rewrite H1 by done. f_equal. apply coefficient_of_series; [done| |done]. by apply resolved_bounds.
Qed.
Print Assumptions complex_fft_round_trip.

Example complex_fft_round_trip_ex :
  exists grid out, complex_backward_fftw 8 5 [(1,0);(0,2);(3,0);(0,4);(5,5)] (replicate 8 (7,7)) = Some grid /\
    complex_forward 8 5 grid (replicate 5 (9,9)) = Some out /\ out = [(1,0);(0,2);(3,0);(0,4);(5,5)].
Proof.
  destruct (complex_fft_round_trip 8 5 [(1,0);(0,2);(3,0);(0,4);(5,5)] (replicate 8 (7,7)) (replicate 5 (9,9)))
    as (g & out & E1 & _ & E2 & L & H & _); [lia|lia|done|done|done|].
  exists g, out. split; [done|]. split; [done|]. change (resolved 8 5) with 2%nat in H.
  pose proof (H 0%Z ltac:(lia)) as A0. pose proof (H 1%Z ltac:(lia)) as A1. pose proof (H 2%Z ltac:(lia)) as A2.
  pose proof (H (-1)%Z ltac:(lia)) as A3. pose proof (H (-2)%Z ltac:(lia)) as A4.
  cbn in A0, A1, A2, A3, A4. destruct out as [|? [|? [|? [|? [|? [|? ?]]]]]]; try discriminate L.
  unfold slot in *. simpl in *. by simplify_eq.
Qed.

(** C12 (complex).  The matrix transform computes the same coefficients and the same series. *)
Theorem complex_mmt_forward : forall N M grid, (0 < N)%nat -> (0 < M)%nat ->
  exactly_modes M (resolved N M) (complex_coefficient N grid) (cmmt_forward N M grid).
Proof.
  intros N M g HN HM. apply exactly_modes_intro.
  - by apply resolved_bounds.
  - unfold cmmt_forward, mat_apply_c. by rewrite map_length, seq_length.
  - intros j Hj. rewrite cmmt_forward_ok by done. by rewrite Kmax_resolved.
Qed.
Print Assumptions complex_mmt_forward.

Theorem complex_mmt_backward : forall N M coeffs, (0 < N)%nat -> (0 < M)%nat ->
  cmmt_backward N M coeffs = map (complex_series N M (resolved N M) coeffs) (seq 0 N).
Proof.
  intros N M c HN HM. unfold cmmt_backward, mat_apply_c. apply map_ext. intros x.
  rewrite cmmt_series by done. by rewrite Kmax_resolved.
Qed.
Print Assumptions complex_mmt_backward.

Theorem complex_mmt_round_trip : forall N M coeffs, (0 < N)%nat -> (0 < M)%nat ->
  exactly_modes M (resolved N M) (fun k => cat coeffs (slot M k)) (cmmt_forward N M (cmmt_backward N M coeffs)).
Proof.
  intros N M c HN HM. rewrite complex_mmt_backward by done.
  destruct (complex_mmt_forward N M (map (complex_series N M (resolved N M) c) (seq 0 N)) HN HM) as (L & H1 & H2).
  split; [done|]. split; [|done]. intros k Hk. rewrite H1 by done. f_equal.
  apply coefficient_of_series; [done| |done]. by apply resolved_bounds.
Qed.
Print Assumptions complex_mmt_round_trip.

Example complex_mmt_round_trip_ex :
  cmmt_forward 8 5 (cmmt_backward 8 5 [(1,0);(0,2);(3,0);(0,4);(5,5)]) !! slot 5 (-2) = Some (0,4).
Proof. destruct (complex_mmt_round_trip 8 5 [(1,0);(0,2);(3,0);(0,4);(5,5)]) as (_ & H & _); [lia|lia|]. by rewrite H by done. Qed.

(** ** Real Fourier *)
(** [out] holds [f j] in the slots of the pairs (cos, -sin) with wavenumber <= K and zero in all
    the others; [L]: number of stored coefficients. *)
Definition exactly_pairs (L K : nat) (f : nat -> R) (out : list R) : Prop :=
  length out = L /\ forall j, (j < L)%nat -> out !! j = Some (if decide (j / 2 <= K)%nat then f j else 0).

(** A buffer for M modes: even M stores M numbers, odd M stores M + 1 (whole pairs). *)
Definition pair_storage (M : nat) : nat := 2 * ((M + 1) / 2).
Lemma pair_storage_ok N M : (0 < M)%nat -> (2 * (Kmax N M + 1) <= pair_storage M)%nat.
Proof. unfold Kmax, pair_storage. lia. Qed.

(** C09.  Forward real transforms of the scipy/FFTW and FFTPACK backends: documented
    coefficients for the resolved pairs, zero k=0 sine, zero in all higher slots, whatever the
    output held. *)
Theorem real_fft_forward : forall N M grid old,
  (0 < N)%nat -> (0 < M)%nat -> length old = pair_storage M ->
  exists out, real_forward N M grid old = Some out /\ fftpack_forward N M grid old = Some out /\
    exactly_pairs (pair_storage M) (resolved N M) (real_coefficient N grid) out.
Proof.
  intros N M g c HN HM Hc. pose proof (pair_storage_ok N M HM).
  destruct (real_forward_ok N M g c HN ltac:(lia)) as (o1 & E1 & L1 & H1).
  destruct (fftpack_forward_ok N M g c HN ltac:(lia)) as (o2 & E2 & L2 & H2).
  assert (o1 = o2) as <-.
  { apply list_eq_same_length with (n := length c); [done|done|]. intros j x y Hj Hx Hy.
    rewrite H1 in Hx by done. rewrite H2 in Hy by done. congruence. }
  exists o1. split; [done|]. split; [done|]. split; [lia|]. intros j Hj. rewrite H1 by lia. by rewrite Kmax_resolved.
Qed.
Print Assumptions real_fft_forward.

Example real_fft_forward_ex :
  exists out, real_forward 6 3 [1;2;3;4;5;7] [9;9;9;9] = Some out /\ out !! 1%nat = Some 0 /\
    out !! 0%nat = Some (/ INR 6 * (1 + (2 + (3 + (4 + (5 + (7 + 0))))))).
Proof.
  destruct (real_fft_forward 6 3 [1;2;3;4;5;7] [9;9;9;9]) as (out & E & _ & L & H); [lia|lia|done|].
  exists out. split; [done|]. rewrite !H by (unfold pair_storage; simpl; lia). split; [done|].
  rewrite decide_True by (simpl; lia). f_equal. unfold real_coefficient. rewrite decide_True by done. f_equal.
  unfold rat. simpl. lra.
Qed.

(** C09.  Backward real transforms evaluate the truncated cosine / minus-sine series. *)
Theorem real_fft_backward : forall N M coeffs scratch_re scratch_im scratch,
  (0 < N)%nat -> (0 < M)%nat -> length coeffs = pair_storage M ->
  length scratch_re = (N / 2 + 1)%nat -> length scratch_im = (N / 2 + 1)%nat -> length scratch = N ->
  let grid := map (real_series N (resolved N M) coeffs) (seq 0 N) in
  real_backward_scipy N M coeffs scratch_re scratch_im = Some grid /\
  real_backward_fftw N M coeffs scratch_re scratch_im = Some grid /\
  fftpack_backward N M coeffs scratch = Some grid.
Proof.
  intros N M c tr ti t HN HM Hc H1 H2 H3. cbv zeta. pose proof (pair_storage_ok N M HM). rewrite <- Kmax_resolved.
  split; [|split]; [apply real_backward_scipy_ok|apply real_backward_fftw_ok|apply fftpack_backward_ok]; try done; lia.
Qed.
Print Assumptions real_fft_backward.

(** The series has the k = 0 cosine as its mean and ignores the k = 0 sine slot. *)
Example real_repack_ex (a b c d e f x y : R) :
  repack_rescale (Kmax 8 5) None [a;b;c;d;e;f] [x;x;x;x;x] [y;y;y;y;y]
  = Some ([a; 1 / 2 * c; 1 / 2 * e; 0; 0], [0; 1 / 2 * d; 1 / 2 * f; 0; 0]).
Proof. done. Qed.

(** C09.  Backward then forward: every resolved pair comes back, the k = 0 sine and all higher
    slots become zero. *)
Theorem real_fft_round_trip : forall N M coeffs scratch_re scratch_im old,
  (0 < N)%nat -> (0 < M)%nat -> length coeffs = pair_storage M -> length old = pair_storage M ->
  length scratch_re = (N / 2 + 1)%nat -> length scratch_im = (N / 2 + 1)%nat ->
  exists grid out,
    real_backward_fftw N M coeffs scratch_re scratch_im = Some grid /\
    real_backward_scipy N M coeffs scratch_re scratch_im = Some grid /\
    real_forward N M grid old = Some out /\ fftpack_forward N M grid old = Some out /\
    exactly_pairs (pair_storage M) (resolved N M) (fun j => if decide (j = 1)%nat then 0 else rat coeffs j) out.
Proof.
  intros N M c tr ti o HN HM Hc Ho H1 H2.
  destruct (real_fft_backward N M c tr ti (replicate N 0) HN HM Hc H1 H2 ltac:(apply replicate_length)) as (E1 & E2 & _).
  cbv zeta in E1, E2.
  destruct (real_fft_forward N M (map (real_series N (resolved N M) c) (seq 0 N)) o HN HM Ho) as (out & F1 & F2 & L & H).
  eexists _, out. repeat (split; [done|]). intros j Hj. rewrite H by done. f_equal. case_decide; [|done].
  apply real_round_trip; [done| |done]. by apply resolved_bounds.
Qed.
Print Assumptions real_fft_round_trip.

Example real_fft_round_trip_ex :
  exists grid out, real_backward_fftw 6 5 [1;0;2;3;4;5] [9;9;9;9] [9;9;9;9] = Some grid /\
    real_forward 6 5 grid [9;9;9;9;9;9] = Some out /\ out = [1;0;2;3;4;5].
Proof.
  destruct (real_fft_round_trip 6 5 [1;0;2;3;4;5] [9;9;9;9] [9;9;9;9] [9;9;9;9;9;9])
    as (g & out & E1 & _ & E2 & _ & L & H); [lia|lia|done|done|done|done|].
  exists g, out. split; [done|]. split; [done|]. change (pair_storage 5) with 6%nat in *. change (resolved 6 5) with 2%nat in H.
  destruct out as [|? [|? [|? [|? [|? [|? [|? ?]]]]]]]; try discriminate L.
  pose proof (H 0%nat ltac:(lia)) as A0. pose proof (H 1%nat ltac:(lia)) as A1. pose proof (H 2%nat ltac:(lia)) as A2.
  pose proof (H 3%nat ltac:(lia)) as A3. pose proof (H 4%nat ltac:(lia)) as A4. pose proof (H 5%nat ltac:(lia)) as A5.
  simpl in *. unfold rat in *. simpl in *. by simplify_eq.
Qed.

(** ** Half-complex *)
Theorem halfcomplex_forward : forall N M grid old,
  (0 < N)%nat -> (0 < M)%nat -> length old = pair_storage M ->
  exists out, hc_forward N M grid old = Some out /\
    exactly_pairs (pair_storage M) (resolved N M) (real_coefficient N grid) out.
Proof.
  intros N M g c HN HM Hc. pose proof (pair_storage_ok N M HM).
  destruct (hc_forward_ok N M g c HN ltac:(lia)) as (o1 & E1 & L1 & H1).
  exists o1. split; [done|]. split; [lia|]. intros j Hj. rewrite H1 by lia. by rewrite Kmax_resolved.
Qed.
Print Assumptions halfcomplex_forward.

(** C10.  As soon as one nonzero wavenumber is resolved, the scratch buffer is irrelevant and the
    result is the truncated series. *)
Theorem halfcomplex_backward : forall N M coeffs scratch,
  (0 < resolved N M)%nat -> length coeffs = pair_storage M -> length scratch = N ->
  hc_backward N M coeffs scratch = Some (map (real_series N (resolved N M) coeffs) (seq 0 N)).
Proof.
  intros N M c t HK Hc Ht. rewrite <- Kmax_resolved in *.
  assert (0 < N /\ 0 < M)%nat as [HN HM] by (unfold Kmax in HK; lia).
  pose proof (pair_storage_ok N M HM). apply hc_backward_ok; try done; [lia|by left].
Qed.
Print Assumptions halfcomplex_backward.

Example halfcomplex_backward_ex (a b c d x : R) :
  hc_repack (Kmax 6 4) [a;b;c;d] [x;x;x;x;x;x] = Some [a; 1 / 2 * c; 0; 0; 0; 1 / 2 * d] /\
  hc_backward 6 4 [a;b;c;d] [x;x;x;x;x;x] = Some (map (real_series 6 1 [a;b;c;d]) (seq 0 6)).
Proof. split; [done|]. by apply (halfcomplex_backward 6 4); [unfold resolved; simpl; lia| |]. Qed.

(** C10.  If only wavenumber 0 is resolved on more than one grid point, the backward transform
    depends on what the scratch buffer held. *)
Theorem halfcomplex_degenerate_refuted : forall N M coeffs,
  (1 < N)%nat -> (0 < M)%nat -> resolved N M = 0%nat -> length coeffs = pair_storage M ->
  exists scratch1 scratch2, length scratch1 = N /\ length scratch2 = N /\
    hc_backward N M coeffs scratch1 <> hc_backward N M coeffs scratch2.
Proof.
  intros N M c HN HM HK Hc. rewrite <- Kmax_resolved in HK.
  assert (2 <= length c)%nat as HL by (rewrite Hc; unfold pair_storage; lia).
  exists (replicate N 0), (replicate N 1). rewrite !replicate_length. split; [done|]. split; [done|].
  destruct (hc_backward_leak N M c (replicate N 0) 0 HN HL ltac:(apply replicate_length) HK ltac:(lia)) as (o1 & -> & H1).
  destruct (hc_backward_leak N M c (replicate N 1) 0 HN HL ltac:(apply replicate_length) HK ltac:(lia)) as (o2 & -> & H2).
  intros E. injection E as ->. rewrite H1 in H2.
  assert (forall v k, (k < N)%nat -> rat (replicate N v) k = v) as HR.
  { intros v k Hk. unfold rat. by rewrite lookup_replicate_2. }
  assert (forall k, angle N k 0 = 0) as HA by (intros; unfold angle, Rdiv; simpl INR; ring).
  rewrite (rsum_ext _ _ (fun _ => 0)) in H2 by (intros; rewrite !HR by lia; ring).
  rewrite (rsum_ext _ (fun i => 2 * (rat (replicate N 1) (S i) * _ - _)) (fun _ => 2)) in H2
    by (intros; rewrite !HR by lia; rewrite HA, cos_0, sin_0; ring).
  rewrite !rsum_const, !HR in H2 by lia. rewrite HA, cos_0 in H2.
  destruct (Nat.even N) eqn:E.
  - pose proof (pos_INR ((N - 1) / 2)). lra.
  - assert (1 <= (N - 1) / 2)%nat as HQ.
    { destruct (decide (N = 2)%nat) as [->|]; [done|]. lia. }
    apply le_INR in HQ. change (INR 1) with 1 in HQ. lra.
Qed.
Print Assumptions halfcomplex_degenerate_refuted.

Example halfcomplex_degenerate_ex (a b x y z w : R) :
  resolved 4 2 = 0%nat /\ hc_repack (Kmax 4 2) [a;b] [x;y;z;w] = Some [a;y;z;w].
Proof. done. Qed.

(** C12 (real).  Same coefficients and series as the FFT backends, when the matrices can be
    built. *)
Theorem real_mmt_forward : forall N M grid, (0 < N)%nat -> (0 < M)%nat -> (M = 1 \/ Nat.even M = true)%nat ->
  exists out, rmmt_forward N M grid = Some out /\
    exactly_pairs (pair_storage M) (resolved N M) (real_coefficient N grid) out.
Proof.
  intros N M g HN HM HE.
  assert (pair_storage M = Nat.max 2 M) as HP.
  { unfold pair_storage. destruct HE as [->|HE]; [done|]. apply Nat.even_spec in HE as [q ->]. lia. }
  destruct (rmmt_forward_ok N M g HN) as (out & E & H); [destruct HE; [left; lia|by right]|].
  exists out. split; [done|]. rewrite HP. split.
  - unfold rmmt_forward in E. destruct (rmmt_shapes_ok M); [|done]. injection E as <-.
    unfold mat_apply_r. by rewrite map_length, seq_length.
  - intros j Hj. rewrite H by done. by rewrite Kmax_resolved.
Qed.
Print Assumptions real_mmt_forward.

Theorem real_mmt_backward : forall N M coeffs, (0 < N)%nat -> (0 < M)%nat -> (M = 1 \/ Nat.even M = true)%nat ->
  rmmt_backward N M coeffs = Some (map (real_series N (resolved N M) coeffs) (seq 0 N)).
Proof.
  intros N M c HN HM HE. rewrite <- Kmax_resolved. apply rmmt_backward_ok; [done|done|]. destruct HE; [left; lia|by right].
Qed.
Print Assumptions real_mmt_backward.

Theorem real_mmt_round_trip : forall N M coeffs, (0 < N)%nat -> (0 < M)%nat -> (M = 1 \/ Nat.even M = true)%nat ->
  exists grid out, rmmt_backward N M coeffs = Some grid /\ rmmt_forward N M grid = Some out /\
    exactly_pairs (pair_storage M) (resolved N M) (fun j => if decide (j = 1)%nat then 0 else rat coeffs j) out.
Proof.
  intros N M c HN HM HE.
  destruct (real_mmt_forward N M (map (real_series N (resolved N M) c) (seq 0 N)) HN HM HE) as (out & E & L & H).
  eexists _, out. split; [by apply real_mmt_backward|]. split; [done|]. split; [done|].
  intros j Hj. rewrite H by done. f_equal. case_decide; [|done].
  apply real_round_trip; [done| |done]. by apply resolved_bounds.
Qed.
Print Assumptions real_mmt_round_trip.

Example real_mmt_round_trip_ex : exists grid out,
  rmmt_backward 7 4 [1;9;2;3] = Some grid /\ rmmt_forward 7 4 grid = Some out /\ out !! 3%nat = Some 3 /\ out !! 1%nat = Some 0.
Proof.
  destruct (real_mmt_round_trip 7 4 [1;9;2;3]) as (g & out & E1 & E2 & L & H); [lia|lia|by right|].
  exists g, out. split; [done|]. split; [done|]. rewrite !H by (unfold pair_storage; simpl; lia). done.
Qed.

(** C12 (real).  For every odd number of modes from 3 on, building either matrix raises. *)
Theorem real_mmt_odd_refuted : forall N M data, (3 <= M)%nat -> Nat.odd M = true ->
  rmmt_forward N M data = None /\ rmmt_backward N M data = None.
Proof.
  intros N M d HM HO. unfold rmmt_forward, rmmt_backward. rewrite rmmt_shapes, bool_decide_false; [done|].
  intros [?|HE]; [lia|]. rewrite <- Nat.negb_odd, HO in HE. done.
Qed.
Print Assumptions real_mmt_odd_refuted.

Example real_mmt_odd_ex : (3 <= 5)%nat /\ Nat.odd 5 = true.
Proof. split; [lia|done]. Qed.

(** ** Chebyshev *)
(** C11.  If min(N, M) > 1 or the sizes are equal: the forward transform gives the Gauss
    quadrature coefficients of the modes below min(N, M), and zero above, whatever the output
    held. *)
Theorem chebyshev_forward : forall N M grid old,
  (0 < N)%nat -> (0 < M)%nat -> (1 < Nat.min N M \/ M = 1)%nat -> length old = M ->
  exists out, cheb_forward N M grid old = Some out /\ length out = M /\
    forall j, (j < M)%nat -> out !! j = Some (if decide (j < Nat.min N M)%nat then cheb_coefficient N grid j else 0).
Proof.
  intros N M g c HN HM HS Hc. destruct (cheb_forward_ok N M g c HN HM Hc) as (out & E & L & H).
  exists out. split; [done|]. split; [done|]. intros j Hj. specialize (H j Hj). unfold rat in H at 1.
  destruct (lookup_lt_is_Some_2 out j) as [y Hy]; [lia|]. rewrite Hy in *. simpl in H. rewrite H. f_equal.
  unfold KmaxC. repeat case_decide; try lia; done.
Qed.
Print Assumptions chebyshev_forward.

(** C11.  The backward transform evaluates the truncated Chebyshev series. *)
Theorem chebyshev_backward : forall N M coeffs scratch,
  (0 < N)%nat -> (0 < M)%nat -> (1 < Nat.min N M \/ N = 1)%nat -> length coeffs = M -> length scratch = N ->
  cheb_backward N M coeffs scratch = Some (map (cheb_series N (Nat.min N M - 1) coeffs) (seq 0 N)).
Proof.
  intros N M c t HN HM HS Hc Ht. destruct (cheb_backward_modes N M c t HN HM Hc Ht) as (out & -> & L & H).
  f_equal. apply list_rat_eq; [done|]. intros x Hx. rewrite H by done. clear H.
  replace (KmaxC N M) with (Nat.min N M - 1)%nat by (unfold KmaxC; lia).
  case_decide; [ring|]. replace (N - 1)%nat with 0%nat by lia. simpl. ring.
Qed.
Print Assumptions chebyshev_backward.

Theorem chebyshev_round_trip : forall N M coeffs scratch old,
  (1 < Nat.min N M)%nat -> length coeffs = M -> length scratch = N -> length old = M ->
  exists grid out, cheb_backward N M coeffs scratch = Some grid /\ cheb_forward N M grid old = Some out /\
    length out = M /\
    forall j, (j < M)%nat -> out !! j = Some (if decide (j < Nat.min N M)%nat then rat coeffs j else 0).
Proof.
  intros N M c t o HS Hc Ht Ho. assert (0 < N /\ 0 < M)%nat as [HN HM] by lia.
  destruct (chebyshev_forward N M (map (cheb_series N (Nat.min N M - 1) c) (seq 0 N)) o HN HM ltac:(by left) Ho) as (out & E & L & H).
  eexists _, out. split; [by apply chebyshev_backward; first [done|by left]|]. split; [done|]. split; [done|].
  intros j Hj. rewrite H by done. f_equal. case_decide; [|done]. apply cheb_round_trip; lia.
Qed.
Print Assumptions chebyshev_round_trip.

Example chebyshev_round_trip_ex : exists grid out,
  cheb_backward 6 4 [1;2;3;4] [9;9;9;9;9;9] = Some grid /\ cheb_forward 6 4 grid [9;9;9;9] = Some out /\ out = [1;2;3;4].
Proof.
  destruct (chebyshev_round_trip 6 4 [1;2;3;4] [9;9;9;9;9;9] [9;9;9;9]) as (g & out & E1 & E2 & L & H); [simpl; lia|done|done|done|].
  exists g, out. split; [done|]. split; [done|]. destruct out as [|? [|? [|? [|? [|? ?]]]]]; try discriminate L.
  pose proof (H 0%nat ltac:(lia)) as A0. pose proof (H 1%nat ltac:(lia)) as A1. pose proof (H 2%nat ltac:(lia)) as A2.
  pose proof (H 3%nat ltac:(lia)) as A3. simpl in *. unfold rat in *. simpl in *. by simplify_eq.
Qed.

(** C11.  One grid point and several coefficients: slots above 0 keep their old contents. *)
Theorem chebyshev_forward_degenerate_refuted : forall M grid old, (1 < M)%nat -> length old = M ->
  exists out, cheb_forward 1 M grid old = Some out /\
    forall j, (1 <= j < M)%nat -> out !! j = old !! j.
Proof.
  intros M g c HM Hc. destruct (cheb_forward_ok 1 M g c ltac:(lia) ltac:(lia) Hc) as (out & E & L & H).
  exists out. split; [done|]. intros j Hj. specialize (H j ltac:(lia)). unfold KmaxC in H.
  rewrite !decide_False in H by lia. unfold rat in H.
  destruct (lookup_lt_is_Some_2 out j) as [y Hy]; [lia|]. destruct (lookup_lt_is_Some_2 c j) as [z Hz]; [lia|].
  rewrite Hy, Hz in *. by f_equal.
Qed.
Print Assumptions chebyshev_forward_degenerate_refuted.

(** C11.  One coefficient and several grid points: the backward transform depends on the scratch
    buffer. *)
Theorem chebyshev_backward_degenerate_refuted : forall N coeffs, (1 < N)%nat -> length coeffs = 1%nat ->
  exists scratch1 scratch2, length scratch1 = N /\ length scratch2 = N /\
    cheb_backward N 1 coeffs scratch1 <> cheb_backward N 1 coeffs scratch2.
Proof.
  intros N c HN Hc.
  exists (replicate N 0), (<[1%nat:=1]> (replicate N 0)). rewrite insert_length, !replicate_length.
  split; [done|]. split; [done|].
  destruct (cheb_backward_modes N 1 c (replicate N 0) ltac:(lia) ltac:(lia) Hc ltac:(apply replicate_length)) as (o1 & -> & L1 & H1).
  destruct (cheb_backward_modes N 1 c (<[1%nat:=1]> (replicate N 0)) ltac:(lia) ltac:(lia) Hc ltac:(by rewrite insert_length, replicate_length)) as (o2 & -> & L2 & H2).
  intros E. injection E as ->. specialize (H1 0%nat ltac:(lia)). specialize (H2 0%nat ltac:(lia)). rewrite H1 in H2.
  replace (KmaxC N 1) with 0%nat in H2 by (unfold KmaxC; lia). rewrite decide_False in H2 by lia. rewrite decide_False in H2 by lia.
  assert (forall k, (k < N)%nat -> rat (replicate N 0) k = 0) as HR.
  { intros k Hk. unfold rat. by rewrite lookup_replicate_2. }
  rewrite rsum_zero in H2 by (intros; rewrite HR by lia; ring).
  rewrite (rsum_single _ 0) in H2; [|lia|].
  2:{ intros k Hk Hne. unfold rat. rewrite list_lookup_insert_ne by lia. rewrite lookup_replicate_2 by lia. simpl. ring. }
  unfold rat in H2. rewrite list_lookup_insert in H2 by (rewrite replicate_length; lia). simpl in H2.
  assert (0 < cos (1 * theta N 0)); [|lra].
  pose proof (INR_pos N ltac:(lia)). pose proof PI_RGT_0. apply cos_gt_0.
  - unfold theta. simpl INR. apply Rlt_trans with 0; [lra|]. rewrite Rmult_1_l. apply Rdiv_lt_0_compat; lra.
  - unfold theta. simpl INR. rewrite Rmult_1_l. apply le_INR in HN. simpl INR in HN.
    apply Rmult_lt_reg_r with (2 * INR N); [lra|]. unfold Rdiv at 1. rewrite Rmult_assoc, Rinv_l by lra. nra.
Qed.
Print Assumptions chebyshev_backward_degenerate_refuted.

Example chebyshev_degenerate_ex (a x y z : R) :
  (1 < 2)%nat /\ length [a] = 1%nat /\ dct_resize_forward (KmaxC 3 1) 2 1 1 [a] [x;y;z] = Some [1 * a; y; z].
Proof. split; [lia|done]. Qed.
