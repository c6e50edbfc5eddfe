From Coq Require Import Reals ZArith Lia Lra ZifyNat ZifyBool.
From stdpp Require Import list list_numbers.
From Verif Require Import Numpy_Model Numpy_Proofs Fourier_Model Fourier_Spec Sums Fourier_Proofs.
Local Open Scope R_scope.
Local Ltac Zify.zify_post_hook ::= Z.div_mod_to_equations.

Lemma rscaled_map r n (f : nat -> R) : rscaled r (map f (seq 0 n)) = map (fun i => r * f i) (seq 0 n).
Proof. unfold rscaled. by rewrite map_map. Qed.
Lemma get_step a b x m (H : (b = a + 2 * m \/ b + 1 = a + 2 * m)%nat) : (a <= b + 1)%nat -> (b <= length x)%nat ->
  np_get (rsl (Some (Z.of_nat a)) (Some (Z.of_nat b)) 2 x) x = map (fun i => rat x (a + 2 * i)) (seq 0 m).
Proof. intros. unfold rsl. rewrite (slice_step2 a b m) by done. apply np_get_at. lia. Qed.
Lemma get_range a b x : (a <= b)%nat -> (b <= length x)%nat ->
  np_get (rsl (Some (Z.of_nat a)) (Some (Z.of_nat b)) 1 x) x = map (fun i => rat x (a + i)) (seq 0 (b - a)).
Proof. intros. unfold rsl. rewrite slice_range by done. apply np_get_at. lia. Qed.

Lemma rsl_range a b x : (a <= b)%nat -> (b <= length x)%nat ->
  rsl (Some (Z.of_nat a)) (Some (Z.of_nat b)) 1 x = map (fun i => (a + i)%nat) (seq 0 (b - a)).
Proof. intros. unfold rsl. by apply slice_range. Qed.
(** Resolve the lookups in a chain of slice assignments. *)
Ltac looks := repeat first
  [ rewrite write_range by (rewrite ?write_all_length; lia)
  | rewrite write_step2 by (rewrite ?write_all_length; lia)
  | rewrite write_rev by (rewrite ?write_all_length; lia) ].

Ltac dd := repeat first [rewrite decide_True by (lia || (left; lia)) | rewrite decide_False by lia].
Ltac fin := repeat case_decide; try lia; simpl; try reflexivity;
  try match goal with |- context [rat ?c (?j - 0)] => replace (j - 0)%nat with 0%nat by lia; try reflexivity end;
  try (destruct_or?; subst; simpl; reflexivity); try (do 2 f_equal; lia).

Lemma unpack_spec K r tre tim c : (K + 1 <= length tre)%nat -> length tim = length tre -> (2 * (K + 1) <= length c)%nat ->
  exists out, unpack_rescale K r tre tim c = Some out /\ length out = length c /\
    forall j, (j < length c)%nat -> out !! j = Some
      (if decide (j = 0)%nat then r * rat tre 0 else if decide (j = 1)%nat then 0
       else if decide (j < 2 * (K + 1))%nat then
         if Nat.even j then 2 * r * rat tre (j / 2) else 2 * r * rat tim (j / 2)
       else 0).
Proof.
  intros H1 H2 H3. unfold unpack_rescale. cbv zeta. zlit.
  rewrite (get_range 0 1), (get_range 1 (K + 1)) by lia. unfold rsl.
  rewrite (slice_range 0 1 (length c)) by lia. rewrite (slice_range 1 2 (length c)), (slice_range 1 (K+1)) by lia.
  rewrite (slice_step2 2 (2 * (K + 1)) K), (slice_step2 3 (2 * (K + 1)) K), (slice_from (2 * (K + 1))) by lia.
  rewrite (np_get_at tim 0) by lia. rewrite !rscaled_map. replace (K + 1 - 1)%nat with K by lia.
  rewrite np_set_map. cbn [mbind option_bind]. rewrite np_set_map. cbn [mbind option_bind].
  rewrite np_set_map. cbn [mbind option_bind]. rewrite !np_fill_map.
  eexists. split; [done|]. split; [by rewrite !write_all_length|].
  intros j Hj. looks. destruct (Nat.even j) eqn:E;
  [apply Nat.even_spec in E as [q E]|rewrite <- Nat.negb_odd, negb_false_iff, Nat.odd_spec in E; destruct E as [q E]];
  repeat case_decide; try lia; first [reflexivity | do 3 f_equal; lia | do 3 f_equal; fold (rat tim); f_equal; lia | unfold rat; do 4 f_equal; lia].
Qed.

Lemma repack_spec K r c tre tim : (K + 1 <= length tre)%nat -> length tim = length tre -> (2 * (K + 1) <= length c)%nat ->
  exists r' i', repack_rescale K r c tre tim = Some (r', i') /\
   forall j, (j < length tre)%nat ->
    rat r' j = (if decide (j = 0)%nat then match r with None => rat c 0 | Some s => s * rat c 0 end
                else if decide (j <= K)%nat then match r with None => 1 / 2 | Some s => s / 2 end * rat c (2 * j) else 0) /\
    rat i' j = (if decide (j = 0)%nat then 0
                else if decide (j <= K)%nat then match r with None => 1 / 2 | Some s => s / 2 end * rat c (2 * j + 1) else 0).
Proof.
  intros H1 H2 H3. unfold repack_rescale. cbv zeta. zlit.
  rewrite (get_range 0 1) by lia. rewrite (get_step 2 (2 * (K + 1)) c K), (get_step 3 (2 * (K + 1)) c K) by lia.
  unfold rsl. rewrite (slice_range 0 1 (length tre)), (slice_range 1 (K + 1)), (slice_from (K + 1)) by lia.
  replace (K + 1 - 1)%nat with K by lia.
  set (h := match r with None => 1 / 2 | Some s => s / 2 end).
  assert (match r with None => map (fun i => rat c (0 + i)) (seq 0 (1 - 0)) | Some s => rscaled s (map (fun i => rat c (0 + i)) (seq 0 (1 - 0))) end
    = map (fun i => match r with None => rat c i | Some s => s * rat c i end) (seq 0 (1 - 0))) as ->.
  { destruct r; [by rewrite rscaled_map|done]. }
  rewrite !rscaled_map. rewrite np_set_map. cbn [mbind option_bind]. rewrite np_set_map. cbn [mbind option_bind].
  rewrite np_set_map. cbn [mbind option_bind]. rewrite !np_fill_map.
  eexists _, _. split; [done|]. intros j Hj. split; unfold rat at 1; looks; fin.
Qed.

(** Shared by the c2r-type libraries: a real signal built from resolved modes. *)
Lemma series_from_modes N K (s : R) c (re im : nat -> R) x : (0 < N)%nat -> (K <= (N - 1) / 2)%nat ->
  re 0%nat = s * rat c 0 ->
  (forall i, (1 <= i <= K)%nat -> re i = s / 2 * rat c (2 * i) /\ im i = s / 2 * rat c (2 * i + 1)) ->
  (forall i, (K < i <= (N - 1) / 2)%nat -> re i = 0 /\ im i = 0) ->
  forall nyq, (Nat.even N = true -> nyq = 0) ->
  re 0%nat + rsum ((N - 1) / 2) (fun i => 2 * (re (S i) * cos (angle N (Z.of_nat (S i)) x)
                                     - im (S i) * sin (angle N (Z.of_nat (S i)) x)))
   + (if Nat.even N then nyq else 0)
  = s * real_series N K c x.
Proof.
  intros HN HK H0 H1 H2 nyq Hn. unfold real_series. rewrite Nat.add_1_r, rsum_first.
  change (2 * 0)%nat with 0%nat. change (Z.of_nat 0) with 0%Z. rewrite angle_0, cos_0, sin_0.
  rewrite (rsum_trunc K ((N - 1) / 2)) by (first [lia | intros i Hi; destruct (H2 (S i)) as [-> ->]; [lia|ring]]).
  rewrite Rmult_plus_distr_l, <- rsum_scal.
  rewrite (rsum_ext K _ (fun i => s * (rat c (2 * S i) * cos (angle N (Z.of_nat (S i)) x) - rat c (2 * S i + 1) * sin (angle N (Z.of_nat (S i)) x)))).
  2:{ intros i Hi. destruct (H1 (S i)) as [-> ->]; [lia|]. field. }
  rewrite H0. destruct (Nat.even N); [rewrite Hn by done|]; ring.
Qed.

Lemma rfft_lengths N g : length (rfft N g).1 = (N / 2 + 1)%nat /\ length (rfft N g).2 = (N / 2 + 1)%nat.
Proof. unfold rfft. simpl. by rewrite !map_length, !seq_length. Qed.

Lemma mode0 N g : rsum N (fun x => rat g x * cos (angle N (Z.of_nat 0) x)) = rsum N (fun x => rat g x).
Proof. apply rsum_ext. intros. change (Z.of_nat 0) with 0%Z. rewrite angle_0, cos_0. ring. Qed.

Lemma real_forward_ok N M g c : (0 < N)%nat -> (2 * (Kmax N M + 1) <= length c)%nat ->
  exists out, real_forward N M g c = Some out /\ length out = length c /\
    forall j, (j < length c)%nat ->
      out !! j = Some (if decide (j / 2 <= Kmax N M)%nat then real_coefficient N g j else 0).
Proof.
  intros HN Hc. unfold real_forward. destruct (rfft_lengths N g) as [L1 L2]. set (K := Kmax N M) in *.
  assert (K <= (N - 1) / 2)%nat as HK by (unfold K, Kmax; lia).
  destruct (unpack_spec K (/ INR N) (rfft N g).1 (rfft N g).2 c ltac:(lia) ltac:(lia) ltac:(lia)) as (out & E & L & H).
  exists out. split; [done|]. split; [done|]. intros j Hj. rewrite H by done. f_equal. unfold real_coefficient.
  destruct (decide (j = 0)%nat) as [->|]; [|destruct (decide (j = 1)%nat) as [->|]].
  - rewrite decide_True by (simpl; lia). unfold rfft. cbn [fst]. rewrite rat_seq by lia. by rewrite mode0.
  - by rewrite decide_True by (simpl; lia).
  - destruct (decide (j < 2 * (K + 1))%nat); [rewrite decide_True by lia|by rewrite decide_False by lia].
    destruct (Nat.even j); unfold rfft; cbn [fst snd]; rewrite rat_seq by lia;
      rewrite ?rsum_opp; unfold Rdiv; ring.
Qed.

Lemma real_backward_modes N M c tre tim r : (0 < N)%nat -> (2 * (Kmax N M + 1) <= length c)%nat ->
  length tre = (N / 2 + 1)%nat -> length tim = (N / 2 + 1)%nat ->
  exists t, repack_rescale (Kmax N M) r c tre tim = Some t /\
   forall x, rat (c2r N t.1 t.2) x = if decide (x < N)%nat then match r with None => 1 | Some s => s end * real_series N (Kmax N M) c x else 0.
Proof.
  intros HN Hc H1 H2. set (K := Kmax N M) in *.
  assert (K <= (N - 1) / 2)%nat as HK by (unfold K, Kmax; lia).
  destruct (repack_spec K r c tre tim ltac:(lia) ltac:(lia) ltac:(lia)) as (r' & i' & E & H).
  exists (r', i'). split; [done|]. intros x. unfold c2r. cbn [fst snd]. case_decide.
  - rewrite rat_seq by done. apply series_from_modes; [done|done|..].
    + destruct (H 0%nat ltac:(lia)) as [-> _]. rewrite decide_True by done. destruct r; lra.
    + intros i Hi. destruct (H i ltac:(lia)) as [-> ->]. dd.
      destruct r; split; lra.
    + intros i Hi. destruct (H i ltac:(lia)) as [-> ->]. by dd.
    + intros He. apply Nat.even_spec in He as [q ->]. destruct (H ((2 * q) / 2)%nat ltac:(lia)) as [-> _].
      dd. ring.
  - unfold rat. rewrite list_lookup_fmap, lookup_seq_ge by lia. done.
Qed.

Lemma list_rat_eq (l : list R) n f : length l = n -> (forall x, (x < n)%nat -> rat l x = f x) -> l = map f (seq 0 n).
Proof.
  intros HL H. apply list_eq. intros x. destruct (decide (x < n)%nat).
  - rewrite lookup_seq_map by done. rewrite <- H by done. unfold rat.
    destruct (lookup_lt_is_Some_2 l x) as [y ->]; [lia|done].
  - rewrite !lookup_ge_None_2; [done| |]; rewrite ?map_length, ?seq_length; lia.
Qed.
Lemma c2r_length N a b : length (c2r N a b) = N.
Proof. unfold c2r. by rewrite map_length, seq_length. Qed.

Lemma real_backward_fftw_ok N M c tre tim : (0 < N)%nat -> (2 * (Kmax N M + 1) <= length c)%nat ->
  length tre = (N / 2 + 1)%nat -> length tim = (N / 2 + 1)%nat ->
  real_backward_fftw N M c tre tim = Some (map (real_series N (Kmax N M) c) (seq 0 N)).
Proof.
  intros HN Hc H1 H2. unfold real_backward_fftw.
  destruct (real_backward_modes N M c tre tim None HN Hc H1 H2) as (t & -> & H). cbn [mbind option_bind]. f_equal.
  apply list_rat_eq; [apply c2r_length|]. intros x Hx. rewrite H, decide_True by done. ring.
Qed.
Lemma real_backward_scipy_ok N M c tre tim : (0 < N)%nat -> (2 * (Kmax N M + 1) <= length c)%nat ->
  length tre = (N / 2 + 1)%nat -> length tim = (N / 2 + 1)%nat ->
  real_backward_scipy N M c tre tim = Some (map (real_series N (Kmax N M) c) (seq 0 N)).
Proof.
  intros HN Hc H1 H2. unfold real_backward_scipy. pose proof (INR_pos N HN).
  destruct (real_backward_modes N M c tre tim (Some (INR N)) HN Hc H1 H2) as (t & -> & H'). cbn [mbind option_bind]. f_equal.
  apply list_rat_eq; [unfold irfft; rewrite map_length; apply c2r_length|]. intros x Hx. unfold irfft.
  assert (rat (map (Rmult (/ INR N)) (c2r N t.1 t.2)) x = / INR N * rat (c2r N t.1 t.2) x) as ->.
  { unfold rat. rewrite list_lookup_fmap.
    destruct (lookup_lt_is_Some_2 (c2r N t.1 t.2) x) as [y ->]; [rewrite c2r_length; lia|done]. }
  rewrite H', decide_True by done. field. lra.
Qed.

(** ** FFTPACK *)
Lemma fftpack_forward_ok N M g c : (0 < N)%nat -> (2 * (Kmax N M + 1) <= length c)%nat ->
  exists out, fftpack_forward N M g c = Some out /\ length out = length c /\
    forall j, (j < length c)%nat ->
      out !! j = Some (if decide (j / 2 <= Kmax N M)%nat then real_coefficient N g j else 0).
Proof.
  intros HN Hc. unfold fftpack_forward. cbv zeta. zlit. set (K := Kmax N M) in *.
  assert (K <= (N - 1) / 2)%nat as HK by (unfold K, Kmax; lia).
  assert (length (fftpack_rfft N g) = N) as HL by (unfold fftpack_rfft; by rewrite map_length, seq_length).
  rewrite (get_range 0 1), (get_range 1 (2 * (K + 1) - 1)) by lia. unfold rsl.
  rewrite (slice_range 0 1 (length c)) by lia. rewrite (slice_range 1 2 (length c)) by lia.
  rewrite (slice_range 2 (2 * (K + 1))), (slice_from (2 * (K + 1))) by lia.
  rewrite !rscaled_map. replace (2 * (K + 1) - 1 - 1)%nat with (2 * K)%nat by lia.
  replace (2 * (K + 1) - 2)%nat with (2 * K)%nat by lia.
  rewrite np_set_map. cbn [mbind option_bind]. rewrite np_set_map. cbn [mbind option_bind]. rewrite !np_fill_map.
  eexists. split; [done|]. split; [by rewrite !write_all_length|]. intros j Hj. looks. unfold real_coefficient.
  destruct (decide (j = 0)%nat) as [->|]; [|destruct (decide (j = 1)%nat) as [->|]].
  - repeat case_decide; try lia. f_equal. unfold fftpack_rfft. rewrite rat_seq by lia.
    rewrite decide_True by (left; lia). simpl ((0 - 0 + 1) / 2)%nat. replace (0 + (0 - 0) + 1)%nat with 1%nat by lia.
    change (1 / 2)%nat with 0%nat. rewrite mode0. unfold Rdiv. ring.
  - repeat case_decide; try lia; try done.
  - assert ((j / 2 <= K)%nat <-> (j < 2 + 2 * K)%nat) as HJ by lia.
    destruct (decide (j / 2 <= K)%nat).
    + repeat case_decide; try lia. f_equal. unfold fftpack_rfft. rewrite rat_seq by lia.
      replace ((1 + (j - 2) + 1) / 2)%nat with (j / 2)%nat by lia.
      replace (1 + (j - 2))%nat with (j - 1)%nat by lia.
      destruct (Nat.even j) eqn:E.
      * rewrite decide_True; [unfold Rdiv; ring|]. right. replace j with (S (j - 1)) in E by lia.
        by rewrite Nat.even_succ in E.
      * rewrite decide_False; [rewrite rsum_opp; unfold Rdiv; ring|]. intros [?|Ho]; [lia|].
        replace j with (S (j - 1)) in E by lia. rewrite Nat.even_succ in E. congruence.
    + repeat case_decide; try lia; done.
Qed.

Lemma fftpack_backward_ok N M c temp : (0 < N)%nat -> (2 * (Kmax N M + 1) <= length c)%nat -> length temp = N ->
  fftpack_backward N M c temp = Some (map (real_series N (Kmax N M) c) (seq 0 N)).
Proof.
  intros HN Hc HT. unfold fftpack_backward. cbv zeta. zlit. set (K := Kmax N M) in *. pose proof (INR_pos N HN).
  assert (K <= (N - 1) / 2)%nat as HK by (unfold K, Kmax; lia).
  rewrite (get_range 0 1), (get_range 2 (2 * (K + 1))) by lia. unfold rsl.
  rewrite (slice_range 0 1), (slice_range 1 (2 * (K + 1) - 1)), (slice_from (2 * (K + 1) - 1)) by lia.
  rewrite !rscaled_map. replace (2 * (K + 1) - 1 - 1)%nat with (2 * K)%nat by lia.
  replace (2 * (K + 1) - 2)%nat with (2 * K)%nat by lia.
  rewrite np_set_map. cbn [mbind option_bind]. rewrite np_set_map. cbn [mbind option_bind]. rewrite !np_fill_map.
  f_equal. unfold fftpack_irfft. set (t := write_all _ _ (write_all _ _ _)).
  assert (forall j, (j < N)%nat -> rat t j = if decide (j = 0)%nat then INR N * rat c 0
            else if decide (j < 2 * K + 1)%nat then INR N / 2 * rat c (j + 1) else 0) as Ht.
  { intros j Hj. unfold t, rat at 1. looks. fin. }
  apply map_ext_in. intros x Hx. apply in_seq in Hx.
  pose proof (series_from_modes N K (INR N) c (fun k => rat t (if decide (k = 0)%nat then 0 else 2 * k - 1)%nat) (fun k => rat t (2 * k)%nat) x HN HK) as HS.
  cbv beta in HS. rewrite decide_True in HS by done.
  assert (forall a b, a = INR N * b -> / INR N * a = b) as HI by (intros a b ->; field; lra). apply HI.
  rewrite <- HS with (nyq := rat t (N - 1)%nat * cos (angle N (Z.of_nat (N / 2)) x)).
  - f_equal. f_equal. apply rsum_ext. intros i Hi. rewrite decide_False by lia.
    replace (2 * S i - 1)%nat with (2 * i + 1)%nat by lia. replace (2 * S i)%nat with (2 * i + 2)%nat by lia. done.
  - rewrite Ht by lia. by rewrite decide_True.
  - intros i Hi. rewrite decide_False by lia. rewrite !Ht by lia. dd.
    split; do 2 f_equal; lia.
  - intros i Hi. rewrite decide_False by lia. rewrite !Ht by lia. by dd.
  - intros He. apply Nat.even_spec in He as [q ->]. rewrite Ht by lia. dd. ring.
Qed.

(** ** Half-complex *)
Lemma hc_unpack_spec K r t c : (2 * K + 1 <= length t)%nat -> (2 * (K + 1) <= length c)%nat ->
  exists out, hc_unpack K r t c = Some out /\ length out = length c /\
    forall j, (j < length c)%nat -> out !! j = Some
      (if decide (j = 0)%nat then r * rat t 0 else if decide (j = 1)%nat then 0
       else if decide (j < 2 * (K + 1))%nat then
         if Nat.even j then 2 * r * rat t (j / 2) else 2 * r * rat t (length t - j / 2)
       else 0).
Proof.
  intros H1 H3. unfold hc_unpack. cbv zeta. zlit.
  rewrite (get_range 0 1), (get_range 1 (K + 1)) by lia. unfold rsl.
  rewrite (slice_range 0 1 (length c)), (slice_range 1 2 (length c)) by lia.
  rewrite (slice_step2 2 (2 * (K + 1)) K), (slice_step2 3 (2 * (K + 1)) K), (slice_from (2 * (K + 1))), slice_rev by lia.
  rewrite (np_get_at t 0) by lia. rewrite !rscaled_map. replace (K + 1 - 1)%nat with K by lia.
  rewrite np_set_map. cbn [mbind option_bind]. rewrite np_set_map. cbn [mbind option_bind].
  rewrite np_set_map. cbn [mbind option_bind]. rewrite !np_fill_map.
  eexists. split; [done|]. split; [by rewrite !write_all_length|].
  intros j Hj. looks. destruct (Nat.even j) eqn:E;
  [apply Nat.even_spec in E as [q E]|rewrite <- Nat.negb_odd, negb_false_iff, Nat.odd_spec in E; destruct E as [q E]];
  repeat case_decide; try lia; first [reflexivity | do 3 f_equal; lia | do 3 f_equal; fold (rat tim); f_equal; lia | unfold rat; do 4 f_equal; lia].
Qed.

Lemma hc_forward_ok N M g c : (0 < N)%nat -> (2 * (Kmax N M + 1) <= length c)%nat ->
  exists out, hc_forward N M g c = Some out /\ length out = length c /\
    forall j, (j < length c)%nat ->
      out !! j = Some (if decide (j / 2 <= Kmax N M)%nat then real_coefficient N g j else 0).
Proof.
  intros HN Hc. unfold hc_forward. set (K := Kmax N M) in *.
  assert (K <= (N - 1) / 2)%nat as HK by (unfold K, Kmax; lia).
  assert (length (r2hc N g) = N) as HL by (unfold r2hc; by rewrite map_length, seq_length).
  destruct (hc_unpack_spec K (/ INR N) (r2hc N g) c ltac:(lia) ltac:(lia)) as (out & E & L & H).
  exists out. split; [done|]. split; [done|]. intros j Hj. rewrite H by done. f_equal. unfold real_coefficient.
  destruct (decide (j = 0)%nat) as [->|]; [|destruct (decide (j = 1)%nat) as [->|]].
  - rewrite decide_True by (simpl; lia). unfold r2hc. rewrite rat_seq by lia. rewrite decide_True by lia. by rewrite mode0.
  - by rewrite decide_True by (simpl; lia).
  - destruct (decide (j < 2 * (K + 1))%nat); [rewrite decide_True by lia|by rewrite decide_False by lia].
    rewrite HL. destruct (Nat.even j); unfold r2hc; rewrite rat_seq by lia.
    + rewrite decide_True by lia. unfold Rdiv; ring.
    + rewrite decide_False by lia. replace (N - (N - j / 2))%nat with (j / 2)%nat by lia.
      rewrite rsum_opp. unfold Rdiv; ring.
Qed.

Lemma hc_repack_spec K c t : (2 * K + 1 <= length t)%nat -> (2 * (K + 1) <= length c)%nat ->
  exists out, hc_repack K c t = Some out /\ length out = length t /\
    forall j, (j < length t)%nat -> rat out j =
      (if decide (j = 0)%nat then rat c 0
       else if decide (j <= K)%nat then 1 / 2 * rat c (2 * j)
       else if decide (length t - K <= j)%nat then 1 / 2 * rat c (2 * (length t - j) + 1)
       else if decide (K = 0)%nat then rat t j else 0).
Proof.
  intros H1 H3. unfold hc_repack. cbv zeta. zlit.
  rewrite (get_range 0 1), (get_step 2 (2 * (K + 1)) c K), (get_step 3 (2 * (K + 1)) c K) by lia. unfold rsl.
  rewrite (slice_range 0 1 (length t)), (slice_range 1 (K + 1) (length t)), slice_rev by lia.
  rewrite !rscaled_map. replace (K + 1 - 1)%nat with K by lia.
  rewrite np_set_map. cbn [mbind option_bind]. rewrite np_set_map. cbn [mbind option_bind].
  rewrite np_set_map. cbn [mbind option_bind].
  destruct (decide (K = 0)%nat) as [->|HK].
  - change (- Z.of_nat 0)%Z with 0%Z. rewrite slice_to_0. unfold np_fill. cbn [write_all length replicate].
    eexists. split; [done|]. split; [by rewrite !write_all_length|]. intros j Hj. unfold rat at 1. looks.
    fin.
  - rewrite slice_mid by lia. rewrite np_fill_map.
    eexists. split; [done|]. split; [by rewrite !write_all_length|]. intros j Hj. unfold rat at 1. looks.
    fin.
Qed.

Lemma hc_backward_ok N M c temp : (0 < N)%nat -> (2 * (Kmax N M + 1) <= length c)%nat -> length temp = N ->
  (0 < Kmax N M \/ N = 1)%nat ->
  hc_backward N M c temp = Some (map (real_series N (Kmax N M) c) (seq 0 N)).
Proof.
  intros HN Hc HT HKp. unfold hc_backward. set (K := Kmax N M) in *.
  assert (K <= (N - 1) / 2)%nat as HK by (unfold K, Kmax; lia).
  destruct (hc_repack_spec K c temp ltac:(lia) ltac:(lia)) as (t & -> & L & H). cbn [mbind option_bind]. f_equal.
  unfold hc2r. apply map_ext_in. intros x Hx. apply in_seq in Hx. rewrite HT in H.
  rewrite <- (Rmult_1_l (real_series N K c x)).
  apply (series_from_modes N K 1 c (fun k => rat t k) (fun k => rat t (N - k)%nat)); [done|done|..].
  - rewrite H by lia. rewrite decide_True by done. ring.
  - intros i Hi. rewrite !H by lia. dd. split; [done|]. do 2 f_equal. lia.
  - intros i Hi. rewrite !H by lia. by dd.
  - intros He. apply Nat.even_spec in He as [q ->]. rewrite H by lia. dd. ring.
Qed.

(** Degenerate size: nothing but the mean is resolved and the buffer leaks. *)
Lemma hc_backward_leak N M c temp x : (1 < N)%nat -> (2 <= length c)%nat -> length temp = N -> Kmax N M = 0%nat ->
  (x < N)%nat -> exists out, hc_backward N M c temp = Some out /\
  rat out x = rat c 0
    + rsum ((N - 1) / 2) (fun i => 2 * (rat temp (S i) * cos (angle N (Z.of_nat (S i)) x)
                                        - rat temp (N - S i) * sin (angle N (Z.of_nat (S i)) x)))
    + (if Nat.even N then rat temp (N / 2) * cos (angle N (Z.of_nat (N / 2)) x) else 0).
Proof.
  intros HN Hc HT HK Hx. unfold hc_backward. rewrite HK.
  destruct (hc_repack_spec 0 c temp ltac:(lia) ltac:(lia)) as (t & -> & L & H). cbn [mbind option_bind].
  eexists. split; [done|]. rewrite HT in H. unfold hc2r. rewrite rat_seq by done.
  assert (forall j, (1 <= j < N)%nat -> rat t j = rat temp j) as Hj.
  { intros j Hj. rewrite H by lia. repeat case_decide; try lia. done. }
  rewrite (H 0%nat) by lia. rewrite decide_True by done. f_equal; [f_equal|].
  - apply rsum_ext. intros i Hi. by rewrite !Hj by lia.
  - destruct (Nat.even N) eqn:E; [|done]. by rewrite Hj by lia.
Qed.

(** ** Matrix transform *)
Lemma slice_every_other n : length (slice_indices None None 2 n) = ((n + 1) / 2)%nat.
Proof. slices; rewrite ?map_length, ?seq_length; lia. Qed.
Lemma slice_even n : length (slice_indices (Some 0%Z) None 2 n) = ((n + 1) / 2)%nat.
Proof. slices; rewrite ?map_length, ?seq_length; lia. Qed.
Lemma slice_odd n : length (slice_indices (Some 1%Z) None 2 n) = (n / 2)%nat.
Proof. slices; rewrite ?map_length, ?seq_length; lia. Qed.
Lemma rmmt_shapes M : rmmt_shapes_ok M = bool_decide (M <= 2 \/ Nat.even M = true)%nat.
Proof.
  unfold rmmt_shapes_ok. rewrite slice_every_other, slice_even, slice_odd.
  apply bool_decide_ext. destruct (Nat.even M) eqn:E;
  [apply Nat.even_spec in E as [q E]|rewrite <- Nat.negb_odd, negb_false_iff, Nat.odd_spec in E; destruct E as [q E]]; lia.
Qed.

Lemma rmmt_angle N k x : (0 < N)%nat -> INR k * INR x / (INR N / 2 / PI) = angle N (Z.of_nat k) x.
Proof. intros. rewrite INR_IZR_INZ. by apply mmt_angle. Qed.

Lemma rmmt_forward_ok N M g : (0 < N)%nat -> (M <= 2 \/ Nat.even M = true)%nat ->
  exists out, rmmt_forward N M g = Some out /\ forall j, (j < Nat.max 2 M)%nat ->
    out !! j = Some (if decide (j / 2 <= Kmax N M)%nat then real_coefficient N g j else 0).
Proof.
  intros HN HM. unfold rmmt_forward. rewrite rmmt_shapes, bool_decide_true by done. eexists. split; [done|].
  intros j Hj. unfold mat_apply_r. rewrite lookup_seq_map by done. f_equal. unfold rmmt_forward_entry, rwavenumber.
  destruct (decide (j / 2 <= Kmax N M)%nat); [|apply rsum_zero; intros; ring]. unfold real_coefficient.
  destruct (decide (j = 0)%nat) as [->|]; [|destruct (decide (j = 1)%nat) as [->|]].
  - rewrite <- rsum_scal. apply rsum_ext. intros. unfold Rdiv. ring.
  - simpl Nat.even. cbv iota. apply rsum_zero. intros i Hi. change (1 / 2)%nat with 0%nat. simpl INR.
    replace (0 * INR i / (INR N / 2 / PI)) with 0 by (unfold Rdiv; ring). rewrite sin_0. ring.
  - destruct (Nat.even j); rewrite <- rsum_scal; apply rsum_ext; intros i Hi; rewrite rmmt_angle by done; unfold Rdiv; ring.
Qed.

Lemma rmmt_backward_ok N M c : (0 < N)%nat -> (0 < M)%nat -> (M <= 2 \/ Nat.even M = true)%nat ->
  rmmt_backward N M c = Some (map (real_series N (Kmax N M) c) (seq 0 N)).
Proof.
  intros HN HM0 HM. unfold rmmt_backward. rewrite rmmt_shapes, bool_decide_true by done. f_equal.
  unfold mat_apply_r. apply map_ext. intros x. set (K := Kmax N M).
  assert (exists q, Nat.max 2 M = 2 * q /\ K + 1 <= q)%nat as (q & -> & Hq).
  { destruct HM as [HM|HM]; [|apply Nat.even_spec in HM as [q HM]].
    - exists 1%nat. unfold K, Kmax. lia.
    - exists q. unfold K, Kmax. lia. }
  rewrite rsum_pairs. unfold real_series. rewrite (rsum_trunc (K + 1) q).
  - apply rsum_ext. intros k Hk. unfold rmmt_backward_entry, rwavenumber. fold K.
    replace (2 * k / 2)%nat with k by lia. replace ((2 * k + 1) / 2)%nat with k by lia.
    dd. rewrite rmmt_angle by done.
    assert (Nat.even (2 * k) = true) as -> by (apply Nat.even_spec; exists k; lia).
    assert (Nat.even (2 * k + 1) = false) as ->.
    { rewrite <- Nat.negb_odd. apply negb_false_iff, Nat.odd_spec. exists k. lia. }
    ring.
  - done.
  - intros k Hk. unfold rmmt_backward_entry, rwavenumber. fold K.
    replace (2 * k / 2)%nat with k by lia. replace ((2 * k + 1) / 2)%nat with k by lia.
    dd. ring.
Qed.

(** ** Round trip *)
Lemma sum_cc N k l : (0 < N)%nat -> (k + l < N)%nat ->
  rsum N (fun x => cos (angle N (Z.of_nat k) x) * cos (angle N (Z.of_nat l) x))
  = if decide (k = l)%nat then if decide (k = 0)%nat then INR N else INR N / 2 else 0.
Proof.
  intros HN Hkl.
  rewrite (rsum_ext _ _ (fun x => 1 / 2 * (cos (angle N (Z.of_nat k - Z.of_nat l) x) + cos (angle N (Z.of_nat k + Z.of_nat l) x)))).
  2:{ intros x _. rewrite angle_plus, angle_minus, cos_plus, cos_minus. field. }
  rewrite rsum_scal, rsum_plus, !sum_cos_all by lia. repeat case_decide; try lia; lra.
Qed.
Lemma sum_ss N k l : (0 < N)%nat -> (k + l < N)%nat ->
  rsum N (fun x => sin (angle N (Z.of_nat k) x) * sin (angle N (Z.of_nat l) x))
  = if decide (k = l)%nat then if decide (k = 0)%nat then 0 else INR N / 2 else 0.
Proof.
  intros HN Hkl.
  rewrite (rsum_ext _ _ (fun x => 1 / 2 * (cos (angle N (Z.of_nat k - Z.of_nat l) x) - cos (angle N (Z.of_nat k + Z.of_nat l) x)))).
  2:{ intros x _. rewrite angle_plus, angle_minus, cos_plus, cos_minus. field. }
  rewrite rsum_scal, rsum_minus, !sum_cos_all by lia. repeat case_decide; try lia; lra.
Qed.
Lemma sum_sc N k l : (0 < N)%nat -> (k + l < N)%nat ->
  rsum N (fun x => sin (angle N (Z.of_nat k) x) * cos (angle N (Z.of_nat l) x)) = 0.
Proof.
  intros HN Hkl.
  rewrite (rsum_ext _ _ (fun x => 1 / 2 * (sin (angle N (Z.of_nat k - Z.of_nat l) x) + sin (angle N (Z.of_nat k + Z.of_nat l) x)))).
  2:{ intros x _. rewrite angle_plus, angle_minus, sin_plus, sin_minus. field. }
  rewrite rsum_scal, rsum_plus, !sum_sin_all by lia. lra.
Qed.

Lemma series_cos N K c l : (0 < N)%nat -> (2 * K + 1 <= N)%nat -> (l <= K)%nat ->
  rsum N (fun x => real_series N K c x * cos (angle N (Z.of_nat l) x))
  = rat c (2 * l) * if decide (l = 0)%nat then INR N else INR N / 2.
Proof.
  intros HN HK Hl. unfold real_series.
  rewrite (rsum_ext _ _ (fun x => rsum (K + 1) (fun k => rat c (2 * k) * (cos (angle N (Z.of_nat k) x) * cos (angle N (Z.of_nat l) x))
      - rat c (2 * k + 1) * (sin (angle N (Z.of_nat k) x) * cos (angle N (Z.of_nat l) x))))).
  2:{ intros x _. rewrite <- rsum_scal_r. apply rsum_ext. intros. ring. }
  rewrite rsum_swap. rewrite (rsum_single _ l) by (first [lia | intros k Hk Hne; rewrite rsum_minus, !rsum_scal, sum_cc, sum_sc by lia; rewrite decide_False by done; ring]).
  rewrite rsum_minus, !rsum_scal, sum_cc, sum_sc by lia. rewrite decide_True by done. ring.
Qed.
Lemma series_sin N K c l : (0 < N)%nat -> (2 * K + 1 <= N)%nat -> (l <= K)%nat ->
  rsum N (fun x => real_series N K c x * sin (angle N (Z.of_nat l) x))
  = - rat c (2 * l + 1) * if decide (l = 0)%nat then 0 else INR N / 2.
Proof.
  intros HN HK Hl. unfold real_series.
  rewrite (rsum_ext _ _ (fun x => rsum (K + 1) (fun k => rat c (2 * k) * (sin (angle N (Z.of_nat l) x) * cos (angle N (Z.of_nat k) x))
      - rat c (2 * k + 1) * (sin (angle N (Z.of_nat k) x) * sin (angle N (Z.of_nat l) x))))).
  2:{ intros x _. rewrite <- rsum_scal_r. apply rsum_ext. intros. ring. }
  rewrite rsum_swap. rewrite (rsum_single _ l) by (first [lia | intros k Hk Hne; rewrite rsum_minus, !rsum_scal, sum_ss, sum_sc by lia; rewrite decide_False by done; ring]).
  rewrite rsum_minus, !rsum_scal, sum_ss, sum_sc by lia. rewrite decide_True by done. case_decide; ring.
Qed.

Lemma real_round_trip N K c j : (0 < N)%nat -> (2 * K + 1 <= N)%nat -> (j / 2 <= K)%nat ->
  real_coefficient N (map (real_series N K c) (seq 0 N)) j = if decide (j = 1)%nat then 0 else rat c j.
Proof.
  intros HN HK Hj. pose proof (INR_pos N HN). unfold real_coefficient.
  destruct (decide (j = 0)%nat) as [->|Hj0]; [|destruct (decide (j = 1)%nat) as [->|Hj1]].
  - rewrite decide_False by done. rewrite <- mode0.
    rewrite (rsum_ext _ _ (fun x => real_series N K c x * cos (angle N (Z.of_nat 0) x))) by (intros; by rewrite rat_seq).
    rewrite series_cos by lia. rewrite decide_True by done. change (2 * 0)%nat with 0%nat. field. lra.
  - done.
  - destruct (Nat.even j) eqn:E.
    + rewrite (rsum_ext _ _ (fun x => real_series N K c x * cos (angle N (Z.of_nat (j / 2)) x))) by (intros; by rewrite rat_seq).
      apply Nat.even_spec in E as [q ->]. rewrite series_cos by lia. rewrite decide_False by lia.
      replace (2 * (2 * q / 2))%nat with (2 * q)%nat by lia. field. lra.
    + rewrite (rsum_ext _ _ (fun x => real_series N K c x * sin (angle N (Z.of_nat (j / 2)) x))) by (intros; by rewrite rat_seq).
      rewrite <- Nat.negb_odd, negb_false_iff, Nat.odd_spec in E; destruct E as [q E].
      rewrite series_sin by lia. rewrite decide_False by lia.
      replace (2 * (j / 2) + 1)%nat with j by lia. field. lra.
Qed.

(** ** Chebyshev *)
Lemma KmaxC_bounds N M : (0 < N)%nat -> (0 < M)%nat -> (KmaxC N M + 1 <= N /\ KmaxC N M + 1 <= M)%nat.
Proof. unfold KmaxC. lia. Qed.

Lemma dct_resize_spec K KM rz rp x y : (K + 1 <= length x)%nat -> length y = (KM + 1)%nat -> (K <= KM)%nat ->
  exists out, dct_resize_forward K KM rz rp x y = Some out /\ length out = length y /\
    forall j, (j < length y)%nat -> rat out j =
      (if decide (j = 0)%nat then rz * rat x 0
       else if decide (j <= K)%nat then rp * rat x j
       else if decide (0 < K)%nat then 0 else rat y j).
Proof.
  intros Hx Hy HK. unfold dct_resize_forward. zlit. rewrite (get_range 0 1) by lia.
  rewrite (rsl_range 0 1) by lia. rewrite rscaled_map, np_set_map. cbn [mbind option_bind].
  destruct (decide (0 < K)%nat).
  - rewrite (get_range 1 (K + 1)) by lia. rewrite rsl_range by (rewrite ?write_all_length; lia).
    rewrite rscaled_map, np_set_map. cbn [mbind option_bind]. destruct (decide (K < KM)%nat).
    + unfold rsl. rewrite slice_from by lia. rewrite np_fill_map. eexists. split; [done|].
      split; [by rewrite !write_all_length|]. intros j Hj. unfold rat at 1. looks.
      fin.
    + eexists. split; [done|]. split; [by rewrite !write_all_length|]. intros j Hj. unfold rat at 1. looks.
      fin.
  - eexists. split; [done|]. split; [by rewrite !write_all_length|]. intros j Hj. unfold rat at 1. looks.
    fin.
Qed.

Lemma flip_odd_spec K x : (K + 1 <= length x)%nat ->
  exists out, flip_odd K x = Some out /\ length out = length x /\
    forall j, (j < length x)%nat -> rat out j = (if decide (j <= K)%nat then (-1) ^ j * rat x j else rat x j).
Proof.
  intros Hx. unfold flip_odd. destruct (decide (0 < K)%nat).
  - zlit. cbv zeta. unfold rsl.
    rewrite (slice_step2 1 (K + 1) ((K + 1) / 2)) by lia.
    rewrite (np_get_at x 0) by lia. rewrite rscaled_map, np_set_map.
    eexists. split; [done|]. split; [by rewrite write_all_length|]. intros j Hj. unfold rat at 1. looks.
    destruct (Nat.even j) eqn:E;
    [apply Nat.even_spec in E as [q E]|rewrite <- Nat.negb_odd, negb_false_iff, Nat.odd_spec in E; destruct E as [q E]].
    + rewrite decide_False by lia. replace ((-1) ^ j) with 1 by (subst j; by rewrite pow_1_even).
      fold (rat x j). case_decide; ring.
    + replace ((-1) ^ j) with (-1) by (subst j; rewrite Nat.add_1_r; by rewrite pow_1_odd).
      destruct (decide (j <= K)%nat); [rewrite decide_True by lia|rewrite decide_False by lia]; [|done].
      unfold rat. replace (1 + 2 * ((j - 1) / 2))%nat with j by lia. done.
  - exists x. split; [done|]. split; [done|]. intros j Hj. case_decide; [|done].
    replace j with 0%nat by lia. simpl. ring.
Qed.

Lemma dct_angle N k x : (0 < N)%nat -> PI * INR k * (2 * INR x + 1) / (2 * INR N) = INR k * theta N x.
Proof. intros HN. pose proof (INR_pos N HN). unfold theta. field. lra. Qed.

Lemma sqrt_pos_PI : R_sqrt.sqrt PI <> 0 /\ R_sqrt.sqrt (PI / 2) <> 0 /\ R_sqrt.sqrt PI * R_sqrt.sqrt PI = PI /\
  R_sqrt.sqrt (PI / 2) * R_sqrt.sqrt (PI / 2) = PI / 2.
Proof.
  pose proof PI_RGT_0. repeat split; try (apply Rgt_not_eq, sqrt_lt_R0; lra); apply sqrt_sqrt; lra.
Qed.

Lemma cheb_forward_ok N M g c : (0 < N)%nat -> (0 < M)%nat -> length c = M ->
  exists out, cheb_forward N M g c = Some out /\ length out = M /\
   forall j, (j < M)%nat -> rat out j =
     (if decide (j <= KmaxC N M)%nat then cheb_coefficient N g j
      else if decide (0 < KmaxC N M)%nat then 0 else rat c j).
Proof.
  intros HN HM Hc. destruct (KmaxC_bounds N M HN HM) as [B1 B2]. pose proof (INR_pos N HN) as HR.
  unfold cheb_forward. cbv zeta. set (K := KmaxC N M) in *.
  assert (length (dct2 N g) = N) as HL by (unfold dct2; by rewrite map_length, seq_length).
  destruct (dct_resize_spec K (M - 1) (1 / INR N / 2 * R_sqrt.sqrt PI) (1 / INR N * R_sqrt.sqrt (PI / 2)) (dct2 N g) c ltac:(lia) ltac:(lia) ltac:(lia)) as (d & -> & L & H).
  cbn [mbind option_bind]. destruct (flip_odd_spec K d ltac:(lia)) as (out & -> & L' & H').
  exists out. split; [done|]. split; [lia|]. intros j Hj. rewrite H', H by lia.
  destruct sqrt_pos_PI as (Q1 & Q2 & Q3 & Q4).
  destruct (decide (j <= K)%nat).
  - unfold dct2. rewrite !rat_seq by lia. unfold cheb_coefficient, cheb_poly. destruct (decide (j = 0)%nat) as [->|].
    + cbn [Rpow_def.pow]. rewrite <- !rsum_scal. apply rsum_ext. intros x _. rewrite dct_angle by done.
      simpl INR. rewrite Rmult_0_l, cos_0.
      replace (PI / INR N) with (R_sqrt.sqrt PI * R_sqrt.sqrt PI / INR N) by (by rewrite Q3). field. lra.
    + rewrite <- !rsum_scal. apply rsum_ext. intros x _. rewrite dct_angle by done.
      replace (PI / INR N) with (2 * (R_sqrt.sqrt (PI / 2) * R_sqrt.sqrt (PI / 2)) / INR N) by (rewrite Q4; field; lra).
      field. lra.
  - rewrite decide_False by lia. done.
Qed.

Lemma cheb_backward_modes N M c temp : (0 < N)%nat -> (0 < M)%nat -> length c = M -> length temp = N ->
  exists out, cheb_backward N M c temp = Some out /\ length out = N /\
   forall x, (x < N)%nat -> rat out x = cheb_series N (KmaxC N M) c x
     + if decide (0 < KmaxC N M)%nat then 0
       else rsum (N - 1) (fun i => 2 * (rat temp (S i) * cos (INR (S i) * theta N x))).
Proof.
  intros HN HM Hc Ht. destruct (KmaxC_bounds N M HN HM) as [B1 B2]. pose proof (INR_pos N HN) as HR.
  unfold cheb_backward, dct_resize_backward. cbv zeta. set (K := KmaxC N M) in *.
  destruct (flip_odd_spec K c ltac:(lia)) as (c' & -> & L' & H'). cbn [mbind option_bind].
  destruct (dct_resize_spec K (N - 1) (1 / R_sqrt.sqrt PI) (1 / 2 / R_sqrt.sqrt (PI / 2)) c' temp ltac:(lia) ltac:(lia) ltac:(lia)) as (t & -> & L & H).
  cbn [mbind option_bind]. eexists. split; [done|]. split; [unfold dct3; by rewrite map_length, seq_length|].
  intros x Hx. unfold dct3. rewrite rat_seq by done. unfold cheb_series. rewrite Nat.add_1_r, rsum_first.
  destruct sqrt_pos_PI as (Q1 & Q2 & Q3 & Q4).
  rewrite (H 0%nat) by lia. rewrite decide_True by done. rewrite H' by lia. rewrite decide_True by lia.
  unfold cheb_poly at 1. rewrite decide_True by done. cbn [Rpow_def.pow].
  rewrite Rplus_assoc. f_equal; [field; lra|].
  replace (N - 1)%nat with (K + (N - 1 - K))%nat at 1 by lia. rewrite rsum_add. f_equal.
  - apply rsum_ext. intros i Hi. rewrite H by lia. rewrite decide_False by lia. rewrite decide_True by lia.
    rewrite H' by lia. rewrite decide_True by lia. unfold cheb_poly. rewrite decide_False by lia.
    rewrite dct_angle by done. field. lra.
  - destruct (decide (0 < K)%nat).
    + apply rsum_zero. intros i Hi. rewrite H by lia. dd. ring.
    + replace (N - 1 - K)%nat with (N - 1)%nat by lia. apply rsum_ext. intros i Hi. replace (K + i)%nat with i by lia.
      rewrite H by lia. dd. by rewrite dct_angle.
Qed.

Lemma sum_cos_theta N (m : Z) : (0 < N)%nat -> (Z.abs m < 2 * Z.of_nat N)%Z ->
  rsum N (fun x => cos (IZR m * theta N x)) = if decide (m = 0%Z) then INR N else 0.
Proof.
  intros HN Hm. pose proof (INR_pos N HN) as HR. case_decide as E.
  - subst m. rewrite (rsum_ext _ _ (fun _ => 1)); [rewrite rsum_const; lra|]. intros. by rewrite Rmult_0_l, cos_0.
  - set (h := PI * IZR m / INR N).
    assert (h / 2 = PI * IZR m / INR (2 * N)) as Hh by (unfold h; rewrite mult_INR; simpl; field; lra).
    rewrite (rsum_ext _ _ (fun x => cos (INR x * h + h / 2))).
    2:{ intros x _. f_equal. unfold theta, h. field. lra. }
    rewrite sum_cos_shift.
    + replace (INR N * h - h / 2 + h / 2) with (IZR m * PI) by (unfold h; field; lra).
      replace (h / 2 - h / 2) with 0 by lra. rewrite sin_0, sin_eq_0_1 by (exists m; done). unfold Rdiv. ring.
    + rewrite Hh. apply sin_half_nz; [lia|]. intros Hd. apply Z.divide_abs_r in Hd. apply Z.divide_pos_le in Hd; lia.
Qed.

Lemma sum_cheb N k l : (0 < N)%nat -> (k < N)%nat -> (l < N)%nat ->
  rsum N (fun x => PI / INR N * (cheb_poly N k x * cheb_poly N l x)) = if decide (k = l) then 1 else 0.
Proof.
  intros HN Hk Hl. pose proof (INR_pos N HN) as HR. destruct sqrt_pos_PI as (Q1 & Q2 & Q3 & Q4). pose proof PI_RGT_0 as HP.
  assert (forall s t a b, (a + b < 2 * N)%nat -> rsum N (fun x => PI / INR N * (s * cos (INR a * theta N x) * (t * cos (INR b * theta N x))))
    = s * t * (PI / INR N) * (if decide (a = b) then if decide (a = 0)%nat then INR N else INR N / 2 else 0)) as HC.
  { intros s t a b Hab.
    rewrite (rsum_ext _ _ (fun x => s * t * (PI / INR N) * (1 / 2 * (cos (IZR (Z.of_nat a - Z.of_nat b) * theta N x) + cos (IZR (Z.of_nat a + Z.of_nat b) * theta N x))))).
    2:{ intros x _. rewrite minus_IZR, plus_IZR, <- !INR_IZR_INZ, Rmult_plus_distr_r, Rmult_minus_distr_r, cos_plus, cos_minus. field. lra. }
    rewrite !rsum_scal, rsum_plus, !sum_cos_theta by lia. repeat case_decide; try lia; field; lra. }
  assert (forall k x, cheb_poly N k x = (if decide (k = 0)%nat then / R_sqrt.sqrt PI else / R_sqrt.sqrt (PI / 2) * (-1) ^ k) * cos (INR k * theta N x)) as HP'.
  { intros k' x. unfold cheb_poly. case_decide; [subst; simpl; rewrite Rmult_0_l, cos_0|]; ring. }
  rewrite (rsum_ext _ _ (fun x => PI / INR N * ((if decide (k = 0)%nat then / R_sqrt.sqrt PI else / R_sqrt.sqrt (PI / 2) * (-1) ^ k) * cos (INR k * theta N x)
     * ((if decide (l = 0)%nat then / R_sqrt.sqrt PI else / R_sqrt.sqrt (PI / 2) * (-1) ^ l) * cos (INR l * theta N x))))) by (intros; by rewrite !HP').
  rewrite HC by lia. destruct (decide (k = l)) as [->|]; [|ring]. destruct (decide (l = 0)%nat).
  - transitivity (PI * (/ R_sqrt.sqrt PI * / R_sqrt.sqrt PI)); [field; lra|]. rewrite <- Rinv_mult, Q3. field. lra.
  - assert ((-1) ^ l * (-1) ^ l = 1) as H1 by (rewrite <- Rpow_mult_distr; replace (-1 * -1) with 1 by lra; apply pow1).
    transitivity (((-1) ^ l * (-1) ^ l) * (PI / 2) * (/ R_sqrt.sqrt (PI / 2) * / R_sqrt.sqrt (PI / 2))); [field; lra|].
    rewrite H1, <- Rinv_mult, Q4. field. lra.
Qed.

Lemma cheb_round_trip N K c j : (0 < N)%nat -> (K + 1 <= N)%nat -> (j <= K)%nat ->
  cheb_coefficient N (map (cheb_series N K c) (seq 0 N)) j = rat c j.
Proof.
  intros HN HK Hj. unfold cheb_coefficient.
  rewrite (rsum_ext _ _ (fun x => rsum (K + 1) (fun k => rat c k * (PI / INR N * (cheb_poly N k x * cheb_poly N j x))))).
  2:{ intros x Hx. rewrite rat_seq by done. unfold cheb_series.
      rewrite <- rsum_scal_r, <- rsum_scal. apply rsum_ext. intros. ring. }
  rewrite rsum_swap. rewrite (rsum_single _ j) by (first [lia | intros k Hk Hne; rewrite rsum_scal, sum_cheb by lia; rewrite decide_False by done; ring]).
  rewrite rsum_scal, sum_cheb by lia. rewrite decide_True by done. ring.
Qed.
