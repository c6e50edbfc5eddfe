(** Proofs about interpolation in azimuth. *)
From Coq Require Import Reals ZArith Lia Lra ZifyNat ZifyBool Permutation.
From stdpp Require Import list.
From Verif Require FourierCalc_Series FourierCalc_Props Fourier_Props Sphere_Spec Sphere_Proofs FourierCalc_Spec.
From Verif Require Import MatSolvers_Model AffineCOV_Model AffineCOV_Props FourierCalc_Model FourierCalc_Proofs Sphere_Model Numpy_Model Fourier_Model Fourier_Spec Sums Fourier_Proofs RealFourier_Proofs AzimuthInterp_Model AzimuthInterp_Spec.
Local Open Scope R_scope.
Local Ltac Zify.zify_post_hook ::= Z.div_mod_to_equations.
Notation good := Sphere_Spec.good_resolution.

(** ** Sums over permutations *)
Definition lsum (l : list R) : R := fold_right Rplus 0 l.
Lemma lsum_app l l' : lsum (l ++ l') = lsum l + lsum l'.
Proof. unfold lsum. induction l as [|x l IH]; simpl; [lra|]. rewrite IH. lra. Qed.
Lemma lsum_perm l l' : Permutation l l' -> lsum l = lsum l'.
Proof. unfold lsum. intros H. induction H; simpl; lra. Qed.
Lemma rsum_lsum n f : rsum n f = lsum (map f (seq 0 n)).
Proof. induction n as [|n IH]; [done|]. cbn [rsum]. rewrite IH, seq_S, map_app, lsum_app. cbn. lra. Qed.
Lemma rsum_perm p n f : Permutation p (seq 0 n) -> rsum n (fun j => f (nth j p 0%nat)) = rsum n f.
Proof.
  intros H. rewrite !rsum_lsum. apply lsum_perm. rewrite <- (map_map (fun j => nth j p 0%nat) f). apply Permutation_map.
  assert (E : map (fun j => nth j p 0%nat) (seq 0 n) = p); [|by rewrite E].
  assert (L : length p = n) by (rewrite (Permutation_length H), seq_length; done). rewrite <- L. clear.
  apply nth_ext with 0%nat 0%nat; [by rewrite map_length, seq_length|]. intros j Hj. rewrite map_length, seq_length in Hj. by rewrite FourierCalc_Series.nth_map_seq.
Qed.
Lemma csum_perm p n f : Permutation p (seq 0 n) -> csum n (fun j => f (nth j p 0%nat)) = csum n f.
Proof. intros H. apply C_ext; cbn; [apply (rsum_perm p n (fun i => fst (f i)))|apply (rsum_perm p n (fun i => snd (f i)))]; done. Qed.
Lemma permutation_of f n : (forall a, (a < n)%nat -> (f a < n)%nat) -> (forall a b, (a < n)%nat -> (b < n)%nat -> f a = f b -> a = b) -> Permutation (map f (seq 0 n)) (seq 0 n).
Proof.
  intros H1 H2. apply NoDup_Permutation_bis.
  - apply FourierCalc_Series.map_nodup; [apply List.seq_NoDup|]. intros x y Hx Hy. apply in_seq in Hx, Hy. apply H2; lia.
  - by rewrite map_length.
  - intros x Hx. apply in_map_iff in Hx as (a & <- & Ha). apply in_seq in Ha. apply in_seq. specialize (H1 a). lia.
Qed.
Lemma complex_perm M : (M mod 2 = 0)%nat -> Permutation (complex_m_perm M) (seq 0 M).
Proof.
  intros H. apply permutation_of.
  - intros a Ha. assert (a mod 2 = 0 \/ a mod 2 = 1)%nat as [E|E] by lia; rewrite E; lia.
  - intros a b Ha Hb. assert (a mod 2 = 0 \/ a mod 2 = 1)%nat as [E|E] by lia; assert (b mod 2 = 0 \/ b mod 2 = 1)%nat as [E'|E'] by lia; rewrite E, E'; lia.
Qed.
Lemma real_perm_at M a : (M mod 4 = 0)%nat -> (a < M)%nat ->
  let f := (let div2 := a / 2 in let mod2 := a mod 2 in let div22 := div2 mod 2 in (mod2 + div2) * (1 - div22) + (M - 1 + mod2 - div2) * div22)%nat in
  ((a / 2) mod 2 = 0 /\ f = a mod 2 + a / 2 /\ f < M / 2 \/ (a / 2) mod 2 = 1 /\ f = M - 1 + a mod 2 - a / 2 /\ M / 2 <= f < M)%nat.
Proof.
  intros HM Ha. cbv zeta. assert ((a / 2) mod 2 = 0 \/ (a / 2) mod 2 = 1)%nat as [E|E] by lia; rewrite E; [left|right]; lia.
Qed.
Lemma real_perm M : (M mod 4 = 0)%nat -> Permutation (real_m_perm M) (seq 0 M).
Proof.
  intros H. apply permutation_of.
  - intros a Ha. destruct (real_perm_at M a H Ha) as [(E & -> & ?)|(E & -> & ?)]; lia.
  - intros a b Ha Hb. destruct (real_perm_at M a H Ha) as [(E & -> & ?)|(E & -> & ?)]; destruct (real_perm_at M b H Hb) as [(E' & -> & ?)|(E' & -> & ?)]; lia.
Qed.
Lemma real_perm_parity M j : (M mod 4 = 0)%nat -> (j < M)%nat -> Nat.even (nth j (real_m_perm M) 0%nat) = Nat.even j /\ (nth j (real_m_perm M) 0%nat < M)%nat.
Proof.
  intros H Hj. unfold real_m_perm. rewrite FourierCalc_Series.nth_map_seq by done. destruct (real_perm_at M j H Hj) as [(E & -> & ?)|(E & -> & ?)]; (split; [|lia]); apply eq_true_iff_eq; rewrite !Nat.even_spec; unfold Nat.Even; split; intros [q Hq].
  - exists (j / 2)%nat. lia.
  - exists ((j mod 2 + j / 2) / 2)%nat. lia.
  - exists (j / 2)%nat. lia.
  - exists ((M - 1 + j mod 2 - j / 2) / 2)%nat. lia.
Qed.

(** ** Resolutions *)
Lemma mmax_zero M : (mmax M <= 0)%nat <-> (M <= 2)%nat.
Proof. unfold mmax. lia. Qed.
Lemma permutation_cases d M : good d M -> (azimuth_permutation d M = None /\ (M <= 2)%nat) \/
  (exists p, azimuth_permutation d M = Some p /\ Permutation p (seq 0 M) /\ (2 < M)%nat /\ p = match d with Complex128 => complex_m_perm M | Float64 => real_m_perm M end).
Proof.
  intros [H0 H]. unfold azimuth_permutation. destruct (Nat.ltb_spec 0 (mmax M)) as [Hm|Hm]; [right|left; split; [done|by apply mmax_zero]].
  assert (2 < M)%nat by (destruct (decide (M <= 2)%nat) as [E|]; [apply mmax_zero in E|]; lia). eexists. split; [done|]. split; [|done]. destruct H as [->|H]; [lia|]. destruct d; [by apply complex_perm|by apply real_perm].
Qed.
Lemma perm_bound p n : Permutation p (seq 0 n) -> length p = n /\ forall i, In i p -> (i < n)%nat.
Proof. intros H. split; [by rewrite (Permutation_length H), seq_length|]. intros i Hi. apply (Permutation_in _ H), in_seq in Hi. lia. Qed.
Lemma complex_nth M j : (j < M)%nat -> nth j (complex_wavenumbers M) 0%Z = wavenumber M j.
Proof.
  intros Hj. unfold complex_wavenumbers. assert (W : forall i, (i < M)%nat -> wavenumber M i = if decide (2 * i <= M)%nat then Z.of_nat i else (Z.of_nat i - Z.of_nat M)%Z).
  { intros i Hi. unfold wavenumber. destruct (decide (2 * i <= M)%nat).
    - rewrite Z.mod_small by lia. lia.
    - replace (Z.of_nat i + Z.of_nat ((M - 1) / 2))%Z with (Z.of_nat i - Z.of_nat M + Z.of_nat ((M - 1) / 2) + 1 * Z.of_nat M)%Z by lia. rewrite Z.mod_add by lia. rewrite Z.mod_small by lia. lia. }
  rewrite W by done. destruct (Nat.eqb_spec (M mod 2) 1) as [E|E]; (destruct (decide (2 * j <= M)%nat); [rewrite app_nth1 by (rewrite FourierCalc_Series.arange_length; lia); rewrite FourierCalc_Series.arange_nth by lia; lia|rewrite app_nth2 by (rewrite FourierCalc_Series.arange_length; lia); rewrite FourierCalc_Series.arange_length, FourierCalc_Series.arange_nth by lia; lia]).
Qed.
Lemma complex_length M : (0 < M)%nat -> length (complex_wavenumbers M) = M.
Proof. intros H. destruct (FourierCalc_Series.complex_ks M H) as [(_ & _ & L) _]. by rewrite FourierCalc_Series.cdiv_1 in L. Qed.
Lemma real_length M : (0 < M)%nat -> (M = 1 \/ Nat.even M = true)%nat -> length (real_wavenumbers M) = Nat.max 2 M.
Proof. intros H He. unfold real_wavenumbers. rewrite repeat2_length, FourierCalc_Series.arange_length. destruct He as [->|He]; [done|]. apply Nat.even_spec in He as [q ->]. lia. Qed.
Lemma real_nth M j : (j / 2 <= (M - 1) / 2)%nat -> nth j (real_wavenumbers M) 0%Z = Z.of_nat (j / 2).
Proof. intros H. unfold real_wavenumbers. rewrite repeat2_nth, FourierCalc_Series.arange_nth by lia. lia. Qed.
Lemma azimuth_position c p phi : affine_cov fourier_bounds (0, 2 * PI) = Some c -> FourierCalc_Props.point 0 (2 * PI) p phi -> exists t, native_coord c p = Some t /\ forall k, IZR k * t = IZR k * phi.
Proof.
  intros Hc Hp. pose proof PI_RGT_0. destruct (FourierCalc_Props.native_point 0 (2 * PI) c p phi ltac:(lra) Hc Hp) as (t & E & H'). exists t. split; [done|]. intros k. rewrite H'. unfold FourierCalc_Spec.phase. field. lra.
Qed.

(** ** Complex data *)
Lemma even_of M d : good d M -> (M = 1 \/ Nat.even M = true)%nat.
Proof. intros [H [->|H']]; [by left|right]. apply Nat.even_spec. exists (M / 2)%nat. destruct d; lia. Qed.
Lemma complex_vector_value c N M p phi : good Complex128 M -> affine_cov fourier_bounds (0, 2 * PI) = Some c -> FourierCalc_Props.point 0 (2 * PI) p phi ->
  exists v, complex_vector c N M p = Some v /\ forall t, v t = csum M (fun j => Cmul (cis (IZR (wavenumber M j) * phi)) (cmmt_forward_entry N M j t)).
Proof.
  intros Hg Hc Hp. destruct (azimuth_position c p phi Hc Hp) as (x & Hx & Hph). assert (H0 : (0 < M)%nat) by apply Hg.
  assert (Go : forall ks rows, length ks = M -> length rows = M -> forall g : nat -> nat, (forall j, (j < M)%nat -> nth j ks 0%Z = wavenumber M (g j) /\ forall t, nth j rows (fun _ => C0) t = cmmt_forward_entry N M (g j) t) ->
    exists v, (interp ← complex_interpolation c ks p; if decide (nc interp = length rows) then Some (fun t => csum (nc interp) (fun j => Cmul (at_ interp 0 j) (nth j rows (fun _ => C0) t))) else None) = Some v /\
      forall t, v t = csum M (fun j => Cmul (cis (IZR (wavenumber M (g j)) * phi)) (cmmt_forward_entry N M (g j) t))).
  { intros ks rows Lk Lr g Hj. unfold complex_interpolation. rewrite Hx. cbn [mbind option_bind nc of_rows at_ nth]. rewrite decide_True by lia. eexists. split; [done|]. intros t. rewrite Lk. apply csum_ext. intros j Hj'. destruct (Hj j Hj') as [E1 E2]. rewrite E2. f_equal.
    rewrite (nth_indep _ _ ((fun k => FourierCalc_Model.cis (IZR k * x)) 0%Z)) by (rewrite map_length; lia). rewrite (map_nth (fun k => FourierCalc_Model.cis (IZR k * x))), E1, Hph. done. }
  unfold complex_vector, azimuth_wavenumbers. fold (azimuth_permutation Complex128 M).
  replace (if (0 <? mmax M)%nat then Some (complex_m_perm M) else None) with (azimuth_permutation Complex128 M) by done.
  destruct (permutation_cases Complex128 M Hg) as [[-> _]|(q & -> & HP & _ & _)]; cbn [permuted_rows native_wavenumbers].
  - cbn [mbind option_bind]. destruct (Go (complex_wavenumbers M) (map (cmmt_forward_entry N M) (seq 0 M)) ltac:(by apply complex_length) ltac:(by rewrite map_length, seq_length) (fun j => j)) as (v & E & Hv).
    { intros j Hj. split; [by apply complex_nth|]. intros t. by rewrite FourierCalc_Series.nth_map_seq. }
    exists v. split; [exact E|exact Hv].
  - destruct (perm_bound q M HP) as [Lq Bq]. rewrite (take_all_map _ (fun _ => C0)) by (intros i Hi; rewrite map_length, seq_length; by apply Bq). rewrite (take_all_map _ 0%Z) by (intros i Hi; rewrite complex_length by done; by apply Bq). cbn [mbind option_bind].
    destruct (Go (map (fun i => nth i (complex_wavenumbers M) 0%Z) q) (map (fun i => nth i (map (cmmt_forward_entry N M) (seq 0 M)) (fun _ => C0)) q) ltac:(by rewrite map_length) ltac:(by rewrite map_length) (fun j => nth j q 0%nat)) as (v & E & Hv).
    { intros j Hj. assert (Bj : (nth j q 0 < M)%nat) by (apply Bq, nth_In; lia). split.
      - rewrite (nth_indep _ _ ((fun i => nth i (complex_wavenumbers M) 0%Z) 0%nat)) by (rewrite map_length; lia). rewrite (map_nth (fun i => nth i (complex_wavenumbers M) 0%Z)). by apply complex_nth.
      - intros t. set (h := fun i => nth i (map (cmmt_forward_entry N M) (seq 0 M)) (fun _ => C0)). rewrite (nth_indep _ _ (h 0%nat)) by (rewrite map_length; lia). rewrite (map_nth h). unfold h. by rewrite FourierCalc_Series.nth_map_seq. }
    exists v. split; [exact E|]. intros t. rewrite Hv. apply (csum_perm q M (fun i => Cmul (cis (IZR (wavenumber M i) * phi)) (cmmt_forward_entry N M i t)) HP).
Qed.
(** Sums over slots and over wavenumbers. *)
Lemma slots_series M K (F : Z -> C) : (2 * K + 1 <= M)%nat -> (K <= (M - 1) / 2)%nat ->
  csum M (fun j => if decide (Z.abs (wavenumber M j) <= Z.of_nat K)%Z then F (wavenumber M j) else C0) = csum (2 * K + 1) (fun i => F (Z.of_nat i - Z.of_nat K)%Z).
Proof.
  intros B1 B2. set (f j := if decide (Z.abs (wavenumber M j) <= Z.of_nat K)%Z then F (wavenumber M j) else C0).
  assert (Hf : forall k, (Z.abs k <= Z.of_nat K)%Z -> f (slot M k) = F k).
  { intros k Hk. unfold f. rewrite slot_wavenumber by lia. by rewrite decide_True. }
  replace (2 * K + 1)%nat with (K + (K + 1))%nat by lia. rewrite csum_add. replace M with ((K + 1) + ((M - 2 * K - 1) + K))%nat at 1 by lia.
  rewrite (csum_add (K + 1)), (csum_add (M - 2 * K - 1)). rewrite (csum_zero (M - 2 * K - 1)).
  2:{ intros i Hi. unfold f. rewrite decide_False; [done|]. rewrite resolved_iff by lia. lia. }
  assert (csum K (fun i => f (K + 1 + (M - 2 * K - 1 + i))%nat) = csum K (fun i => F (Z.of_nat i - Z.of_nat K)%Z)) as ->.
  { apply csum_ext. intros i Hi. rewrite <- Hf by lia. f_equal. rewrite slot_neg by lia. lia. }
  assert (csum (K + 1) f = csum (K + 1) (fun i => F (Z.of_nat (K + i) - Z.of_nat K)%Z)) as ->.
  { apply csum_ext. intros i Hi. rewrite <- Hf by lia. f_equal. rewrite slot_pos by lia. lia. }
  apply C_ext; simpl; ring.
Qed.
Lemma complex_value c num den M p phi data : good Complex128 M -> (0 < grid_size num den M)%nat -> affine_cov fourier_bounds (0, 2 * PI) = Some c -> FourierCalc_Props.point 0 (2 * PI) p phi ->
  length data = grid_size num den M -> interpolate_complex c num den M p data = Some (complex_polynomial (resolved (grid_size num den M) M) (complex_coefficient (grid_size num den M) data) phi).
Proof.
  intros Hg HN Hc Hp HL. unfold interpolate_complex. set (N := grid_size num den M) in *. destruct (complex_vector_value c N M p phi Hg Hc Hp) as (v & -> & Hv). cbn [mbind option_bind]. rewrite decide_True by done. f_equal. assert (H0 : (0 < M)%nat) by apply Hg.
  transitivity (csum M (fun j => Cmul (cis (IZR (wavenumber M j) * phi)) (cat (cmmt_forward N M data) j))).
  - transitivity (csum N (fun t => csum M (fun j => Cmul (cis (IZR (wavenumber M j) * phi)) (Cmul (cat data t) (cmmt_forward_entry N M j t))))).
    + apply csum_ext. intros t Ht. rewrite Hv, Cmul_csum_r. apply csum_ext. intros j Hj. rewrite Cmul_assoc. f_equal. apply Cmul_comm.
    + rewrite csum_swap. apply csum_ext. intros j Hj. rewrite csum_scal. f_equal. unfold cat at 2, cmmt_forward, mat_apply_c. by rewrite lookup_seq_map.
  - destruct (Kmax_bounds N M HN H0) as [B1 B2]. rewrite Fourier_Props.Kmax_resolved in B1, B2. unfold complex_polynomial.
    rewrite <- (slots_series M (resolved N M) (fun k => Cmul (complex_coefficient N data k) (cis (IZR k * phi)))) by (unfold resolved in *; lia).
    apply csum_ext. intros j Hj. unfold cat. rewrite cmmt_forward_ok by done. cbn [default from_option]. rewrite Fourier_Props.Kmax_resolved. destruct (decide _); [apply Cmul_comm|apply Cmul_0_r].
Qed.

(** ** Real data *)
Lemma half_bound M i : (M = 1 \/ Nat.even M = true)%nat -> (i < Nat.max 2 M)%nat -> (i / 2 <= (M - 1) / 2)%nat.
Proof. intros [->|HE] Hi; [replace (i / 2)%nat with 0%nat by lia; lia|]. apply Nat.even_spec in HE as [q ->]. destruct q; [replace (i / 2)%nat with 0%nat by lia; lia|]. lia. Qed.
Lemma real_vector_value c N M p phi : good Float64 M -> affine_cov fourier_bounds (0, 2 * PI) = Some c -> FourierCalc_Props.point 0 (2 * PI) p phi ->
  exists v, real_vector c N M p = Some v /\ forall t, v t = rsum (Nat.max 2 M) (fun j => (if Nat.even j then cos (INR (j / 2) * phi) else - sin (INR (j / 2) * phi)) * rmmt_forward_entry N M j t).
Proof.
  intros Hg Hc Hp. destruct (azimuth_position c p phi Hc Hp) as (x & Hx & Hph). assert (H0 : (0 < M)%nat) by apply Hg. pose proof (even_of M _ Hg) as HE.
  set (M' := Nat.max 2 M). assert (HM' : forall i, (i < M')%nat -> (i / 2 <= (M - 1) / 2)%nat) by (intros i Hi; by apply half_bound).
  assert (Go : forall ks rows, length ks = M' -> length rows = M' -> forall g : nat -> nat, (forall j, (j < M')%nat -> Nat.even (g j) = Nat.even j /\ nth j ks 0%Z = Z.of_nat (g j / 2) /\ forall t, nth j rows (fun _ => 0) t = rmmt_forward_entry N M (g j) t) ->
    exists v, (interp ← real_interpolation c ks p; if decide (nc interp = length rows) then Some (fun t => rsum (nc interp) (fun j => at_ interp 0 j * nth j rows (fun _ => 0) t)) else None) = Some v /\
      forall t, v t = rsum M' (fun j => (if Nat.even (g j) then cos (INR (g j / 2) * phi) else - sin (INR (g j / 2) * phi)) * rmmt_forward_entry N M (g j) t)).
  { intros ks rows Lk Lr g Hj. unfold real_interpolation. rewrite Hx. cbn [mbind option_bind nc at_]. rewrite decide_True by lia. eexists. split; [done|]. intros t. rewrite Lk. apply rsum_ext. intros j Hj'. destruct (Hj j Hj') as (E0 & E1 & E2). rewrite E0, E1, E2, Hph, <- INR_IZR_INZ. done. }
  unfold real_vector, azimuth_wavenumbers. rewrite rmmt_shapes, bool_decide_true by (destruct HE; [left; lia|by right]).
  replace (if (0 <? mmax M)%nat then Some (real_m_perm M) else None) with (azimuth_permutation Float64 M) by done. fold M'.
  destruct (permutation_cases Float64 M Hg) as [[-> _]|(q & -> & HP & HM2 & Eq)]; cbn [permuted_rows native_wavenumbers].
  - cbn [mbind option_bind]. destruct (Go (real_wavenumbers M) (map (rmmt_forward_entry N M) (seq 0 M')) ltac:(by apply real_length) ltac:(by rewrite map_length, seq_length) (fun j => j)) as (v & E & Hv).
    { intros j Hj. split; [done|]. split; [by apply real_nth, HM'|]. intros t. by rewrite FourierCalc_Series.nth_map_seq. }
    exists v. split; [exact E|exact Hv].
  - assert (EM : M' = M) by (unfold M'; lia). assert (H4 : (M mod 4 = 0)%nat) by (destruct Hg as [_ [->|H4]]; [lia|exact H4]). rewrite EM in *. clear EM M'. destruct (perm_bound q M HP) as [Lq Bq]. rewrite (take_all_map _ (fun _ => 0)) by (intros i Hi; rewrite map_length, seq_length; by apply Bq).
    rewrite (take_all_map _ 0%Z) by (intros i Hi; rewrite real_length by done; specialize (Bq i Hi); lia). cbn [mbind option_bind].
    destruct (Go (map (fun i => nth i (real_wavenumbers M) 0%Z) q) (map (fun i => nth i (map (rmmt_forward_entry N M) (seq 0 M)) (fun _ => 0)) q) ltac:(by rewrite map_length) ltac:(by rewrite map_length) (fun j => nth j q 0%nat)) as (v & E & Hv).
    { intros j Hj. assert (Bj : (nth j q 0 < M)%nat) by (apply Bq, nth_In; lia). split; [subst q; by apply real_perm_parity|]. split.
      - rewrite (nth_indep _ _ ((fun i => nth i (real_wavenumbers M) 0%Z) 0%nat)) by (rewrite map_length; lia). rewrite (map_nth (fun i => nth i (real_wavenumbers M) 0%Z)). by apply real_nth, HM'.
      - intros t. set (h := fun i => nth i (map (rmmt_forward_entry N M) (seq 0 M)) (fun _ => 0)). rewrite (nth_indep _ _ (h 0%nat)) by (rewrite map_length; lia). rewrite (map_nth h). unfold h. by rewrite FourierCalc_Series.nth_map_seq. }
    exists v. split; [exact E|]. intros t. rewrite Hv. apply (rsum_perm q M (fun i => (if Nat.even i then cos (INR (i / 2) * phi) else - sin (INR (i / 2) * phi)) * rmmt_forward_entry N M i t) HP).
Qed.
Lemma real_value c num den M p phi data : good Float64 M -> (0 < grid_size num den M)%nat -> affine_cov fourier_bounds (0, 2 * PI) = Some c -> FourierCalc_Props.point 0 (2 * PI) p phi ->
  length data = grid_size num den M -> let N := grid_size num den M in
  interpolate_real c num den M p data = Some (real_polynomial (resolved N M) (fun k => real_coefficient N data (2 * k)) (fun k => real_coefficient N data (2 * k + 1)) phi).
Proof.
  intros Hg HN Hc Hp HL. cbv zeta. unfold interpolate_real. set (N := grid_size num den M) in *. destruct (real_vector_value c N M p phi Hg Hc Hp) as (v & -> & Hv). cbn [mbind option_bind]. rewrite decide_True by done. f_equal. assert (H0 : (0 < M)%nat) by apply Hg. pose proof (even_of M _ Hg) as HE.
  destruct (rmmt_forward_ok N M data HN ltac:(destruct HE; [left; lia|by right])) as (out & E & Ho). unfold rmmt_forward in E. rewrite rmmt_shapes, bool_decide_true in E by (destruct HE; [left; lia|by right]). injection E as E.
  set (K := resolved N M). set (w := fun j => if Nat.even j then cos (INR (j / 2) * phi) else - sin (INR (j / 2) * phi)) in *.
  assert (exists q, Nat.max 2 M = 2 * q /\ K + 1 <= q)%nat as (q & EM & Hq).
  { destruct HE as [->|HE]; [exists 1%nat; unfold K, resolved; cbn; lia|]. apply Nat.even_spec in HE as [q HE]. exists q. unfold K, resolved. lia. }
  transitivity (rsum (Nat.max 2 M) (fun j => w j * (if decide (j / 2 <= K)%nat then real_coefficient N data j else 0))).
  - transitivity (rsum N (fun t => rsum (Nat.max 2 M) (fun j => w j * (rat data t * rmmt_forward_entry N M j t)))).
    + apply rsum_ext. intros t Ht. rewrite Hv, <- rsum_scal_r. apply rsum_ext. intros j Hj. unfold w. ring.
    + rewrite rsum_swap. apply rsum_ext. intros j Hj. rewrite rsum_scal. f_equal. specialize (Ho j Hj). rewrite Fourier_Props.Kmax_resolved in Ho. rewrite <- E in Ho. unfold mat_apply_r in Ho. rewrite lookup_seq_map in Ho by done. by injection Ho.
  - rewrite EM, rsum_pairs. unfold real_polynomial. rewrite (rsum_trunc (K + 1) q).
    + apply rsum_ext. intros k Hk. unfold w. replace (2 * k / 2)%nat with k by lia. replace ((2 * k + 1) / 2)%nat with k by lia. rewrite !decide_True by lia.
      assert (Nat.even (2 * k) = true) as -> by (apply Nat.even_spec; exists k; lia).
      assert (Nat.even (2 * k + 1) = false) as -> by (rewrite <- Nat.negb_odd; apply negb_false_iff, Nat.odd_spec; exists k; lia). ring.
    + done.
    + intros k Hk. replace (2 * k / 2)%nat with k by lia. replace ((2 * k + 1) / 2)%nat with k by lia. rewrite !decide_False by lia. ring.
Qed.
