(** C48: products with Fourier modes. *)
From Coq Require Import List ZArith Reals Bool Lia Lra Field.
Import ListNotations.
From Coquelicot Require Import Coquelicot.
From Verif Require MatSolvers_Proofs.
From Verif Require Import MatSolvers_Model CSR_Spec AffineCOV_Model AffineCOV_Props FourierCalc_Model FourierCalc_Spec FourierCalc_Proofs FourierCalc_Series FourierCalc_Props FourierNCC_Model FourierNCC_Spec FourierNCC_Proofs.
Local Open Scope R_scope.

Lemma stretch_nonzero l r c : l <> r -> affine_cov fourier_bounds (l, r) = Some c -> stretch c <> 0.
Proof.
  intros Hlr Hc. rewrite (fourier_cov _ _ _ Hc). cbn [stretch]. pose proof two_pi as H2. intros E.
  assert (F : (r - l) / (2 * PI - 0) * (2 * PI - 0) = r - l) by (unfold Rdiv; rewrite Rmult_assoc, Rinv_l by exact H2; ring). rewrite E in F. lra.
Qed.
Lemma complex_length N : (0 < N)%nat -> length (complex_wavenumbers N) = N.
Proof. intros H. destruct (complex_ks N H) as [(_ & _ & E) _]. rewrite cdiv_1 in E. exact E. Qed.
Lemma complex_nodup N : (0 < N)%nat -> NoDup (complex_wavenumbers N).
Proof. intros H. destruct (complex_ks N H) as [(_ & E & _) _]. exact E. Qed.
Lemma complex_one N : (2 <= N)%nat -> nth 1 (complex_wavenumbers N) 0%Z = 1%Z.
Proof.
  intros H. unfold complex_wavenumbers. pose proof (Nat.div_str_pos N 2 ltac:(lia)). destruct (N mod 2 =? 1)%nat; rewrite app_nth1 by (rewrite arange_length; lia); rewrite arange_nth by lia; reflexivity.
Qed.
Section Complex.
Context (l r : R) (c : cov) (Hlr : l <> r) (Hc : affine_cov fourier_bounds (l, r) = Some c).
Notation ws N := (wavenumbers c (complex_wavenumbers N)).
Lemma complex_general N out arg (ka : list Z) i : (2 <= N)%nat -> (i < N)%nat -> NoDup out -> NoDup ka -> match arg with None => ka = (0%Z :: nil) | Some w => w = wavenumbers c ka end ->
  exists M, complex_product_matrix (ws N) arg (wavenumbers c out) i = Some M /\ nr M = length out /\ nc M = length ka
    /\ forall u (f : R -> C), (forall x, f x = complex_mode l r (nth i (complex_wavenumbers N) 0%Z) x * complex_series l r ka u x)%C -> complex_truncation l r out f (matvec (RtoC 0) Cplus Cmult M u).
Proof.
  intros HN Hi Ho Hka Harg. pose proof (stretch_nonzero _ _ _ Hlr Hc) as Hs. pose proof (complex_length N ltac:(lia)) as HL. unfold complex_product_matrix. rewrite !wavenumbers_nth by lia. rewrite complex_one by exact HN. set (k := nth i (complex_wavenumbers N) 0%Z).
  rewrite mode_numbers_of by exact Hs.
  replace (match arg with None => (0%Z :: nil) | Some w => mode_numbers (IZR 1 / stretch c) w end) with ka by (destruct arg as [w|]; [rewrite Harg; symmetry; apply mode_numbers_of; exact Hs|exact Harg]).
  replace (np_round (IZR k / stretch c / (IZR 1 / stretch c))) with k by (replace (IZR k / stretch c / (IZR 1 / stretch c)) with (IZR k) by (field; exact Hs); symmetry; apply np_round_IZR).
  set (a2 := map (fun a => (a + k)%Z) ka). assert (H2 : NoDup a2) by (apply shifted_nodup; [intros; lia|exact Hka]). assert (L2 : length a2 = length ka) by apply map_length.
  assert (E : map (fun p => (p, RtoC 1)) (intersect1d out a2) = entries (fun z => z) (fun z => z) (RtoC 1) (intersect1d out a2)) by (apply map_ext; intros [p q]; reflexivity). rewrite E.
  assert (Hr : forall e, In e (entries (fun z => z) (fun z => z) (RtoC 1) (intersect1d out a2)) -> in_range (length out) (length ka) e).
  { intros e He. apply in_map_iff in He. destruct He as ([p q] & <- & Hpq). apply intersect_spec in Hpq; try assumption. destruct Hpq as (i1 & j1 & -> & -> & H3 & H4 & _). cbn. lia. }
  destruct (coo_some (RtoC 0) Cplus _ _ _ Hr) as (M & HM & Hnr & Hnc & HA). exists M. split; [exact HM|]. split; [exact Hnr|]. split; [exact Hnc|]. intros u f Hf.
  apply c_columns with (h := fun n x => complex_mode l r (nth n ka 0 + k)%Z x).
  - exact Hnr.
  - intros x. rewrite Hf. unfold complex_series. rewrite <- Ctotal_mul_l, Hnc. apply Ctotal_ext. intros n Hn. rewrite <- mode_product. ring.
  - intros n Hn. rewrite Hnc in Hn.
    assert (Hcol : forall x, Ctotal (length out) (fun j => at_ M j n * complex_mode l r (nth j out 0%Z) x)%C = if in_dec Z.eq_dec (nth n ka 0 + k)%Z out then complex_mode l r (nth n ka 0 + k)%Z x else RtoC 0).
    { intros x. etransitivity; [apply Ctotal_ext; intros j Hj; rewrite HA; reflexivity|]. cbv beta. etransitivity; [apply (column_total (RtoC 0) (RtoC 1) Cplus Cmult Cminus Cdiv Copp Cinv Cf _ _ _ n (fun j => complex_mode l r (nth j out 0%Z) x) Hr)|].
      rewrite (column_intersect (RtoC 0) (RtoC 1) Cplus Cmult Cminus Cdiv Copp Cinv Cf _ _ (RtoC 1) out a2 n _ n (fun k => complex_mode l r k x)); try assumption.
      - unfold a2. rewrite map_nth_lt by exact Hn. destruct (in_dec _ _ _); [apply Cmult_1_l|reflexivity].
      - rewrite L2. exact Hn.
      - intros; lia.
      - intros j Hj. cbv beta. rewrite Nat2Z.id. reflexivity. }
    destruct (in_dec Z.eq_dec (nth n ka 0 + k)%Z out) as [Hin|Hout].
    + apply c_outside_ext with (fun _ => RtoC 0); [|apply c_outside_zero]. intros x. rewrite Hcol. ring.
    + apply c_outside_ext with (fun x => RtoC 1 * complex_mode l r (nth n ka 0 + k)%Z x)%C; [|apply c_outside_mode; exact Hout]. intros x. rewrite Hcol. ring.
Qed.
(** The product with a mode, for bases of all sizes: the matrix takes the coefficients of a series to those of the
    truncation of its product with the mode. *)
Theorem complex_product N Na No i : (2 <= N)%nat -> (i < N)%nat -> (0 < Na)%nat -> (0 < No)%nat ->
  exists M, complex_product_matrix (ws N) (Some (ws Na)) (ws No) i = Some M /\ nr M = No /\ nc M = Na
    /\ forall u, complex_truncation l r (complex_wavenumbers No) (fun x => complex_mode l r (nth i (complex_wavenumbers N) 0%Z) x * complex_series l r (complex_wavenumbers Na) u x)%C (matvec (RtoC 0) Cplus Cmult M u).
Proof.
  intros HN Hi HNa HNo. destruct (complex_general N (complex_wavenumbers No) (Some (ws Na)) (complex_wavenumbers Na) i HN Hi (complex_nodup _ HNo) (complex_nodup _ HNa) eq_refl) as (M & HM & H1 & H2 & H3).
  exists M. rewrite !complex_length in * by assumption. split; [exact HM|]. split; [exact H1|]. split; [exact H2|]. intros u. apply H3. reflexivity.
Qed.
(** Constant operands. *)
Theorem complex_product_constant N No i : (2 <= N)%nat -> (i < N)%nat -> (0 < No)%nat ->
  exists M, complex_product_matrix (ws N) None (ws No) i = Some M /\ nr M = No /\ nc M = 1%nat
    /\ forall v, complex_truncation l r (complex_wavenumbers No) (fun x => complex_mode l r (nth i (complex_wavenumbers N) 0%Z) x * v)%C (matvec (RtoC 0) Cplus Cmult M (fun _ => v)).
Proof.
  intros HN Hi HNo. destruct (complex_general N (complex_wavenumbers No) None (0%Z :: nil) i HN Hi (complex_nodup _ HNo) ltac:(constructor; [intros []|constructor]) eq_refl) as (M & HM & H1 & H2 & H3).
  exists M. rewrite !complex_length in * by assumption. split; [exact HM|]. split; [exact H1|]. split; [exact H2|]. intros v. apply H3. intros x. f_equal.
  unfold complex_series. cbn. unfold complex_mode. rewrite phase_zero by exact Hlr. rewrite cos_0, sin_0. change (1, 0) with (RtoC 1). ring.
Qed.
(** A basis with a single mode has no product matrices at all. *)
Theorem complex_product_single_refuted arg out i : complex_product_matrix (ws 1) arg out i = None.
Proof. reflexivity. Qed.
End Complex.

(** ** Real modes *)
Definition pairs (N : nat) : list Z := arange 0 (Z.of_nat ((N - 1) / 2) + 1).
Lemma pairs_spec N : (0 < N)%nat -> NoDup (pairs N) /\ nth 0 (pairs N) 0%Z = 0%Z /\ (forall k, In k (pairs N) -> (0 <= k)%Z) /\ real_wavenumbers N = repeat2 (pairs N).
Proof. intros H. unfold pairs. split; [apply arange_nodup|]. split; [apply (real_ks N H)|]. split; [|reflexivity]. intros k Hk. apply arange_in in Hk. lia. Qed.
Lemma real_two N : (3 <= N)%nat -> nth 2 (real_wavenumbers N) 0%Z = 1%Z /\ (2 < length (real_wavenumbers N))%nat.
Proof.
  intros H. pose proof (Nat.div_str_pos (N - 1) 2 ltac:(lia)). unfold real_wavenumbers. rewrite repeat2_nth, repeat2_length, arange_length. change (2 / 2)%nat with 1%nat. rewrite arange_nth by lia. split; [reflexivity|lia].
Qed.
Lemma real_mode_parity l r k i j x : Nat.even i = Nat.even j -> real_mode l r k i x = real_mode l r k j x.
Proof. unfold real_mode. intros ->. reflexivity. Qed.
Lemma mod2_even i : (i mod 2 =? 0)%nat = Nat.even i.
Proof.
  destruct (Nat.Even_or_Odd i) as [[m ->]|[m ->]].
  - replace ((2 * m) mod 2)%nat with 0%nat by (rewrite Nat.mul_comm, Nat.mod_mul by lia; reflexivity). rewrite Nat.even_mul. reflexivity.
  - replace ((2 * m + 1) mod 2)%nat with 1%nat by (rewrite Nat.add_comm, Nat.mul_comm, Nat.mod_add by lia; reflexivity). rewrite Nat.even_add, Nat.even_mul. reflexivity.
Qed.
Lemma half_split c : exists n b, c = (2 * n + (if b : bool then 0 else 1))%nat /\ n = (c / 2)%nat.
Proof.
  exists (c / 2)%nat, (c mod 2 =? 0)%nat. split; [|reflexivity]. pose proof (Nat.div_mod c 2 ltac:(lia)). pose proof (Nat.mod_upper_bound c 2 ltac:(lia)). destruct (Nat.eqb_spec (c mod 2) 0); lia.
Qed.
Section Real.
Context (l r : R) (c : cov) (Hlr : l <> r) (Hc : affine_cov fourier_bounds (l, r) = Some c).
Notation ws N := (wavenumbers c (real_wavenumbers N)).
Lemma real_setup N i out (arg : option (list Z)) : (3 <= N)%nat -> (i < length (real_wavenumbers N))%nat -> let k := nth i (real_wavenumbers N) 0%Z in
  let ka := match arg with None => (0%Z :: nil) | Some a => a end in
  real_product_matrix (ws N) (match arg with None => None | Some a => Some (wavenumbers c a) end) (wavenumbers c (repeat2 out)) i =
  if (k =? 0)%Z then if Nat.even i then Some (Mat (length (repeat2 out)) (length ka) (fun r c => if (r =? c)%nat then 1 else 0)) else Some (Mat (length (repeat2 out)) (length ka) (fun _ _ => 0))
  else coo_matrix 0 Rplus (real_entries (Nat.even i) k out (evens ka)) (length (repeat2 out)) (length ka).
Proof.
  intros HN Hi k ka. pose proof (stretch_nonzero _ _ _ Hlr Hc) as Hs. destruct (real_two N HN) as [E2 L2]. unfold real_product_matrix. rewrite !wavenumbers_nth by assumption. rewrite E2. fold k.
  rewrite mode_numbers_of by exact Hs.
  replace (match match arg with None => None | Some a => Some (wavenumbers c a) end with None => (0%Z :: nil) | Some w => mode_numbers (IZR 1 / stretch c) w end) with ka by (unfold ka; destruct arg; [symmetry; apply mode_numbers_of; exact Hs|reflexivity]).
  replace (np_round (IZR k / stretch c / (IZR 1 / stretch c))) with k by (replace (IZR k / stretch c / (IZR 1 / stretch c)) with (IZR k) by (field; exact Hs); symmetry; apply np_round_IZR).
  rewrite mod2_even, evens_repeat2, evens_tail. unfold real_entries. destruct (Nat.even i); reflexivity.
Qed.
Lemma real_wave_pos N i : (3 <= N)%nat -> (i < length (real_wavenumbers N))%nat -> (0 <= nth i (real_wavenumbers N) 0)%Z.
Proof. intros HN Hi. destruct (pairs_spec N ltac:(lia)) as (_ & _ & Hp & E). rewrite E in *. apply Hp. apply repeat2_in. apply nth_In. exact Hi. Qed.
(** The product with a mode, for bases of all sizes. *)
Theorem real_product N Na No i : (3 <= N)%nat -> (i < length (real_wavenumbers N))%nat -> (0 < Na)%nat -> (0 < No)%nat ->
  exists M, real_product_matrix (ws N) (Some (ws Na)) (ws No) i = Some M /\ nr M = length (real_wavenumbers No) /\ nc M = length (real_wavenumbers Na)
    /\ forall u, real_truncation l r (real_wavenumbers No) (fun x => real_mode l r (nth i (real_wavenumbers N) 0%Z) i x * real_series l r (real_wavenumbers Na) u x) (matvec 0 Rplus Rmult M u).
Proof.
  intros HN Hi HNa HNo. pose proof (real_wave_pos N i HN Hi) as Hpk. set (k := nth i (real_wavenumbers N) 0%Z) in *.
  pose proof (pairs_spec No HNo) as (Oo & O0 & Op & Oe). pose proof (pairs_spec Na HNa) as (Ao & A0 & Ap & Ae). set (po := pairs No) in *. set (pa := pairs Na) in *. rewrite Oe, Ae.
  pose proof (real_setup N i po (Some (repeat2 pa)) HN Hi) as HS. cbv zeta in HS. cbv iota in HS. fold k in HS. rewrite HS. clear HS. rewrite evens_repeat2, !repeat2_length.
  destruct (Z.eqb_spec k 0) as [E|E].
  - rewrite E. destruct (Nat.even i) eqn:Ei.
    + eexists. split; [reflexivity|]. split; [reflexivity|]. split; [reflexivity|]. intros u. apply r_columns with (h := fun n x => real_mode l r (nth n (repeat2 pa) 0%Z) n x).
      * cbn [nr]. rewrite repeat2_length. reflexivity.
      * intros x. unfold real_mode at 1. rewrite Ei, phase_zero, cos_0, Rmult_1_l by exact Hlr. unfold real_series. rewrite repeat2_length. reflexivity.
      * cbn [nc at_]. intros n Hn. rewrite repeat2_length.
        assert (Hk0 : forall p, (p < length pa)%nat -> (p < length po)%nat -> nth p pa 0%Z = nth p po 0%Z).
        { intros p H1 H2. unfold pa, po, pairs in *. rewrite arange_length in H1, H2. rewrite !arange_nth by assumption. reflexivity. }
        destruct (Nat.lt_ge_cases n (2 * length po)) as [Hlt|Hge].
        -- apply r_outside_ext with (fun _ => 0); [|apply r_outside_zero]. intros x. rewrite (Rtotal_single _ n); [|exact Hlt|].
           ++ rewrite Nat.eqb_refl, !repeat2_nth. rewrite Hk0 by (apply Nat.div_lt_upper_bound; lia). ring.
           ++ intros j Hj Hne. replace (j =? n)%nat with false by (symmetry; apply Nat.eqb_neq; exact Hne). ring.
        -- apply r_outside_ext with (fun x => real_mode l r (nth n (repeat2 pa) 0%Z) n x).
           { intros x. rewrite Rtotal_zero; [ring|]. intros j Hj. replace (j =? n)%nat with false by (symmetry; apply Nat.eqb_neq; lia). ring. }
           rewrite repeat2_nth. assert (Hout : ~ In (nth (n / 2) pa 0%Z) (repeat2 po)).
           { rewrite repeat2_in. unfold pa, po, pairs in *. rewrite arange_length in Hn, Hge. rewrite arange_nth by (apply Nat.div_lt_upper_bound; lia). rewrite arange_in.
             assert (Z.to_nat (Z.of_nat ((No - 1) / 2) + 1 - 0) <= n / 2)%nat by (apply Nat.div_le_lower_bound; lia). lia. }
           assert (Hpos : (0 <= nth (n / 2) pa 0)%Z) by (apply Ap, nth_In, Nat.div_lt_upper_bound; lia).
           unfold real_mode. destruct (Nat.even n).
           ++ apply r_outside_ext with (fun x => 1 * cos (phase l r (nth (n / 2) pa 0%Z) x) + 0 * sin (phase l r (nth (n / 2) pa 0%Z) x)); [intros; ring|]. apply r_outside_mode; assumption.
           ++ apply r_outside_ext with (fun x => 0 * cos (phase l r (nth (n / 2) pa 0%Z) x) + (-1) * sin (phase l r (nth (n / 2) pa 0%Z) x)); [intros; ring|]. apply r_outside_mode; assumption.
    + eexists. split; [reflexivity|]. split; [reflexivity|]. split; [reflexivity|]. intros u. apply r_columns with (h := fun n x => 0).
      * cbn [nr]. rewrite repeat2_length. reflexivity.
      * intros x. unfold real_mode. rewrite Ei, phase_zero, sin_0 by exact Hlr. rewrite Rtotal_zero; [ring|]. intros. ring.
      * cbn [nc at_]. intros n Hn. apply r_outside_ext with (fun _ => 0); [|apply r_outside_zero]. intros x. rewrite Rtotal_zero; [ring|]. intros. ring.
  - pose proof (real_range (Nat.even i) k po pa Oo Ao) as Hr. destruct (coo_some 0 Rplus _ _ _ Hr) as (M & HM & Hnr & Hnc & HA). exists M. split; [exact HM|]. split; [exact Hnr|]. split; [exact Hnc|]. intros u.
    apply r_columns with (h := fun n x => real_mode l r k i x * real_mode l r (nth n (repeat2 pa) 0%Z) n x).
    + rewrite repeat2_length. exact Hnr.
    + intros x. unfold real_series. rewrite <- Rtotal_mul_l, repeat2_length, Hnc. apply Rtotal_ext. intros. ring.
    + intros cl Hn. rewrite Hnc in Hn. destruct (half_split cl) as (n & b & Ecl & En). assert (Hn2 : (n < length pa)%nat) by (destruct b; lia).
      assert (Hk2 : (0 <= nth n pa 0)%Z) by (apply Ap, nth_In; exact Hn2).
      assert (Hcol : forall x, Rtotal (length (repeat2 po)) (fun j => at_ M j cl * real_mode l r (nth j (repeat2 po) 0%Z) j x) = column 0 Rplus Rmult (real_entries (Nat.even i) k po pa) cl (fun j => real_mode l r (nth j (repeat2 po) 0%Z) j x)).
      { intros x. etransitivity; [apply Rtotal_ext; intros j Hj; rewrite HA; reflexivity|]. cbv beta. rewrite repeat2_length. apply (column_total 0 1 Rplus Rmult Rminus Rdiv Ropp Rinv Rf _ _ _ cl (fun j => real_mode l r (nth j (repeat2 po) 0%Z) j x) Hr). }
      assert (Hin : forall q, In q (repeat2 po) <-> In q po) by (intros; apply repeat2_in).
      assert (Hk3 : (0 < k)%Z) by lia.
      pose proof (fun x => real_column l r x k po pa n Oo Ao O0 Op Hn2 (Nat.even i) b) as HH. cbv zeta in HH. rewrite <- Ecl in HH.
      set (K := match Nat.even i, b with true, true => (1 / 2, 0, 1 / 2, 0) | true, false => (0, - (1 / 2), 0, sg k pa n / 2) | false, true => (0, - (1 / 2), 0, - sg k pa n / 2) | false, false => (- (1 / 2), 0, 1 / 2, 0) end) in *.
      destruct K as [[[a1 b1] a2] b2]. apply r_outside_ext with (fun x => (wave l r (k + nth n pa 0)%Z a1 b1 x - kept l r po (k + nth n pa 0)%Z a1 b1 x) + (wave l r (Z.abs (k - nth n pa 0)%Z) a2 b2 x - kept l r po (Z.abs (k - nth n pa 0)%Z) a2 b2 x)).
      * intros x. destruct (HH x) as [H1 H2]. rewrite Hcol, H2. rewrite repeat2_nth, <- En. rewrite (real_mode_parity l r k i (if Nat.even i then 0%nat else 1%nat)) by (destruct (Nat.even i); reflexivity). rewrite H1. ring.
      * apply r_outside_add; apply dropped; try assumption; lia.
Qed.
(** Constant operands: the constant mode gives the matrix of the product; the other modes of the output basis raise an
    exception, and modes outside it give zero. *)
Theorem real_product_constant N No i : (3 <= N)%nat -> (i < length (real_wavenumbers N))%nat -> (0 < No)%nat -> nth i (real_wavenumbers N) 0%Z = 0%Z ->
  exists M, real_product_matrix (ws N) None (ws No) i = Some M /\ nr M = length (real_wavenumbers No) /\ nc M = 1%nat
    /\ forall v, real_truncation l r (real_wavenumbers No) (fun x => real_mode l r 0 i x * v) (matvec 0 Rplus Rmult M (fun _ => v)).
Proof.
  intros HN Hi HNo E. pose proof (pairs_spec No HNo) as (Oo & O0 & Op & Oe). set (po := pairs No) in *. rewrite Oe. pose proof (real_setup N i po None HN Hi) as HS. cbv zeta in HS. cbv iota in HS. rewrite E in HS. rewrite HS. clear HS.
  assert (HL : (0 < length po)%nat) by (unfold po, pairs; rewrite arange_length; lia).
  cbn [Z.eqb length]. destruct (Nat.even i) eqn:Ei; (eexists; split; [reflexivity|split; [reflexivity|split; [reflexivity|]]]); intros v.
  - apply r_columns with (h := fun _ _ => 1).
    + reflexivity.
    + intros x. unfold real_mode. rewrite Ei, phase_zero, cos_0 by exact Hlr. cbn. ring.
    + cbn [nc at_]. intros n Hn. apply r_outside_ext with (fun _ => 0); [|apply r_outside_zero]. intros x. assert (n = 0%nat) as -> by lia. rewrite (Rtotal_single _ 0%nat).
      * cbn [Nat.eqb]. rewrite repeat2_nth. change (0 / 2)%nat with 0%nat. rewrite O0. unfold real_mode. rewrite phase_zero, cos_0 by exact Hlr. cbn. ring.
      * rewrite repeat2_length. lia.
      * intros j Hj Hne. replace (j =? 0)%nat with false by (symmetry; apply Nat.eqb_neq; exact Hne). ring.
  - apply r_columns with (h := fun _ _ => 0).
    + reflexivity.
    + intros x. unfold real_mode. rewrite Ei, phase_zero, sin_0 by exact Hlr. cbn. ring.
    + cbn [nc at_]. intros n Hn. apply r_outside_ext with (fun _ => 0); [|apply r_outside_zero]. intros x. rewrite Rtotal_zero; [ring|]. intros. ring.
Qed.
Theorem real_product_constant_refuted N No i : (3 <= N)%nat -> (i < length (real_wavenumbers N))%nat -> (0 < No)%nat -> nth i (real_wavenumbers N) 0%Z <> 0%Z ->
  In (nth i (real_wavenumbers N) 0%Z) (real_wavenumbers No) -> real_product_matrix (ws N) None (ws No) i = None.
Proof.
  intros HN Hi HNo E Hin. pose proof (pairs_spec No HNo) as (Oo & O0 & Op & Oe). set (po := pairs No) in *. rewrite Oe in *. pose proof (real_setup N i po None HN Hi) as HS. cbv zeta in HS. cbv iota in HS. rewrite HS. clear HS.
  set (k := nth i (real_wavenumbers N) 0%Z) in *. replace (k =? 0)%Z with false by (symmetry; apply Z.eqb_neq; exact E). cbn [evens length]. apply (proj1 (repeat2_in po k)) in Hin. destruct (In_nth _ _ 0%Z Hin) as (p & Hp & Ep).
  assert (Hpp : In (Z.of_nat p, 0%Z) (intersect1d po (map (fun a => (k + a)%Z) (0%Z :: nil)))).
  { apply intersect_spec; [exact Oo|cbn; constructor; [intros []|constructor]|]. exists p, 0%nat. repeat split; [exact Hp|cbn; lia|]. rewrite Ep. cbn. lia. }
  unfold real_entries. destruct (Nat.even i).
  - apply (coo_none 0 Rplus _ _ _ ((2 * Z.of_nat p + 1)%Z, (2 * 0 + 1)%Z, 1 / 2)).
    + rewrite !in_app_iff. right. right. right. left. apply in_map_iff. exists (Z.of_nat p, 0%Z). split; [reflexivity|exact Hpp].
    + cbn. lia.
  - apply (coo_none 0 Rplus _ _ _ ((2 * Z.of_nat p)%Z, (2 * 0 + 1)%Z, - (1 / 2))).
    + rewrite !in_app_iff. right. right. right. left. apply in_map_iff. exists (Z.of_nat p, 0%Z). split; [reflexivity|exact Hpp].
    + cbn. lia.
Qed.
(** Bases of size one and two, with the constant only, have no product matrices at all. *)
Theorem real_product_single_refuted N arg out i : (0 < N <= 2)%nat -> real_product_matrix (ws N) arg out i = None.
Proof. intros H. assert (N = 1 \/ N = 2)%nat as [-> | ->] by lia; reflexivity. Qed.
End Real.

(** ** Coefficients *)
Section Sum.
Context {K : Type} (k0 k1 : K) (kadd kmul ksub kdiv : K -> K -> K) (kopp kinv : K -> K).
Context (Hf : field_theory k0 k1 kadd kmul ksub kopp kdiv kinv eq).
Add Field kfield : Hf.
Notation total := (CSR_Spec.total k0 kadd).
Notation total_S := (MatSolvers_Proofs.total_S k0 k1 kadd kmul ksub kdiv kopp kinv Hf).
Context (pm : nat -> option (mat K)) (big : K -> bool).
Lemma total_first n f : total (S n) f = kadd (f 0%nat) (total n (fun i => f (S i))).
Proof.
  induction n as [|n IH]; [cbn; ring|]. rewrite total_S, IH. rewrite (total_S n). ring.
Qed.
Lemma ncc_sum_value n m coeffs : forall i tot, nr tot = n -> nc tot = m -> (forall j, (i <= j < i + length coeffs)%nat -> exists M, pm j = Some M) ->
  exists T, ncc_sum kadd kmul pm big i coeffs tot = Some T /\ nr T = n /\ nc T = m
    /\ forall a b, at_ T a b = kadd (at_ tot a b) (total (length coeffs) (fun j => match pm (i + j)%nat with Some M => kmul (if big (nth j coeffs k0) then nth j coeffs k0 else k0) (at_ M a b) | None => k0 end)).
Proof.
  induction coeffs as [|c coeffs IH]; intros i tot Hn Hm HM; cbn [ncc_sum length].
  - exists tot. repeat split; try assumption. intros a b. cbn. ring.
  - destruct (HM i) as [M0 E0]; [cbn; lia|]. destruct (big c) eqn:Eb.
    + rewrite E0. destruct (IH (S i) (plus_kron kadd kmul tot M0 c)) as (T & HT & H1 & H2 & H3); [exact Hn|exact Hm|intros j Hj; apply HM; cbn; lia|].
      exists T. split; [exact HT|]. split; [exact H1|]. split; [exact H2|]. intros a b. rewrite H3, total_first, Nat.add_0_r, E0. cbn [nth plus_kron at_]. rewrite Eb.
      rewrite (MatSolvers_Proofs.total_ext k0 k1 kadd kmul ksub kdiv kopp kinv Hf _ _ (fun j => match pm (i + S j)%nat with Some M => kmul (if big (nth j coeffs k0) then nth j coeffs k0 else k0) (at_ M a b) | None => k0 end)) by (intros j _; replace (S i + j)%nat with (i + S j)%nat by lia; reflexivity). ring.
    + destruct (IH (S i) tot) as (T & HT & H1 & H2 & H3); [exact Hn|exact Hm|intros j Hj; apply HM; cbn; lia|].
      exists T. split; [exact HT|]. split; [exact H1|]. split; [exact H2|]. intros a b. rewrite H3, total_first, Nat.add_0_r, E0. cbn [nth]. rewrite Eb.
      rewrite (MatSolvers_Proofs.total_ext k0 k1 kadd kmul ksub kdiv kopp kinv Hf _ _ (fun j => match pm (i + S j)%nat with Some M => kmul (if big (nth j coeffs k0) then nth j coeffs k0 else k0) (at_ M a b) | None => k0 end)) by (intros j _; replace (S i + j)%nat with (i + S j)%nat by lia; reflexivity). ring.
Qed.
End Sum.
Section ComplexNCC.
Context (l r : R) (c : cov) (Hlr : l <> r) (Hc : affine_cov fourier_bounds (l, r) = Some c) (big : C -> bool).
Notation ws N := (wavenumbers c (complex_wavenumbers N)).
(** The series of a nonconstant coefficient, with the coefficients above the cutoff, times a series. *)
Theorem complex_ncc N Na No coeffs : (2 <= N)%nat -> (0 < length coeffs <= N)%nat -> (0 < Na)%nat -> (0 < No)%nat ->
  exists M, ncc_matrix (RtoC 0) Cplus Cmult (complex_product_matrix (ws N) (Some (ws Na)) (ws No)) big coeffs = Some M /\ nr M = No /\ nc M = Na
    /\ forall u, complex_truncation l r (complex_wavenumbers No)
         (fun x => Ctotal (length coeffs) (fun i => (if big (nth i coeffs (RtoC 0)) then nth i coeffs (RtoC 0) else RtoC 0) * complex_mode l r (nth i (complex_wavenumbers N) 0%Z) x) * complex_series l r (complex_wavenumbers Na) u x)%C
         (matvec (RtoC 0) Cplus Cmult M u).
Proof.
  intros HN Hl HNa HNo. set (pm := complex_product_matrix (ws N) (Some (ws Na)) (ws No)).
  pose proof (fun i Hi => complex_product l r c Hlr Hc N Na No i HN Hi HNa HNo) as Hpm. fold pm in Hpm.
  destruct (Hpm 0%nat ltac:(lia)) as (M0 & E0 & R0 & C0 & _). unfold ncc_matrix. destruct coeffs as [|c0 cs]; [cbn in Hl; lia|]. rewrite E0. set (coeffs := c0 :: cs) in *.
  destruct (ncc_sum_value (RtoC 0) (RtoC 1) Cplus Cmult Cminus Cdiv Copp Cinv Cf pm big No Na coeffs 0 (Mat (nr M0) (nc M0) (fun _ _ => RtoC 0)) R0 C0) as (T & HT & TR & TC & HA).
  { intros j Hj. destruct (Hpm j ltac:(lia)) as (M & HM & _). exists M. exact HM. }
  exists T. split; [exact HT|]. split; [exact TR|]. split; [exact TC|]. intros u. set (w := fun i => if big (nth i coeffs (RtoC 0)) then nth i coeffs (RtoC 0) else RtoC 0).
  unfold complex_truncation.
  apply c_outside_ext with (fun x => Ctotal (length coeffs) (fun i => w i * (complex_mode l r (nth i (complex_wavenumbers N) 0%Z) x * complex_series l r (complex_wavenumbers Na) u x
     - complex_series l r (complex_wavenumbers No) (fun a => match pm i with Some M => matvec (RtoC 0) Cplus Cmult M u a | None => RtoC 0 end) x))%C).
  - intros x. rewrite (Ctotal_ext _ _ (fun i => (w i * complex_mode l r (nth i (complex_wavenumbers N) 0%Z) x) * complex_series l r (complex_wavenumbers Na) u x
      - w i * complex_series l r (complex_wavenumbers No) (fun a => match pm i with Some M => matvec (RtoC 0) Cplus Cmult M u a | None => RtoC 0 end) x)%C) by (intros; ring).
    rewrite Ctotal_sub, Ctotal_mul_r. f_equal. unfold complex_series at 1. rewrite (Ctotal_ext (length coeffs) _ (fun i => Ctotal (length (complex_wavenumbers No)) (fun a => w i * (match pm i with Some M => matvec (RtoC 0) Cplus Cmult M u a | None => RtoC 0 end * complex_mode l r (nth a (complex_wavenumbers No) 0%Z) x)))%C) by (intros; rewrite Ctotal_mul_l; reflexivity).
    rewrite Ctotal_swap. unfold complex_series. apply Ctotal_ext. intros a Ha. unfold matvec at 2. change (msum (RtoC 0) Cplus) with Ctotal. rewrite TC.
    rewrite (Ctotal_ext Na (fun k => at_ T a k * u k)%C (fun k => Ctotal (length coeffs) (fun i => match pm i with Some M => w i * at_ M a k | None => RtoC 0 end * u k))%C).
    2:{ intros k Hk. rewrite HA, Ctotal_mul_r. f_equal. cbn [at_]. change (0 + ?j)%nat with j. rewrite Cplus_0_l. reflexivity. }
    rewrite Ctotal_swap, <- Ctotal_mul_r. apply Ctotal_ext. intros i Hi. destruct (Hpm i ltac:(lia)) as (M & HM & MR & MC & _). rewrite HM. unfold matvec. change (msum (RtoC 0) Cplus) with Ctotal. rewrite MC.
    rewrite (Ctotal_ext Na (fun j => w i * at_ M a j * u j)%C (fun j => w i * (at_ M a j * u j))%C) by (intros; ring). rewrite Ctotal_mul_l. ring.
  - apply c_outside_total. intros i Hi. apply c_outside_scale. destruct (Hpm i ltac:(lia)) as (M & HM & MR & MC & HT'). specialize (HT' u). unfold complex_truncation in HT'. rewrite HM. exact HT'.
Qed.
End ComplexNCC.
Section RealNCC.
Context (l r : R) (c : cov) (Hlr : l <> r) (Hc : affine_cov fourier_bounds (l, r) = Some c) (big : R -> bool).
Notation ws N := (wavenumbers c (real_wavenumbers N)).
Theorem real_ncc N Na No coeffs : (3 <= N)%nat -> (0 < length coeffs <= length (real_wavenumbers N))%nat -> (0 < Na)%nat -> (0 < No)%nat ->
  exists M, ncc_matrix 0 Rplus Rmult (real_product_matrix (ws N) (Some (ws Na)) (ws No)) big coeffs = Some M /\ nr M = length (real_wavenumbers No) /\ nc M = length (real_wavenumbers Na)
    /\ forall u, real_truncation l r (real_wavenumbers No)
         (fun x => Rtotal (length coeffs) (fun i => (if big (nth i coeffs 0) then nth i coeffs 0 else 0) * real_mode l r (nth i (real_wavenumbers N) 0%Z) i x) * real_series l r (real_wavenumbers Na) u x)
         (matvec 0 Rplus Rmult M u).
Proof.
  intros HN Hl HNa HNo. set (pm := real_product_matrix (ws N) (Some (ws Na)) (ws No)).
  pose proof (fun i Hi => real_product l r c Hlr Hc N Na No i HN Hi HNa HNo) as Hpm. fold pm in Hpm.
  destruct (Hpm 0%nat ltac:(lia)) as (M0 & E0 & R0 & C0 & _). unfold ncc_matrix. destruct coeffs as [|c0 cs]; [cbn in Hl; lia|]. rewrite E0. set (coeffs := c0 :: cs) in *.
  destruct (ncc_sum_value 0 1 Rplus Rmult Rminus Rdiv Ropp Rinv Rf pm big _ _ coeffs 0 (Mat (nr M0) (nc M0) (fun _ _ => 0)) R0 C0) as (T & HT & TR & TC & HA).
  { intros j Hj. destruct (Hpm j ltac:(lia)) as (M & HM & _). exists M. exact HM. }
  exists T. split; [exact HT|]. split; [exact TR|]. split; [exact TC|]. intros u. set (w := fun i => if big (nth i coeffs 0) then nth i coeffs 0 else 0).
  unfold real_truncation.
  apply r_outside_ext with (fun x => Rtotal (length coeffs) (fun i => w i * (real_mode l r (nth i (real_wavenumbers N) 0%Z) i x * real_series l r (real_wavenumbers Na) u x
     - real_series l r (real_wavenumbers No) (fun a => match pm i with Some M => matvec 0 Rplus Rmult M u a | None => 0 end) x))).
  - intros x. rewrite (Rtotal_ext _ _ (fun i => (w i * real_mode l r (nth i (real_wavenumbers N) 0%Z) i x) * real_series l r (real_wavenumbers Na) u x
      - w i * real_series l r (real_wavenumbers No) (fun a => match pm i with Some M => matvec 0 Rplus Rmult M u a | None => 0 end) x)) by (intros; ring).
    rewrite Rtotal_sub, Rtotal_mul_r. f_equal. unfold real_series at 1. rewrite (Rtotal_ext (length coeffs) _ (fun i => Rtotal (length (real_wavenumbers No)) (fun a => w i * (match pm i with Some M => matvec 0 Rplus Rmult M u a | None => 0 end * real_mode l r (nth a (real_wavenumbers No) 0%Z) a x)))) by (intros; rewrite Rtotal_mul_l; reflexivity).
    rewrite Rtotal_swap. unfold real_series. apply Rtotal_ext. intros a Ha. unfold matvec at 2. change (msum 0 Rplus) with Rtotal. rewrite TC.
    rewrite (Rtotal_ext _ (fun k => at_ T a k * u k) (fun k => Rtotal (length coeffs) (fun i => match pm i with Some M => w i * at_ M a k | None => 0 end * u k))).
    2:{ intros k Hk. rewrite HA, Rtotal_mul_r. f_equal. cbn [at_]. change (0 + ?j)%nat with j. rewrite Rplus_0_l. reflexivity. }
    rewrite Rtotal_swap, <- Rtotal_mul_r. apply Rtotal_ext. intros i Hi. destruct (Hpm i ltac:(lia)) as (M & HM & MR & MC & _). rewrite HM. unfold matvec. change (msum 0 Rplus) with Rtotal. rewrite MC.
    rewrite (Rtotal_ext _ (fun j => w i * at_ M a j * u j) (fun j => w i * (at_ M a j * u j))) by (intros; ring). rewrite Rtotal_mul_l. ring.
  - apply r_outside_total. intros i Hi. apply r_outside_scale. destruct (Hpm i ltac:(lia)) as (M & HM & MR & MC & HT'). specialize (HT' u). unfold real_truncation in HT'. rewrite HM. exact HT'.
Qed.
End RealNCC.

(** ** Permuted modes *)
Lemma np_round_near x n : Rabs (x - IZR n) < 1 / 2 -> np_round x = n.
Proof.
  intros H. apply Rabs_def2 in H. destruct H as [H1 H2]. unfold np_round. destruct (base_Int_part x) as [H3 H4]. set (f := Int_part x) in *.
  assert (H5 : IZR n < IZR (f + 2)) by (rewrite plus_IZR; lra). assert (H6 : IZR f < IZR (n + 1)) by (rewrite plus_IZR; lra). apply lt_IZR in H5. apply lt_IZR in H6.
  assert (n = f \/ n = f + 1)%Z as [-> | ->] by lia.
  - destruct (Rlt_dec _ _) as [_|H]; [reflexivity|]. exfalso. apply H. lra.
  - rewrite plus_IZR in *. destruct (Rlt_dec _ _) as [H|_]; [lra|]. destruct (Rlt_dec _ _) as [_|H]; [reflexivity|]. exfalso. apply H. lra.
Qed.
Lemma third c k n : stretch c <> 0 -> (Z.abs (2 * k - 6 * n) < 3)%Z -> np_round (IZR k / stretch c / (IZR 3 / stretch c)) = n.
Proof.
  intros Hs H. replace (IZR k / stretch c / (IZR 3 / stretch c)) with (IZR k / 3) by (field; exact Hs). apply np_round_near.
  assert (H1 : (-3 < 2 * k - 6 * n < 3)%Z) by lia. destruct H1 as [H1 H2]. apply IZR_lt in H1. apply IZR_lt in H2. rewrite minus_IZR, !mult_IZR in H1, H2. apply Rabs_def1; lra.
Qed.
(** The comment in the code claims that permutations are handled.  In the order of azimuthal bases the second wavenumber is
    not one: products of complex modes are refused, *)
Theorem complex_product_permuted_refuted c : stretch c <> 0 -> exists ks, native_wavenumbers (complex_wavenumbers 6) (Some (complex_m_perm 6)) = Some ks
  /\ complex_product_matrix (wavenumbers c ks) (Some (wavenumbers c ks)) (wavenumbers c ks) 2 = None.
Proof.
  intros Hs. exists (0 :: 3 :: 1 :: -2 :: 2 :: -1 :: nil)%Z. split; [vm_compute; reflexivity|]. unfold complex_product_matrix, wavenumbers, mode_numbers. cbn [nth_error map].
  rewrite (third c 0 0), (third c 3 1), (third c 1 0), (third c (-2) (-1)), (third c 2 1), (third c (-1) 0) by (exact Hs || lia).
  unfold coo_matrix. match goal with |- (if ?b then _ else _) = _ => replace b with false by (vm_compute; reflexivity) end. reflexivity.
Qed.
Lemma outside_integral l r ks f : l <> r -> In 0%Z ks -> real_outside l r ks f -> is_RInt f l r 0.
Proof.
  intros Hlr H0 (rest & Hr & Hf). apply is_RInt_ext with (fun x => fold_right (fun t s => let '(k, a, b) := t in a * cos (phase l r k x) + b * sin (phase l r k x) + s) 0 rest); [intros x _; symmetry; apply Hf|]. clear Hf.
  induction rest as [|[[k a] b] rest IH]; cbn [fold_right].
  - pose proof (constant_integral l r 0) as H. rewrite Rmult_0_r in H. exact H.
  - assert (Hk : (k =? 0)%Z = false) by (apply Z.eqb_neq; intros ->; apply (proj2 (Hr 0%Z a b ltac:(left; reflexivity))); exact H0).
    set (g := fun x => fold_right _ 0 rest) in IH. assert (IH' : is_RInt g l r 0) by (apply IH; intros k' a' b' H; apply (Hr k' a' b'); right; exact H). clear IH.
    apply is_RInt_ext with (fun x => plus (a * cos (phase l r k x) + b * sin (phase l r k x)) (g x)); [intros; reflexivity|].
    assert (H1 : is_RInt (fun x => a * cos (phase l r k x) + b * sin (phase l r k x)) l r (plus (a * 0) (b * 0))).
    { apply (is_RInt_plus (fun x => a * cos (phase l r k x)) (fun x => b * sin (phase l r k x))); apply scaled_integral; [|apply sin_integral; exact Hlr].
      pose proof (cos_integral l r Hlr k) as H. rewrite Hk in H. exact H. }
    pose proof (is_RInt_plus _ _ _ _ _ _ H1 IH') as H2. replace 0 with (plus (plus (a * 0) (b * 0)) 0) at 1; [exact H2|]. unfold plus. cbn. ring.
Qed.
(** and products of real modes with a wavenumber below half the highest are the identity: the product of a constant with
    [cos x] is that constant. *)
Theorem real_product_permuted_refuted l r c : l <> r -> affine_cov fourier_bounds (l, r) = Some c ->
  exists ks M, native_wavenumbers (real_wavenumbers 8) (Some (real_m_perm 8)) = Some ks /\ real_product_matrix (wavenumbers c ks) (Some (wavenumbers c ks)) (wavenumbers c ks) 4 = Some M
    /\ nth 4 ks 0%Z = 1%Z /\ exists u, ~ real_truncation l r ks (fun x => real_mode l r 1 4 x * real_series l r ks u x) (matvec 0 Rplus Rmult M u).
Proof.
  intros Hlr Hc. pose proof (stretch_nonzero _ _ _ Hlr Hc) as Hs. exists (0 :: 0 :: 3 :: 3 :: 1 :: 1 :: 2 :: 2 :: nil)%Z. eexists. split; [vm_compute; reflexivity|]. split.
  { unfold real_product_matrix, wavenumbers, mode_numbers. cbn [nth_error map]. rewrite (third c 0 0), (third c 3 1), (third c 1 0), (third c 2 1) by (exact Hs || lia). change (0 =? 0)%Z with true. change (4 mod 2 =? 0)%nat with true. cbv iota. reflexivity. }
  split; [reflexivity|]. exists (fun j => if (j =? 0)%nat then 1 else 0). set (ks := (0 :: 0 :: 3 :: 3 :: 1 :: 1 :: 2 :: 2 :: nil)%Z). intros H. unfold real_truncation in H.
  match type of H with real_outside _ _ ?a _ => change a with ks in H end. apply (outside_integral l r ks) in H; [|exact Hlr|left; reflexivity].
  assert (H1 : is_RInt (fun x => cos (phase l r 1 x) - 1) l r (0 - (r - l) * 1)).
  { apply (is_RInt_minus (fun x => cos (phase l r 1 x)) (fun _ => 1) l r 0 ((r - l) * 1)); [apply (cos_integral l r Hlr 1)|apply constant_integral]. }
  assert (H2 : is_RInt (fun x => cos (phase l r 1 x) - 1) l r 0).
  { refine (is_RInt_ext _ _ _ _ _ _ H). intros x _. cbn. unfold real_mode. cbn. rewrite phase_zero, cos_0 by exact Hlr. ring. }
  pose proof (is_RInt_unique (V := R_CompleteNormedModule) _ _ _ _ H1) as E1. pose proof (is_RInt_unique (V := R_CompleteNormedModule) _ _ _ _ H2) as E2. rewrite E1 in E2.
  lra.
Qed.
Print Assumptions complex_product.
Print Assumptions complex_product_constant.
Print Assumptions complex_product_single_refuted.
Print Assumptions real_product.
Print Assumptions real_product_constant.
Print Assumptions real_product_constant_refuted.
Print Assumptions real_product_single_refuted.
Print Assumptions complex_ncc.
Print Assumptions real_ncc.
Print Assumptions complex_product_permuted_refuted.
Print Assumptions real_product_permuted_refuted.

(** ** Examples *)
(** The product of [cos x] with [-sin 2x] in a basis of wavenumbers up to 2: half of [-sin x]; the other half is lost. *)
Example real_product_example c : stretch c <> 0 -> exists M, real_product_matrix (wavenumbers c (real_wavenumbers 6)) (Some (wavenumbers c (real_wavenumbers 6))) (wavenumbers c (real_wavenumbers 6)) 2 = Some M
  /\ at_ M 3 5 = 1 / 2 /\ at_ M 2 5 = 0 /\ at_ M 5 5 = 0.
Proof.
  intros Hs. unfold real_product_matrix, wavenumbers, mode_numbers. cbn [nth_error map].
  assert (E : forall k, np_round (IZR k / stretch c / (IZR 1 / stretch c)) = k) by (intros k; replace (IZR k / stretch c / (IZR 1 / stretch c)) with (IZR k) by (field; exact Hs); apply np_round_IZR).
  change (real_wavenumbers 6) with (0 :: 0 :: 1 :: 1 :: 2 :: 2 :: nil)%Z. cbn [nth_error map]. rewrite !E. change (1 =? 0)%Z with false. change (2 mod 2 =? 0)%nat with true. cbv iota zeta.
  unfold coo_matrix. match goal with |- exists M, (if ?b then _ else _) = _ /\ _ => replace b with true by (vm_compute; reflexivity) end. eexists. split; [reflexivity|].
  cbn [at_]. split; [|split]; cbv -[Rplus Rdiv Ropp IZR]; ring.
Qed.
