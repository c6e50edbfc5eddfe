(** C49: operators on Fourier series. *)
From Coq Require Import List ZArith Reals String Bool Lia Lra Field.
Import ListNotations.
From Coquelicot Require Import Coquelicot.
From Verif Require Blocks_Model Blocks_Proofs MatSolvers_Proofs.
From Verif Require Import MatSolvers_Model CSR_Spec AffineCOV_Model AffineCOV_Props FourierCalc_Model FourierCalc_Spec FourierCalc_Proofs FourierCalc_Series.
Local Open Scope R_scope.
Notation length := List.length.

(** The wavenumbers of bases of size [N]: in the order of the transforms, or in that of azimuthal bases (which need an
    even size, and a multiple of four for real modes). *)
Definition complex_basis (N : nat) (ks : list Z) : Prop := (0 < N)%nat /\
  (native_wavenumbers (complex_wavenumbers N) None = Some ks \/ (N mod 2 = 0)%nat /\ native_wavenumbers (complex_wavenumbers N) (Some (complex_m_perm N)) = Some ks).
Definition real_basis (N : nat) (ks : list Z) : Prop := (0 < N)%nat /\
  (native_wavenumbers (real_wavenumbers N) None = Some ks \/ (N mod 4 = 0)%nat /\ native_wavenumbers (real_wavenumbers N) (Some (real_m_perm N)) = Some ks).
(** The points that positions on the interval stand for. *)
Inductive point (l r : R) : position -> R -> Prop :=
  | p_at x : point l r (At x) x
  | p_left s : In s ["left"; "lower"]%string -> point l r (Named s) l
  | p_right s : In s ["right"; "upper"]%string -> point l r (Named s) r
  | p_center s : In s ["center"; "middle"]%string -> point l r (Named s) ((l + r) / 2).
(** The part of a vector of coefficients on a process. *)
Definition local_part {K} (b : axis_basis) (loc : bool) (P q : nat) (u : nat -> K) (j : nat) : K := u (nth j (local_elements b loc P q) 0%nat).

Lemma complex_basis_modes N ks : complex_basis N ks -> modes 1 ks ks N /\ nth 0 ks 0%Z = 0%Z.
Proof.
  intros [HN [H|[He H]]].
  - injection H as <-. apply complex_ks. exact HN.
  - destruct (complex_permuted N HN He) as (ks' & H' & Hm). rewrite H in H'. injection H' as <-. exact Hm.
Qed.
Lemma real_basis_modes N ks : real_basis N ks -> exists ps, modes 2 ps ks N /\ nth 0 ps 0%Z = 0%Z /\ ks = repeat2 ps.
Proof.
  intros [HN [H|[He H]]].
  - injection H as <-. exists (arange 0 (Z.of_nat ((N - 1) / 2) + 1)). destruct (real_ks N HN) as [H1 H2]. repeat split; try apply H1; exact H2.
  - destruct (real_permuted N HN He) as (ks' & ps & H' & Hm & H0). rewrite H in H'. injection H' as <-. exists ps. repeat split; try apply Hm; [exact H0|].
    destruct Hm as [[[E _]|[_ E]] _]; [discriminate|exact E].
Qed.
Lemma fourier_cov l r c : affine_cov fourier_bounds (l, r) = Some c -> c = Cov 0 (2 * PI) (2 * PI - 0) ((0 + 2 * PI) / 2) l r (r - l) ((l + r) / 2) ((r - l) / (2 * PI - 0)).
Proof. intros H. apply cov_fields in H. apply H. Qed.
Lemma two_pi : 2 * PI - 0 <> 0.
Proof. pose proof PI_neq0. lra. Qed.
Lemma physical_kappa l r c k : l <> r -> affine_cov fourier_bounds (l, r) = Some c -> physical c k = Some (kappa l r k).
Proof.
  intros Hlr Hc. rewrite (fourier_cov _ _ _ Hc). pose proof two_pi as H2. unfold physical. cbn [stretch]. rewrite pydiv_some.
  - f_equal. unfold kappa. field. repeat split; lra.
  - intros E. assert (F : (r - l) / (2 * PI - 0) * (2 * PI - 0) = r - l) by (unfold Rdiv; rewrite Rmult_assoc, Rinv_l by exact H2; ring). rewrite E in F. lra.
Qed.
Lemma kappa_zero l r k : l <> r -> is_zero (kappa l r k) = (k =? 0)%Z.
Proof.
  intros Hlr. unfold is_zero. destruct (Z.eqb_spec k 0) as [->|Hk]; destruct (Req_EM_T _ _) as [E|E]; try reflexivity; exfalso.
  - apply E. unfold kappa. field. lra.
  - unfold kappa in E. assert (E' : 2 * PI * IZR k = 0) by (replace (2 * PI * IZR k) with (2 * PI * IZR k / (r - l) * (r - l)) by (field; lra); rewrite E; ring).
    apply Rmult_integral in E'. pose proof PI_neq0. destruct E' as [E'|E']; [lra|]. apply eq_IZR in E'. contradiction.
Qed.
Lemma native_point l r c p x : l <> r -> affine_cov fourier_bounds (l, r) = Some c -> point l r p x -> exists t, native_coord c p = Some t /\ forall k, IZR k * t = phase l r k x.
Proof.
  intros Hlr Hc Hp. rewrite (fourier_cov _ _ _ Hc). assert (r - l <> 0) by lra.
  destruct Hp as [x|s Hs|s Hs|s Hs].
  - cbn. rewrite pydiv_some by assumption. eexists. split; [reflexivity|]. intros k. unfold phase. field. assumption.
  - exists 0. split; [destruct Hs as [<-|[<-|[]]]; reflexivity|]. intros k. rewrite phase_left by exact Hlr. ring.
  - exists (2 * PI). split; [destruct Hs as [<-|[<-|[]]]; reflexivity|]. intros k. rewrite phase_right by exact Hlr. ring.
  - exists ((0 + 2 * PI) / 2). split; [destruct Hs as [<-|[<-|[]]]; reflexivity|]. intros k. unfold phase. field. assumption.
Qed.

(** ** Wavenumbers *)
(** A complex basis holds every wavenumber [k] with [-N/2 < k <= N/2], once. *)
Theorem complex_basis_wavenumbers N ks : complex_basis N ks -> NoDup ks /\ length ks = N /\ forall k, In k ks <-> (- Z.of_nat N < 2 * k <= Z.of_nat N)%Z.
Proof.
  intros H. destruct (complex_basis_modes _ _ H) as [(_ & Hn & Hl) _]. rewrite cdiv_1 in Hl. split; [exact Hn|]. split; [exact Hl|].
  assert (Hw : forall k, In k (complex_wavenumbers N) <-> (- Z.of_nat N < 2 * k <= Z.of_nat N)%Z).
  { intros k. pose proof (proj1 H) as HN. pose proof (Nat.div_mod N 2 ltac:(lia)) as Hd. pose proof (Nat.mod_upper_bound N 2 ltac:(lia)). unfold complex_wavenumbers. set (h := (N / 2)%nat) in *. set (m := (N mod 2)%nat) in *. clearbody h m.
    destruct (Nat.eqb_spec m 1); rewrite in_app_iff, !arange_in; lia. }
  destruct H as [HN [H|[He H]]]; [injection H as <-; exact Hw|]. intros k. rewrite <- Hw.
  assert (Hi : incl ks (complex_wavenumbers N)).
  { cbn in H. clear -H. revert ks H. induction (complex_m_perm N) as [|i p IH]; intros ks H; cbn in H; [injection H as <-; intros x []|].
    destruct (nth_error (complex_wavenumbers N) i) as [a|] eqn:E; [|discriminate]. destruct (take_all (complex_wavenumbers N) p) as [t|]; [|discriminate]. injection H as <-.
    intros x [<-|Hx]; [apply nth_error_In with i; exact E|]. apply (IH t eq_refl). exact Hx. }
  destruct (complex_ks N HN) as [(_ & _ & Hl') _]. rewrite cdiv_1 in Hl'. split; [apply Hi|]. apply (NoDup_length_incl Hn); [rewrite Hl, Hl'; lia|exact Hi].
Qed.
(** A real basis holds every wavenumber [k] with [0 <= k < N/2] in two adjacent places: of the cosine and of the sine. *)
Theorem real_basis_wavenumbers N ks : real_basis N ks -> length ks = (2 * ((N + 1) / 2))%nat /\ (forall k, In k ks <-> (0 <= 2 * k < Z.of_nat N)%Z)
  /\ forall i j, (i < length ks)%nat -> (j < length ks)%nat -> (nth i ks 0%Z = nth j ks 0%Z <-> (i / 2 = j / 2)%nat).
Proof.
  intros H. destruct (real_basis_modes _ _ H) as (ps & (Hk & Hn & Hl) & H0 & E). pose proof H as [HN H']. subst ks.
  assert (HC : Blocks_Model.cdiv N 2 = ((N + 1) / 2)%nat) by (unfold Blocks_Model.cdiv; f_equal; lia).
  split; [rewrite repeat2_length, Hl, HC; reflexivity|]. split.
  - assert (Hw : forall k, In k (real_wavenumbers N) <-> (0 <= 2 * k < Z.of_nat N)%Z).
    { intros k. unfold real_wavenumbers. rewrite repeat2_in, arange_in. pose proof (Nat.div_mod (N - 1) 2 ltac:(lia)) as Hd. pose proof (Nat.mod_upper_bound (N - 1) 2 ltac:(lia)). lia. }
    destruct H' as [H'|[He H']]; [injection H' as <-; exact Hw|]. intros k. rewrite <- Hw.
    assert (Hi : incl (repeat2 ps) (real_wavenumbers N)).
    { cbn in H'. clear -H'. revert H'. generalize (repeat2 ps) as ks. induction (real_m_perm N) as [|i p IH]; intros ks H; cbn in H; [injection H as <-; intros x []|].
      destruct (nth_error (real_wavenumbers N) i) as [a|] eqn:E; [|discriminate]. destruct (take_all (real_wavenumbers N) p) as [t|]; [|discriminate]. injection H as <-.
      intros x [<-|Hx]; [apply nth_error_In with i; exact E|]. apply (IH t eq_refl). exact Hx. }
    split; [apply Hi|]. rewrite repeat2_in. unfold real_wavenumbers. rewrite repeat2_in. apply (NoDup_length_incl Hn).
    + destruct (real_ks N HN) as [(_ & _ & Hl') _]. rewrite Hl', Hl. lia.
    + intros x Hx. apply repeat2_in. apply Hi. apply repeat2_in. exact Hx.
  - intros i j. rewrite repeat2_length. intros Hi Hj. rewrite !repeat2_nth.
    split; [|intros ->; reflexivity]. apply (proj1 (NoDup_nth ps 0%Z) Hn); apply Nat.div_lt_upper_bound; lia.
Qed.

(** ** Differentiation *)
(** For every series there is one vector of coefficients, that of the derivative, and the matrix of every process takes its
    part of the series to its part of that vector. *)
Theorem complex_differentiation N ks l r c u : complex_basis N ks -> l <> r -> affine_cov fourier_bounds (l, r) = Some c ->
  exists d, (forall x, complex_derive (complex_series l r ks u) x (complex_series l r ks d x))
    /\ forall loc P q, exists M, subspace_matrix (RtoC 0) (complex_derivative c) (Modes ks N 1) (Modes ks N 1) loc P q = Some M
         /\ nr M = length (local_elements (Modes ks N 1) loc P q) /\ nc M = nr M
         /\ forall i, (i < nr M)%nat -> matvec (RtoC 0) Cplus Cmult M (local_part (Modes ks N 1) loc P q u) i = local_part (Modes ks N 1) loc P q d i.
Proof.
  intros Hb Hlr Hc. destruct (complex_basis_modes _ _ Hb) as [Hm H0]. exists (fun j => Ci * RtoC (kappa l r (nth j ks 0%Z)) * u j)%C. split; [intros x; apply complex_series_derive; exact Hlr|].
  intros loc P q. destruct (uncoupled (RtoC 0) (RtoC 1) Cplus Cmult Cminus Cdiv Copp Cinv Cf 1 ks ks N loc P q (complex_derivative c) (fun k => of_rows (RtoC 0) 1 1 (((Ci * RtoC (kappa l r k))%C :: nil) :: nil))) as (M & HM & Hr & Hcol & HA).
  - exact Hm.
  - intros g. unfold complex_derivative. rewrite (physical_kappa _ _ _ g Hlr Hc). reflexivity.
  - intros g. split; reflexivity.
  - exists M. split; [exact HM|]. split; [exact Hr|]. split; [rewrite Hcol, Hr; reflexivity|]. intros i Hi. rewrite Hr in Hi. unfold local_part. cbn [local_elements]. unfold elements in HA. rewrite (HA u i Hi).
    set (e := nth i _ 0%nat). rewrite Nat.div_1_r, Nat.mod_1_r. cbn. rewrite Nat.add_0_r, Nat.add_0_r. ring.
Qed.
Theorem real_differentiation N ks l r c u : real_basis N ks -> l <> r -> affine_cov fourier_bounds (l, r) = Some c ->
  exists d, (forall x, is_derive (real_series l r ks u) x (real_series l r ks d x))
    /\ forall loc P q, exists M, subspace_matrix 0 (real_derivative c) (Modes ks N 2) (Modes ks N 2) loc P q = Some M
         /\ nr M = length (local_elements (Modes ks N 2) loc P q) /\ nc M = nr M
         /\ forall i, (i < nr M)%nat -> matvec 0 Rplus Rmult M (local_part (Modes ks N 2) loc P q u) i = local_part (Modes ks N 2) loc P q d i.
Proof.
  intros Hb Hlr Hc. destruct (real_basis_modes _ _ Hb) as (ps & Hm & H0 & E). eexists. split; [intros x; rewrite E; apply real_series_derive; exact Hlr|].
  intros loc P q. destruct (uncoupled 0 1 Rplus Rmult Rminus Rdiv Ropp Rinv Rf 2 ps ks N loc P q (real_derivative c) (fun k => of_rows 0 2 2 ((0 :: (- kappa l r k) :: nil) :: (kappa l r k :: 0 :: nil) :: nil))) as (M & HM & Hr & Hcol & HA).
  - exact Hm.
  - intros g. unfold real_derivative. rewrite (physical_kappa _ _ _ g Hlr Hc). reflexivity.
  - intros g. split; reflexivity.
  - exists M. split; [exact HM|]. split; [exact Hr|]. split; [rewrite Hcol, Hr; reflexivity|]. intros i Hi. rewrite Hr in Hi. unfold local_part. cbn [local_elements]. unfold elements in HA. rewrite (HA u i Hi).
    set (e := nth i _ 0%nat). rewrite pair_sum. pose proof (Nat.div_mod e 2 ltac:(lia)) as Hd. pose proof (Nat.mod_upper_bound e 2 ltac:(lia)) as Hr2. set (p := (e / 2)%nat) in *.
    assert (R2 : (e mod 2 = 0 \/ e mod 2 = 1)%nat) by lia. destruct (even_pair p) as [E0 E1]. destruct R2 as [R2|R2]; rewrite R2 in *.
    + rewrite <- Hd in E0. rewrite E0. cbn [of_rows at_ nth]. rewrite Nat.add_0_r in Hd. rewrite <- Hd. ring.
    + rewrite <- Hd in E1. rewrite E1. cbn [of_rows at_ nth]. replace (e - 1)%nat with (2 * p + 0)%nat by lia. ring.
Qed.

(** ** Interpolation *)
Theorem complex_interpolated ks l r c p x u : l <> r -> affine_cov fourier_bounds (l, r) = Some c -> point l r p x ->
  exists M, complex_interpolation c ks p = Some M /\ nr M = 1%nat /\ nc M = length ks /\ matvec (RtoC 0) Cplus Cmult M u 0%nat = complex_series l r ks u x.
Proof.
  intros Hlr Hc Hp. destruct (native_point _ _ _ _ _ Hlr Hc Hp) as (t & Ht & Hph). unfold complex_interpolation. rewrite Ht. eexists. split; [reflexivity|]. split; [reflexivity|]. split; [reflexivity|].
  unfold matvec, complex_series. change (msum (RtoC 0) Cplus) with Ctotal. cbn [of_rows nc]. apply Ctotal_ext. intros j Hj. cbn [of_rows at_ nth].
  rewrite (nth_indep _ (RtoC 0) (cis (IZR 0 * t))) by (rewrite map_length; exact Hj). rewrite (map_nth (fun k => cis (IZR k * t))). unfold cis. rewrite !Hph. unfold complex_mode. ring.
Qed.
Theorem real_interpolated ks l r c p x u : l <> r -> affine_cov fourier_bounds (l, r) = Some c -> point l r p x ->
  exists M, real_interpolation c ks p = Some M /\ nr M = 1%nat /\ nc M = length ks /\ matvec 0 Rplus Rmult M u 0%nat = real_series l r ks u x.
Proof.
  intros Hlr Hc Hp. destruct (native_point _ _ _ _ _ Hlr Hc Hp) as (t & Ht & Hph). unfold real_interpolation. rewrite Ht. eexists. split; [reflexivity|]. split; [reflexivity|]. split; [reflexivity|].
  unfold matvec, real_series. change (msum 0 Rplus) with Rtotal. cbn [of_rows nc]. apply Rtotal_ext. intros j Hj. cbn [at_]. rewrite !Hph. unfold real_mode. ring.
Qed.
(** Names that stand for no point are refused. *)
Theorem interpolation_names ks l r c s : affine_cov fourier_bounds (l, r) = Some c -> (forall x, ~ point l r (Named s) x) ->
  complex_interpolation c ks (Named s) = None /\ real_interpolation c ks (Named s) = None.
Proof.
  intros Hc Hs. assert (E : native_coord c (Named s) = None).
  { rewrite (fourier_cov _ _ _ Hc). cbn -[one_of].
    assert (F : forall l, one_of s l = true -> In s l) by (intros w F; unfold one_of in F; apply existsb_exists in F; destruct F as (t & Ht & Et); apply String.eqb_eq in Et; subst t; exact Ht).
    destruct (one_of s ["left"; "lower"]%string) eqn:E1; [exfalso; apply (Hs l); constructor; apply F; exact E1|].
    destruct (one_of s ["right"; "upper"]%string) eqn:E2; [exfalso; apply (Hs r); constructor; apply F; exact E2|].
    destruct (one_of s ["center"; "middle"]%string) eqn:E3; [exfalso; apply (Hs ((l + r) / 2)); constructor; apply F; exact E3|]. reflexivity. }
  unfold complex_interpolation, real_interpolation. rewrite E. split; reflexivity.
Qed.

(** ** Integration and averages *)
(** The value is on the processes that hold the constant mode (all of them along a local axis, else the first); the
    others have no element.  The matrices exist on all of them. *)
Definition holds_constant (loc : bool) (q : nat) : Prop := loc = true \/ q = 0%nat.
Lemma owner_holds loc q : owner loc q = true <-> holds_constant loc q.
Proof. unfold owner, holds_constant. rewrite Bool.orb_true_iff, Nat.eqb_eq. tauto. Qed.
Section Reductions.
Context (N : nat) (l r : R) (c : cov) (Hlr : l <> r) (Hc : affine_cov fourier_bounds (l, r) = Some c) (loc : bool) (P q : nat) (HP : (0 < P)%nat).
Lemma complex_reduction ks f w : complex_basis N ks -> f 0%Z = Some (of_rows (RtoC 0) 1 1 ((w :: nil) :: nil)) ->
  exists M, subspace_matrix (RtoC 0) f (Modes ks N 1) Constant loc P q = Some M /\ (holds_constant loc q -> nr M = 1%nat) /\ (~ holds_constant loc q -> nr M = 0%nat)
    /\ nc M = length (local_elements (Modes ks N 1) loc P q)
    /\ forall u, holds_constant loc q -> matvec (RtoC 0) Cplus Cmult M (local_part (Modes ks N 1) loc P q u) 0%nat = (w * u 0%nat)%C.
Proof.
  intros Hb Hf. destruct (complex_basis_modes _ _ Hb) as [Hm H0].
  destruct (reduction (RtoC 0) (RtoC 1) Cplus Cmult Cminus Cdiv Copp Cinv Cf 1 ks ks N loc P q f _ Hm (proj1 Hb) HP H0 Hf) as (M & HM & Hr & Hcol & HA); [reflexivity|reflexivity|intros; lia|].
  exists M. split; [exact HM|]. rewrite Hr. pose proof (owner_holds loc q) as Ho. split; [intros H; apply Ho in H; rewrite H; reflexivity|]. split; [intros H; destruct (owner loc q); [exfalso; apply H, Ho; reflexivity|reflexivity]|].
  split; [exact Hcol|]. intros u H. apply Ho in H. exact (HA u H).
Qed.
Lemma real_reduction ks f w : real_basis N ks -> f 0%Z = Some (of_rows 0 1 2 ((w :: 0 :: nil) :: nil)) ->
  exists M, subspace_matrix 0 f (Modes ks N 2) Constant loc P q = Some M /\ (holds_constant loc q -> nr M = 1%nat) /\ (~ holds_constant loc q -> nr M = 0%nat)
    /\ nc M = length (local_elements (Modes ks N 2) loc P q)
    /\ forall u, holds_constant loc q -> matvec 0 Rplus Rmult M (local_part (Modes ks N 2) loc P q u) 0%nat = w * u 0%nat.
Proof.
  intros Hb Hf. destruct (real_basis_modes _ _ Hb) as (ps & Hm & H0 & _).
  destruct (reduction 0 1 Rplus Rmult Rminus Rdiv Ropp Rinv Rf 2 ps ks N loc P q f _ Hm (proj1 Hb) HP H0 Hf) as (M & HM & Hr & Hcol & HA); [reflexivity|reflexivity|intros j H1 H2; assert (j = 1%nat) as -> by lia; reflexivity|].
  exists M. split; [exact HM|]. rewrite Hr. pose proof (owner_holds loc q) as Ho. split; [intros H; apply Ho in H; rewrite H; reflexivity|]. split; [intros H; destruct (owner loc q); [exfalso; apply H, Ho; reflexivity|reflexivity]|].
  split; [exact Hcol|]. intros u H. apply Ho in H. exact (HA u H).
Qed.
Theorem complex_integrated ks : complex_basis N ks ->
  exists M, subspace_matrix (RtoC 0) (complex_integration c) (Modes ks N 1) Constant loc P q = Some M /\ (holds_constant loc q -> nr M = 1%nat) /\ (~ holds_constant loc q -> nr M = 0%nat)
    /\ nc M = length (local_elements (Modes ks N 1) loc P q)
    /\ forall u, holds_constant loc q -> complex_integral (complex_series l r ks u) l r (matvec (RtoC 0) Cplus Cmult M (local_part (Modes ks N 1) loc P q u) 0%nat).
Proof.
  intros Hb. destruct (complex_reduction ks (complex_integration c) (RtoC (r - l)) Hb) as (M & HM & H1 & H2 & H3 & HA).
  - unfold complex_integration. rewrite (physical_kappa _ _ _ _ Hlr Hc), kappa_zero by exact Hlr. rewrite (fourier_cov _ _ _ Hc). reflexivity.
  - exists M. split; [exact HM|]. split; [exact H1|]. split; [exact H2|]. split; [exact H3|]. intros u Hu. rewrite (HA u) by assumption. destruct (complex_basis_modes _ _ Hb) as [(_ & Hn & Hl) H0]; rewrite cdiv_1 in Hl; apply complex_series_integral; try assumption; destruct Hb; lia.
Qed.
Theorem complex_averaged ks : complex_basis N ks ->
  exists M, subspace_matrix (RtoC 0) (complex_average c) (Modes ks N 1) Constant loc P q = Some M /\ (holds_constant loc q -> nr M = 1%nat) /\ (~ holds_constant loc q -> nr M = 0%nat)
    /\ nc M = length (local_elements (Modes ks N 1) loc P q)
    /\ forall u, holds_constant loc q -> complex_integral (complex_series l r ks u) l r (RtoC (r - l) * matvec (RtoC 0) Cplus Cmult M (local_part (Modes ks N 1) loc P q u) 0%nat)%C.
Proof.
  intros Hb. destruct (complex_reduction ks (complex_average c) (RtoC 1) Hb) as (M & HM & H1 & H2 & H3 & HA).
  - unfold complex_average. rewrite (physical_kappa _ _ _ _ Hlr Hc), kappa_zero by exact Hlr. reflexivity.
  - exists M. split; [exact HM|]. split; [exact H1|]. split; [exact H2|]. split; [exact H3|]. intros u Hu. rewrite (HA u) by assumption. rewrite Cmult_1_l.
    destruct (complex_basis_modes _ _ Hb) as [(_ & Hn & Hl) H0]; rewrite cdiv_1 in Hl; apply complex_series_integral; try assumption; destruct Hb; lia.
Qed.
Theorem real_integrated ks : real_basis N ks ->
  exists M, subspace_matrix 0 (real_integration c) (Modes ks N 2) Constant loc P q = Some M /\ (holds_constant loc q -> nr M = 1%nat) /\ (~ holds_constant loc q -> nr M = 0%nat)
    /\ nc M = length (local_elements (Modes ks N 2) loc P q)
    /\ forall u, holds_constant loc q -> is_RInt (real_series l r ks u) l r (matvec 0 Rplus Rmult M (local_part (Modes ks N 2) loc P q u) 0%nat).
Proof.
  intros Hb. destruct (real_reduction ks (real_integration c) (r - l) Hb) as (M & HM & H1 & H2 & H3 & HA).
  - unfold real_integration. rewrite (physical_kappa _ _ _ _ Hlr Hc), kappa_zero by exact Hlr. rewrite (fourier_cov _ _ _ Hc). reflexivity.
  - exists M. split; [exact HM|]. split; [exact H1|]. split; [exact H2|]. split; [exact H3|]. intros u Hu. rewrite (HA u) by assumption.
    destruct (real_basis_modes _ _ Hb) as (ps & (_ & Hn & Hl) & H0 & E). rewrite E. apply real_series_integral; try assumption. rewrite Hl. destruct Hb as [HN _]. rewrite cdiv_2 by exact HN. lia.
Qed.
Theorem real_averaged ks : real_basis N ks ->
  exists M, subspace_matrix 0 (real_average c) (Modes ks N 2) Constant loc P q = Some M /\ (holds_constant loc q -> nr M = 1%nat) /\ (~ holds_constant loc q -> nr M = 0%nat)
    /\ nc M = length (local_elements (Modes ks N 2) loc P q)
    /\ forall u, holds_constant loc q -> is_RInt (real_series l r ks u) l r ((r - l) * matvec 0 Rplus Rmult M (local_part (Modes ks N 2) loc P q u) 0%nat).
Proof.
  intros Hb. destruct (real_reduction ks (real_average c) 1 Hb) as (M & HM & H1 & H2 & H3 & HA).
  - unfold real_average. rewrite (physical_kappa _ _ _ _ Hlr Hc), kappa_zero by exact Hlr. reflexivity.
  - exists M. split; [exact HM|]. split; [exact H1|]. split; [exact H2|]. split; [exact H3|]. intros u Hu. rewrite (HA u) by assumption. rewrite Rmult_1_l.
    destruct (real_basis_modes _ _ Hb) as (ps & (_ & Hn & Hl) & H0 & E). rewrite E. apply real_series_integral; try assumption. rewrite Hl. destruct Hb as [HN _]. rewrite cdiv_2 by exact HN. lia.
Qed.
End Reductions.

(** ** Constants *)
(** Conversion of a constant: one vector of coefficients, of the series that is that constant everywhere. *)
Theorem complex_constants N ks l r c v : l <> r -> affine_cov fourier_bounds (l, r) = Some c -> complex_basis N ks -> exists d, (forall x, complex_series l r ks d x = v)
  /\ forall loc P q, (0 < P)%nat -> exists M, subspace_matrix (RtoC 0) (complex_constant c) Constant (Modes ks N 1) loc P q = Some M /\ nr M = length (local_elements (Modes ks N 1) loc P q)
    /\ forall i, (i < nr M)%nat -> matvec (RtoC 0) Cplus Cmult M (fun _ => v) i = local_part (Modes ks N 1) loc P q d i.
Proof.
  intros Hlr Hc Hb. destruct (complex_basis_modes _ _ Hb) as [Hm H0]. exists (fun e => if (e =? 0)%nat then v else RtoC 0). split.
  - intros x. unfold complex_series. destruct Hm as (_ & Hn & Hl). rewrite cdiv_1 in Hl. rewrite (Ctotal_single (length ks) 0%nat).
    + cbn [Nat.eqb]. rewrite H0. unfold complex_mode. rewrite phase_zero by exact Hlr. rewrite sin_0, cos_0. apply Cmult_1_r.
    + destruct Hb. lia.
    + intros j Hj Hne. replace (j =? 0)%nat with false by (symmetry; apply Nat.eqb_neq; exact Hne). apply Cmult_0_l.
  - intros loc P q HP. destruct (extension (RtoC 0) (RtoC 1) Cplus Cmult Cminus Cdiv Copp Cinv Cf 1 ks ks N loc P q (complex_constant c) (of_rows (RtoC 0) 1 1 ((RtoC (1 / 1) :: nil) :: nil)) Hm (proj1 Hb) HP H0) as (M & HM & Hr & _ & HA).
    + unfold complex_constant. rewrite (physical_kappa _ _ _ _ Hlr Hc), kappa_zero by exact Hlr. reflexivity.
    + reflexivity.
    + reflexivity.
    + intros; lia.
    + exists M. split; [exact HM|]. split; [exact Hr|]. intros i Hi. rewrite Hr in Hi. rewrite (HA v i Hi). unfold local_part. cbn [local_elements]. fold (elements N 1 loc P q).
      destruct (_ =? 0)%nat; [|reflexivity]. cbn [of_rows at_ nth]. replace (1 / 1) with 1 by field. apply Cmult_1_l.
Qed.
Theorem real_constants N ks l r c v : l <> r -> affine_cov fourier_bounds (l, r) = Some c -> real_basis N ks -> exists d, (forall x, real_series l r ks d x = v)
  /\ forall loc P q, (0 < P)%nat -> exists M, subspace_matrix 0 (real_constant c) Constant (Modes ks N 2) loc P q = Some M /\ nr M = length (local_elements (Modes ks N 2) loc P q)
    /\ forall i, (i < nr M)%nat -> matvec 0 Rplus Rmult M (fun _ => v) i = local_part (Modes ks N 2) loc P q d i.
Proof.
  intros Hlr Hc Hb. destruct (real_basis_modes _ _ Hb) as (ps & Hm & H0 & E). exists (fun e => if (e =? 0)%nat then v else 0). split.
  - intros x. rewrite E. unfold real_series. destruct Hm as (_ & Hn & Hl). rewrite (Rtotal_single _ 0%nat).
    + cbn [Nat.eqb]. rewrite repeat2_nth. change (0 / 2)%nat with 0%nat. rewrite H0. unfold real_mode. rewrite phase_zero by exact Hlr. rewrite cos_0. cbn. ring.
    + rewrite repeat2_length, Hl, cdiv_2; destruct Hb; lia.
    + intros j Hj Hne. replace (j =? 0)%nat with false by (symmetry; apply Nat.eqb_neq; exact Hne). ring.
  - intros loc P q HP. destruct (extension 0 1 Rplus Rmult Rminus Rdiv Ropp Rinv Rf 2 ps ks N loc P q (real_constant c) (of_rows 0 2 1 ((1 / 1 :: nil) :: (0 :: nil) :: nil)) Hm (proj1 Hb) HP H0) as (M & HM & Hr & _ & HA).
    + unfold real_constant. rewrite (physical_kappa _ _ _ _ Hlr Hc), kappa_zero by exact Hlr. reflexivity.
    + reflexivity.
    + reflexivity.
    + intros i H1 H2. assert (i = 1%nat) as -> by lia. reflexivity.
    + exists M. split; [exact HM|]. split; [exact Hr|]. intros i Hi. rewrite Hr in Hi. rewrite (HA v i Hi). unfold local_part. cbn [local_elements]. fold (elements N 2 loc P q).
      destruct (_ =? 0)%nat; [|reflexivity]. cbn [of_rows at_ nth]. field.
Qed.
(** The group matrices of integrals and averages exist for the constant group only. *)
Theorem integration_groups l r c k : l <> r -> affine_cov fourier_bounds (l, r) = Some c -> k <> 0%Z ->
  complex_integration c k = None /\ complex_average c k = None /\ real_integration c k = None /\ real_average c k = None.
Proof.
  intros Hlr Hc Hk. unfold complex_integration, complex_average, real_integration, real_average. rewrite (physical_kappa _ _ _ _ Hlr Hc), kappa_zero by exact Hlr.
  replace (k =? 0)%Z with false by (symmetry; apply Z.eqb_neq; exact Hk). repeat split; reflexivity.
Qed.
Print Assumptions complex_basis_wavenumbers.
Print Assumptions real_basis_wavenumbers.
Print Assumptions complex_differentiation.
Print Assumptions real_differentiation.
Print Assumptions complex_interpolated.
Print Assumptions real_interpolated.
Print Assumptions interpolation_names.
Print Assumptions complex_integrated.
Print Assumptions complex_averaged.
Print Assumptions real_integrated.
Print Assumptions real_averaged.
Print Assumptions complex_constants.
Print Assumptions real_constants.
Print Assumptions integration_groups.

(** ** Examples *)
(** Bases of both orders. *)
Example wavenumbers_example : complex_basis 6 (0 :: 1 :: 2 :: 3 :: -2 :: -1 :: nil)%Z /\ complex_basis 6 (0 :: 3 :: 1 :: -2 :: 2 :: -1 :: nil)%Z
  /\ real_basis 5 (0 :: 0 :: 1 :: 1 :: 2 :: 2 :: nil)%Z /\ real_basis 8 (0 :: 0 :: 3 :: 3 :: 1 :: 1 :: 2 :: 2 :: nil)%Z.
Proof. unfold complex_basis, real_basis. split; [|split; [|split]]; (split; [lia|]); [left|right; split|left|right; split]; reflexivity. Qed.
(** On the interval from 0 to [2 pi], the second of two processes differentiates [cos 2x]: the sine of wavenumber 2 is
    its second element. *)
Example differentiation_example : exists c M, affine_cov fourier_bounds (0, 2 * PI) = Some c /\ subspace_matrix 0 (real_derivative c) (Modes (real_wavenumbers 6) 6 2) (Modes (real_wavenumbers 6) 6 2) false 2 1 = Some M
  /\ nr M = 2%nat /\ matvec 0 Rplus Rmult M (local_part (Modes (real_wavenumbers 6) 6 2) false 2 1 (fun j => if (j =? 4)%nat then 1 else 0)) 1%nat = 2.
Proof.
  assert (Hc : exists c, affine_cov fourier_bounds (0, 2 * PI) = Some c) by (apply cov_exists; pose proof PI_neq0; lra). destruct Hc as [c Hc].
  assert (Hlr : 0 <> 2 * PI) by (pose proof PI_neq0; lra).
  destruct (uncoupled 0 1 Rplus Rmult Rminus Rdiv Ropp Rinv Rf 2 (arange 0 3) (real_wavenumbers 6) 6 false 2 1 (real_derivative c) (fun k => of_rows 0 2 2 ((0 :: (- kappa 0 (2 * PI) k) :: nil) :: (kappa 0 (2 * PI) k :: 0 :: nil) :: nil))) as (M & HM & Hr & Hcol & HA).
  - apply (real_ks 6). lia.
  - intros g. unfold real_derivative. rewrite (physical_kappa _ _ _ g Hlr Hc). reflexivity.
  - intros g. split; reflexivity.
  - exists c, M. split; [exact Hc|]. split; [exact HM|]. split; [exact Hr|]. etransitivity; [apply (HA (fun j => if (j =? 4)%nat then 1 else 0) 1%nat); cbn; lia|].
    cbv zeta. rewrite pair_sum. change (nth 1 (elements 6 2 false 2 1) 0%nat) with 5%nat. change (5 / 2)%nat with 2%nat. change (5 mod 2)%nat with 1%nat. change (2 * 2 + 0)%nat with 4%nat. change (2 * 2 + 1)%nat with 5%nat.
    cbn [Nat.eqb]. change (nth 2 (arange 0 3) 0%Z) with 2%Z. cbn [of_rows at_ nth]. unfold kappa. field. pose proof PI_neq0. lra.
Qed.
