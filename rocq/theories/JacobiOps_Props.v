(** Property C68: operators of Jacobi bases on functions of the problem interval. *)
From Coq Require Import List ZArith Reals Bool Lia Lra String.
From Coquelicot Require Import Coquelicot.
Import ListNotations.
From Verif Require Import CSR_Spec MatSolvers_Model Clenshaw_Model Codomain_Model Codomain_Proofs JacobiCalc_Model JacobiCalc_Spec JacobiCalc_Proofs JacobiCalc_Ops JacobiCalc_Props AffineCOV_Model FourierCalc_Model FourierCalc_Proofs FourierCalc_Props JacobiOps_Model JacobiOps_Spec JacobiOps_Proofs.
Local Open Scope R_scope.

Section Props.
Context (mass : R -> R -> R) (Hm : mass_rules mass).
(** Conversion keeps the function. *)
Theorem jacobi_convert x k m : (1 <= bsize x)%nat -> -1 < ba x -> -1 < bb x ->
  forall y, ba y = ba x + INR k -> bb y = bb x + INR m ->
  exists M, convert_full x y = Some M /\ nr M = bsize x /\ nc M = bsize x /\
    forall l r u t, series mass (bsize x) (ba y) (bb y) l r (image (bsize x) (at_ M) u) t = series mass (bsize x) (ba x) (bb x) l r u t.
Proof.
  intros HN Ha Hb y Ey Ey'. destruct (conversion_value mass Hm (bsize x) (ba x) (bb x) k m HN Ha Hb) as (M & EM & Hr & Hc & H). exists M. unfold convert_full. rewrite Ey, Ey'. split; [exact EM|]. split; [exact Hr|]. split; [exact Hc|].
  intros l r u t. unfold series. apply image_series. intros j Hj. apply H, Hj.
Qed.
Theorem jacobi_convert_errors x y : convert_full x y <> None -> exists k m, ba y = ba x + INR k /\ bb y = bb x + INR m.
Proof. apply conversion_errors. Qed.
(** Differentiation, in the coordinate of the problem. *)
Theorem jacobi_differentiate x l r : bbounds x = (l, r) -> l <> r -> -1 < ba x -> -1 < bb x ->
  let y := derivative_basis 1 x in
  exists M, differentiate_full x = Some M /\ nr M = bsize y /\ nc M = bsize x /\
    forall u t, is_derive (series mass (bsize x) (ba x) (bb x) l r u) t (series mass (bsize y) (ba y) (bb y) l r (image (bsize x) (at_ M) u) t).
Proof.
  destruct x as [N a b bd]. cbn [bbounds bsize ba bb derivative_basis]. intros -> Hlr Ha Hb. cbn [derivative_basis bbounds bsize ba bb INR].
  destruct (differentiation_value mass Hm N a b Ha Hb) as (M & EM & Hr & Hc & H). unfold differentiate_full. rewrite jcov_some. cbn [bsize ba bb stretch]. rewrite EM.
  destruct (Req_EM_T ((r - l) / 2) 0); [lra|]. eexists. split; [reflexivity|]. cbn [nr nc at_]. split; [exact Hr|]. split; [exact Hc|]. intros u t.
  set (d := fun j => CSR_Spec.total 0 Rplus N (fun i => at_ M i j * unit_polynomial mass i (a + 1) (b + 1) (scaled l r t))). assert (E : series mass N (a + 1) (b + 1) l r (image N (fun i j => at_ M i j / ((r - l) / 2)) u) t = 2 / (r - l) * CSR_Spec.total 0 Rplus N (fun j => u j * d j)); [|rewrite E; apply series_derive; [exact Hlr|intros j Hj; apply H; exact Hj]].
  unfold series. rewrite (image_series N N _ u _ (fun j => 2 / (r - l) * d j)).
  - rewrite <- Rtotal_scale. apply Rtotal_ext. intros j _. ring.
  - intros j Hj. unfold d. rewrite <- Rtotal_scale. apply Rtotal_ext. intros i _. field. lra.
Qed.
(** Interpolation, at the points of the interval that positions stand for. *)
Theorem jacobi_interpolate x l r p t : bbounds x = (l, r) -> l <> r -> -1 < ba x -> -1 < bb x -> point l r p t ->
  exists M, interpolate_full mass x p = Some M /\ nr M = 1%nat /\ nc M = bsize x /\ forall u, image (bsize x) (at_ M) u 0 = series mass (bsize x) (ba x) (bb x) l r u t.
Proof.
  destruct x as [N a b bd]. cbn [bbounds bsize ba bb]. intros -> Hlr Ha Hb Hp. unfold interpolate_full. rewrite jcov_some. cbn [bsize ba bb].
  assert (E : native_coord (Cov (-1) 1 2 0 l r (r - l) ((l + r) / 2) ((r - l) / 2)) p = Some (scaled l r t)).
  { unfold scaled. destruct Hp as [x|s Hs|s Hs|s Hs]; cbn [native_coord native_left native_right native_center native_length problem_left problem_length].
    - unfold pydiv. destruct (Req_EM_T (r - l) 0); [lra|]. f_equal. field. lra.
    - destruct Hs as [<-|[<-|[]]]; cbn; f_equal; field; lra.
    - destruct Hs as [<-|[<-|[]]]; cbn; f_equal; field; lra.
    - destruct Hs as [<-|[<-|[]]]; cbn; f_equal; field; lra. }
  rewrite E, (polynomials_value mass Hm) by assumption. eexists. split; [reflexivity|]. cbn [row nr nc at_]. split; [reflexivity|]. split; [rewrite map_length, seq_length; reflexivity|].
  intros u. unfold image, series. apply Rtotal_ext. intros j Hj. rewrite (nth_indep _ 0 ((fun k => unit_polynomial mass k a b (scaled l r t)) 0%nat)) by (rewrite map_length, seq_length; exact Hj).
  rewrite (map_nth (fun k => unit_polynomial mass k a b (scaled l r t))), seq_nth by exact Hj. rewrite Nat.add_0_l. ring.
Qed.
Theorem jacobi_interpolate_errors x p : fst (bbounds x) <> snd (bbounds x) -> interpolate_full mass x p <> None -> exists t, point (fst (bbounds x)) (snd (bbounds x)) p t.
Proof.
  destruct x as [N a b [l r]]. cbn [bbounds fst snd]. intros Hlr. unfold interpolate_full. rewrite jcov_some. destruct p as [s|t]; [|intros _; exists t; constructor].
  cbn [native_coord one_of existsb]. rewrite !orb_false_r. destruct (String.eqb_spec s "left"); [intros _; eexists; apply p_left; cbn; intuition|]. destruct (String.eqb_spec s "lower"); [intros _; eexists; apply p_left; cbn; intuition|].
  destruct (String.eqb_spec s "right"); [intros _; eexists; apply p_right; cbn; intuition|]. destruct (String.eqb_spec s "upper"); [intros _; eexists; apply p_right; cbn; intuition|].
  destruct (String.eqb_spec s "center"); [intros _; eexists; apply p_center; cbn; intuition|]. destruct (String.eqb_spec s "middle"); [intros _; eexists; apply p_center; cbn; intuition|].
  cbn. intros H. contradiction H. reflexivity.
Qed.
(** Integrals and averages over the interval, up to the modes whose integral is within the cutoff. *)
Theorem jacobi_integrate cutoff leg x l r : bbounds x = (l, r) -> l <> r -> -1 < ba x -> -1 < bb x -> mass 0 0 = 2 -> exact_quadrature (bsize x) (leg (bsize x)) -> 0 <= cutoff ->
  exists M, integrate_full mass cutoff leg x = Some M /\ nr M = 1%nat /\ nc M = bsize x /\
    forall u, exists v, is_RInt (series mass (bsize x) (ba x) (bb x) l r u) l r v
      /\ Rabs (image (bsize x) (at_ M) u 0 - v) <= cutoff * (Rabs (r - l) / 2) * CSR_Spec.total 0 Rplus (bsize x) (fun j => Rabs (u j)).
Proof.
  destruct x as [N a b bd]. cbn [bbounds bsize ba bb]. intros -> Hlr Ha Hb H2 Hq Hk. unfold integrate_full. rewrite jcov_some. cbn [bsize ba bb stretch].
  destruct (integration_value mass Hm cutoff leg N a b Ha Hb H2 Hq) as (v & E & Hl & H). rewrite E. eexists. split; [reflexivity|]. cbn [row nr nc at_]. split; [reflexivity|]. split; [rewrite map_length; exact Hl|].
  intros u. eexists. split; [apply series_integral; exact Hlr|]. unfold image. set (I := fun j => RInt (unit_polynomial mass j a b) (-1) 1).
  replace (_ - _) with (CSR_Spec.total 0 Rplus N (fun j => (nth j v 0 - I j) * ((r - l) / 2) * u j)).
  - eapply Rle_trans; [apply total_abs|]. rewrite <- Rtotal_scale. apply total_le. intros j Hj. rewrite !Rabs_mult. apply Rmult_le_compat_r; [apply Rabs_pos|].
    replace (Rabs (r - l) / 2) with (Rabs ((r - l) / 2)) by (unfold Rdiv; rewrite Rabs_mult, (Rabs_pos_eq (/ 2)) by lra; reflexivity). apply Rmult_le_compat_r; [apply Rabs_pos|].
    destruct (H j Hj) as [G1 G2]. fold (I j) in G1, G2. destruct (Rle_lt_dec (Rabs (I j)) cutoff) as [Hs|Hs]; [rewrite G2 by exact Hs|rewrite G1 by lra].
    + replace (0 - I j) with (- I j) by ring. rewrite Rabs_Ropp. exact Hs.
    + replace (I j - I j) with 0 by ring. rewrite Rabs_R0. lra.
  - assert (Ed : forall f g h, (forall j, (j < N)%nat -> f j = g j - h j) -> CSR_Spec.total 0 Rplus N f = CSR_Spec.total 0 Rplus N g - CSR_Spec.total 0 Rplus N h).
    { clear. intros f g h H. replace (_ - _) with (CSR_Spec.total 0 Rplus N g + -1 * CSR_Spec.total 0 Rplus N h) by ring. rewrite <- Rtotal_scale, <- Rtotal_add. apply Rtotal_ext. intros j Hj. rewrite H by exact Hj. ring. }
    apply Ed. intros j Hj. rewrite (nth_indep (map (fun w => w * ((r - l) / 2)) v) 0 ((fun w => w * ((r - l) / 2)) 0)) by (rewrite map_length; lia). rewrite (map_nth (fun w => w * ((r - l) / 2))). unfold I. ring.
Qed.
Theorem jacobi_average cutoff leg x l r : bbounds x = (l, r) -> l <> r -> -1 < ba x -> -1 < bb x -> mass 0 0 = 2 -> exact_quadrature (bsize x) (leg (bsize x)) -> 0 <= cutoff ->
  exists M, average_full mass cutoff leg x = Some M /\ nr M = 1%nat /\ nc M = bsize x /\
    forall u, exists v, is_RInt (series mass (bsize x) (ba x) (bb x) l r u) l r v
      /\ Rabs (image (bsize x) (at_ M) u 0 - v / (r - l)) <= cutoff / 2 * CSR_Spec.total 0 Rplus (bsize x) (fun j => Rabs (u j)).
Proof.
  intros E Hlr Ha Hb H2 Hq Hk. destruct (jacobi_integrate cutoff leg x l r E Hlr Ha Hb H2 Hq Hk) as (M & EM & Hr & Hc & H). unfold average_full. unfold integrate_full in EM.
  destruct (integration_vector mass cutoff leg (bsize x) (ba x) (bb x)) as [w|]; [|discriminate]. destruct (jcov x) as [c|] eqn:Ec; [|discriminate]. injection EM as <-.
  destruct x as [N a b bd]. cbn [bbounds bsize ba bb] in *. rewrite E, jcov_some in Ec. injection Ec as <-. cbn [stretch row nr nc at_] in *. rewrite map_length in Hc.
  eexists. split; [reflexivity|]. cbn [row nr nc at_]. split; [reflexivity|]. split; [rewrite map_length; exact Hc|]. intros u. destruct (H u) as (v & Hv & Hb'). exists v. split; [exact Hv|].
  match goal with |- Rabs (?A - _) <= _ => replace (A - v / (r - l)) with (/ (r - l) * (image N (fun _ j => nth j (map (fun w0 => w0 * ((r - l) / 2)) w) 0) u 0 - v)) end.
  - rewrite Rabs_mult, Rabs_inv. assert (Hp : 0 < Rabs (r - l)) by (apply Rabs_pos_lt; lra). apply (Rmult_le_reg_l (Rabs (r - l))); [exact Hp|]. rewrite <- Rmult_assoc, Rinv_r, Rmult_1_l by lra. eapply Rle_trans; [exact Hb'|]. right. field.
  - rewrite Rmult_minus_distr_l. unfold image. rewrite <- Rtotal_scale. f_equal; [|field; lra]. apply Rtotal_ext. intros j Hj.
    rewrite (nth_indep (map (fun w0 => w0 * _) w) 0 ((fun w => w * ((r - l) / 2)) 0)) by (rewrite map_length; lia). rewrite (map_nth (fun w => w * ((r - l) / 2))).
    rewrite (nth_indep (map (fun w0 => w0 / 2) w) 0 ((fun w => w / 2) 0)) by (rewrite map_length; lia). rewrite (map_nth (fun w => w / 2)). field. lra.
Qed.
(** The integral of the derivative is the difference of the boundary values. *)
Theorem jacobi_fundamental cutoff leg x l r : bbounds x = (l, r) -> l <> r -> -1 < ba x -> -1 < bb x -> mass 0 0 = 2 -> exact_quadrature (bsize x) (leg (bsize x)) -> 0 <= cutoff ->
  exists D I L R, differentiate_full x = Some D /\ integrate_full mass cutoff leg (derivative_basis 1 x) = Some I /\ interpolate_full mass x (Named "left") = Some L /\ interpolate_full mass x (Named "right") = Some R
    /\ forall u, let n := bsize x in let du := image n (at_ D) u in
       Rabs (image n (at_ I) du 0 - (image n (at_ R) u 0 - image n (at_ L) u 0)) <= cutoff * (Rabs (r - l) / 2) * CSR_Spec.total 0 Rplus n (fun j => Rabs (du j)).
Proof.
  intros E Hlr Ha Hb H2 Hq Hk. destruct (jacobi_differentiate x l r E Hlr Ha Hb) as (D & ED & _ & _ & HD). set (y := derivative_basis 1 x) in *.
  destruct (jacobi_integrate cutoff leg y l r E Hlr ltac:(cbn; lra) ltac:(cbn; lra) H2 Hq Hk) as (I & EI & _ & _ & HI).
  destruct (jacobi_interpolate x l r (Named "left") l E Hlr Ha Hb ltac:(apply p_left; left; reflexivity)) as (L & EL & _ & _ & HL).
  destruct (jacobi_interpolate x l r (Named "right") r E Hlr Ha Hb ltac:(apply p_right; left; reflexivity)) as (Rt & ER & _ & _ & HR).
  exists D, I, L, Rt. split; [exact ED|]. split; [exact EI|]. split; [exact EL|]. split; [exact ER|]. intros u n du. destruct (HI du) as (v & Hv & Hbd). change (bsize y) with n in *. fold n in HL, HR.
  rewrite HL, HR. replace (series _ _ _ _ _ _ u r - series _ _ _ _ _ _ u l) with v; [exact Hbd|].
  assert (Hi : is_RInt (series mass n (ba y) (bb y) l r du) l r (minus (series mass n (ba x) (bb x) l r u r) (series mass n (ba x) (bb x) l r u l))).
  { apply (is_RInt_derive (series mass n (ba x) (bb x) l r u) (series mass n (ba y) (bb y) l r du)).
    - intros t _. apply HD.
    - intros t _. destruct (jacobi_differentiate y l r E Hlr ltac:(cbn; lra) ltac:(cbn; lra)) as (D2 & _ & _ & _ & HD2). apply (@ex_derive_continuous R_AbsRing R_NormedModule). eexists. apply HD2. }
  pose proof (@is_RInt_unique R_CompleteNormedModule _ _ _ _ Hi) as Ei. pose proof (@is_RInt_unique R_CompleteNormedModule _ _ _ _ Hv) as Ev. rewrite Ev in Ei. exact Ei.
Qed.
(** Conversion of a constant: one vector of coefficients, of the function that is that constant everywhere. *)
Theorem jacobi_constants y v : (1 <= bsize y)%nat -> -1 < ba y -> -1 < bb y -> exists d, (forall l r t, series mass (bsize y) (ba y) (bb y) l r d t = v)
  /\ forall loc P q, (0 < P)%nat -> exists M, constant_subspace mass y loc P q = Some M /\ nr M = List.length (local_elements (jmodes y) loc P q)
    /\ forall i, (i < nr M)%nat -> matvec 0 Rplus Rmult M (fun _ => v) i = local_part (jmodes y) loc P q d i.
Proof.
  intros HN Ha Hb. destruct (Hm _ _ Ha Hb) as (H0 & _). pose proof (sqrt_lt_R0 _ H0) as Hs. exists (fun e => if (e =? 0)%nat then sqrt (mass (ba y) (bb y)) * v else 0). split.
  - intros l r t. unfold series. rewrite (Rtotal_single _ 0%nat) by (lia || (intros [|j] Hj Hne; [congruence|cbn [Nat.eqb]; ring])). cbn [Nat.eqb]. rewrite unit_0. field. lra.
  - intros loc P q HP. unfold constant_subspace, jmodes. set (ks := map Z.of_nat (seq 0 (bsize y))).
    assert (Hmd : modes 1 ks ks (bsize y)).
    { split; [left; split; reflexivity|]. split.
      - unfold ks. apply FinFun.Injective_map_NoDup; [intros i j Hij; lia|apply seq_NoDup].
      - unfold ks. rewrite map_length, seq_length. unfold Blocks_Model.cdiv. rewrite Nat.div_1_r. lia. }
    destruct (extension 0 1 Rplus Rmult Rminus Rdiv Ropp Rinv Rf 1 ks ks (bsize y) loc P q (constant_group mass y) (Mat 1 1 (fun _ _ => 1 / jconstant_mode_value mass y)) Hmd HN HP) as (M & HM & Hr & _ & HA).
    + unfold ks. destruct (bsize y); reflexivity.
    + reflexivity.
    + reflexivity.
    + reflexivity.
    + intros; lia.
    + exists M. split; [exact HM|]. split; [exact Hr|]. intros i Hi. rewrite Hr in Hi. rewrite (HA v i Hi). unfold local_part. cbn [local_elements]. fold (elements (bsize y) 1 loc P q).
      destruct (_ =? 0)%nat; [|reflexivity]. cbn [at_]. unfold jconstant_mode_value. field. lra.
Qed.
(** Lifting: the polynomial of the mode, counted from the end for negative numbers. *)
Theorem jacobi_lift x n (k : nat) : (k < bsize x)%nat -> (n = Z.of_nat k \/ n = Z.of_nat k - Z.of_nat (bsize x))%Z ->
  forall l r t, series mass (bsize x) (ba x) (bb x) l r (fun i => nth i (lift_polynomial x n) 0) t = unit_polynomial mass k (ba x) (bb x) (scaled l r t).
Proof.
  intros Hk Hn l r t. unfold series. assert (E : forall i, (i < bsize x)%nat -> nth i (lift_polynomial x n) 0 = if (i =? k)%nat then 1 else 0).
  { intros i Hi. unfold lift_polynomial. set (n' := if (n <? 0)%Z then _ else _). assert (En : n' = Z.of_nat k) by (unfold n'; destruct (Z.ltb_spec n 0); lia). rewrite En. clear n' En.
    set (f := fun i => _). rewrite (nth_indep _ 0 (f 0%nat)) by (rewrite map_length, seq_length; exact Hi). rewrite (map_nth f), seq_nth by exact Hi. unfold f, bounds, inside. cbn [fst snd plus]. unfold clip.
    destruct (Z.ltb_spec (Z.of_nat k) 0); [lia|]. destruct (Z.ltb_spec (Z.of_nat k + 1) 0); [lia|].
    replace (Nat.min (bsize x) (Z.to_nat (Z.of_nat k))) with k by lia. replace (Nat.max k (Nat.min (bsize x) (Z.to_nat (Z.of_nat k + 1)))) with (S k) by lia.
    rewrite Nat.add_0_l. destruct (Nat.leb_spec k i); destruct (Nat.ltb_spec i (S k)); cbn [andb]; destruct (Nat.eqb_spec i k); try reflexivity; lia. }
  rewrite (Rtotal_single _ k) by (exact Hk || (intros j Hj Hne; rewrite E by exact Hj; destruct (Nat.eqb_spec j k); [congruence|ring])). rewrite E, Nat.eqb_refl by exact Hk. ring.
Qed.
End Props.
(** Modes past the end are accepted, and lift to zero. *)
Theorem lift_past_the_end_refuted : exists x n, (1 <= bsize x)%nat /\ (Z.of_nat (bsize x) <= n)%Z /\ forall mass l r t, series mass (bsize x) (ba x) (bb x) l r (fun i => nth i (lift_polynomial x n) 0) t = 0.
Proof. exists (Jb 2 0 0 (0, 1)), 2%Z. split; [cbn; lia|]. split; [cbn; lia|]. intros mass l r t. apply Rtotal_zero. intros j Hj. replace (nth j _ 0) with 0; [ring|]. destruct j as [|[|j]]; [reflexivity|reflexivity|cbn in Hj; lia]. Qed.
(** A subproblem's matrix applies the operator along its axis, for each index of the other axes. *)
Theorem jacobi_subproblem before after M : (0 < before)%nat -> (0 < after)%nat ->
  let S := subproblem_matrix before after M in nr S = (before * nr M * after)%nat /\ nc S = (before * nc M * after)%nat
  /\ forall u p i q, (p < before)%nat -> (i < nr M)%nat -> (q < after)%nat ->
     image (nc S) (at_ S) u ((p * nr M + i) * after + q) = image (nc M) (at_ M) (fun j => u ((p * nc M + j) * after + q)%nat) i.
Proof.
  intros Hb Ha. unfold subproblem_matrix.
  assert (G : forall M', (nr M' = before * nr M)%nat -> (nc M' = before * nc M)%nat ->
    (forall u p i, (p < before)%nat -> (i < nr M)%nat -> image (nc M') (at_ M') u (p * nr M + i) = image (nc M) (at_ M) (fun j => u (p * nc M + j)%nat) i) ->
    let S := (if (1 <? after)%nat then skron Rmult M' (identity 0 1 after) else M') in nr S = (before * nr M * after)%nat /\ nc S = (before * nc M * after)%nat
    /\ forall u p i q, (p < before)%nat -> (i < nr M)%nat -> (q < after)%nat -> image (nc S) (at_ S) u ((p * nr M + i) * after + q) = image (nc M) (at_ M) (fun j => u ((p * nc M + j) * after + q)%nat) i).
  { intros M' Hr Hc H. destruct (Nat.ltb_spec 1 after) as [H1|H1]; cbv zeta.
    - cbn [skron nr nc]. cbn [identity nr nc]. split; [lia|]. split; [lia|]. intros u p i q Hp Hi Hq. rewrite <- (H (fun j => u (j * after + q)%nat) p i Hp Hi). apply (after_image after M'); [nia|exact Hq].
    - replace after with 1%nat by lia. split; [lia|]. split; [lia|]. intros u p i q Hp Hi Hq. replace q with 0%nat by lia. rewrite Nat.mul_1_r, Nat.add_0_r, H by assumption. apply image_ext. intros j _. split; [reflexivity|]. f_equal. lia. }
  apply G; destruct (Nat.ltb_spec 1 before) as [H1|H1].
  - reflexivity.
  - replace before with 1%nat by lia. lia.
  - reflexivity.
  - replace before with 1%nat by lia. lia.
  - intros u p i Hp Hi. apply (before_image before M); assumption.
  - intros u p i Hp Hi. replace p with 0%nat by lia. reflexivity.
Qed.
Print Assumptions jacobi_convert.
Print Assumptions jacobi_convert_errors.
Print Assumptions jacobi_differentiate.
Print Assumptions jacobi_interpolate.
Print Assumptions jacobi_interpolate_errors.
Print Assumptions jacobi_integrate.
Print Assumptions jacobi_average.
Print Assumptions jacobi_fundamental.
Print Assumptions jacobi_constants.
Print Assumptions jacobi_lift.
Print Assumptions lift_past_the_end_refuted.
Print Assumptions jacobi_subproblem.

(** ** Examples *)
(** The derivative of the third Legendre mode on the interval from 0 to 4, at 1. *)
Example legendre_derivative : exists M, differentiate_full (Jb 4 0 0 (0, 4)) = Some M /\
  is_derive (fun x => unit_polynomial sample_mass 3 0 0 (2 * (x - 0) / (4 - 0) - 1)) 1 (CSR_Spec.total 0 Rplus 4 (fun i => at_ M i 3 * unit_polynomial sample_mass i 1 1 (-1 / 2))).
Proof.
  destruct (jacobi_differentiate sample_mass sample_rules (Jb 4 0 0 (0, 4)) 0 4 eq_refl ltac:(lra) ltac:(cbn; lra) ltac:(cbn; lra)) as (M & E & _ & _ & H). exists M. split; [exact E|].
  specialize (H (fun j => if (j =? 3)%nat then 1 else 0) 1). cbn [derivative_basis bsize ba bb INR] in H. unfold series in H.
  apply (is_derive_ext (fun t => CSR_Spec.total 0 Rplus 4 (fun n => (if (n =? 3)%nat then 1 else 0) * unit_polynomial sample_mass n 0 0 (scaled 0 4 t)))); [intros t; rewrite (Rtotal_single 4 3) by (lia || (intros j Hj Hne; destruct (Nat.eqb_spec j 3); [congruence|ring])); cbn [Nat.eqb]; rewrite Rmult_1_l; unfold scaled; reflexivity|].
  replace (CSR_Spec.total 0 Rplus 4 (fun i => at_ M i 3 * unit_polynomial sample_mass i 1 1 (-1 / 2))) with (CSR_Spec.total 0 Rplus 4 (fun n => image 4 (at_ M) (fun j => if (j =? 3)%nat then 1 else 0) n * unit_polynomial sample_mass n (0 + 1) (0 + 1) (scaled 0 4 1))); [exact H|].
  apply Rtotal_ext. intros i Hi. rewrite !Rplus_0_l. f_equal; [|f_equal; unfold scaled; field]. unfold image. rewrite (Rtotal_single 4 3) by (lia || (intros j Hj Hne; destruct (Nat.eqb_spec j 3); [congruence|ring])). cbn [Nat.eqb]. ring.
Qed.
(** One mode, integrated from 1 to 5 with the one-point rule. *)
Example integral_example : exists M, integrate_full sample_mass 0 (fun _ => [(0, 2)]) (Jb 1 0 0 (1, 5)) = Some M /\ forall u, is_RInt (series sample_mass 1 0 0 1 5 u) 1 5 (at_ M 0 0 * u 0%nat).
Proof.
  destruct (jacobi_integrate sample_mass sample_rules 0 (fun _ => [(0, 2)]) (Jb 1 0 0 (1, 5)) 1 5 eq_refl ltac:(lra) ltac:(cbn; lra) ltac:(cbn; lra) sample_legendre one_point ltac:(lra)) as (M & E & _ & _ & H). exists M. split; [exact E|].
  intros u. destruct (H u) as (v & Hv & Hb). cbn [bsize ba bb] in *. rewrite !Rmult_0_l in Hb. unfold image in Hb. rewrite Rtotal_S in Hb. change (CSR_Spec.total 0 Rplus 0 _) with 0 in Hb. replace (at_ M 0 0 * u 0%nat) with v; [exact Hv|].
  pose proof (Rabs_pos (0 + at_ M 0 0 * u 0%nat - v)) as Hp. destruct (Req_dec (0 + at_ M 0 0 * u 0%nat - v) 0) as [E0|E0]; [lra|]. apply Rabs_pos_lt in E0. lra.
Qed.
Example lift_example : lift_polynomial (Jb 4 0 0 (0, 1)) (-1) = [0; 0; 0; 1] /\ lift_polynomial (Jb 4 0 0 (0, 1)) 1 = [0; 1; 0; 0].
Proof. split; reflexivity. Qed.
Example subproblem_example : let S := subproblem_matrix 2 3 (Mat 1 2 (fun _ j => if (j =? 0)%nat then 5 else 7)) in nr S = 6%nat /\ nc S = 12%nat /\ at_ S 4 7 = 5 /\ at_ S 4 10 = 7 /\ at_ S 4 8 = 0.
Proof. cbn. repeat split; ring. Qed.
