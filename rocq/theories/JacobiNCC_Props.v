(** Property C69: matrices of multiplication by Jacobi series. *)
From Coq Require Import List ZArith Reals Bool Lia Lra.
From Coquelicot Require Import Coquelicot.
Import ListNotations.
From Verif Require Import CSR_Spec MatSolvers_Model MatSolvers_Spec Clenshaw_Model Clenshaw_Spec Clenshaw_Props Codomain_Model Codomain_Proofs JacobiCalc_Model JacobiCalc_Spec JacobiCalc_Proofs JacobiCalc_Ops JacobiCalc_Props FourierNCC_Model FourierNCC_Props JacobiOps_Model JacobiOps_Spec JacobiOps_Proofs JacobiNCC_Model JacobiNCC_Spec JacobiNCC_Proofs.
Local Open Scope R_scope.

Section Props.
Context (mass : R -> R -> R) (Hm : mass_rules mass).
(** A function has one vector of coefficients. *)
Theorem coefficients_unique N a b l r c d : -1 < a -> -1 < b -> l <> r -> (forall t, series mass N a b l r c t = series mass N a b l r d t) -> forall i, (i < N)%nat -> c i = d i.
Proof.
  intros Ha Hb Hlr H. apply (unit_unique mass Hm N a b c d Ha Hb). intros z. specialize (H (l + (z + 1) / 2 * (r - l))). unfold series in H. replace (scaled l r (l + (z + 1) / 2 * (r - l))) with z in H by (unfold scaled; field; lra). exact H.
Qed.
(** The matrix of a component gives all retained coefficients of the product, for all operands, whenever the
    coefficient has at most as many modes as the operand. *)
Theorem jacobi_ncc ncc arg out k m K c cutoff : (1 <= bsize arg)%nat -> (K <= bsize arg)%nat ->
  -1 < ba ncc -> -1 < bb ncc -> -1 < ba arg -> -1 < bb arg -> ba out = ba arg + INR k -> bb out = bb arg + INR m ->
  exists M, component_matrix mass ncc arg out K c cutoff = Some M /\ nr M = bsize arg /\ nc M = bsize arg /\
    forall u, exists d, product_coefficients mass K (ba ncc) (bb ncc) (fun n => significant cutoff (c n)) (bsize arg) (ba arg) (bb arg) u (ba out) (bb out) d
      /\ forall i, (i < bsize arg)%nat -> image (bsize arg) (at_ M) u i = d i.
Proof.
  intros HN HK Han Hbn Ha Hb Ea Eb. destruct (component_exact mass Hm ncc arg out k m K c cutoff) as (M & E & Hr & Hc & H); try assumption.
  { destruct (padded_bounds (bsize arg) k m HN) as [HP _]. lia. }
  exists M. repeat (split; [assumption|]). apply H, HK.
Qed.
(** The matrices of single modes. *)
Theorem jacobi_product ncc arg out k m n : (1 <= bsize arg)%nat -> (n < bsize arg)%nat ->
  -1 < ba ncc -> -1 < bb ncc -> -1 < ba arg -> -1 < bb arg -> ba out = ba arg + INR k -> bb out = bb arg + INR m ->
  exists M, jproduct_matrix mass ncc arg out n = Some M /\ nr M = bsize arg /\ nc M = bsize arg /\
    forall u, exists d, (forall l r t, unit_polynomial mass n (ba ncc) (bb ncc) (scaled l r t) * series mass (bsize arg) (ba arg) (bb arg) l r u t = series mass (bsize arg + (n + 1)) (ba out) (bb out) l r d t)
      /\ forall i, (i < bsize arg)%nat -> image (bsize arg) (at_ M) u i = d i.
Proof.
  intros HN Hn Han Hbn Ha Hb Ea Eb. unfold jproduct_matrix. destruct (jacobi_ncc ncc arg out k m (n + 1) (fun j => if (j =? n)%nat then 1 else 0) 0) as (M & E & Hr & Hc & H); try (assumption || lia).
  exists M. repeat (split; [assumption|]). intros u. destruct (H u) as (d & Hd & Hi). exists d. split; [|exact Hi]. intros l r t. rewrite <- (Hd l r t). f_equal.
  unfold series. rewrite (Rtotal_single (n + 1) n) by (lia || (intros j Hj Hne; destruct (Nat.eqb_spec j n); [contradiction|]; unfold significant; destruct (Rlt_dec _ _); ring)).
  rewrite Nat.eqb_refl. unfold significant. rewrite Rabs_R1. destruct (Rlt_dec 0 1); [ring|lra].
Qed.
(** More coefficients than the padded size are an error, as are parameters that conversion does not reach. *)
Theorem jacobi_ncc_errors ncc arg out K c cutoff : component_matrix mass ncc arg out K c cutoff <> None ->
  (exists k m, ba out = ba arg + INR k /\ bb out = bb arg + INR m /\ (K <= padded_size (bsize arg) (Z.of_nat k) (Z.of_nat m))%nat).
Proof.
  unfold component_matrix. destruct (Jacobi_matrix _ _) as [J|]; [|intros H; contradiction H; reflexivity]. destruct (jacobi_matrix _ _ _) as [JA|]; [|intros H; contradiction H; reflexivity]. destruct (polynomials _ _ _ _ _ _ _) as [p|]; [|intros H; contradiction H; reflexivity].
  set (P := padded_size _ _ _). pose proof (fun H => clenshaw_jacobi_excess 0 1 Rplus Rmult Rminus Rdiv Ropp Rabs P (at_ JA) J (mscale Rmult (nth 0 p 0) (identity 0 1 P)) K c cutoff H) as X.
  destruct (jacobi_recursion _ _ _ _ _ _ _ _ _) as [A B]. destruct (conversion_matrix _ _ _ _ _) as [C|] eqn:E.
  - destruct (conversion_errors P (ba arg) (bb arg) (ba out) (bb out)) as (k & m & Ea & Eb); [rewrite E; discriminate|]. intros H. exists k, m. split; [exact Ea|]. split; [exact Eb|].
    destruct (le_lt_dec K (padded_size (bsize arg) (Z.of_nat k) (Z.of_nat m))) as [HK|HK]; [exact HK|]. exfalso. apply H. rewrite X; [reflexivity|]. unfold P. rewrite Ea, Eb.
    replace (ba arg + INR k - ba arg) with (INR k) by ring. replace (bb arg + INR m - bb arg) with (INR m) by ring. rewrite !round_nat. exact HK.
  - destruct (matrix_clenshaw _ _ _ _ _ _ _ _ _ _ _); intros H; contradiction H; reflexivity.
Qed.
(** A constant operand: the product with the constant [v]. *)
Theorem jacobi_constant_operand ncc coeffs cutoff : (1 <= length coeffs <= bsize ncc)%nat ->
  exists M, constant_component ncc coeffs cutoff = Some M /\ nr M = bsize ncc /\ nc M = 1%nat /\
    forall v l r t, series mass (bsize ncc) (ba ncc) (bb ncc) l r (image 1 (at_ M) (fun _ => v)) t
      = series mass (length coeffs) (ba ncc) (bb ncc) l r (fun n => significant cutoff (nth n coeffs 0)) t * v.
Proof.
  intros HN. unfold constant_component, ncc_matrix. set (big := fun c => Clenshaw_Model.above (Rabs c) cutoff). set (pm := constant_product ncc).
  assert (Hpm : forall j, (j < bsize ncc)%nat -> exists M, pm j = Some M /\ nr M = bsize ncc /\ nc M = 1%nat /\ forall i, at_ M i 0 = if (i =? j)%nat then 1 else 0).
  { intros j Hj. unfold pm, constant_product. destruct (Nat.ltb_spec j (bsize ncc)); [|lia]. eexists. repeat split. }
  destruct (Hpm 0%nat ltac:(lia)) as (M0 & E0 & R0 & C0 & _). destruct coeffs as [|c0 cs]; [cbn in HN; lia|]. rewrite E0. set (coeffs := c0 :: cs) in *.
  destruct (ncc_sum_value 0 1 Rplus Rmult Rminus Rdiv Ropp Rinv Rf pm big (bsize ncc) 1 coeffs 0 (Mat (nr M0) (nc M0) (fun _ _ => 0)) R0 C0) as (T & HT & TR & TC & HA).
  { intros j Hj. destruct (Hpm j ltac:(lia)) as (M & E & _). exists M. exact E. }
  exists T. split; [exact HT|]. split; [exact TR|]. split; [exact TC|].
  assert (HT' : forall i, (i < bsize ncc)%nat -> at_ T i 0 = if (i <? length coeffs)%nat then significant cutoff (nth i coeffs 0) else 0).
  { intros i Hi. rewrite HA. cbn [at_]. rewrite Rplus_0_l. transitivity (total (length coeffs) (fun j => if (i =? j)%nat then significant cutoff (nth j coeffs 0) else 0)).
    - apply Rtotal_ext. intros j Hj. rewrite Nat.add_0_l. destruct (Hpm j ltac:(lia)) as (M & E & _ & _ & HM). rewrite E, HM. unfold big, Clenshaw_Model.above, significant. destruct (Rlt_dec _ _), (i =? j)%nat; ring.
    - destruct (Nat.ltb_spec i (length coeffs)) as [H|H].
      + rewrite (Rtotal_single _ i) by (exact H || (intros j _ Hne; destruct (Nat.eqb_spec i j); [congruence|reflexivity])). rewrite Nat.eqb_refl. reflexivity.
      + apply Rtotal_zero. intros j Hj. destruct (Nat.eqb_spec i j); [lia|reflexivity]. }
  intros v l r t. unfold series. rewrite (Rtotal_more (length coeffs) (bsize ncc)).
  - rewrite <- Rtotal_scale_r. apply Rtotal_ext. intros i Hi. unfold image. rewrite (Rtotal_S 0); change (total 0 (fun j => at_ T i j * v)) with 0. rewrite HT' by lia. destruct (Nat.ltb_spec i (length coeffs)); [ring|lia].
  - lia.
  - intros i Hi. unfold image. rewrite (Rtotal_S 0); change (total 0 (fun j => at_ T i j * v)) with 0. rewrite HT' by lia. destruct (Nat.ltb_spec i (length coeffs)); [lia|ring].
Qed.
(** The block of a component in a problem with [s] coefficients of other directions: the component acts on the part of
    each of them. *)
Theorem component_block s (M : mat R) : (1 <= nr M)%nat -> (1 <= nc M)%nat -> (1 <= s)%nat ->
  exists B, block_of (s * nr M) (s * nc M) M = Some B /\ nr B = (s * nr M)%nat /\ nc B = (s * nc M)%nat /\
    forall u p i, (p < s)%nat -> (i < nr M)%nat -> image (s * nc M) (at_ B) u (p * nr M + i) = image (nc M) (at_ M) (fun j => u (p * nc M + j)%nat) i.
Proof.
  intros Hr Hc Hs. unfold block_of. rewrite !Nat.div_mul by lia.
  destruct (Nat.eqb_spec (nr M) (s * nr M)) as [E1|E1].
  - assert (s = 1)%nat by nia. subst s. rewrite !Nat.mul_1_l. rewrite ?Nat.eqb_refl. cbn [andb]. rewrite ?Nat.eqb_refl. cbn [andb]. exists M. repeat (split; [reflexivity|]). intros u p i Hp Hi. assert (p = 0)%nat by lia. subst p. reflexivity.
  - cbn [andb skron eye nr nc]. rewrite !Nat.eqb_refl. cbn [andb]. eexists. split; [reflexivity|]. cbn [nr nc]. repeat (split; [reflexivity|]). intros u p i Hp Hi.
    rewrite <- (before_image s M u p i Hp Hi). reflexivity.
Qed.
(** Other shapes are errors. *)
Theorem component_block_errors M N (X : mat R) : block_of M N X <> None -> exists s s', M = (s * nr X)%nat /\ N = (s' * nc X)%nat.
Proof.
  unfold block_of. destruct (Nat.eqb_spec (nr X) M) as [E1|E1], (Nat.eqb_spec (nc X) N) as [E2|E2]; cbn [andb]; try (intros _; exists 1%nat, 1%nat; split; lia).
  all: cbn [skron eye nr nc]; intros H; exists (M / nr X)%nat, (N / nc X)%nat; destruct (Nat.eqb_spec (M / nr X * nr X) M), (Nat.eqb_spec (N / nc X * nc X) N); cbn [andb] in H; (split; congruence) || (contradiction H; reflexivity).
Qed.
(** A coefficient with a larger basis than the operand: the product basis has the larger size, and the block for twice the
    size has a second half of zeros.  The product of the last mode of the coefficient and a constant is lost. *)
Theorem jacobi_ncc_larger_refuted a b bounds : -1 < a -> -1 < b ->
  let ncc := Jb 6 a b bounds in let arg := Jb 3 a b bounds in let last := fun n => if (n =? 5)%nat then 1 else 0 in let first := fun n => if (n =? 0)%nat then 1 else 0 in
  exists M B, component_matrix mass ncc arg ncc 6 last 0 = Some M /\ block_of 6 3 M = Some B /\ image 3 (at_ B) first 5 = 0 /\
    forall d, product_coefficients mass 6 a b last 3 a b first a b d -> d 5%nat <> 0.
Proof.
  intros Ha Hb ncc arg last first. destruct (component_exact mass Hm ncc arg ncc 0 0 6 last 0) as (M & E & Hr & Hc & _); try (unfold ncc, arg; cbn [ba bb bsize INR]; assumption || lra || lia).
  { replace (padded_size _ _ _) with 6%nat by reflexivity. lia. }
  exists M. unfold block_of. rewrite Hr, Hc. cbn [bsize arg Nat.eqb andb Nat.div skron eye nr nc]. eexists. split; [exact E|]. cbn [bsize arg Nat.eqb andb]. rewrite Hr, Hc. split; [reflexivity|]. split.
  - unfold image. apply Rtotal_zero. intros j Hj. cbn [skron eye at_]. rewrite Hr, Hc. destruct j as [|[|[|j]]]; [cbn; ring..|lia].
  - intros d Hd. pose proof (Hm a b Ha Hb) as (H0 & _). pose proof (sqrt_lt_R0 _ H0) as Hq. assert (Ed : d 5%nat = 1 / sqrt (mass a b)).
    { transitivity (if (5 =? 5)%nat then 1 / sqrt (mass a b) else 0); [|reflexivity]. apply (coefficients_unique 9 a b (-1) 1 d (fun n => if (n =? 5)%nat then 1 / sqrt (mass a b) else 0) Ha Hb ltac:(lra)); [|lia]. intros t. change 9%nat with (3 + 6)%nat. rewrite <- (Hd (-1) 1 t). change (3 + 6)%nat with 9%nat. unfold series.
      rewrite (Rtotal_single 6 5), (Rtotal_single 3 0), (Rtotal_single 9 5); try lia; try (intros j _ Hne; unfold last, first; destruct (Nat.eqb_spec j 5), (Nat.eqb_spec j 0); try lia; ring).
      cbn [last first Nat.eqb]. rewrite (unit_0 mass). ring. }
    rewrite Ed. assert (0 < 1 / sqrt (mass a b)) by (apply Rdiv_lt_0_compat; lra). lra.
Qed.
End Props.
Print Assumptions coefficients_unique.
Print Assumptions jacobi_ncc.
Print Assumptions jacobi_product.
Print Assumptions jacobi_ncc_errors.
Print Assumptions jacobi_constant_operand.
Print Assumptions component_block.
Print Assumptions component_block_errors.
Print Assumptions jacobi_ncc_larger_refuted.

(** ** Examples *)
(** A coefficient with four Chebyshev modes and an operand with four Legendre modes, for an equation in a basis one
    derivative up. *)
Example ncc_example c : exists M, component_matrix sample_mass (Jb 4 (-1 / 2) (-1 / 2) (0, 1)) (Jb 4 0 0 (0, 1)) (Jb 4 1 1 (0, 1)) 4 c 0 = Some M /\
  forall u, exists d, (forall t, series sample_mass 4 (-1 / 2) (-1 / 2) 0 1 c t * series sample_mass 4 0 0 0 1 u t = series sample_mass 8 1 1 0 1 d t) /\ forall i, (i < 4)%nat -> image 4 (at_ M) u i = d i.
Proof.
  destruct (jacobi_ncc sample_mass sample_rules (Jb 4 (-1 / 2) (-1 / 2) (0, 1)) (Jb 4 0 0 (0, 1)) (Jb 4 1 1 (0, 1)) 1 1 4 c 0) as (M & E & _ & _ & H); try (cbn; lia || lra).
  exists M. split; [exact E|]. intros u. destruct (H u) as (d & Hd & Hi). exists d. split; [|exact Hi]. intros t. refine (eq_trans _ (Hd 0 1 t)). f_equal. apply Rtotal_ext. intros n _. f_equal. unfold significant. destruct (Rlt_dec _ _) as [|Hn]; [reflexivity|]. symmetry.
  apply Rnot_lt_le in Hn. destruct (Req_dec (c n) 0) as [Hz|Hz]; [rewrite Hz; reflexivity|]. pose proof (Rabs_pos_lt _ Hz). lra.
Qed.
Example padded_examples : padded_size 4 0 0 = 6%nat /\ padded_size 4 1 1 = 7%nat /\ padded_size 5 2 2 = 11%nat.
Proof. repeat split. Qed.
Example block_example : exists B, block_of 6 6 (Mat 3 3 (fun i j => INR (3 * i + j))) = Some B /\ at_ B 1 2 = 5 /\ at_ B 4 5 = 5 /\ at_ B 4 2 = 0.
Proof. eexists. split; [reflexivity|]. cbn. repeat split; ring. Qed.
