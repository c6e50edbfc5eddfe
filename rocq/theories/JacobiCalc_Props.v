(** Property C50: operators on Jacobi polynomials. *)
From Coq Require Import List ZArith Reals Bool Lia Lra Factorial.
From Coquelicot Require Import Coquelicot.
Import ListNotations.
From Verif Require Import MatSolvers_Model CSR_Spec MatSolvers_Spec MatSolvers_Proofs Codomain_Model Codomain_Spec Codomain_Proofs Codomain_Props JacobiCalc_Model JacobiCalc_Spec JacobiCalc_Proofs JacobiCalc_Ops.
Local Open Scope R_scope.

Section Props.
Context (mass : R -> R -> R) (Hm : mass_rules mass).
(** The ladder operators, on classical and on unit polynomials: A(+1) and B(+1) express the same function with the
    parameter raised, A(-1) and B(-1) multiply by [1-z] and [1+z], and lower it; C(+1), C(-1), D(+1) and D(-1) are
    first-order differential operators. *)
Theorem jacobi_A normalised n a b : (1 <= n)%nat -> -1 < a -> -1 < b ->
  represents_at (family mass normalised) (A_op normalised 1) (multiplied (fun _ => 1)) (Z.of_nat n, a, b)
  /\ (0 < a -> represents_at (family mass normalised) (A_op normalised (-1)) (multiplied (fun z => 1 - z)) (Z.of_nat n, a, b)).
Proof. intros Hn Ha Hb. split; [apply A_up_represents; assumption|]. intros Ha'. apply A_down_represents; assumption. Qed.
Theorem jacobi_B normalised n a b : (1 <= n)%nat -> -1 < a -> -1 < b ->
  represents_at (family mass true) (B_op normalised 1) (multiplied (fun _ => 1)) (Z.of_nat n, a, b)
  /\ (0 < b -> represents_at (family mass true) (B_op normalised (-1)) (multiplied (fun z => 1 + z)) (Z.of_nat n, a, b)).
Proof. intros Hn Ha Hb. split; [apply B_up_represents; assumption|]. intros Hb'. apply B_down_represents; assumption. Qed.
Theorem jacobi_C normalised n a b : -1 < a -> -1 < b ->
  (0 < b -> represents_at (family mass normalised) (C_op normalised 1) (differential (fun _ _ => b) (fun _ z => 1 + z)) (Z.of_nat n, a, b))
  /\ (0 < a -> represents_at (family mass normalised) (C_op normalised (-1)) (differential (fun _ _ => a) (fun _ z => - (1 - z))) (Z.of_nat n, a, b)).
Proof. intros Ha Hb. split; intros H; [apply C_up_represents|apply C_down_represents]; assumption. Qed.
Theorem jacobi_D normalised n a b : -1 < a -> -1 < b ->
  represents_at (family mass normalised) (D_op normalised 1) (differential (fun _ _ => 0) (fun _ _ => 1)) (Z.of_nat n, a, b)
  /\ (0 < a -> 0 < b -> represents_at (family mass normalised) (D_op normalised (-1))
        (differential (fun _ z => a * (1 + z) - b * (1 - z)) (fun _ z => - (1 - z ^ 2))) (Z.of_nat n, a, b)).
Proof. intros Ha Hb. split; [apply D_up_represents; assumption|]. intros Ha' Hb'. apply D_down_represents; assumption. Qed.
Theorem jacobi_parity normalised n a b : (normalised = true -> mass a b = mass b a) -> -1 < a -> -1 < b ->
  represents_at (family mass normalised) Pi_op (fun _ g h => forall z, h z = g (- z)) (Z.of_nat n, a, b).
Proof. apply Pi_represents. Qed.
(** The matrices of A(-1) and B(-1), from the raised space, are the adjoints of those of A(+1) and B(+1). *)
Theorem jacobi_adjoint n a b : (1 <= n)%nat -> -1 < a -> -1 < b ->
  (exists U V, fn (A_op true 1) (Z.of_nat n, a, b) = Some U /\ fn (A_op true (-1)) (Z.of_nat n, a + 1, b) = Some V /\ forall i j, (i < n)%nat -> (j < n)%nat -> at_ V i j = at_ U j i)
  /\ (exists U V, fn (B_op true 1) (Z.of_nat n, a, b) = Some U /\ fn (B_op true (-1)) (Z.of_nat n, a, b + 1) = Some V /\ forall i j, (i < n)%nat -> (j < n)%nat -> at_ V i j = at_ U j i).
Proof.
  intros Hn Ha Hb.
  assert (G : forall d a b i j, -1 < a -> -1 < b -> band 0 (A_band0 true (-1) (a + 1) b) i j + band (-1) (fun k => d * A_band1 true (-1) (a + 1) b k) i j = band 0 (A_band0 true 1 a b) j i + band 1 (fun k => d * A_band1 true 1 a b k) j i).
  { intros d a' b' i j Ha' Hb'. unfold band. destruct (Z.eqb_spec (Z.of_nat i) (Z.of_nat j - 0)); destruct (Z.eqb_spec (Z.of_nat i) (Z.of_nat j - -1)); destruct (Z.eqb_spec (Z.of_nat j) (Z.of_nat i - 0)); destruct (Z.eqb_spec (Z.of_nat j) (Z.of_nat i - 1)); try lia; try ring.
    - replace i with j by lia. rewrite (A_adjoint_0 mass Hm a' b' j Ha' Hb'). reflexivity.
    - replace i with (S j) by lia. rewrite (A_adjoint_1 mass Hm a' b' j Ha' Hb'). reflexivity. }
  split.
  - cbn [A_op fn]. rewrite !A_fn_some by exact Hn. eexists. eexists. split; [reflexivity|]. split; [reflexivity|]. intros i j Hi Hj. cbn [at_].
    pose proof (G 1 a b i j Ha Hb) as E. unfold band in *. rewrite !Rmult_1_l in E. exact E.
  - destruct (B_matrix true 1 n a b ltac:(lia) Hn Ha Hb ltac:(lra)) as (U & EU & Hr & Hc & HU). destruct (B_matrix true (-1) n a (b + 1) ltac:(lia) Hn Ha ltac:(lra) ltac:(lra)) as (V & EV & Hr' & Hc' & HV).
    exists U, V. split; [exact EU|]. split; [exact EV|]. change ((1 - 1) / 2)%Z with 0%Z in *. change ((1 - -1) / 2)%Z with 1%Z in *. rewrite Z.add_0_r in *. replace (Z.of_nat n + 1)%Z with (Z.of_nat (S n)) in * by lia. rewrite !rows_nat in *.
    intros i j Hi Hj. rewrite HU, HV by lia. pose proof (G (-1) b a i j Hb Ha) as E. unfold band in *. replace (- A_band1 true (-1) (b + 1) a j) with (-1 * A_band1 true (-1) (b + 1) a j) by ring. replace (- A_band1 true 1 b a i) with (-1 * A_band1 true 1 b a i) by ring. exact E.
Qed.
(** The Jacobi matrix multiplies by [z]. *)
Theorem jacobi_Z n a b : (1 <= n)%nat -> -1 < a -> -1 < b ->
  exists Zo, Z_op true = Some Zo /\ represents_at (family mass true) Zo (multiplied (fun z => z)) (Z.of_nat n, a, b).
Proof. apply Z_represents, Hm. Qed.
Theorem jacobi_matrix_value N a b : (1 <= N)%nat -> -1 < a -> -1 < b -> exists J, jacobi_matrix N a b = Some J /\ nr J = N /\ nc J = N
  /\ (forall i j, (i < N)%nat -> (j < N)%nat -> at_ J i j = at_ J j i)
  /\ (forall j z, (S j < N)%nat -> z * unit_polynomial mass j a b z = CSR_Spec.total 0 Rplus N (fun i => at_ J i j * unit_polynomial mass i a b z))
  /\ exists c, 0 < c /\ forall z, z * unit_polynomial mass (N - 1) a b z = CSR_Spec.total 0 Rplus N (fun i => at_ J i (N - 1) * unit_polynomial mass i a b z) + c * unit_polynomial mass N a b z.
Proof.
  intros Hn Ha Hb. destruct (Z_matrix true N a b Hn Ha Hb) as (Zo & M & E1 & E2 & Hr & Hc & HM). exists (square M). unfold jacobi_matrix. rewrite E1, E2. split; [reflexivity|]. cbn [square nr nc]. rewrite Hc. split; [reflexivity|]. split; [reflexivity|].
  assert (HJ : forall i j, (i < N)%nat -> (j < N)%nat -> at_ (square M) i j = Z_entry true a b i j) by (intros i j Hi Hj; cbn [square at_]; unfold padded; rewrite Hr; destruct (Nat.ltb_spec i (S N)); [apply HM; lia|lia]).
  split; [|split].
  - intros i j Hi Hj. rewrite !HJ by assumption. destruct (Nat.eq_dec i j) as [->|Hne]; [reflexivity|]. destruct (Nat.eq_dec i (S j)) as [->|]; [apply (Z_entry_sym mass Hm); assumption|]. destruct (Nat.eq_dec j (S i)) as [->|]; [symmetry; apply (Z_entry_sym mass Hm); assumption|].
    rewrite !Z_entry_far by lia. reflexivity.
  - intros j z Hj. rewrite (total_three N j) by (lia || (intros i Hi H1 H2 H3; rewrite HJ by lia; rewrite Z_entry_far by lia; ring)). rewrite (unit_recursion mass Hm a b z j Ha Hb), !HJ by lia. f_equal. f_equal. destruct j as [|l]; [reflexivity|]. rewrite HJ by lia. reflexivity.
  - exists (Z_entry true a b N (N - 1)). destruct N as [|k]; [lia|]. replace (S k - 1)%nat with k by lia. split; [apply (Z_entry_pos mass Hm); assumption|]. intros z. rewrite (unit_recursion mass Hm a b z k Ha Hb). f_equal.
    rewrite Rtotal_S, HJ by lia. f_equal. destruct k as [|l]; [reflexivity|]. rewrite Rtotal_S, HJ by lia. rewrite (Rtotal_zero l); [ring|]. intros i Hi. rewrite HJ by lia. rewrite Z_entry_far by lia. ring.
Qed.
(** Evaluation by the recursion. *)
Theorem polynomials_value n a b z : -1 < a -> -1 < b -> polynomials mass true None n a b z = Some (map (fun k => unit_polynomial mass k a b z) (seq 0 n)).
Proof.
  intros Ha Hb. pose proof (polynomials_scaled mass Hm n a b z 1 Ha Hb) as E. destruct n as [|n]; [reflexivity|].
  rewrite (map_ext _ (fun k => unit_polynomial mass k a b z)) in E by (intros; ring). rewrite <- E. reflexivity.
Qed.
Theorem polynomials_init n a b z v : -1 < a -> -1 < b ->
  exists l, polynomials mass true (Some v) n a b z = Some l /\ length l = n /\ forall k, (k < n)%nat -> nth k l 0 * unit_polynomial mass 0 a b z = v * unit_polynomial mass k a b z.
Proof.
  intros Ha Hb. destruct (Hm a b Ha Hb) as (H0 & _). pose proof (sqrt_lt_R0 _ H0) as H1. pose proof (polynomials_scaled mass Hm n a b z (v * sqrt (mass a b)) Ha Hb) as E.
  replace (v * sqrt (mass a b) / sqrt (mass a b)) with v in E by (field; lra). eexists. split; [exact E|]. split; [rewrite map_length, seq_length; reflexivity|]. intros k Hk.
  rewrite (nth_indep _ 0 ((fun k => v * sqrt (mass a b) * unit_polynomial mass k a b z) 0%nat)) by (rewrite map_length, seq_length; exact Hk). rewrite (map_nth (fun k => v * sqrt (mass a b) * unit_polynomial mass k a b z)), seq_nth by exact Hk. rewrite unit_0. rewrite Nat.add_0_l. field. lra.
Qed.
(** Conversions keep functions; they exist from parameters to the same ones plus natural numbers. *)
Theorem conversion_value N a b k l : (1 <= N)%nat -> -1 < a -> -1 < b -> exists M, conversion_matrix N a b (a + INR k) (b + INR l) = Some M /\ nr M = N /\ nc M = N
  /\ forall j z, (j < N)%nat -> unit_polynomial mass j a b z = CSR_Spec.total 0 Rplus N (fun i => at_ M i j * unit_polynomial mass i (a + INR k) (b + INR l) z).
Proof.
  intros Hn Ha Hb. destruct (conversion_represents mass Hm k l N a b Hn Ha Hb) as [(y & M & Ey & EM & Hr & Hc & H) Es]. apply jcall_some in Ey. destruct Ey as [-> _]. rewrite Es in *. rewrite size_nat in *. exists M.
  unfold conversion_matrix. replace (a + INR k - a) with (INR k) by ring. replace (b + INR l - b) with (INR l) by ring. assert (Ei : forall m, integer (INR m) = true) by (intros m; unfold integer; rewrite Int_part_INR, <- INR_IZR_INZ; destruct (Req_EM_T (INR m) (INR m)); [reflexivity|lra]).
  rewrite !Ei. cbn [negb]. pose proof (pos_INR k). pose proof (pos_INR l). destruct (Rlt_dec (a + INR k) a); [lra|]. destruct (Rlt_dec (b + INR l) b); [lra|]. rewrite !Int_part_INR, !Nat2Z.id. split; [exact EM|]. split; [exact Hr|]. split; [exact Hc|].
  intros j z Hj. specialize (H j Hj z). unfold combination in H. rewrite Rmult_1_l, size_nat in H. symmetry. exact H.
Qed.
Theorem conversion_errors N a0 b0 a1 b1 : conversion_matrix N a0 b0 a1 b1 <> None -> exists k l, a1 = a0 + INR k /\ b1 = b0 + INR l.
Proof.
  unfold conversion_matrix, integer. destruct (Req_EM_T (a1 - a0) (IZR (Int_part (a1 - a0)))) as [E1|]; [|intros H; contradiction H; reflexivity]. destruct (Req_EM_T (b1 - b0) (IZR (Int_part (b1 - b0)))) as [E2|]; [|intros H; contradiction H; reflexivity].
  cbn [negb]. destruct (Rlt_dec a1 a0); [intros H; contradiction H; reflexivity|]. destruct (Rlt_dec b1 b0); [intros H; contradiction H; reflexivity|]. intros _.
  exists (Z.to_nat (Int_part (a1 - a0))), (Z.to_nat (Int_part (b1 - b0))). rewrite !INR_IZR_INZ, !Z2Nat.id by (apply le_IZR; lra). lra.
Qed.
(** Differentiation. *)
Theorem differentiation_value N a b : -1 < a -> -1 < b -> exists M, differentiation_matrix N a b = Some M /\ nr M = N /\ nc M = N
  /\ forall j z, (j < N)%nat -> is_derive (unit_polynomial mass j a b) z (CSR_Spec.total 0 Rplus N (fun i => at_ M i j * unit_polynomial mass i (a + 1) (b + 1) z)).
Proof.
  intros Ha Hb. destruct (D_up_represents mass Hm true N a b Ha Hb) as (y & M & Ey & EM & Hr & Hc & H). apply jcall_some in Ey. destruct Ey as [Ey _]. exists (square M). unfold differentiation_matrix. rewrite EM. split; [reflexivity|]. cbn [square nr nc]. rewrite size_nat in *. split; [exact Hc|]. split; [exact Hc|].
  intros j z Hj. destruct (H j Hj z) as (d & Hd & E). assert (Es : size y = (N - 1)%nat) by (rewrite Ey; unfold size, shift; cbn [D_op cod flip dn fst]; lia).
  assert (Ed : CSR_Spec.total 0 Rplus N (fun i => at_ (square M) i j * unit_polynomial mass i (a + 1) (b + 1) z) = d); [|rewrite Ed; exact Hd].
  replace d with (0 * family mass true (Z.of_nat N, a, b) j z + 1 * d) by ring. rewrite <- E. unfold combination. rewrite Es. rewrite Es in Hr. cbn [square at_]. rewrite (Rtotal_more (N - 1) N) by (lia || (intros i Hi; unfold padded; rewrite Hr; destruct (Nat.ltb_spec i (N - 1)); [lia|ring])).
  apply Rtotal_ext. intros i Hi. unfold padded. rewrite Hr. destruct (Nat.ltb_spec i (N - 1)); [|lia]. f_equal. rewrite Ey. unfold shift. cbn [D_op cod flip dn da db family unit_family]. f_equal; lra.
Qed.
(** Integrals over the interval, except for those below the cutoff. *)
Theorem integration_value cutoff leg N a b : -1 < a -> -1 < b -> mass 0 0 = 2 -> exact_quadrature N (leg N) ->
  exists l, integration_vector mass cutoff leg N a b = Some l /\ length l = N /\ forall j, (j < N)%nat ->
    (Rabs (RInt (unit_polynomial mass j a b) (-1) 1) > cutoff -> nth j l 0 = RInt (unit_polynomial mass j a b) (-1) 1)
    /\ (Rabs (RInt (unit_polynomial mass j a b) (-1) 1) <= cutoff -> nth j l 0 = 0).
Proof.
  intros Ha Hb H2 Hq. unfold integration_vector. set (g := fun zw : R * R => polynomials mass true None N a b (fst zw)).
  assert (Eg : forall zw, g zw = Some (map (fun k => unit_polynomial mass k a b (fst zw)) (seq 0 N))) by (intros zw; apply polynomials_value; assumption).
  replace (forallb _ (map g (leg N))) with true by (symmetry; apply forallb_forall; intros o Ho; apply in_map_iff in Ho; destruct Ho as (zw & <- & _); rewrite Eg; reflexivity).
  eexists. split; [reflexivity|]. split; [rewrite map_length, seq_length; reflexivity|]. intros j Hj. set (F := fun j : nat => _). change (map F (seq 0 N)) with (map F (seq 0 N)).
  rewrite (nth_indep _ 0 (F 0%nat)) by (rewrite map_length, seq_length; exact Hj). rewrite (map_nth F), seq_nth by exact Hj. rewrite Nat.add_0_l. unfold F. clear F.
  assert (E : fold_right Rplus 0 (map (fun p => snd (fst p) * match snd p with Some l => nth j l 0 | None => 0 end) (combine (leg N) (map g (leg N)))) = RInt (unit_polynomial mass j a b) (-1) 1).
  { rewrite <- Hq by (apply (polynomial_more (S j)); [lia|apply polynomial_unit]). unfold weighted_sum. f_equal. clear Hq. induction (leg N) as [|zw q IH]; [reflexivity|]. cbn [map combine]. f_equal; [|exact IH]. cbn [fst snd]. rewrite Eg. f_equal.
    rewrite (nth_indep _ 0 ((fun k => unit_polynomial mass k a b (fst zw)) 0%nat)) by (rewrite map_length, seq_length; exact Hj). rewrite (map_nth (fun k => unit_polynomial mass k a b (fst zw))), seq_nth by exact Hj. reflexivity. }
  rewrite E, H2. replace (2 / 2) with 1 by field. rewrite Rmult_1_r.
  destruct (Rle_dec _ cutoff) as [Hc|Hc]; split; intros H; try reflexivity; lra.
Qed.
End Props.
(** Asked for classical polynomials, B still returns the matrix for unit polynomials. *)
Theorem jacobi_B_classical_refuted : ~ represents_at classical_family (B_op false 1) (multiplied (fun _ => 1)) (2%Z, 0, 0).
Proof.
  pose (mass := sample_mass). pose proof (sample_rules : mass_rules mass) as Hm.
  intros (y & M & Ey & EM & Hr & Hc & H). destruct (B_matrix false 1 2 0 0 ltac:(lia) ltac:(lia) ltac:(lra) ltac:(lra) ltac:(lra)) as (M' & EM' & Hr' & Hc' & HM).
  cbn [B_op fn] in EM. change (2%Z) with (Z.of_nat 2) in EM. rewrite EM' in EM. injection EM as ->. change ((1 - 1) / 2)%Z with 0%Z in Hr'. rewrite Z.add_0_r, rows_nat in *.
  apply jcall_some in Ey. destruct Ey as [Ey _]. assert (Ef : forall i z, classical_family y i z = classical i 0 1 z) by (intros i z; rewrite Ey; unfold shift; cbn [B_op cod flip dn da db classical_family]; replace (0 + 0) with 0 by ring; replace (1 + 0) with 1 by ring; reflexivity).
  assert (Hs : size y = 2%nat) by (rewrite <- Hr; exact Hr'). rewrite Hs in H. specialize (H 1%nat ltac:(unfold size; cbn; lia)). unfold combination, multiplied in H.
  assert (K : forall z, at_ M 0 1 + A_band0 true 1 0 0 1 * classical 1 0 1 z = classical 1 0 0 z).
  { intros z. specialize (H z). rewrite !Rtotal_S, !Ef, poly_0, (HM 1%nat 1%nat) in H by lia. rewrite (band_hit 0 _ 1 1) in H by lia. rewrite (band_miss 1 (fun j => - A_band1 true 1 0 0 j) 1 1) in H by lia. cbn [classical_family] in H.
    change (CSR_Spec.total 0 Rplus 0 (fun i : nat => at_ M i 1 * classical_family y i z)) with 0 in H. rewrite <- (Rmult_1_l (classical 1 0 0 z)), <- H. ring. }
  pose proof (K 1) as H1. pose proof (K (-1)) as H2.
  assert (E1 : classical 1 0 1 1 - classical 1 0 1 (-1) = 3) by (unfold classical; rewrite !Rtotal_S; cbn; field).
  assert (E2 : classical 1 0 0 1 - classical 1 0 0 (-1) = 2) by (unfold classical; rewrite !Rtotal_S; cbn; field).
  rewrite (B_up_S mass Hm true 0 0 0) in H1, H2 by lra. cbn [nf] in H1, H2. pose proof (norm2_pos mass Hm 1 0 0 ltac:(lra) ltac:(lra)) as Hp. pose proof (norm2_pos mass Hm 1 0 1 ltac:(lra) ltac:(lra)) as Hq.
  replace (0 + 1) with 1 in H1, H2 by lra. rewrite <- sqrt_div in H1, H2 by lra.
  assert (Er : norm2 mass 1 0 1 / norm2 mass 1 0 0 = 3 / 2).
  { pose proof (norm2_b mass Hm 1 0 0 ltac:(lra) ltac:(lra)) as E. replace (0 + 1) with 1 in E by lra. rewrite E. unfold ab_step, tricky. change (Z.of_nat 1) with 1%Z. destruct (Req_EM_T (0 + 0) (-1)); [lra|]. field. lra. }
  rewrite Er in H1, H2. set (r := sqrt (3 / 2)) in *. assert (Hr1 : r * r = 3 / 2) by (apply sqrt_sqrt; lra). cbn [INR] in H1, H2.
  assert (r = 1).
  { assert (E3 : 2 / 3 * r * (classical 1 0 1 1 - classical 1 0 1 (-1)) = classical 1 0 0 1 - classical 1 0 0 (-1)) by (rewrite <- H1, <- H2; field). rewrite E1, E2 in E3. lra. }
  nra.
Qed.
(** Classical polynomials are not evaluated: their Jacobi matrix is built from B. *)
Theorem polynomials_classical_refuted : exists a b z l, polynomials sample_mass false None 2 a b z = Some l /\ nth 1 l 0 <> classical 1 a b z.
Proof.
  exists 0, 0, 1. destruct (Z_matrix false 3 0 0 ltac:(lia) ltac:(lra) ltac:(lra)) as (Zo & M & E1 & E2 & Hr & Hc & HM). eexists. split; [cbn [polynomials]; rewrite E1; change (Z.of_nat 2 + 1)%Z with (Z.of_nat 3); rewrite E2; reflexivity|].
  pose proof sample_rules as Hm. pose proof (norm2_pos _ Hm 1 0 0 ltac:(lra) ltac:(lra)) as P1. pose proof (norm2_pos _ Hm 0 0 0 ltac:(lra) ltac:(lra)) as P2. pose proof (norm2_pos _ Hm 0 1 0 ltac:(lra) ltac:(lra)) as P3.
  assert (D0 : forall s, A_band0 s 1 0 0 0 = nf sample_mass s 0 1 0 / nf sample_mass s 0 0 0) by (intros s; rewrite (A_up_0 _ Hm) by lra; rewrite Rplus_0_l; reflexivity).
  assert (L0 : forall s, A_band0 s (-1) 1 0 0 = nf sample_mass s 0 0 0 / nf sample_mass s 0 1 0) by (intros s; rewrite (A_down_0 _ Hm) by lra; replace (1 - 1) with 0 by ring; cbn [INR]; pose proof (nf_pos _ Hm s 0 1 0 ltac:(lra) ltac:(lra)); field; lra).
  assert (L1 : forall s, A_band1 s (-1) 1 0 0 = - (nf sample_mass s 1 0 0 / nf sample_mass s 0 1 0)) by (intros s; rewrite (A_down_off _ Hm) by lra; replace (1 - 1) with 0 by ring; cbn [INR]; pose proof (nf_pos _ Hm s 0 1 0 ltac:(lra) ltac:(lra)); field; lra).
  assert (N0 : forall s n a, -1 < a -> 0 < nf sample_mass s n a 0) by (intros; apply nf_pos; [exact Hm|lra|lra]).
  assert (Z00 : at_ M 0 0 = 0).
  { rewrite HM by lia. unfold Z_entry, prod_entry. unfold band. change (Z.of_nat 0 =? Z.of_nat 0 - 0)%Z with true. change (Z.of_nat 0 =? Z.of_nat 0 - -1)%Z with false. cbv iota. rewrite !Rplus_0_l, !D0, !L0. pose proof (N0 true 0%nat 0 ltac:(lra)). pose proof (N0 true 0%nat 1 ltac:(lra)). pose proof (N0 false 0%nat 0 ltac:(lra)). pose proof (N0 false 0%nat 1 ltac:(lra)). field. lra. }
  assert (Z10 : at_ M 1 0 = 1 / 2 * (nf sample_mass true 1 0 0 / nf sample_mass true 0 0 0 + 1)).
  { rewrite HM by lia. unfold Z_entry, prod_entry. unfold band. change (Z.of_nat 1 =? Z.of_nat 0 - 0)%Z with false. change (Z.of_nat 1 =? Z.of_nat 0 - -1)%Z with true. cbv iota. rewrite !Rplus_0_l, !D0, !L1. pose proof (N0 true 0%nat 0 ltac:(lra)). pose proof (N0 true 0%nat 1 ltac:(lra)). cbn [nf]. field. cbn [nf] in *. lra. }
  assert (Er : nf sample_mass true 1 0 0 / nf sample_mass true 0 0 0 = sqrt (1 / 3)).
  { cbn [nf]. rewrite <- sqrt_div by lra. f_equal. rewrite (norm2_n sample_mass 0) by lra. unfold n_step. change (Z.of_nat 0) with 0%Z. rewrite tricky_0 by lra. field. lra. }
  rewrite Er in Z10. set (r := sqrt (1 / 3)) in *. assert (Hr1 : r * r = 1 / 3) by (apply sqrt_sqrt; lra). assert (0 < r) by (apply sqrt_lt_R0; lra).
  cbn [seq map nth poly_rows fst]. rewrite Z00, Z10. assert (Ec : classical 1 0 0 1 = 1) by (unfold classical; rewrite !Rtotal_S; cbn; field). rewrite Ec.
  assert (Hx : 1 / (1 / 2 * (r + 1)) <> 1) by (intros H'; assert (1 = 1 / 2 * (r + 1)) by (apply (Rmult_eq_reg_r (/ (1 / 2 * (r + 1)))); [|apply Rinv_neq_0_compat; lra]; rewrite Rinv_r by lra; exact H'); nra).
  destruct (zero_diagonal M); intros H'; apply Hx; rewrite <- H' at 2; field; lra.
Qed.
Print Assumptions jacobi_A.
Print Assumptions jacobi_B.
Print Assumptions jacobi_C.
Print Assumptions jacobi_D.
Print Assumptions jacobi_parity.
Print Assumptions jacobi_B_classical_refuted.
Print Assumptions jacobi_adjoint.
Print Assumptions jacobi_Z.
Print Assumptions jacobi_matrix_value.
Print Assumptions polynomials_value.
Print Assumptions polynomials_init.
Print Assumptions polynomials_classical_refuted.
Print Assumptions conversion_value.
Print Assumptions conversion_errors.
Print Assumptions differentiation_value.
Print Assumptions integration_value.

(** ** Examples *)
(** A mass with these rules; with it, Legendre polynomials have unit norm for the weight 1. *)
Example a_mass : mass_rules sample_mass /\ sample_mass 0 0 = 2.
Proof. split; [exact sample_rules|exact sample_legendre]. Qed.
Example legendre_2 z : classical 2 0 0 z = (3 * z ^ 2 - 1) / 2.
Proof. unfold classical. rewrite !Rtotal_S. cbn. field. Qed.
Example chebyshev_2 z : classical 2 (- (1 / 2)) (- (1 / 2)) z = 3 / 8 * (2 * z ^ 2 - 1).
Proof. unfold classical. rewrite !Rtotal_S. cbn. field. Qed.
Example one_point : exact_quadrature 1 [(0, 2)].
Proof.
  intros p (c & Hc). unfold weighted_sum. cbn [map fold_right fst snd].
  rewrite (RInt_ext p (fun z => c 0%nat + c 1%nat * z)) by (intros z _; rewrite Hc; cbn; ring).
  symmetry. apply is_RInt_unique. rewrite Hc.
  replace (2 * CSR_Spec.total 0 Rplus (2 * 1) (fun k => c k * 0 ^ k) + 0) with (minus ((fun z => c 0%nat * z + c 1%nat * z ^ 2 / 2) 1) ((fun z => c 0%nat * z + c 1%nat * z ^ 2 / 2) (-1))) by (unfold minus, plus, opp; cbn; field).
  apply (is_RInt_derive (fun z => c 0%nat * z + c 1%nat * z ^ 2 / 2)); [intros; auto_derive; [trivial|field]|]. intros z _. apply (@ex_derive_continuous R_AbsRing R_NormedModule). auto_derive. trivial.
Qed.
Example conversion_example : exists M, conversion_matrix 4 0 0 2 1 = Some M /\ forall z, unit_polynomial sample_mass 3 0 0 z = CSR_Spec.total 0 Rplus 4 (fun i => at_ M i 3 * unit_polynomial sample_mass i 2 1 z).
Proof.
  destruct (conversion_value sample_mass sample_rules 4 0 0 2 1 ltac:(lia) ltac:(lra) ltac:(lra)) as (M & E & _ & _ & H). cbn [INR] in *. replace (0 + (1 + 1)) with 2 in * by ring. replace (0 + 1) with 1 in * by ring. exists M. split; [exact E|]. intros z. apply H. lia.
Qed.
