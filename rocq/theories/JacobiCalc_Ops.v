(** The matrices of the operators represent operators on functions. *)
From Coq Require Import List ZArith Reals Bool Lia Lra Factorial.
From Coquelicot Require Import Coquelicot.
Import ListNotations.
From Verif Require Import MatSolvers_Model CSR_Spec MatSolvers_Spec MatSolvers_Proofs Codomain_Model Codomain_Spec Codomain_Proofs Codomain_Props JacobiCalc_Model JacobiCalc_Spec JacobiCalc_Proofs.
Local Open Scope R_scope.

(** ** Bands *)
Lemma Rtotal_single n i f : (i < n)%nat -> (forall j, (j < n)%nat -> j <> i -> f j = 0) -> total n f = f i.
Proof. exact (total_single 0 1 Rplus Rmult Rminus Rdiv Ropp Rinv Rf n i f). Qed.
Lemma Rtotal_zero n f : (forall j, (j < n)%nat -> f j = 0) -> total n f = 0.
Proof. exact (total_zero 0 1 Rplus Rmult Rminus Rdiv Ropp Rinv Rf n f). Qed.
Lemma band_hit o d i j : Z.of_nat i = (Z.of_nat j - o)%Z -> band o d i j = d j.
Proof. intros H. unfold band. rewrite H, Z.eqb_refl. reflexivity. Qed.
Lemma band_miss o d i j : Z.of_nat i <> (Z.of_nat j - o)%Z -> band o d i j = 0.
Proof. intros H. unfold band. destruct (Z.eqb_spec (Z.of_nat i) (Z.of_nat j - o)); [contradiction|reflexivity]. Qed.
Lemma band_sum m o d j g i : (i < m)%nat -> Z.of_nat i = (Z.of_nat j - o)%Z -> total m (fun i => band o d i j * g i) = d j * g i.
Proof. intros Hi E. rewrite (Rtotal_single m i) by (assumption || (intros l Hl Hn; rewrite band_miss by lia; ring)). rewrite band_hit by exact E. reflexivity. Qed.
Lemma band_none m o d j g : (Z.of_nat j - o < 0)%Z -> total m (fun i => band o d i j * g i) = 0.
Proof. intros H. apply Rtotal_zero. intros i _. rewrite band_miss by lia. ring. Qed.
Lemma total_bands m j o1 d1 o2 d2 g : total m (fun i => (band o1 d1 i j + band o2 d2 i j) * g i) = total m (fun i => band o1 d1 i j * g i) + total m (fun i => band o2 d2 i j * g i).
Proof. rewrite <- Rtotal_add. apply Rtotal_ext. intros. ring. Qed.
Lemma rows_nat n : rows_of (Z.of_nat n) = n. Proof. unfold rows_of. lia. Qed.
Lemma size_nat n a b : size (Z.of_nat n, a, b) = n. Proof. unfold size. cbn [fst]. lia. Qed.

Section Ops.
Context (mass : R -> R -> R) (Hm : mass_rules mass).
Notation nf := (nf mass).
Notation fam := (family mass).
Lemma fam_at s n a b i z : fam s (n, a, b) i z = classical i a b z / nf s i a b.
Proof. destruct s; [reflexivity|]. change (classical i a b z = classical i a b z / 1). lra. Qed.
Lemma fam_unsized s : unsized (fam s). Proof. intros n n' a b i v. rewrite !fam_at. reflexivity. Qed.

(** ** Entries *)
Lemma A_up_0 s a b : -1 < a -> -1 < b -> A_band0 s 1 a b 0 = nf s 0 (a + 1) b / nf s 0 a b.
Proof.
  intros Ha Hb. unfold A_band0, A_first. cbn [Z.eqb Pos.eqb]. rewrite (ratio_0p0 mass Hm) by assumption.
  destruct (Req_EM_T (a + b) (-1)); [ring|]. replace ((0 + (a + b + 1)) / (a + b + 1)) with 1 by (field; lra). ring.
Qed.
Lemma A_up_S s a b j : -1 < a -> -1 < b -> A_band0 s 1 a b (S j) = (INR (S j) + a + b + 1) / (2 * INR (S j) + a + b + 1) * (nf s (S j) (a + 1) b / nf s (S j) a b).
Proof. intros Ha Hb. unfold A_band0, A_first. cbn [Z.eqb Pos.eqb]. rewrite (ratio_0p0 mass Hm) by assumption. f_equal. f_equal. ring. Qed.
Lemma A_up_off s a b j : -1 < a -> -1 < b -> A_band1 s 1 a b (S j) = - (INR (S j) + b) / (2 * INR (S j) + a + b + 1) * (nf s j (a + 1) b / nf s (S j) a b).
Proof.
  intros Ha Hb. unfold A_band1, A_first. cbn [Z.eqb Pos.eqb Z.opp]. destruct (Z.leb_spec ((1 + 1) / 2) (Z.of_nat (S j))); [|change ((1 + 1) / 2)%Z with 1%Z in *; lia].
  rewrite andb_true_r, (ratio_mp0 mass Hm) by assumption. reflexivity.
Qed.
Lemma A_down_0 s a b j : 0 < a -> -1 < b -> A_band0 s (-1) a b j = 2 * (INR j + a) / (2 * INR j + a + b + 1) * (nf s j (a - 1) b / nf s j a b).
Proof.
  intros Ha Hb. unfold A_band0, A_first. cbn [Z.eqb]. rewrite (ratio_0m0 mass Hm) by assumption. destruct j as [|j]; [|reflexivity].
  destruct (Req_EM_T (a + b) (-1)); [lra|]. f_equal. cbn. f_equal. f_equal. ring.
Qed.
Lemma A_down_off s a b j : 0 < a -> -1 < b -> A_band1 s (-1) a b j = -2 * (INR j + 1) / (2 * INR j + a + b + 1) * (nf s (S j) (a - 1) b / nf s j a b).
Proof.
  intros Ha Hb. unfold A_band1, A_first. cbn [Z.eqb Z.opp]. change (1 + -1)%Z with 0%Z. rewrite Zdiv_0_l. destruct (Z.leb_spec 0 (Z.of_nat j)); [|lia].
  rewrite andb_true_r, (ratio_pm0 mass Hm) by assumption. destruct j as [|j]; [|reflexivity].
  destruct (Req_EM_T (a + b) (-1)); [lra|]. f_equal. cbn. f_equal. f_equal. ring.
Qed.
(** With the parameters exchanged. *)
Lemma B_up_0 s a b : -1 < a -> -1 < b -> A_band0 s 1 b a 0 = nf s 0 a (b + 1) / nf s 0 a b.
Proof.
  intros Ha Hb. unfold A_band0, A_first. cbn [Z.eqb Pos.eqb]. rewrite (ratio_0p0' mass Hm) by assumption.
  destruct (Req_EM_T (b + a) (-1)); [ring|]. replace ((0 + (b + a + 1)) / (b + a + 1)) with 1 by (field; lra). ring.
Qed.
Lemma B_up_S s a b j : -1 < a -> -1 < b -> A_band0 s 1 b a (S j) = (INR (S j) + a + b + 1) / (2 * INR (S j) + a + b + 1) * (nf s (S j) a (b + 1) / nf s (S j) a b).
Proof. intros Ha Hb. unfold A_band0, A_first. cbn [Z.eqb Pos.eqb]. rewrite (ratio_0p0' mass Hm) by assumption. f_equal. f_equal; [ring|f_equal; ring]. Qed.
Lemma B_up_off s a b j : -1 < a -> -1 < b -> A_band1 s 1 b a (S j) = - (INR (S j) + a) / (2 * INR (S j) + a + b + 1) * (nf s j a (b + 1) / nf s (S j) a b).
Proof.
  intros Ha Hb. unfold A_band1, A_first. cbn [Z.eqb Pos.eqb Z.opp]. destruct (Z.leb_spec ((1 + 1) / 2) (Z.of_nat (S j))); [|change ((1 + 1) / 2)%Z with 1%Z in *; lia].
  rewrite andb_true_r, (ratio_mp0' mass Hm) by assumption. f_equal. f_equal. ring.
Qed.
Lemma B_down_0 s a b j : -1 < a -> 0 < b -> A_band0 s (-1) b a j = 2 * (INR j + b) / (2 * INR j + a + b + 1) * (nf s j a (b - 1) / nf s j a b).
Proof.
  intros Ha Hb. unfold A_band0, A_first. cbn [Z.eqb]. rewrite (ratio_0m0' mass Hm) by assumption. destruct j as [|j]; [|f_equal; f_equal; ring].
  destruct (Req_EM_T (b + a) (-1)); [lra|]. f_equal. cbn. f_equal. f_equal. ring.
Qed.
Lemma B_down_off s a b j : -1 < a -> 0 < b -> A_band1 s (-1) b a j = -2 * (INR j + 1) / (2 * INR j + a + b + 1) * (nf s (S j) a (b - 1) / nf s j a b).
Proof.
  intros Ha Hb. unfold A_band1, A_first. cbn [Z.eqb Z.opp]. change (1 + -1)%Z with 0%Z. rewrite Zdiv_0_l. destruct (Z.leb_spec 0 (Z.of_nat j)); [|lia].
  rewrite andb_true_r, (ratio_pm0' mass Hm) by assumption. destruct j as [|j]; [|f_equal; f_equal; ring].
  destruct (Req_EM_T (b + a) (-1)); [lra|]. f_equal. cbn. f_equal. f_equal. ring.
Qed.

(** ** Operators *)
Ltac nfp s n a b := pose proof (nf_pos mass Hm s n a b ltac:(lra) ltac:(lra)).
Lemma A_up_represents s n a b : (1 <= n)%nat -> -1 < a -> -1 < b -> represents_at (fam s) (A_op s 1) (multiplied (fun _ => 1)) (Z.of_nat n, a, b).
Proof.
  intros Hn Ha Hb. exists (Z.of_nat n, a + 1, b). eexists. split; [apply jcall_some; split; [cbn; f_equal; [f_equal; lra|lra]|cbn; lra]|].
  split; [cbn [A_op fn A_fn]; destruct (Z.leb_spec (Z.of_nat n) 0); [lia|reflexivity]|]. cbn [nr nc]. rewrite size_nat. rewrite size_nat.
  split; [change ((1 - 1) / 2)%Z with 0%Z; rewrite Z.add_0_r; apply rows_nat|]. split; [apply rows_nat|]. intros j Hj z. unfold combination. cbn [at_].
  rewrite total_bands, (band_sum n 0 _ j _ j) by lia. rewrite !fam_at. destruct j as [|j].
  - rewrite band_none by lia. rewrite A_up_0 by assumption. rewrite !poly_0. nfp s 0%nat a b. nfp s 0%nat (a + 1) b. field. lra.
  - rewrite (band_sum n 1 _ (S j) _ j) by lia. rewrite !fam_at, A_up_S, A_up_off by assumption. nfp s (S j) a b. nfp s (S j) (a + 1) b. nfp s j (a + 1) b. pose proof (pos_INR j).
    pose proof (poly_A_up j a b z) as E. rewrite S_INR in E |- *.
    transitivity (((INR j + 1 + a + b + 1) * classical (S j) (a + 1) b z - (INR j + 1 + b) * classical j (a + 1) b z) / (2 * (INR j + 1) + a + b + 1) / nf s (S j) a b); [field; lra|rewrite <- E; field; lra].
Qed.
Lemma A_down_represents s n a b : (1 <= n)%nat -> 0 < a -> -1 < b -> represents_at (fam s) (A_op s (-1)) (multiplied (fun z => 1 - z)) (Z.of_nat n, a, b).
Proof.
  intros Hn Ha Hb. exists (Z.of_nat (S n), a - 1, b). eexists. split; [apply jcall_some; split; [unfold shift; cbn [A_op cod flip dn da db]; change ((1 - -1) / 2)%Z with 1%Z; f_equal; [f_equal; [lia|lra]|lra]|cbn; lra]|].
  split; [cbn [A_op fn A_fn]; destruct (Z.leb_spec (Z.of_nat n) 0); [lia|reflexivity]|]. cbn [nr nc]. rewrite size_nat, size_nat.
  split; [change ((1 - -1) / 2)%Z with 1%Z; unfold rows_of; lia|]. split; [apply rows_nat|]. intros j Hj z. unfold combination. cbn [at_].
  rewrite total_bands, (band_sum (S n) 0 _ j _ j), (band_sum (S n) (-1) _ j _ (S j)) by lia. rewrite !fam_at, A_down_0, A_down_off by assumption.
  nfp s j a b. nfp s j (a - 1) b. nfp s (S j) (a - 1) b. pose proof (pos_INR j). pose proof (poly_A_down j (a - 1) b z) as E. replace (a - 1 + 1) with a in E by ring.
  transitivity ((2 * (INR j + (a - 1) + 1) * classical j (a - 1) b z - 2 * (INR j + 1) * classical (S j) (a - 1) b z) / (2 * INR j + a + b + 1) / nf s j a b); [field; lra|rewrite <- E; field; lra].
Qed.
(** The matrix of B. *)
Lemma A_fn_some s p n a b : (1 <= n)%nat -> A_fn s p (Z.of_nat n, a, b)
  = Some (Mat (rows_of (Z.of_nat n + (1 - p) / 2)) (rows_of (Z.of_nat n)) (fun i j => band 0 (A_band0 s p a b) i j + band p (A_band1 s p a b) i j)).
Proof. intros Hn. cbn [A_fn]. destruct (Z.leb_spec (Z.of_nat n) 0); [lia|reflexivity]. Qed.
Lemma sign_even j : (-1) ^ j * (-1) ^ j = 1. Proof. rewrite <- Rpow_mult_distr. replace (-1 * -1) with 1 by ring. apply pow1. Qed.
Lemma B_matrix s p n a b : (p = 1 \/ p = -1)%Z -> (1 <= n)%nat -> -1 < a -> -1 < b -> -1 < b + IZR p ->
  exists M, B_fn s p (Z.of_nat n, a, b) = Some M /\ nr M = rows_of (Z.of_nat n + (1 - p) / 2) /\ nc M = rows_of (Z.of_nat n)
    /\ forall i j, (i < nr M)%nat -> (j < nc M)%nat -> at_ M i j = band 0 (A_band0 true p b a) i j + band p (fun j => - A_band1 true p b a j) i j.
Proof.
  intros Hp Hn Ha Hb Hbp. set (d := ((1 - p) / 2)%Z). assert (Hd : (d = 0 \/ d = 1)%Z) by (unfold d; destruct Hp as [-> | ->]; [left|right]; reflexivity).
  assert (E1 : jcall (cod Pi_op) (Z.of_nat n, a, b) = Some (Z.of_nat n, b, a)) by (apply jcall_some; split; [cbn; f_equal; [f_equal; lra|lra]|cbn; lra]).
  assert (E2 : jcall (cod (A_op true p)) (Z.of_nat n, b, a) = Some ((Z.of_nat n + d)%Z, b + IZR p, a)).
  { apply jcall_some. split; [unfold shift; cbn [A_op cod flip dn da db]; fold d; f_equal; [f_equal; [lia|lra]|lra]|cbn; lra]. }
  unfold B_fn. cbn [omatmul fn]. rewrite E1. cbn [omatmul fn]. rewrite E2. cbn [A_op fn]. rewrite A_fn_some by exact Hn. cbn [Pi_op fn]. fold d. unfold imatmul. cbn [nr nc]. rewrite Nat.eqb_refl. cbn [nc mmul]. rewrite Nat.eqb_refl.
  eexists. split; [reflexivity|]. cbn [nr nc mmul]. split; [reflexivity|]. split; [reflexivity|]. intros i j Hi Hj.
  rewrite (at_mmul 0 Rplus Rmult). unfold applied. cbn [nc mmul].
  rewrite (Rtotal_single _ j) by (assumption || (intros l _ Hl; cbn [at_]; rewrite (band_miss 0 (fun j => (-1) ^ j) l j) by lia; ring)).
  rewrite (at_mmul 0 Rplus Rmult). unfold applied. cbn [nc at_]. rewrite (band_hit 0 (fun j => (-1) ^ j) j j) by lia.
  rewrite (Rtotal_single _ i) by (assumption || (intros l _ Hl; rewrite (band_miss 0 (fun j => (-1) ^ j) i l) by lia; ring)).
  rewrite (band_hit 0 (fun j => (-1) ^ j) i i) by lia. unfold band. destruct (Z.eqb_spec (Z.of_nat i) (Z.of_nat j - 0)) as [E|E]; destruct (Z.eqb_spec (Z.of_nat i) (Z.of_nat j - p)) as [E'|E']; try (exfalso; lia); try ring.
  - replace i with j by lia. transitivity ((-1) ^ j * (-1) ^ j * A_band0 true p b a j); [ring|rewrite sign_even; ring].
  - destruct Hp as [-> | ->].
    + replace j with (S i) by lia. cbn [pow]. transitivity (- ((-1) ^ i * (-1) ^ i) * A_band1 true 1 b a (S i)); [ring|rewrite sign_even; ring].
    + replace i with (S j) by lia. cbn [pow]. transitivity (- ((-1) ^ j * (-1) ^ j) * A_band1 true (-1) b a j); [ring|rewrite sign_even; ring].
Qed.
Lemma B_up_represents s n a b : (1 <= n)%nat -> -1 < a -> -1 < b -> represents_at (fam true) (B_op s 1) (multiplied (fun _ => 1)) (Z.of_nat n, a, b).
Proof.
  intros Hn Ha Hb. destruct (B_matrix s 1 n a b ltac:(lia) Hn Ha Hb ltac:(lra)) as (M & EM & Hr & Hc & HM). change ((1 - 1) / 2)%Z with 0%Z in Hr. rewrite Z.add_0_r in Hr. rewrite rows_nat in Hr, Hc.
  exists (Z.of_nat n, a, b + 1), M. split; [apply jcall_some; split; [cbn; f_equal; [f_equal; lra|lra]|cbn; lra]|]. split; [exact EM|]. rewrite size_nat, size_nat. split; [exact Hr|]. split; [exact Hc|].
  intros j Hj z. unfold combination. rewrite (Rtotal_ext n _ (fun i => (band 0 (A_band0 true 1 b a) i j + band 1 (fun j => - A_band1 true 1 b a j) i j) * fam true (Z.of_nat n, a, b + 1) i z)) by (intros i Hi; rewrite HM by lia; reflexivity).
  rewrite total_bands, (band_sum n 0 _ j _ j) by lia. rewrite !fam_at. destruct j as [|j].
  - rewrite band_none by lia. rewrite B_up_0 by assumption. rewrite !poly_0. nfp true 0%nat a b. nfp true 0%nat a (b + 1). field. lra.
  - rewrite (band_sum n 1 _ (S j) _ j) by lia. rewrite !fam_at, B_up_S, B_up_off by assumption. nfp true (S j) a b. nfp true (S j) a (b + 1). nfp true j a (b + 1). pose proof (pos_INR j).
    pose proof (poly_B_up j a b z) as E. rewrite S_INR in E |- *.
    transitivity (((INR j + 1 + a + b + 1) * classical (S j) a (b + 1) z + (INR j + 1 + a) * classical j a (b + 1) z) / (2 * (INR j + 1) + a + b + 1) / nf true (S j) a b); [field; lra|rewrite <- E; field; lra].
Qed.
Lemma B_down_represents s n a b : (1 <= n)%nat -> -1 < a -> 0 < b -> represents_at (fam true) (B_op s (-1)) (multiplied (fun z => 1 + z)) (Z.of_nat n, a, b).
Proof.
  intros Hn Ha Hb. destruct (B_matrix s (-1) n a b ltac:(lia) Hn Ha ltac:(lra) ltac:(lra)) as (M & EM & Hr & Hc & HM). change ((1 - -1) / 2)%Z with 1%Z in Hr. replace (Z.of_nat n + 1)%Z with (Z.of_nat (S n)) in Hr by lia. rewrite rows_nat in Hr, Hc.
  exists (Z.of_nat (S n), a, b - 1), M. split; [apply jcall_some; split; [unfold shift; cbn [B_op cod flip dn da db]; change ((1 - -1) / 2)%Z with 1%Z; f_equal; [f_equal; [lia|lra]|lra]|cbn; lra]|].
  split; [exact EM|]. rewrite size_nat, size_nat. split; [exact Hr|]. split; [exact Hc|].
  intros j Hj z. unfold combination. rewrite (Rtotal_ext (S n) _ (fun i => (band 0 (A_band0 true (-1) b a) i j + band (-1) (fun j => - A_band1 true (-1) b a j) i j) * fam true (Z.of_nat (S n), a, b - 1) i z)) by (intros i Hi; rewrite HM by lia; reflexivity).
  rewrite total_bands, (band_sum (S n) 0 _ j _ j), (band_sum (S n) (-1) _ j _ (S j)) by lia. rewrite !fam_at, B_down_0, B_down_off by assumption.
  nfp true j a b. nfp true j a (b - 1). nfp true (S j) a (b - 1). pose proof (pos_INR j). pose proof (poly_B_down j a (b - 1) z) as E. replace (b - 1 + 1) with b in E by ring.
  transitivity ((2 * (INR j + (b - 1) + 1) * classical j a (b - 1) z + 2 * (INR j + 1) * classical (S j) a (b - 1) z) / (2 * INR j + a + b + 1) / nf true j a b); [field; lra|rewrite <- E; field; lra].
Qed.
(** Derivatives. *)
Lemma fam_derive s n a b i z : is_derive (fam s (n, a, b) i) z (slope i a b z / nf s i a b).
Proof.
  apply (is_derive_ext (fun t => / nf s i a b * classical i a b t)); [intros t; rewrite fam_at; apply Rmult_comm|].
  replace (slope i a b z / nf s i a b) with (/ nf s i a b * slope i a b z) by apply Rmult_comm. apply (is_derive_scal (classical i a b) z (/ nf s i a b)). apply classical_derive.
Qed.
Lemma C_up_represents s n a b : -1 < a -> 0 < b -> represents_at (fam s) (C_op s 1) (differential (fun x _ => snd x) (fun _ z => 1 + z)) (Z.of_nat n, a, b).
Proof.
  intros Ha Hb. exists (Z.of_nat n, a + 1, b - 1). eexists. split; [apply jcall_some; split; [cbn; f_equal; [f_equal; lra|lra]|cbn; lra]|]. split; [reflexivity|]. cbn [nr nc]. rewrite size_nat, size_nat. rewrite rows_nat. split; [reflexivity|]. split; [reflexivity|].
  intros j Hj z. exists (slope j a b z / nf s j a b). split; [apply fam_derive|]. unfold combination. cbn [at_]. rewrite (band_sum n 0 _ j _ j) by lia. rewrite !fam_at. unfold C_band. cbn [Z.eqb Pos.eqb Z.opp snd].
  rewrite (ratio_0pm mass Hm) by assumption. nfp s j a b. nfp s j (a + 1) (b - 1). pose proof (poly_C_up j a (b - 1) z) as E. replace (b - 1 + 1) with b in E by ring. replace (INR j + (b - 1) + 1) with (INR j + b) in E by ring.
  transitivity ((INR j + b) * classical j (a + 1) (b - 1) z / nf s j a b); [field; lra|rewrite <- E; field; lra].
Qed.
Lemma C_down_represents s n a b : 0 < a -> -1 < b -> represents_at (fam s) (C_op s (-1)) (differential (fun x _ => snd (fst x)) (fun _ z => - (1 - z))) (Z.of_nat n, a, b).
Proof.
  intros Ha Hb. exists (Z.of_nat n, a - 1, b + 1). eexists. split; [apply jcall_some; split; [cbn; f_equal; [f_equal; lra|lra]|cbn; lra]|]. split; [reflexivity|]. cbn [nr nc]. rewrite size_nat, size_nat. rewrite rows_nat. split; [reflexivity|]. split; [reflexivity|].
  intros j Hj z. exists (slope j a b z / nf s j a b). split; [apply fam_derive|]. unfold combination. cbn [at_]. rewrite (band_sum n 0 _ j _ j) by lia. rewrite !fam_at. unfold C_band. cbn [Z.eqb Pos.eqb Z.opp snd fst].
  rewrite (ratio_0mp mass Hm) by assumption. nfp s j a b. nfp s j (a - 1) (b + 1). pose proof (poly_C_down j (a - 1) b z) as E. replace (a - 1 + 1) with a in E by ring. replace (INR j + (a - 1) + 1) with (INR j + a) in E by ring.
  transitivity ((INR j + a) * classical j (a - 1) (b + 1) z / nf s j a b); [field; lra|rewrite <- E; field; lra].
Qed.
Lemma D_up_represents s n a b : -1 < a -> -1 < b -> represents_at (fam s) (D_op s 1) (differential (fun _ _ => 0) (fun _ _ => 1)) (Z.of_nat n, a, b).
Proof.
  intros Ha Hb. exists ((Z.of_nat n - 1)%Z, a + 1, b + 1). eexists. split; [apply jcall_some; split; [unfold shift; cbn [D_op cod flip dn da db]; f_equal; [f_equal; [lia|lra]|lra]|cbn; lra]|]. split; [reflexivity|]. cbn [nr nc]. rewrite size_nat. rewrite rows_nat.
  split; [unfold rows_of, size; cbn [fst]; lia|]. split; [reflexivity|]. assert (Es : size ((Z.of_nat n - 1)%Z, a + 1, b + 1) = (n - 1)%nat) by (unfold size; cbn [fst]; lia). rewrite Es.
  intros j Hj z. exists (slope j a b z / nf s j a b). split; [apply fam_derive|]. unfold combination. cbn [at_]. destruct j as [|j].
  - rewrite band_none by lia. rewrite slope_0. unfold Rdiv. ring.
  - rewrite (band_sum (n - 1) 1 _ (S j) _ j) by lia. rewrite !fam_at. unfold D_band. cbn [Z.eqb Pos.eqb Z.opp]. destruct (Z.leb_spec ((1 + 1) / 2) (Z.of_nat (S j))); [|change ((1 + 1) / 2)%Z with 1%Z in *; lia].
    rewrite andb_true_r, (ratio_mpp mass Hm) by assumption. nfp s (S j) a b. nfp s j (a + 1) (b + 1). rewrite poly_D_up. field. lra.
Qed.
Lemma D_down_represents s n a b : 0 < a -> 0 < b -> represents_at (fam s) (D_op s (-1))
  (differential (fun x z => snd (fst x) * (1 + z) - snd x * (1 - z)) (fun _ z => - (1 - z ^ 2))) (Z.of_nat n, a, b).
Proof.
  intros Ha Hb. exists (Z.of_nat (S n), a - 1, b - 1). eexists. split; [apply jcall_some; split; [unfold shift; cbn [D_op cod flip dn da db]; f_equal; [f_equal; [lia|lra]|lra]|cbn; lra]|]. split; [reflexivity|]. cbn [nr nc]. rewrite size_nat, size_nat. rewrite rows_nat.
  split; [unfold rows_of; lia|]. split; [reflexivity|].
  intros j Hj z. exists (slope j a b z / nf s j a b). split; [apply fam_derive|]. unfold combination. cbn [at_].
  rewrite (band_sum (S n) (-1) _ j _ (S j)) by lia. rewrite !fam_at. unfold D_band. cbn [Z.eqb Z.opp fst snd]. change (1 + -1)%Z with 0%Z. rewrite Zdiv_0_l. destruct (Z.leb_spec 0 (Z.of_nat j)); [|lia].
  rewrite andb_true_r, (ratio_pmm mass Hm) by assumption. nfp s j a b. nfp s (S j) (a - 1) (b - 1). pose proof (poly_D_down j (a - 1) (b - 1) z) as E. replace (a - 1 + 1) with a in E by ring. replace (b - 1 + 1) with b in E by ring.
  transitivity (2 * (INR j + 1) * classical (S j) (a - 1) (b - 1) z / nf s j a b); [field; lra|rewrite <- E; field; lra].
Qed.
(** Reflection. *)
Lemma Pi_represents s n a b : (s = true -> mass a b = mass b a) -> -1 < a -> -1 < b -> represents_at (fam s) Pi_op (fun _ g h => forall z, h z = g (- z)) (Z.of_nat n, a, b).
Proof.
  intros Hs Ha Hb. exists (Z.of_nat n, b, a). eexists. split; [apply jcall_some; split; [cbn; f_equal; [f_equal; lra|lra]|cbn; lra]|]. split; [reflexivity|]. cbn [nr nc]. rewrite size_nat, size_nat, rows_nat. split; [reflexivity|]. split; [reflexivity|].
  intros j Hj z. unfold combination. cbn [at_]. rewrite (band_sum n 0 _ j _ j) by lia. rewrite !fam_at. rewrite poly_reflect.
  assert (E : nf s j a b = nf s j b a).
  { destruct s; [|reflexivity]. cbn [JacobiCalc_Proofs.nf]. f_equal. unfold norm2. rewrite Hs by reflexivity. f_equal. destruct j as [|j]; [reflexivity|]. rewrite (Rmult_comm (rising (a + 1) (S j))). rewrite (Rplus_comm b a). replace (2 * INR (S j) + b + a + 1) with (2 * INR (S j) + a + b + 1) by ring. reflexivity. }
  rewrite E. unfold Rdiv. ring.
Qed.

(** ** The Jacobi matrix *)
Lemma represents_weaken {V} (f : domain -> nat -> V -> R) o (L L' : domain -> (V -> R) -> (V -> R) -> Prop) x : represents_at f o L x -> (forall g h, L x g h -> L' x g h) -> represents_at f o L' x.
Proof. intros (y & M & H1 & H2 & H3 & H4 & H5) H. exists y, M. repeat (split; [assumption|]). intros j Hj. apply H, H5, Hj. Qed.
Lemma multiplied_linear w x : linear (multiplied w x).
Proof.
  split; [intros g h g' h' H E1 E2 v; rewrite <- E1, <- E2; apply H|]. split; [intros v; ring|]. split; [intros g h g' h' H1 H2 v; rewrite H1, H2; ring|intros c g h H v; rewrite H; ring].
Qed.
Definition prod_entry (d0 d1 e0 e1 : nat -> R) (i j : nat) : R :=
  e0 j * (band 0 d0 i j + band (-1) d1 i j) + match j with O => 0 | S l => e1 j * (band 0 d0 i l + band (-1) d1 i l) end.
Lemma prod_entry_eq n d0 d1 e0 e1 i j : (j < n)%nat -> total n (fun k => (band 0 d0 i k + band (-1) d1 i k) * (band 0 e0 k j + band 1 e1 k j)) = prod_entry d0 d1 e0 e1 i j.
Proof.
  intros Hj. rewrite (Rtotal_ext n _ (fun k => (band 0 e0 k j + band 1 e1 k j) * (band 0 d0 i k + band (-1) d1 i k))) by (intros; ring).
  rewrite (total_bands n j 0 e0 1 e1), (band_sum n 0 e0 j _ j) by lia. unfold prod_entry. f_equal. destruct j as [|l]; [apply band_none; lia|]. rewrite (band_sum n 1 e1 (S l) _ l) by lia. reflexivity.
Qed.
Lemma Z_op_some s : exists c, dn c = 1%Z /\ da c = 0%Z /\ db c = 0%Z /\ flip c = false /\ Z_op s = Some (odiv (Op (fun x =>
  match fn (omatmul (B_op s (-1)) (B_op s 1)) x, fn (oneg (omatmul (A_op s (-1)) (A_op s 1))) x with Some A, Some B => iadd A B | _, _ => None end) c) 2).
Proof. eexists. split; [|split; [|split; [|split; [|reflexivity]]]]; reflexivity. Qed.
Definition Z_entry (s : bool) (a b : R) (i j : nat) : R := 1 / 2 * (
  prod_entry (A_band0 true (-1) (b + 1) a) (fun k => - A_band1 true (-1) (b + 1) a k) (A_band0 true 1 b a) (fun k => - A_band1 true 1 b a k) i j
  - prod_entry (A_band0 s (-1) (a + 1) b) (A_band1 s (-1) (a + 1) b) (A_band0 s 1 a b) (A_band1 s 1 a b) i j).
Lemma Z_matrix s n a b : (1 <= n)%nat -> -1 < a -> -1 < b -> exists Zo M, Z_op s = Some Zo /\ fn Zo (Z.of_nat n, a, b) = Some M /\ nr M = S n /\ nc M = n
  /\ forall i j, (i < S n)%nat -> (j < n)%nat -> at_ M i j = Z_entry s a b i j.
Proof.
  intros Hn Ha Hb. destruct (Z_op_some s) as (c & _ & _ & _ & _ & Ez). rewrite Ez. clear Ez. eexists.
  assert (EA : exists MA, fn (omatmul (A_op s (-1)) (A_op s 1)) (Z.of_nat n, a, b) = Some MA /\ nr MA = S n /\ nc MA = n
    /\ forall i j, (j < n)%nat -> at_ MA i j = prod_entry (A_band0 s (-1) (a + 1) b) (A_band1 s (-1) (a + 1) b) (A_band0 s 1 a b) (A_band1 s 1 a b) i j).
  { cbn [omatmul fn]. assert (E : jcall (cod (A_op s 1)) (Z.of_nat n, a, b) = Some (Z.of_nat n, a + 1, b)) by (apply jcall_some; split; [cbn; f_equal; [f_equal; lra|lra]|cbn; lra]).
    rewrite E. cbn [A_op fn]. rewrite !A_fn_some by exact Hn. change ((1 - 1) / 2)%Z with 0%Z. change ((1 - -1) / 2)%Z with 1%Z. rewrite Z.add_0_r. unfold imatmul. cbn [nr nc]. rewrite Nat.eqb_refl.
    eexists. split; [reflexivity|]. cbn [nr nc mmul]. split; [unfold rows_of; lia|]. split; [apply rows_nat|]. intros i j Hj. rewrite (at_mmul 0 Rplus Rmult). unfold applied. cbn [nc at_]. rewrite rows_nat. apply prod_entry_eq, Hj. }
  assert (EB : exists MB, fn (omatmul (B_op s (-1)) (B_op s 1)) (Z.of_nat n, a, b) = Some MB /\ nr MB = S n /\ nc MB = n
    /\ forall i j, (i < S n)%nat -> (j < n)%nat -> at_ MB i j = prod_entry (A_band0 true (-1) (b + 1) a) (fun k => - A_band1 true (-1) (b + 1) a k) (A_band0 true 1 b a) (fun k => - A_band1 true 1 b a k) i j).
  { cbn [omatmul fn]. assert (E : jcall (cod (B_op s 1)) (Z.of_nat n, a, b) = Some (Z.of_nat n, a, b + 1)) by (apply jcall_some; split; [cbn; f_equal; [f_equal; lra|lra]|cbn; lra]).
    rewrite E. cbn [B_op fn]. destruct (B_matrix s 1 n a b ltac:(lia) Hn Ha Hb ltac:(lra)) as (M1 & E1 & Hr1 & Hc1 & H1).
    destruct (B_matrix s (-1) n a (b + 1) ltac:(lia) Hn Ha ltac:(lra) ltac:(lra)) as (M2 & E2 & Hr2 & Hc2 & H2). change ((1 - 1) / 2)%Z with 0%Z in *. change ((1 - -1) / 2)%Z with 1%Z in *. rewrite Z.add_0_r in Hr1. replace (Z.of_nat n + 1)%Z with (Z.of_nat (S n)) in Hr2 by lia. rewrite rows_nat in Hr1, Hc1, Hr2, Hc2.
    rewrite E1, E2. unfold imatmul. rewrite Hc2, Hr1, Nat.eqb_refl. eexists. split; [reflexivity|]. cbn [nr nc mmul]. split; [exact Hr2|]. split; [exact Hc1|]. intros i j Hi Hj.
    rewrite (at_mmul 0 Rplus Rmult). unfold applied. rewrite Hc2. rewrite <- (prod_entry_eq n) by exact Hj. apply Rtotal_ext. intros k Hk. rewrite H1, H2 by lia. reflexivity. }
  destruct EA as (MA & EA & HrA & HcA & HA). destruct EB as (MB & EB & HrB & HcB & HB).
  assert (EO : fn (oneg (omatmul (A_op s (-1)) (A_op s 1))) (Z.of_nat n, a, b) = Some (mscale Rmult (-1) MA)) by (unfold oneg; cbn [oscale fn]; rewrite EA; reflexivity).
  exists (mscale Rmult (1 / 2) (Mat (Nat.max (nr MB) (nr (mscale Rmult (-1) MA))) (nc MB) (fun i j => padded MB i j + padded (mscale Rmult (-1) MA) i j))). split; [reflexivity|].
  split; [cbn [odiv oscale fn]; rewrite EO, EB; unfold iadd; cbn [nc mscale]; rewrite HcA, HcB, Nat.eqb_refl; reflexivity|]. cbn [mscale nr nc at_]. rewrite HrA, HrB, HcB. split; [lia|]. split; [reflexivity|].
  intros i j Hi Hj. unfold padded. cbn [nr mscale at_]. rewrite HrA, HrB. destruct (Nat.ltb_spec i (S n)); [|lia]. rewrite HA, HB by lia. unfold Z_entry. ring.
Qed.
Lemma Z_represents n a b : (1 <= n)%nat -> -1 < a -> -1 < b -> exists Zo, Z_op true = Some Zo /\ represents_at (fam true) Zo (multiplied (fun z => z)) (Z.of_nat n, a, b).
Proof.
  intros Hn Ha Hb. unfold Z_op. set (s1 := omatmul (B_op true (-1)) (B_op true 1)). set (s2 := omatmul (A_op true (-1)) (A_op true 1)).
  assert (H1 : represents_at (fam true) s1 (multiplied (fun z => 1 + z)) (Z.of_nat n, a, b)).
  { apply (represents_weaken _ _ (composed (cod (B_op true 1)) (multiplied (fun z => 1 + z)) (multiplied (fun _ => 1)))).
    - apply product_represents; [apply B_up_represents; assumption|]. intros y Hy. apply jcall_some in Hy. destruct Hy as [-> Hy]. cbn [B_op cod shift flip dn da db]. change ((1 - 1) / 2 + Z.of_nat n)%Z with (Z.of_nat n).
      replace (IZR 0 + a) with a by lra. split; [apply B_down_represents; [exact Hn|exact Ha|lra]|apply multiplied_linear].
    - intros g h (u & Hu & Hv) z. rewrite Hv, Hu. ring. }
  assert (H2 : represents_at (fam true) s2 (multiplied (fun z => 1 - z)) (Z.of_nat n, a, b)).
  { apply (represents_weaken _ _ (composed (cod (A_op true 1)) (multiplied (fun z => 1 - z)) (multiplied (fun _ => 1)))).
    - apply product_represents; [apply A_up_represents; assumption|]. intros y Hy. apply jcall_some in Hy. destruct Hy as [-> Hy]. cbn [A_op cod shift flip dn da db]. change ((1 - 1) / 2 + Z.of_nat n)%Z with (Z.of_nat n).
      replace (IZR 0 + b) with b by lra. split; [apply A_down_represents; [exact Hn|lra|exact Hb]|apply multiplied_linear].
    - intros g h (u & Hu & Hv) z. rewrite Hv, Hu. ring. }
  unfold osub. destruct (oadd s1 (oneg s2)) as [o|] eqn:Eo; [|discriminate]. exists (odiv o 2). split; [reflexivity|].
  pose proof (scale_represents (fam true) (-1) s2 _ _ H2) as H3. pose proof (sum_represents (fam true) s1 (oneg s2) o _ _ _ (fam_unsized true) Eo H3 H1) as H4.
  pose proof (scale_represents (fam true) (1 / 2) o _ _ H4) as H5. refine (represents_weaken _ _ _ _ _ H5 _).
  intros g h (u & (u1 & u2 & (u3 & Hu3 & Hu1) & Hu2 & Hu) & Hh) z. rewrite Hh, Hu, Hu1, Hu2, Hu3. field.
Qed.
(** Lowering operators are adjoint to raising operators. *)
Lemma sqrt_swap p q x y : 0 < p -> 0 < q -> x * p = y * q -> x * (sqrt p / sqrt q) = y * (sqrt q / sqrt p).
Proof.
  intros Hp Hq H. pose proof (sqrt_lt_R0 p Hp) as H1. pose proof (sqrt_lt_R0 q Hq) as H2. pose proof (sqrt_sqrt p ltac:(lra)) as H3. pose proof (sqrt_sqrt q ltac:(lra)) as H4.
  apply (Rmult_eq_reg_r (sqrt p * sqrt q)); [|nra]. transitivity (x * (sqrt p * sqrt p)); [field; lra|]. rewrite H3, H. transitivity (y * (sqrt q * sqrt q)); [rewrite H4; reflexivity|field; lra].
Qed.
Lemma A_adjoint_0 a b j : -1 < a -> -1 < b -> A_band0 true (-1) (a + 1) b j = A_band0 true 1 a b j.
Proof.
  intros Ha Hb. rewrite A_down_0 by lra. replace (a + 1 - 1) with a by ring. cbn [JacobiCalc_Proofs.nf]. pose proof (norm2_pos mass Hm j a b Ha Hb) as Hp. pose proof (norm2_pos mass Hm j (a + 1) b ltac:(lra) Hb) as Hq. pose proof (norm2_a mass Hm j a b Ha Hb) as E.
  destruct j as [|j].
  - rewrite A_up_0 by assumption. cbn [JacobiCalc_Proofs.nf]. rewrite <- (Rmult_1_l (sqrt (norm2 mass 0 (a + 1) b) / sqrt (norm2 mass 0 a b))). apply sqrt_swap; try assumption. rewrite E. unfold ab_step. change (Z.of_nat 0) with 0%Z. rewrite tricky_0 by assumption. cbn [INR]. field. lra.
  - rewrite A_up_S by assumption. cbn [JacobiCalc_Proofs.nf]. apply sqrt_swap; try assumption. rewrite E. unfold ab_step. rewrite tricky_S by assumption. rewrite <- INR_IZR_INZ, S_INR. pose proof (pos_INR j). field. lra.
Qed.
Lemma tricky_pos n a b : -1 < a -> -1 < b -> 0 < tricky (Z.of_nat n) a b.
Proof.
  intros Ha Hb. destruct n as [|n]; [change (Z.of_nat 0) with 0%Z; rewrite tricky_0 by assumption; lra|]. rewrite tricky_S by assumption. pose proof (pos_INR n). rewrite S_INR. apply Rdiv_lt_0_compat; lra.
Qed.
Lemma A_adjoint_1 a b j : -1 < a -> -1 < b -> A_band1 true (-1) (a + 1) b j = A_band1 true 1 a b (S j).
Proof.
  intros Ha Hb. rewrite A_down_off by lra. rewrite A_up_off by assumption. replace (a + 1 - 1) with a by ring. cbn [JacobiCalc_Proofs.nf]. apply sqrt_swap; try (apply norm2_pos; assumption || lra).
  rewrite (norm2_a mass Hm j), (norm2_n mass j) by assumption. unfold ab_step, n_step. rewrite <- INR_IZR_INZ, S_INR. pose proof (tricky_pos j a b Ha Hb). pose proof (pos_INR j). generalize dependent (tricky (Z.of_nat j) a b). intros t Ht. field. lra.
Qed.
Lemma A_up_diag_pos a b j : -1 < a -> -1 < b -> 0 < A_band0 true 1 a b j.
Proof.
  intros Ha Hb. nfp true j a b. nfp true j (a + 1) b. pose proof (pos_INR j). destruct j as [|j]; [rewrite A_up_0 by assumption; apply Rdiv_lt_0_compat; assumption|].
  rewrite A_up_S by assumption. pose proof (pos_INR j). rewrite S_INR. apply Rmult_lt_0_compat; apply Rdiv_lt_0_compat; try assumption; lra.
Qed.
Lemma A_down_off_neg a b j : 0 < a -> -1 < b -> A_band1 true (-1) a b j < 0.
Proof.
  intros Ha Hb. nfp true j a b. nfp true (S j) (a - 1) b. pose proof (pos_INR j). rewrite A_down_off by assumption.
  replace (-2 * (INR j + 1) / (2 * INR j + a + b + 1) * (nf true (S j) (a - 1) b / nf true j a b)) with (- (2 * (INR j + 1) / (2 * INR j + a + b + 1) * (nf true (S j) (a - 1) b / nf true j a b))) by (field; lra).
  apply Ropp_lt_gt_0_contravar. apply Rmult_lt_0_compat; apply Rdiv_lt_0_compat; try assumption; lra.
Qed.
End Ops.
Section Rest.
Context (mass : R -> R -> R) (Hm : mass_rules mass).
Notation nf := (nf mass).
(** Exchanging the parameters of a mass. *)
Definition swapped (x y : R) : R := mass y x.
Lemma swapped_rules : mass_rules swapped.
Proof.
  intros a b Ha Hb. unfold swapped. destruct (Hm b a Hb Ha) as (H1 & H2 & H3). split; [exact H1|]. split; [rewrite H3; f_equal; f_equal; ring|rewrite H2; f_equal; f_equal; ring].
Qed.
Lemma Z_entry_below a b j : Z_entry true a b (S j) j = 1 / 2 * (- (A_band0 true 1 b a j * A_band1 true (-1) (b + 1) a j) - A_band0 true 1 a b j * A_band1 true (-1) (a + 1) b j).
Proof.
  unfold Z_entry, prod_entry. f_equal. rewrite !(band_miss 0 _ (S j) j) by lia. rewrite !(band_hit (-1) _ (S j) j) by lia. destruct j as [|l]; [ring|].
  rewrite !(band_miss 0 _ (S (S l)) l), !(band_miss (-1) _ (S (S l)) l) by lia. ring.
Qed.
Lemma Z_entry_above a b j : Z_entry true a b j (S j) = 1 / 2 * (- (A_band1 true 1 b a (S j) * A_band0 true (-1) (b + 1) a j) - A_band1 true 1 a b (S j) * A_band0 true (-1) (a + 1) b j).
Proof.
  unfold Z_entry, prod_entry. f_equal. rewrite !(band_miss 0 _ j (S j)), !(band_miss (-1) _ j (S j)) by lia. rewrite !(band_hit 0 _ j j) by lia. rewrite !(band_miss (-1) _ j j) by lia. ring.
Qed.
Lemma Z_entry_far a b i j : (S j < i \/ S i < j)%nat -> Z_entry true a b i j = 0.
Proof.
  intros H. unfold Z_entry, prod_entry. rewrite !(band_miss 0 _ i j), !(band_miss (-1) _ i j) by lia. destruct j as [|l]; [ring|]. rewrite !(band_miss 0 _ i l), !(band_miss (-1) _ i l) by lia. ring.
Qed.
Lemma Z_entry_pos a b j : -1 < a -> -1 < b -> 0 < Z_entry true a b (S j) j.
Proof.
  intros Ha Hb. rewrite Z_entry_below. pose proof (A_up_diag_pos mass Hm a b j Ha Hb). pose proof (A_up_diag_pos swapped swapped_rules b a j Hb Ha).
  pose proof (A_down_off_neg mass Hm (a + 1) b j ltac:(lra) Hb). pose proof (A_down_off_neg swapped swapped_rules (b + 1) a j ltac:(lra) Ha). nra.
Qed.
Lemma Z_entry_sym a b j : -1 < a -> -1 < b -> Z_entry true a b (S j) j = Z_entry true a b j (S j).
Proof.
  intros Ha Hb. rewrite Z_entry_below, Z_entry_above, (A_adjoint_0 mass Hm), (A_adjoint_1 mass Hm), (A_adjoint_0 swapped swapped_rules), (A_adjoint_1 swapped swapped_rules) by assumption. ring.
Qed.
Lemma total_three m k f : (S k < m)%nat -> (forall i, (i < m)%nat -> i <> k -> i <> S k -> S i <> k -> f i = 0) -> total m f = match k with O => 0 | S l => f l end + f k + f (S k).
Proof.
  intros Hk Hf. rewrite (Rtotal_more (S (S k)) m) by (lia || (intros i Hi; apply Hf; lia)). rewrite !Rtotal_S. f_equal. f_equal. destruct k as [|l]; [reflexivity|]. rewrite Rtotal_S, Rtotal_zero by (intros; apply Hf; lia). ring.
Qed.
Lemma unit_recursion a b z k : -1 < a -> -1 < b -> z * unit_polynomial mass k a b z
  = match k with O => 0 | S l => Z_entry true a b l k * unit_polynomial mass l a b z end + Z_entry true a b k k * unit_polynomial mass k a b z + Z_entry true a b (S k) k * unit_polynomial mass (S k) a b z.
Proof.
  intros Ha Hb. destruct (Z_matrix true (S k) a b ltac:(lia) Ha Hb) as (Zo & M & E1 & E2 & Hr & Hc & HM).
  destruct (Z_represents mass Hm (S k) a b ltac:(lia) Ha Hb) as (Zo' & E1' & (y & M' & Ey & E2' & Hr' & Hc' & HM')). rewrite E1 in E1'. injection E1' as <-. rewrite E2 in E2'. injection E2' as <-.
  rewrite size_nat in HM'. specialize (HM' k ltac:(lia) z). unfold combination in HM'. rewrite <- Hr', Hr in HM'.
  assert (Ef : forall i, family mass true y i z = unit_polynomial mass i a b z).
  { destruct (Z_op_some true) as (c & H1 & H2 & H3 & H4 & Ez). rewrite Ez in E1. injection E1 as <-. apply jcall_some in Ey. destruct Ey as [-> _]. intros i. cbn [odiv oscale cod]. unfold shift. rewrite H4, H2, H3. rewrite !Rplus_0_l. reflexivity. }
  transitivity (z * family mass true (Z.of_nat (S k), a, b) k z); [reflexivity|]. rewrite <- HM'. rewrite (total_three (S (S k)) k).
  - rewrite !Ef, !HM by lia. f_equal. f_equal. destruct k as [|l]; [reflexivity|]. rewrite Ef, HM by lia. reflexivity.
  - lia.
  - intros i Hi H1 H2 H3. rewrite HM by lia. rewrite Z_entry_far by lia. ring.
Qed.
Lemma unit_0 a b z : unit_polynomial mass 0 a b z = 1 / sqrt (mass a b).
Proof. unfold unit_polynomial, norm2. rewrite poly_0, Rmult_1_r. reflexivity. Qed.
Lemma zero_diagonal_spec (M : mat R) i : zero_diagonal M = true -> (i < nc M)%nat -> at_ M i i = 0.
Proof.
  unfold zero_diagonal. intros H Hi. rewrite forallb_forall in H. specialize (H i ltac:(apply in_seq; lia)). destruct (Req_EM_T (at_ M i i) 0); [assumption|discriminate].
Qed.
Lemma rows_value n a b z v M : -1 < a -> -1 < b -> nc M = S n -> (forall i j, (i < S (S n))%nat -> (j < S n)%nat -> at_ M i j = Z_entry true a b i j) ->
  forall k, (k <= n)%nat -> fst (poly_rows M z (v / sqrt (mass a b)) k) = v * unit_polynomial mass k a b z
    /\ snd (poly_rows M z (v / sqrt (mass a b)) k) = match k with O => 0 | S l => v * unit_polynomial mass l a b z end.
Proof.
  intros Ha Hb Hc HM k. induction k as [|k IH]; intros Hk.
  - cbn. rewrite unit_0. split; [|reflexivity]. destruct (Hm a b Ha Hb) as (H0 & _). pose proof (sqrt_lt_R0 _ H0). field. lra.
  - specialize (IH ltac:(lia)). pose proof (unit_recursion a b z k Ha Hb) as E. pose proof (Z_entry_pos a b k Ha Hb) as Hp.
    assert (Hd : zero_diagonal M = true -> Z_entry true a b k k = 0) by (intros H; rewrite <- HM by lia; apply zero_diagonal_spec; [exact H|lia]).
    destruct k as [|m].
    + cbn [poly_rows fst snd] in *. destruct IH as [-> _]. rewrite !HM by lia. split; [|reflexivity].
      destruct (zero_diagonal M); [rewrite Hd in E by reflexivity|]; apply (Rmult_eq_reg_r (Z_entry true a b 1 0)); try lra.
      * transitivity (v * (z * unit_polynomial mass 0 a b z)); [field; lra|rewrite E; ring].
      * transitivity (v * (z * unit_polynomial mass 0 a b z) - v * Z_entry true a b 0 0 * unit_polynomial mass 0 a b z); [field; lra|rewrite E; ring].
    + change (poly_rows M z (v / sqrt (mass a b)) (S (S m))) with (let '(p1, p2) := poly_rows M z (v / sqrt (mass a b)) (S m) in
        ((if zero_diagonal M then (z * p1 - at_ M m (S m) * p2) / at_ M (S (S m)) (S m) else ((z - at_ M (S m) (S m)) * p1 - at_ M m (S m) * p2) / at_ M (S (S m)) (S m)), p1)).
      destruct (poly_rows M z (v / sqrt (mass a b)) (S m)) as [p1 p2]. cbn [fst snd] in *. destruct IH as [-> ->]. rewrite !HM by lia. split; [|reflexivity].
      destruct (zero_diagonal M); [rewrite Hd in E by reflexivity|]; apply (Rmult_eq_reg_r (Z_entry true a b (S (S m)) (S m))); try lra.
      * transitivity (v * (z * unit_polynomial mass (S m) a b z) - v * Z_entry true a b m (S m) * unit_polynomial mass m a b z); [field; lra|rewrite E; ring].
      * transitivity (v * (z * unit_polynomial mass (S m) a b z) - v * Z_entry true a b (S m) (S m) * unit_polynomial mass (S m) a b z - v * Z_entry true a b m (S m) * unit_polynomial mass m a b z); [field; lra|rewrite E; ring].
Qed.
Lemma polynomials_scaled n a b z v : -1 < a -> -1 < b -> polynomials mass true (Some (v / sqrt (mass a b))) n a b z = Some (map (fun k => v * unit_polynomial mass k a b z) (seq 0 n)).
Proof.
  intros Ha Hb. destruct n as [|n]; [reflexivity|]. cbn [polynomials]. destruct (Z_matrix true (S (S n)) a b ltac:(lia) Ha Hb) as (Zo & M & E1 & E2 & Hr & Hc & HM).
  rewrite E1. replace (Z.of_nat (S n) + 1)%Z with (Z.of_nat (S (S n))) by lia. rewrite E2. f_equal. apply map_ext_in. intros k Hk. apply in_seq in Hk. apply (rows_value (S n) a b z v M Ha Hb Hc HM k). lia.
Qed.
End Rest.

(** ** Polynomials as functions *)
Lemma polynomial_more d e p : (d <= e)%nat -> polynomial d p -> polynomial e p.
Proof.
  intros H (c & Hc). exists (fun k => if (k <? d)%nat then c k else 0). intros z. rewrite Hc. rewrite (Rtotal_more d e) by (exact H || (intros i Hi; destruct (Nat.ltb_spec i d); [lia|ring])).
  apply Rtotal_ext. intros k Hk. destruct (Nat.ltb_spec k d); [reflexivity|lia].
Qed.
Lemma polynomial_add d p q : polynomial d p -> polynomial d q -> polynomial d (fun z => p z + q z).
Proof. intros (c & Hc) (e & He). exists (fun k => c k + e k). intros z. rewrite Hc, He, <- Rtotal_add. apply Rtotal_ext. intros. ring. Qed.
Lemma polynomial_scale d x p : polynomial d p -> polynomial d (fun z => x * p z).
Proof. intros (c & Hc). exists (fun k => x * c k). intros z. rewrite Hc, <- Rtotal_scale. apply Rtotal_ext. intros. ring. Qed.
Lemma polynomial_shift d p : polynomial d p -> polynomial (S d) (fun z => z * p z).
Proof.
  intros (c & Hc). exists (fun k => match k with O => 0 | S k => c k end). intros z. rewrite Hc, Rtotal_first, <- Rtotal_scale, Rmult_0_l, Rplus_0_l. apply Rtotal_ext. intros. cbn [pow]. ring.
Qed.
Lemma polynomial_ext d p q : (forall z, p z = q z) -> polynomial d p -> polynomial d q.
Proof. intros E (c & Hc). exists c. intros z. rewrite <- E. apply Hc. Qed.
Lemma polynomial_power k : polynomial (S k) (fun z => ((z - 1) / 2) ^ k).
Proof.
  induction k as [|k IH]; [exists (fun _ => 1); intros z; cbn; ring|].
  apply (polynomial_ext _ (fun z => 1 / 2 * (z * ((z - 1) / 2) ^ k) + - (1 / 2) * ((z - 1) / 2) ^ k)); [intros z; cbn [pow]; field|].
  apply polynomial_add; apply polynomial_scale; [apply polynomial_shift, IH|apply (polynomial_more (S k)); [lia|exact IH]].
Qed.
Lemma polynomial_ev M c : polynomial M (ev M c).
Proof.
  induction M as [|M IH]; [exists (fun _ => 0); intros z; reflexivity|].
  apply (polynomial_ext _ (fun z => ev M c z + c M * ((z - 1) / 2) ^ M)); [intros z; unfold ev; rewrite Rtotal_S; reflexivity|].
  apply polynomial_add; [apply (polynomial_more M); [lia|exact IH]|apply polynomial_scale, polynomial_power].
Qed.
Lemma polynomial_unit mass n a b : polynomial (S n) (unit_polynomial mass n a b).
Proof.
  apply (polynomial_ext _ (fun z => / sqrt (norm2 mass n a b) * ev (S n) (coefficient n a b) z)); [intros z; apply Rmult_comm|]. apply polynomial_scale, polynomial_ev.
Qed.
(** ** Powers of operators that keep functions *)
Lemma power_kept c k x (g h : R -> R) : power c (multiplied (fun _ => 1)) k x g h -> multiplied (fun _ => 1) x g h.
Proof.
  revert g h. induction k as [|k IH]; intros g h H; cbn [power] in H; [intros z; rewrite H; ring|]. destruct H as (u & H1 & H2). intros z. rewrite (H2 z), (IH _ _ H1 z). ring.
Qed.
Lemma iterated_A k n a b : iterated k (shift (cod (A_op true 1))) (n, a, b) = (n, a + INR k, b).
Proof. induction k as [|k IH]; [cbn; f_equal; f_equal; ring|]. cbn [iterated]. rewrite IH, S_INR. unfold shift. cbn [A_op cod flip dn da db]. change ((1 - 1) / 2)%Z with 0%Z. f_equal; [f_equal; lra|lra]. Qed.
Lemma iterated_B k n a b : iterated k (shift (cod (B_op true 1))) (n, a, b) = (n, a, b + INR k).
Proof. induction k as [|k IH]; [cbn; f_equal; ring|]. cbn [iterated]. rewrite IH, S_INR. unfold shift. cbn [B_op cod flip dn da db]. change ((1 - 1) / 2)%Z with 0%Z. f_equal; [f_equal; lra|lra]. Qed.
Section Conversion.
Context (mass : R -> R -> R) (Hm : mass_rules mass).
Lemma conversion_represents k l n a b : (1 <= n)%nat -> -1 < a -> -1 < b ->
  represents_at (family mass true) (omatmul (opow (A_op true 1) k) (opow (B_op true 1) l)) (multiplied (fun _ => 1)) (Z.of_nat n, a, b)
  /\ shift (cod (omatmul (opow (A_op true 1) k) (opow (B_op true 1) l))) (Z.of_nat n, a, b) = (Z.of_nat n, a + INR k, b + INR l).
Proof.
  intros Hn Ha Hb.
  assert (HB : represents_at (family mass true) (opow (B_op true 1) l) (multiplied (fun _ => 1)) (Z.of_nat n, a, b) /\ forall y, shift (cod (opow (B_op true 1) l)) y = iterated l (shift (cod (B_op true 1))) y).
  { destruct (operator_power (family mass true) (B_op true 1) (multiplied (fun _ => 1)) (Z.of_nat n, a, b) l (fam_unsized mass true) (conj Ha Hb)) as [H1 H2].
    - intros i _. rewrite iterated_B. pose proof (pos_INR i). split; [apply B_up_represents; [exact Hm|exact Hn|exact Ha|lra]|apply multiplied_linear].
    - split; [|exact H2]. apply (represents_weaken _ _ _ _ _ H1). intros g h. apply power_kept. }
  destruct HB as [HB EB].
  assert (HA : represents_at (family mass true) (opow (A_op true 1) k) (multiplied (fun _ => 1)) (Z.of_nat n, a, b + INR l) /\ forall y, shift (cod (opow (A_op true 1) k)) y = iterated k (shift (cod (A_op true 1))) y).
  { pose proof (pos_INR l). destruct (operator_power (family mass true) (A_op true 1) (multiplied (fun _ => 1)) (Z.of_nat n, a, b + INR l) k (fam_unsized mass true)) as [H1 H2].
    - split; lra.
    - intros i _. rewrite iterated_A. pose proof (pos_INR i). split; [apply A_up_represents; [exact Hm|exact Hn|lra|lra]|apply multiplied_linear].
    - split; [|exact H2]. apply (represents_weaken _ _ _ _ _ H1). intros g h. apply power_kept. }
  destruct HA as [HA EA]. split; [|cbn [omatmul cod]; rewrite shift_add, EB, EA, iterated_B, iterated_A; reflexivity].
  refine (represents_weaken _ _ _ _ _ (product_represents _ _ _ _ _ _ HB _) _).
  - intros y Hy. apply jcall_some in Hy. destruct Hy as [-> _]. rewrite EB, iterated_B. split; [exact HA|apply multiplied_linear].
  - intros g h (u & H1 & H2) z. rewrite (H2 z), (H1 z). ring.
Qed.
End Conversion.
