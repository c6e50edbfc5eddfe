(** Derivatives of powers and of the elementary functions. *)
From Coq Require Import Reals Lra Lia.
From Coquelicot Require Import Coquelicot.
From stdpp Require Import numbers list.
From Verif Require Import Expressions_Model Expressions_Spec Expressions_Proofs.
Local Open Scope R_scope.

Lemma is_integer_IZR z : is_integer (IZR z) = true.
Proof. unfold is_integer. rewrite Int_part_IZR. by destruct (Req_EM_T (IZR z) (IZR z)). Qed.
Lemma is_integer_spec p : is_integer p = true -> p = IZR (Int_part p).
Proof. unfold is_integer. by destruct (Req_EM_T p (IZR (Int_part p))). Qed.
Lemma pow_val_IZR x z : pow_val x (IZR z) = powerRZ x z.
Proof. unfold pow_val. by rewrite is_integer_IZR, Int_part_IZR. Qed.
Lemma pow_val_2 x : pow_val x 2 = x ^ 2.
Proof. by rewrite (pow_val_IZR x 2). Qed.
Lemma pow_val_m1 x : pow_val x (-1) = / x.
Proof. rewrite (pow_val_IZR x (-1)). cbn [powerRZ]. change (Pos.to_nat 1) with 1%nat. by rewrite pow_1. Qed.
Lemma pow_val_m2 x : pow_val x (-2) = / x ^ 2.
Proof. by rewrite (pow_val_IZR x (-2)). Qed.
Lemma not_integer z p : IZR z < p < IZR z + 1 -> is_integer p = false.
Proof.
  intros Hp. destruct (is_integer p) eqn:E; [|done]. apply is_integer_spec in E. rewrite E in Hp.
  rewrite <- plus_IZR in Hp. destruct Hp as [H1%lt_IZR H2%lt_IZR]. lia.
Qed.
Lemma pow_val_mhalf x : 0 < x -> pow_val x (-1/2) = / R_sqrt.sqrt x.
Proof.
  intros Hx. unfold pow_val. rewrite (not_integer (-1)) by lra. replace (-1/2) with (- (/2)) by lra. by rewrite Rpower_Ropp, Rpower_sqrt.
Qed.

Lemma is_derive_powerRZ z x : ((1 <= z)%Z \/ x <> 0) -> is_derive (fun y => powerRZ y z) x (IZR z * powerRZ x (z - 1)).
Proof.
  intros Hz. destruct z as [|n|n].
  - rewrite Rmult_0_l. apply (is_derive_ext (fun _ => 1)); [done|]. apply is_derive_Reals, derivable_pt_lim_const.
  - apply is_derive_Reals. cbn [powerRZ]. assert (powerRZ x (Z.pos n - 1) = x ^ pred (Pos.to_nat n)) as ->.
    { replace (Z.pos n - 1)%Z with (Z.of_nat (pred (Pos.to_nat n))) by lia. by rewrite <- pow_powerRZ. }
    replace (IZR (Z.pos n)) with (INR (Pos.to_nat n)) by (by rewrite INR_IPR). apply derivable_pt_lim_pow.
  - assert (x <> 0) as Hx by (destruct Hz; [lia|done]).
    assert (powerRZ x (Z.neg n - 1) = / (x ^ Pos.to_nat n * x)) as ->.
    { replace (Z.neg n - 1)%Z with (Z.neg (n + 1)) by lia. cbn [powerRZ]. f_equal. replace (Pos.to_nat (n + 1)) with (S (Pos.to_nat n)) by lia. cbn. lra. }
    cbn [powerRZ]. apply (is_derive_ext (fun y => / (y ^ Pos.to_nat n))); [done|].
    assert (x ^ Pos.to_nat n <> 0) as Hn by (by apply pow_nonzero).
    assert (x ^ Pos.to_nat n = x * x ^ pred (Pos.to_nat n)) as En.
    { replace (Pos.to_nat n) with (S (pred (Pos.to_nat n))) at 1 by lia. done. }
    replace (IZR (Z.neg n) * / (x ^ Pos.to_nat n * x)) with (- (INR (Pos.to_nat n) * x ^ pred (Pos.to_nat n)) / (x ^ Pos.to_nat n) ^ 2).
    + apply (is_derive_inv (fun y => y ^ Pos.to_nat n)); [|done]. apply is_derive_Reals, derivable_pt_lim_pow.
    + assert (IZR (Z.neg n) = - INR (Pos.to_nat n)) as ->. { rewrite INR_IPR. done. }
      rewrite En in *. field. split; [done|]. intros E. apply Hn. rewrite E. lra.
Qed.
Lemma is_derive_pow_val p x : pow_dom p x -> is_derive (fun y => pow_val y p) x (p * pow_val x (p - 1)).
Proof.
  intros Hd. destruct (is_integer p) eqn:Ep.
  - apply is_integer_spec in Ep. rewrite Ep in *. set (z := Int_part p) in *. clearbody z.
    rewrite <- minus_IZR. rewrite pow_val_IZR. apply (is_derive_ext (fun y => powerRZ y z)); [intros; by rewrite pow_val_IZR|].
    apply is_derive_powerRZ. destruct Hd as [Hd|[_ [Hd|Hd]]]; [right; lra|left|by right].
    by apply le_IZR.
  - assert (is_integer (p - 1) = false) as Ep'.
    { destruct (is_integer (p - 1)) eqn:E; [|done]. apply is_integer_spec in E.
      assert (p = IZR (Int_part (p - 1) + 1)) as Hp by (rewrite plus_IZR; lra). rewrite Hp, is_integer_IZR in Ep. done. }
    destruct Hd as [Hd|[Hd _]]; [|congruence].
    unfold pow_val. rewrite Ep'. apply (is_derive_ext (fun y => Rpower y p)); [intros; by rewrite Ep|].
    apply is_derive_Reals. by apply derivable_pt_lim_power.
Qed.

Lemma is_derive_value (f : R -> R) (x d d' : R) : is_derive f x d -> d = d' -> is_derive f x d'.
Proof. by intros H <-. Qed.
Lemma sqrt_unit x : -1 < x < 1 -> 0 < 1 - x ^ 2.
Proof. intros H. nra. Qed.

(** The table of derivatives. *)
Lemma derivative_table f t x : derivative f = Some t -> fun_dom f x -> is_derive (fun_val f) x (body_val t x).
Proof.
  intros Ht Hd. destruct f; try discriminate Ht; injection Ht as <-; cbn [fun_dom body_val] in *; unfold fun_val at 1.
  - apply (is_derive_value _ _ (sign x * 1)); [apply (is_derive_Rabs (fun y => y)); [apply is_derive_Reals, derivable_pt_lim_id|done]|]. cbn. unfold sign_val, sign. destruct (total_order_T x 0) as [[H|H]|H], (total_order_T 0 x) as [[H'|H']|H']; lra.
  - apply (is_derive_ext_loc (fun _ => sign_val x)); [|apply is_derive_Reals, derivable_pt_lim_const].
    assert (0 < Rabs x) as Hx by (by apply Rabs_pos_lt). exists (mkposreal _ Hx). intros y Hy. cbn in Hy. unfold AbsRing_ball, abs, minus, plus, opp in Hy. cbn in Hy.
    unfold sign_val. destruct (total_order_T x 0) as [[H|H]|H], (total_order_T y 0) as [[H'|H']|H']; try done; try lra;
      unfold Rabs in *; destruct (Rcase_abs x), (Rcase_abs (y + - x)); lra.
  - apply is_derive_exp.
  - cbn [fun_val]. unfold Rpower. auto_derive; [done|lra].
  - rewrite pow_val_m1. auto_derive; [done|]. field. lra.
  - rewrite pow_val_m1. assert (0 < ln 2) by (rewrite <- ln_1; apply ln_increasing; lra). auto_derive; [done|]. field. lra.
  - rewrite pow_val_m1. assert (0 < ln 10) by (rewrite <- ln_1; apply ln_increasing; lra). auto_derive; [done|]. field. lra.
  - rewrite pow_val_mhalf by done. assert (0 < R_sqrt.sqrt x) by (by apply sqrt_lt_R0). auto_derive; [done|]. field. lra.
  - auto_derive; [done|lra].
  - apply is_derive_sin.
  - apply is_derive_cos.
  - cbn [fun_val]. rewrite pow_val_m2. apply (is_derive_value _ _ (tan x ^ 2 + 1)); [by apply is_derive_tan|].
    unfold tan. replace (/ cos x ^ 2) with ((Rsqr (sin x) + Rsqr (cos x)) / cos x ^ 2) by (rewrite sin2_cos2; field; done). unfold Rsqr. field. done.
  - rewrite pow_val_2, pow_val_mhalf by (by apply sqrt_unit). apply is_derive_Reals.
    replace (/ R_sqrt.sqrt (1 - x ^ 2)) with (1 / R_sqrt.sqrt (1 - Rsqr x)).
    + rewrite <- (derive_pt_asin x Hd). apply (derive_pt_eq_1 _ _ _ (derivable_pt_asin x Hd)). done.
    + unfold Rsqr. rewrite <- Rsqr_pow2. unfold Rsqr. lra.
  - rewrite pow_val_2, pow_val_mhalf by (by apply sqrt_unit). apply is_derive_Reals.
    replace (- / R_sqrt.sqrt (1 - x ^ 2)) with (-1 / R_sqrt.sqrt (1 - Rsqr x)).
    + rewrite <- (derive_pt_acos x Hd). apply (derive_pt_eq_1 _ _ _ (derivable_pt_acos x Hd)). done.
    + rewrite <- Rsqr_pow2. lra.
  - rewrite pow_val_2, pow_val_m1. apply is_derive_Reals.
    apply derivable_pt_lim_atan.
  - cbn [fun_val]. apply is_derive_Reals, derivable_pt_lim_sinh.
  - cbn [fun_val]. apply is_derive_Reals, derivable_pt_lim_cosh.
  - cbn [fun_val]. rewrite pow_val_2. assert (cosh x <> 0) as Hc by (unfold cosh; pose proof (exp_pos x); pose proof (exp_pos (- x)); lra).
    apply (is_derive_ext (fun y => sinh y / cosh y)); [done|].
    apply (is_derive_value _ _ ((cosh x * cosh x - sinh x * sinh x) / cosh x ^ 2)); [|unfold tanh; field; done].
    apply (is_derive_div sinh cosh); [apply is_derive_Reals, derivable_pt_lim_sinh|apply is_derive_Reals, derivable_pt_lim_cosh|done].
  - rewrite pow_val_2, pow_val_mhalf by nra. apply is_derive_Reals, derivable_pt_lim_arcsinh.
  - rewrite pow_val_2, pow_val_mhalf by nra. assert (0 < R_sqrt.sqrt (x ^ 2 - 1)) as Hs by (apply sqrt_lt_R0; nra).
    auto_derive; replace (x * (x * 1) + - (1)) with (x ^ 2 - 1) by ring; [split; [nra|split; [lra|done]]|]. field. lra.
  - rewrite pow_val_2, pow_val_m1. auto_derive; [split; [lra|split; [|done]]; apply Rmult_lt_0_compat; [lra|apply Rinv_0_lt_compat; lra]|].
    field. split_and!; try lra; nra.
  - cbn [fun_val]. unfold erf_val. rewrite pow_val_2. replace (2 * / R_sqrt.sqrt PI) with (2 / R_sqrt.sqrt PI) by (unfold Rdiv; ring).
    apply (is_derive_scal (fun x => RInt (fun t => exp (- t ^ 2)) 0 x) x).
    assert (forall y, continuous (fun t => exp (- t ^ 2)) y) as Hc.
    { intros y. apply (ex_derive_continuous (fun t => exp (- t ^ 2))). auto_derive. done. }
    apply (is_derive_RInt (fun t => exp (- t ^ 2)) _ 0); [|apply Hc].
    apply filter_forall. intros y. apply (RInt_correct (V := R_CompleteNormedModule)). apply (ex_RInt_continuous (V := R_CompleteNormedModule)). intros z _. apply Hc.
Qed.
