(** Proofs about radial operators. *)
From Coq Require Import List ZArith Reals Bool Lia Lra.
From Coquelicot Require Import Coquelicot.
Import ListNotations.
From Verif Require Import MatSolvers_Model CSR_Spec MatSolvers_Spec MatSolvers_Proofs Codomain_Model Codomain_Spec Codomain_Proofs Codomain_Props JacobiCalc_Model JacobiCalc_Spec JacobiCalc_Proofs JacobiCalc_Ops JacobiCalc_Props JacobiNCC_Proofs Radial_Model Radial_Spec.
Local Open Scope R_scope.
Notation total := (CSR_Spec.total 0 Rplus).
Lemma Rtotal_swap n m (f : nat -> nat -> R) : total n (fun i => total m (fun j => f i j)) = total m (fun j => total n (fun i => f i j)).
Proof. exact (total_swap 0 1 Rplus Rmult Rminus Rdiv Ropp Rinv RealField.Rfield n m f). Qed.

(** ** Relations between functions of the radius *)
Definition ptimes (w : R -> R) (x : domain) (g h : R -> R) : Prop := forall r, 0 < r -> h r = w r * g r.
Definition pderive (p : R -> R) (x : domain) (g h : R -> R) : Prop := forall r, 0 < r -> exists e, is_derive g r e /\ h r = e + p r * g r.
Lemma ptimes_linear w x : linear (ptimes w x).
Proof.
  split; [intros g h g' h' H E1 E2 r Hr; rewrite <- E1, <- E2; apply H, Hr|]. split; [intros r _; ring|].
  split; [intros g h g' h' H H' r Hr; rewrite (H r Hr), (H' r Hr); ring|intros c g h H r Hr; rewrite (H r Hr); ring].
Qed.
Lemma pderive_linear p x : linear (pderive p x).
Proof.
  split; [intros g h g' h' H E1 E2 r Hr; destruct (H r Hr) as (e & He & Ee); exists e; split; [apply (is_derive_ext g); [exact E1|exact He]|rewrite <- E1, <- E2; exact Ee]|].
  split; [intros r _; exists 0; split; [apply @is_derive_const|ring]|].
  split; [intros g h g' h' H H' r Hr; destruct (H r Hr) as (e & He & Ee); destruct (H' r Hr) as (e' & He' & Ee'); exists (e + e'); split; [apply @is_derive_plus; assumption|rewrite Ee, Ee'; ring]
         |intros c g h H r Hr; destruct (H r Hr) as (e & He & Ee); exists (c * e); split; [apply is_derive_scal; exact He|rewrite Ee; ring]].
Qed.

Definition ptwice (p q : R -> R) (x : domain) (g h : R -> R) : Prop :=
  exists f1, (forall r, 0 < r -> is_derive g r (f1 r)) /\ forall r, 0 < r -> exists e, is_derive f1 r e /\ h r = e + p r * f1 r + q r * g r.
Lemma ptwice_linear p q x : linear (ptwice p q x).
Proof.
  split; [intros g h g' h' (f1 & H1 & H2) E1 E2; exists f1; split; [intros r Hr; apply (is_derive_ext g); [exact E1|apply H1, Hr]|intros r Hr; destruct (H2 r Hr) as (e & He & Ee); exists e; split; [exact He|rewrite <- E1, <- E2; exact Ee]]|].
  split; [exists (fun _ => 0); split; [intros r _; apply @is_derive_const|intros r _; exists 0; split; [apply @is_derive_const|ring]]|].
  split.
  - intros g h g' h' (f1 & H1 & H2) (f2 & H3 & H4). exists (fun r => f1 r + f2 r). split; [intros r Hr; apply @is_derive_plus; auto|]. intros r Hr. destruct (H2 r Hr) as (e & He & Ee), (H4 r Hr) as (e' & He' & Ee'). exists (e + e'). split; [apply @is_derive_plus; assumption|rewrite Ee, Ee'; ring].
  - intros c g h (f1 & H1 & H2). exists (fun r => c * f1 r). split; [intros r Hr; apply is_derive_scal; auto|]. intros r Hr. destruct (H2 r Hr) as (e & He & Ee). exists (c * e). split; [apply is_derive_scal; assumption|rewrite Ee; ring].
Qed.
(** Two first-order operators in a row. *)
Lemma derive_twice x (s t : R) g u h : pderive (fun r => s / r) x g u -> pderive (fun r => t / r) x u h -> ptwice (fun r => (s + t) / r) (fun r => s * (t - 1) / r ^ 2) x g h.
Proof.
  intros H1 H2. exists (fun r => u r - s / r * g r). split.
  - intros r Hr. destruct (H1 r Hr) as (e & He & Ee). assert (E0 : @eq R (u r - s / r * g r) e) by (rewrite Ee; ring). rewrite E0. exact He.
  - intros r Hr. destruct (H1 r Hr) as (e & He & Ee). destruct (H2 r Hr) as (e2 & He2 & Ee2).
    exists (e2 - (- s / r ^ 2 * g r + s / r * e)). split; [|rewrite Ee2, Ee; field; lra].
    apply @is_derive_minus; [exact He2|]. assert (Hs : is_derive (fun r => s / r) r (- s / r ^ 2)) by (auto_derive; [lra|field; lra]).
    pose proof (is_derive_mult (fun r => s / r) g r _ _ Hs He Rmult_comm) as H. exact H.
Qed.

(** ** From columns to sums *)
Section Columns.
Context (f : domain -> nat -> R -> R).
Lemma represents_weaken_at o (L L' : domain -> (R -> R) -> (R -> R) -> Prop) x : represents_at f o L x -> (forall j h, L x (f x j) h -> L' x (f x j) h) -> represents_at f o L' x.
Proof. intros (y & M & E1 & E2 & E3 & E4 & E5) H. exists y, M. repeat (split; [assumption|]). intros j Hj. apply H, E5, Hj. Qed.
Lemma columns o L x : represents_at f o L x -> linear (L x) -> exists y M, jcall (cod o) x = Some y /\ fn o x = Some M /\ nr M = size y /\ nc M = size x
  /\ forall c, L x (series (size x) c (f x)) (series (size y) (image M c) (f y)).
Proof.
  intros (y & M & Ey & EM & Hr & Hc & H) HL. exists y, M. repeat (split; [assumption|]). intros c.
  refine (proj1 HL _ _ _ _ (linear_combination (size x) (L x) c (f x) (fun j => combination f (size y) (fun i => at_ M i j) y) HL H) (fun v => eq_refl) _).
  intros v. unfold series, image, combination. rewrite Hc.
  transitivity (total (size x) (fun j => total (size y) (fun i => c j * (at_ M i j * f y i v)))); [apply Rtotal_ext; intros j _; rewrite Rtotal_scale; reflexivity|].
  rewrite Rtotal_swap. apply Rtotal_ext. intros i _. rewrite <- Rtotal_scale_r. apply Rtotal_ext. intros j _. ring.
Qed.
Lemma padded_in M i j : (i < nr M)%nat -> padded M i j = at_ M i j. Proof. intros H. unfold padded. destruct (Nat.ltb_spec i (nr M)); [reflexivity|lia]. Qed.
Lemma padded_out M i j : (nr M <= i)%nat -> padded M i j = 0. Proof. intros H. unfold padded. destruct (Nat.ltb_spec i (nr M)); [lia|reflexivity]. Qed.
Lemma image_in M c i : (i < nr M)%nat -> image (square M) c i = image M c i. Proof. intros H. unfold image. cbn [square nc at_]. apply Rtotal_ext. intros j _. rewrite padded_in by exact H. reflexivity. Qed.
Lemma image_out M c i : (nr M <= i)%nat -> image (square M) c i = 0. Proof. intros H. unfold image. cbn [square nc at_]. apply Rtotal_zero. intros j _. rewrite padded_out by exact H. ring. Qed.
Lemma square_series M c (psi : nat -> R -> R) r : (nr M <= nc M)%nat -> series (nc M) (image (square M) c) psi r = series (nr M) (image M c) psi r.
Proof.
  intros H. unfold series. rewrite (Rtotal_more (nr M) (nc M)) by (exact H || (intros i Hi; rewrite image_out by lia; ring)). apply Rtotal_ext. intros i Hi. rewrite image_in by exact Hi. reflexivity.
Qed.
(** When the new space is not larger, nothing is cut off. *)
Lemma squared_sum o L n a b : represents_at f o L (Z.of_nat n, a, b) -> linear (L (Z.of_nat n, a, b)) -> (dn (cod o) <= 0)%Z ->
  exists M, squared o (Z.of_nat n, a, b) = Some M /\ nr M = n /\ nc M = n
  /\ forall c, L (Z.of_nat n, a, b) (series n c (f (Z.of_nat n, a, b))) (series n (image M c) (f (shift (cod o) (Z.of_nat n, a, b)))).
Proof.
  intros H HL Hd. destruct (columns _ _ _ H HL) as (y & M & Ey & EM & Hr & Hc & HM). apply jcall_some in Ey. destruct Ey as [-> _]. rewrite size_nat in *. exists (square M). unfold squared. rewrite EM. split; [reflexivity|]. cbn [square nr nc]. split; [exact Hc|]. split; [exact Hc|].
  intros c. refine (proj1 HL _ _ _ _ (HM c) (fun v => eq_refl) _). intros v. rewrite <- Hr, <- (square_series M c _ v); [rewrite Hc; reflexivity|]. rewrite Hr, Hc. unfold size, shift. destruct (flip (cod o)); cbn; lia.
Qed.
(** Otherwise, for coefficients that end in zeros. *)
Definition independent (y : domain) : Prop := forall m c, (forall r, 0 < r -> series m c (f y) r = 0) -> forall i, (i < m)%nat -> c i = 0.
Lemma squared_cut o w n m a b : unsized f -> (1 <= n)%nat -> (forall k, (1 <= k)%nat -> represents_at f o (ptimes w) (Z.of_nat k, a, b)) -> dn (cod o) = Z.of_nat m -> independent (shift (cod o) (Z.of_nat n, a, b)) ->
  exists M, squared o (Z.of_nat n, a, b) = Some M /\ nr M = n /\ nc M = n
  /\ forall c, (forall j, (n - m <= j < n)%nat -> c j = 0) -> forall r, 0 < r -> series n (image M c) (f (shift (cod o) (Z.of_nat n, a, b))) r = w r * series n c (f (Z.of_nat n, a, b)) r.
Proof.
  intros Hu Hn H Hd Hi. destruct (columns _ _ _ (H n Hn) (ptimes_linear w _)) as (y & M & Ey & EM & Hr & Hc & HM). apply jcall_some in Ey. destruct Ey as [-> _]. rewrite size_nat in *. exists (square M). unfold squared. rewrite EM. split; [reflexivity|]. cbn [square nr nc]. split; [exact Hc|]. split; [exact Hc|].
  assert (Es : forall k, size (shift (cod o) (Z.of_nat k, a, b)) = (m + k)%nat) by (intros k; unfold size, shift; rewrite Hd; destruct (flip (cod o)); cbn; lia).
  assert (Ef : forall k k' i v, f (shift (cod o) (Z.of_nat k, a, b)) i v = f (shift (cod o) (Z.of_nat k', a, b)) i v) by (intros k k' i v; unfold shift; destruct (flip (cod o)); apply Hu).
  intros c Hz r Hr0. set (psi := f (shift (cod o) (Z.of_nat n, a, b))) in *. rewrite Es in *.
  destruct (Nat.le_gt_cases n m) as [Hle|Hlt].
  { unfold series. rewrite (Rtotal_zero n (fun j => c j * f (Z.of_nat n, a, b) j r)) by (intros j Hj; rewrite Hz by lia; ring). rewrite Rtotal_zero; [ring|]. intros i Hi'. unfold image. rewrite Rtotal_zero; [ring|]. intros j Hj. change (nc (square M)) with (nc M) in Hj. rewrite Hz by lia. ring. }
  destruct (columns _ _ _ (H (n - m)%nat ltac:(lia)) (ptimes_linear w _)) as (y & M' & Ey & _ & Hr' & Hc' & HM'). apply jcall_some in Ey. destruct Ey as [-> _]. rewrite size_nat, Es in *. replace (m + (n - m))%nat with n in * by lia.
  assert (E1 : forall r, 0 < r -> series (m + n) (image M c) psi r = w r * series n c (f (Z.of_nat n, a, b)) r) by (intros t Ht; exact (HM c t Ht)).
  assert (E2 : forall r, 0 < r -> series n (image M' c) psi r = w r * series n c (f (Z.of_nat n, a, b)) r).
  { intros t Ht. pose proof (HM' c t Ht) as E. unfold series in *. rewrite (Rtotal_more (n - m) n (fun j => c j * f (Z.of_nat n, a, b) j t)) by (lia || (intros j Hj; rewrite Hz by lia; ring)).
    rewrite (Rtotal_ext _ _ (fun i => image M' c i * f (shift (cod o) (Z.of_nat (n - m), a, b)) i t)) by (intros i _; unfold psi; rewrite (Ef n (n - m)%nat); reflexivity). rewrite E. f_equal. apply Rtotal_ext. intros j _. f_equal. apply Hu. }
  set (e := fun i => if (i <? n)%nat then image M' c i else 0).
  assert (E3 : forall i, (i < m + n)%nat -> image M c i + -1 * e i = 0).
  { apply (Hi (m + n)%nat). intros t Ht. unfold series. rewrite (Rtotal_ext _ _ (fun i => image M c i * psi i t + -1 * (e i * psi i t))) by (intros i _; change (f (shift (cod o) (Z.of_nat n, a, b)) i t) with (psi i t); ring). rewrite Rtotal_add, Rtotal_scale.
    rewrite (Rtotal_more n (m + n) (fun i => e i * psi i t)) by (lia || (intros i Hi'; unfold e; destruct (Nat.ltb_spec i n); [lia|ring])).
    rewrite (Rtotal_ext n _ (fun i => image M' c i * psi i t)) by (intros i Hi'; unfold e; destruct (Nat.ltb_spec i n); [reflexivity|lia]). fold (series (m + n) (image M c) psi t) (series n (image M' c) psi t). rewrite E1, E2 by exact Ht. ring. }
  rewrite <- (E2 r Hr0). apply Rtotal_ext. intros i Hi'. f_equal. rewrite image_in by (rewrite Hr; lia). specialize (E3 i ltac:(lia)). unfold e in E3. destruct (Nat.ltb_spec i n); [lra|lia].
Qed.
(** Powers; only the spaces on the way matter. *)
Lemma identity_represents o L x : admissible x -> represents_at f o L x -> represents_at f (oidentity o) (fun _ g h => forall v, g v = h v) x.
Proof.
  intros Hx (y & M & E1 & E2 & E3 & E4 & E5). exists x, (identity 0 1 (nc M)). cbn [oidentity cod fn]. rewrite E2. split; [apply jcall_some; rewrite shift_zero; split; [reflexivity|exact Hx]|].
  split; [reflexivity|]. split; [exact E4|]. split; [exact E4|]. intros j Hj v. unfold combination. cbn [identity at_].
  rewrite (Rtotal_single (size x) j) by (assumption || (intros i _ Hne; apply Nat.eqb_neq in Hne; rewrite Hne; ring)). rewrite Nat.eqb_refl. ring.
Qed.
Lemma power_shift o k y : shift (cod (opow o k)) y = iterated k (shift (cod o)) y.
Proof. induction k as [|k IH]; [apply shift_zero|]. cbn [opow omatmul cod]. rewrite shift_add, IH. reflexivity. Qed.
Lemma power_times o w x k : admissible x -> represents_at f o (ptimes w) x -> (forall i, (i < k)%nat -> represents_at f o (ptimes w) (iterated i (shift (cod o)) x)) ->
  represents_at f (opow o k) (ptimes (fun r => w r ^ k)) x.
Proof.
  intros Hx H0. induction k as [|k IH]; intros Hi.
  - refine (represents_weaken _ _ _ _ _ (identity_represents o _ x Hx H0) _). intros g h E r _. rewrite <- E. cbn. ring.
  - refine (represents_weaken _ _ _ _ _ (product_represents f o (opow o k) (ptimes w) _ x (IH ltac:(intros; apply Hi; lia)) _) _).
    + intros y Hy. apply jcall_some in Hy. destruct Hy as [-> _]. rewrite power_shift. split; [apply Hi; lia|apply ptimes_linear].
    + intros g h (u & H1 & H2) r Hr. rewrite (H2 r Hr), (H1 r Hr). cbn. ring.
Qed.
End Columns.

(** ** A function has one vector of coefficients *)
Lemma ev_zero_above s n c : s < 1 -> (forall z, s < z -> ev n c z = 0) -> forall k, (k < n)%nat -> c k = 0.
Proof.
  intros Hs. revert c. induction n as [|n IH]; intros c H k Hk; [lia|].
  assert (H0 : c 0%nat = 0).
  { specialize (H 1 Hs). unfold ev in H. rewrite Rtotal_first in H. replace ((1 - 1) / 2) with 0 in H by field. cbn [pow] in H. rewrite Rtotal_zero in H by (intros j _; rewrite Rmult_0_l; ring). lra. }
  destruct k as [|k]; [exact H0|]. assert (Hd : forall z, s < z -> ev n (fun k => (INR k + 1) * c (S k)) z = 0).
  { intros z Hz. pose proof (ev_derive n c z) as D. apply is_derive_unique in D. rewrite (Derive_ext_loc _ (fun _ => 0)) in D.
    - rewrite Derive_const in D. lra.
    - apply (filter_imp (fun t => s < t)); [intros t Ht; apply H, Ht|]. apply open_gt. exact Hz. }
  specialize (IH _ Hd k ltac:(lia)). cbn beta in IH. pose proof (pos_INR k). apply Rmult_integral in IH. lra.
Qed.
Lemma unit_independent_above mass (Hm : mass_rules mass) s n a b c : s < 1 -> -1 < a -> -1 < b -> (forall z, s < z -> total n (fun i => c i * unit_polynomial mass i a b z) = 0) -> forall i, (i < n)%nat -> c i = 0.
Proof.
  intros Hs Ha Hb H. apply (unit_independent mass Hm n a b c Ha Hb).
  assert (E : forall z, total n (fun i => c i * unit_polynomial mass i a b z) = ev n (fun k => total n (fun i => c i * (coefficient i a b k / sqrt (norm2 mass i a b)))) z).
  { intros z. unfold ev. transitivity (total n (fun i => total n (fun k => c i * (coefficient i a b k / sqrt (norm2 mass i a b)) * ((z - 1) / 2) ^ k))).
    - apply Rtotal_ext. intros i Hi. rewrite (unit_ev mass n) by exact Hi. unfold ev. rewrite <- Rtotal_scale. apply Rtotal_ext. intros. ring.
    - rewrite Rtotal_swap. apply Rtotal_ext. intros k _. apply Rtotal_scale_r. }
  intros z. rewrite E. pose proof (ev_zero_above s n _ Hs (fun z Hz => eq_trans (eq_sym (E z)) (H z Hz))) as Hk.
  unfold ev. apply Rtotal_zero. intros k Hk'. rewrite (Hk k Hk'). ring.
Qed.

(** ** Powers *)
Lemma Rpower_S x l : 0 < x -> Rpower x (1 + l) = x * Rpower x l.
Proof. intros H. rewrite Rpower_plus, Rpower_1 by exact H. reflexivity. Qed.
Lemma two_S x : sqrt (Rpower 2 (1 + x)) = sqrt 2 * sqrt (Rpower 2 x).
Proof. rewrite Rpower_S by lra. apply sqrt_mult; [lra|left; apply exp_pos]. Qed.
Lemma sqrt2 : sqrt 2 * sqrt 2 = 2. Proof. apply sqrt_sqrt. lra. Qed.
Lemma sqrt_half : sqrt 2 * sqrt (1 / 2) = 1.
Proof. rewrite <- sqrt_mult by lra. replace (2 * (1 / 2)) with 1 by field. apply sqrt_1. Qed.

Section Zernike.
Context (mass : R -> R -> R) (Hm : mass_rules mass) (d : nat) (R0 : R) (HR : 0 < R0).
Notation fam := (family mass true).
Definition arg (r : R) : R := 2 * (r / R0) ^ 2 - 1.
Definition scale_of (k l : R) : R := sqrt (Rpower 2 (k + l + INR d / 2 + 1)).
Definition zf (x : domain) (i : nat) (r : R) : R := let '(_, k, l) := x in
  scale_of k l * Rpower (r / R0) l * unit_polynomial mass i k (zernike_b d l) (arg r).
Lemma zf_unsized : unsized zf. Proof. intros n n' a b i v. reflexivity. Qed.
Lemma scale_S k l : scale_of (1 + k) l = sqrt 2 * scale_of k l.
Proof. unfold scale_of. replace (1 + k + l + INR d / 2 + 1) with (1 + (k + l + INR d / 2 + 1)) by ring. apply two_S. Qed.
Lemma scale_l k l : scale_of k (1 + l) = sqrt 2 * scale_of k l.
Proof. unfold scale_of. replace (k + (1 + l) + INR d / 2 + 1) with (1 + (k + l + INR d / 2 + 1)) by ring. apply two_S. Qed.
Lemma scale_pos k l : 0 < scale_of k l. Proof. apply sqrt_lt_R0, exp_pos. Qed.
Lemma ratio_pos r : 0 < r -> 0 < r / R0. Proof. intros H. apply Rdiv_lt_0_compat; assumption. Qed.
Lemma fam_zb n c k l i z : fam (n, k, IZR c + zernike_b d l) i z = unit_polynomial mass i k (zernike_b d (IZR c + l)) z.
Proof. cbn [family unit_family]. f_equal. unfold zernike_b. ring. Qed.
(** Operators on polynomials, pulled back. *)
Lemma pulled s o c L L' n k l : represents_at fam o L (n, k, zernike_b d l) ->
  flip (cod o) = false -> flip c = false -> dn c = dn (cod o) -> da c = da (cod o) -> db c = db (cod o) ->
  -1 < IZR (da c) + k -> -1 < IZR (db c) + l -> linear (L' (n, k, l)) ->
  (forall j h, L (n, k, zernike_b d l) (unit_polynomial mass j k (zernike_b d l)) h ->
     L' (n, k, l) (zf (n, k, l) j) (fun r => scale_of (IZR (da c) + k) (IZR (db c) + l) * Rpower (r / R0) (IZR (db c) + l) * s * h (arg r))) ->
  represents_at zf (Op (at_degree d s o) c) L' (n, k, l).
Proof.
  intros (y & M & Ey & EM & Hr & Hc & H) F1 F2 E1 E2 E3 Hk Hl [Hx _] HL.
  apply jcall_some in Ey. destruct Ey as [Ey _]. exists (shift c (n, k, l)), (mscale Rmult s M).
  assert (Ec : shift c (n, k, l) = ((dn c + n)%Z, IZR (da c) + k, IZR (db c) + l)) by (unfold shift; rewrite F2; reflexivity).
  assert (Eo : y = ((dn c + n)%Z, IZR (da c) + k, IZR (db c) + zernike_b d l)) by (rewrite Ey; unfold shift; rewrite F1, E1, E2, E3; reflexivity).
  assert (Es : size (shift c (n, k, l)) = size y) by (rewrite Ec, Eo; reflexivity).
  split; [apply jcall_some; split; [reflexivity|rewrite Ec; cbn; lra]|]. split; [cbn [fn]; unfold at_degree; rewrite EM; reflexivity|]. split; [rewrite Es; exact Hr|]. split; [exact Hc|].
  intros j Hj. refine (Hx _ _ _ _ (HL j _ (H j Hj)) (fun v => eq_refl) _). intros r. unfold combination. rewrite Es. rewrite <- Rtotal_scale. apply Rtotal_ext. intros i _. rewrite Ec, Eo.
  cbn [zf mscale at_]. rewrite fam_zb. ring.
Qed.
Lemma zf_derive n k l j r e : 0 < r -> is_derive (unit_polynomial mass j k (zernike_b d l)) (arg r) e ->
  is_derive (zf (n, k, l) j) r (scale_of k l * Rpower (r / R0) l * (l / r * unit_polynomial mass j k (zernike_b d l) (arg r) + 4 * r / R0 ^ 2 * e)).
Proof.
  intros Hr He. cbn [zf]. set (P := unit_polynomial mass j k (zernike_b d l)) in *.
  assert (H1 : is_derive (fun r => Rpower (r / R0) l) r (l / r * Rpower (r / R0) l)).
  { unfold Rpower. auto_derive; [repeat split; try exact (ratio_pos r Hr)|]. unfold Rdiv. field. lra. }
  assert (H2 : is_derive (fun r => P (arg r)) r (4 * r / R0 ^ 2 * e)).
  { apply (is_derive_comp P arg r e (4 * r / R0 ^ 2)); [exact He|]. unfold arg. auto_derive; [trivial|]. field. lra. }
  pose proof (is_derive_mult (fun r => Rpower (r / R0) l) (fun r => P (arg r)) r _ _ H1 H2 Rmult_comm) as H3. apply (is_derive_scal _ r (scale_of k l)) in H3.
  refine (is_derive_ext _ _ _ _ _ _); [|eapply eq_rect; [exact H3|]].
  - intros t. change (scale_of k l * (Rpower (t / R0) l * P (arg t)) = scale_of k l * Rpower (t / R0) l * P (arg t)). ring.
  - change (scale_of k l * (l / r * Rpower (r / R0) l * P (arg r) + Rpower (r / R0) l * (4 * r / R0 ^ 2 * e)) = scale_of k l * Rpower (r / R0) l * (l / r * P (arg r) + 4 * r / R0 ^ 2 * e)). ring.
Qed.
Lemma D_up_pulled n k l : -1 < k -> -1 < zernike_b d l -> -2 < l -> represents_at zf (zernike_D d R0 1) (pderive (fun r => - l / r)) (Z.of_nat n, k, l).
Proof.
  intros Hk Hb Hl. unfold zernike_D. cbn [Z.ltb Z.compare]. apply (pulled _ _ _ _ _ _ _ _ (proj1 (jacobi_D mass Hm true n k (zernike_b d l) Hk Hb))); try reflexivity; try (cbn [da db]; lra); [apply pderive_linear|].
  intros j h Hh r Hr. destruct (Hh (arg r)) as (e & He & Ee). eexists. split; [apply zf_derive; [exact Hr|exact He]|]. rewrite Ee. cbn [da db]. rewrite scale_S, scale_l, Rpower_S by (apply ratio_pos, Hr). cbn [zf]. rewrite <- (Rmult_assoc (sqrt 2)), sqrt2. field. lra.
Qed.
Lemma D_down_pulled n k l : -1 < k -> 0 < zernike_b d l -> 0 < l -> represents_at zf (zernike_D d R0 (-1)) (pderive (fun r => (l + INR d - 2) / r)) (Z.of_nat n, k, l).
Proof.
  intros Hk Hb Hl. unfold zernike_D. cbn [Z.ltb Z.compare]. apply (pulled _ _ _ _ _ _ _ _ (proj1 (jacobi_C mass Hm true n k (zernike_b d l) Hk ltac:(lra)) Hb)); try reflexivity; try (cbn [da db]; lra); [apply pderive_linear|].
  intros j h Hh r Hr. destruct (Hh (arg r)) as (e & He & Ee). eexists. split; [apply zf_derive; [exact Hr|exact He]|]. rewrite Ee. cbn [da db].
  assert (E : Rpower (r / R0) l = r / R0 * Rpower (r / R0) (IZR (-1) + l)) by (rewrite <- Rpower_S by (apply ratio_pos, Hr); f_equal; lra).
  assert (F : scale_of k l = sqrt 2 * scale_of k (IZR (-1) + l)) by (rewrite <- scale_l; f_equal; lra).
  cbn [zf]. set (P := unit_polynomial mass j k (zernike_b d l) (arg r)). rewrite scale_S, E, F. unfold arg, zernike_b. field. lra.
Qed.
Lemma E_pulled n k l : (1 <= n)%nat -> -1 < k -> -1 < zernike_b d l -> -1 < l -> represents_at zf (zernike_E d R0 1) (ptimes (fun _ => 1)) (Z.of_nat n, k, l).
Proof.
  intros Hn Hk Hb Hl. unfold zernike_E. apply (pulled _ _ _ _ _ _ _ _ (proj1 (jacobi_A mass Hm true n k (zernike_b d l) Hn Hk Hb))); try reflexivity; try (cbn [da db]; lra); [apply ptimes_linear|].
  intros j h Hh r Hr. rewrite (Hh (arg r)). cbn [da db zf]. rewrite scale_S. replace (IZR 0 + l) with l by lra. transitivity ((sqrt 2 * sqrt (1 / 2)) * (scale_of k l * Rpower (r / R0) l * unit_polynomial mass j k (zernike_b d l) (arg r))); [ring|]. rewrite sqrt_half. reflexivity.
Qed.
Lemma E_down_pulled n k l : (1 <= n)%nat -> 0 < k -> -1 < zernike_b d l -> -1 < l -> represents_at zf (zernike_E d R0 (-1)) (ptimes (fun r => 1 - (r / R0) ^ 2)) (Z.of_nat n, k, l).
Proof.
  intros Hn Hk Hb Hl. unfold zernike_E. apply (pulled _ _ _ _ _ _ _ _ (proj2 (jacobi_A mass Hm true n k (zernike_b d l) Hn ltac:(lra) Hb) Hk)); try reflexivity; try (cbn [da db]; lra); [apply ptimes_linear|].
  intros j h Hh r Hr. rewrite (Hh (arg r)). cbn [da db zf]. set (P := unit_polynomial mass j k (zernike_b d l) (arg r)).
  assert (F : scale_of k l = sqrt 2 * scale_of (IZR (-1) + k) l) by (rewrite <- scale_S; f_equal; lra). rewrite F. replace (IZR 0 + l) with l by lra. unfold arg.
  transitivity ((sqrt 2 * sqrt 2) * sqrt (1 / 2) * scale_of (IZR (-1) + k) l * Rpower (r / R0) l * (1 - (r / R0) ^ 2) * P); [rewrite sqrt2; ring|].
  transitivity ((sqrt 2 * sqrt (1 / 2)) * sqrt 2 * scale_of (IZR (-1) + k) l * Rpower (r / R0) l * (1 - (r / R0) ^ 2) * P); [ring|]. rewrite sqrt_half. ring.
Qed.
Lemma R_up_pulled rho n k l : (1 <= n)%nat -> -1 < k -> -1 < zernike_b d l -> -1 < l -> represents_at zf (zernike_R d rho 1) (ptimes (fun r => rho * (r / R0))) (Z.of_nat n, k, l).
Proof.
  intros Hn Hk Hb Hl. unfold zernike_R. apply (pulled _ _ _ _ _ _ _ _ (proj1 (jacobi_B mass Hm true n k (zernike_b d l) Hn Hk Hb))); try reflexivity; try (cbn [da db]; lra); [apply ptimes_linear|].
  intros j h Hh r Hr. rewrite (Hh (arg r)). cbn [da db zf]. rewrite scale_l, Rpower_S by (apply ratio_pos, Hr). replace (IZR 0 + k) with k by lra.
  transitivity ((sqrt 2 * sqrt (1 / 2)) * (rho * (r / R0) * (scale_of k l * Rpower (r / R0) l * unit_polynomial mass j k (zernike_b d l) (arg r)))); [ring|]. rewrite sqrt_half. ring.
Qed.
Lemma R_down_pulled rho n k l : (1 <= n)%nat -> -1 < k -> 0 < zernike_b d l -> 0 < l -> represents_at zf (zernike_R d rho (-1)) (ptimes (fun r => rho * (r / R0))) (Z.of_nat n, k, l).
Proof.
  intros Hn Hk Hb Hl. unfold zernike_R. apply (pulled _ _ _ _ _ _ _ _ (proj2 (jacobi_B mass Hm true n k (zernike_b d l) Hn Hk ltac:(lra)) Hb)); try reflexivity; try (cbn [da db]; lra); [apply ptimes_linear|].
  intros j h Hh r Hr. rewrite (Hh (arg r)). cbn [da db zf]. set (P := unit_polynomial mass j k (zernike_b d l) (arg r)).
  assert (E : Rpower (r / R0) l = r / R0 * Rpower (r / R0) (IZR (-1) + l)) by (rewrite <- Rpower_S by (apply ratio_pos, Hr); f_equal; lra).
  assert (F : scale_of k l = sqrt 2 * scale_of k (IZR (-1) + l)) by (rewrite <- scale_l; f_equal; lra).
  rewrite E, F. replace (IZR 0 + k) with k by lra. unfold arg.
  transitivity ((sqrt 2 * sqrt 2) * sqrt (1 / 2) * scale_of k (IZR (-1) + l) * Rpower (r / R0) (IZR (-1) + l) * rho * (r / R0) ^ 2 * P); [rewrite sqrt2; ring|].
  transitivity ((sqrt 2 * sqrt (1 / 2)) * sqrt 2 * scale_of k (IZR (-1) + l) * Rpower (r / R0) (IZR (-1) + l) * rho * (r / R0) ^ 2 * P); [ring|]. rewrite sqrt_half. ring.
Qed.
Lemma Id_pulled n k l : (1 <= n)%nat -> -1 < k -> -1 < l -> represents_at zf (zernike_Id d) (ptimes (fun _ => 1)) (Z.of_nat n, k, l).
Proof.
  intros Hn Hk Hl. exists (Z.of_nat n, k, l). eexists. split; [apply jcall_some; split; [cbn; repeat f_equal; lra|cbn; lra]|]. split; [cbn [zernike_Id fn Id_op]; destruct (Z.ltb_spec (Z.of_nat n) 0); [lia|reflexivity]|]. cbn [nr nc]. rewrite size_nat, rows_nat. split; [reflexivity|]. split; [reflexivity|].
  intros j Hj r Hr. unfold combination. cbn [at_]. rewrite (band_sum n 0 _ j _ j) by lia. reflexivity.
Qed.
Lemma Z_pulled n k l : (1 <= n)%nat -> -1 < k -> -1 < zernike_b d l -> -1 < l -> represents_at zf (zernike_Z d) (ptimes arg) (Z.of_nat n, k, l).
Proof.
  intros Hn Hk Hb Hl. destruct (jacobi_Z mass Hm n k (zernike_b d l) Hn Hk Hb) as (Zo & EZ & y & M & Ey & EM & Hr & Hc & H).
  destruct (Z_op_some true) as (c & C1 & C2 & C3 & C4 & C5). rewrite EZ in C5. injection C5 as C5. apply jcall_some in Ey. destruct Ey as [Ey _].
  assert (Ey' : y = (1 + Z.of_nat n, k, zernike_b d l)%Z). { rewrite Ey, C5. cbn [odiv oscale cod]. unfold shift. rewrite C1, C2, C3, C4. repeat f_equal; lra. }
  clear Ey. subst y. assert (Es : size (1 + Z.of_nat n, k, zernike_b d l)%Z = S n) by (unfold size; cbn; lia).
  exists (1 + Z.of_nat n, k, l)%Z, M. split; [apply jcall_some; split; [cbn; repeat f_equal; lra|cbn; lra]|]. split; [cbn [zernike_Z fn]; rewrite EZ; exact EM|]. rewrite Es in Hr. replace (size (1 + Z.of_nat n, k, l)%Z) with (S n) by (unfold size; cbn; lia). split; [exact Hr|]. split; [exact Hc|].
  intros j Hj r Hr0. specialize (H j Hj (arg r)). unfold combination in *. rewrite Es in H. cbn [zf]. cbn [family unit_family] in H.
  transitivity (scale_of k l * Rpower (r / R0) l * total (S n) (fun i => at_ M i j * unit_polynomial mass i k (zernike_b d l) (arg r))); [rewrite <- Rtotal_scale; apply Rtotal_ext; intros; ring|]. rewrite H. ring.
Qed.
Lemma lap_up_pulled n k l : -1 < k -> -1 < zernike_b d l -> -1 < l -> represents_at zf (omatmul (zernike_D d R0 (-1)) (zernike_D d R0 1)) (ptwice (fun r => (INR d - 1) / r) (fun r => - (l * (l + INR d - 2)) / r ^ 2)) (Z.of_nat (S n), k, l).
Proof.
  intros Hk Hb Hl. refine (represents_weaken _ _ _ _ _ (product_represents zf _ _ (fun _ => pderive (fun r => (l + 1 + INR d - 2) / r) (0%Z, 0, 0)) (pderive (fun r => - l / r)) _ (D_up_pulled (S n) k l Hk Hb ltac:(lra)) _) _).
  - intros y Hy. apply jcall_some in Hy. destruct Hy as [-> _]. split; [|apply pderive_linear]. replace (shift (cod (zernike_D d R0 1)) (Z.of_nat (S n), k, l)) with (Z.of_nat n, 1 + k, 1 + l) by (unfold shift; cbn [cod zernike_D flip dn da db]; change (- (1 + 1) / 2)%Z with (-1)%Z; repeat f_equal; lia).
    refine (represents_weaken _ _ _ _ _ (D_down_pulled n (1 + k) (1 + l) ltac:(lra) ltac:(unfold zernike_b in *; lra) ltac:(lra)) _). intros g h H r Hr. destruct (H r Hr) as (e & He & Ee). exists e. split; [exact He|]. rewrite Ee. f_equal. f_equal. f_equal. ring.
  - intros g h (u & H1 & H2). destruct (derive_twice (0%Z, 0, 0) (- l) (l + 1 + INR d - 2) g u h H1 H2) as (f1 & G1 & G2). exists f1. split; [exact G1|]. intros r Hr. destruct (G2 r Hr) as (e & He & Ee). exists e. split; [exact He|]. rewrite Ee. field. lra.
Qed.
Lemma lap_down_pulled n k l : -1 < k -> 0 < zernike_b d l -> 0 < l -> represents_at zf (omatmul (zernike_D d R0 1) (zernike_D d R0 (-1))) (ptwice (fun r => (INR d - 1) / r) (fun r => - (l * (l + INR d - 2)) / r ^ 2)) (Z.of_nat n, k, l).
Proof.
  intros Hk Hb Hl. refine (represents_weaken _ _ _ _ _ (product_represents zf _ _ (fun _ => pderive (fun r => - (l - 1) / r) (0%Z, 0, 0)) (pderive (fun r => (l + INR d - 2) / r)) _ (D_down_pulled n k l Hk Hb Hl) _) _).
  - intros y Hy. apply jcall_some in Hy. destruct Hy as [-> _]. split; [|apply pderive_linear]. replace (shift (cod (zernike_D d R0 (-1))) (Z.of_nat n, k, l)) with (Z.of_nat n, 1 + k, -1 + l) by (unfold shift; cbn [cod zernike_D flip dn da db]; change (- (1 + -1) / 2)%Z with 0%Z; repeat f_equal; lia).
    refine (represents_weaken _ _ _ _ _ (D_up_pulled n (1 + k) (-1 + l) ltac:(lra) ltac:(unfold zernike_b in *; lra) ltac:(lra)) _). intros g h H r Hr. destruct (H r Hr) as (e & He & Ee). exists e. split; [exact He|]. rewrite Ee. f_equal. f_equal. f_equal. ring.
  - intros g h (u & H1 & H2). destruct (derive_twice (0%Z, 0, 0) (l + INR d - 2) (- (l - 1)) g u h H1 H2) as (f1 & G1 & G2). exists f1. split; [exact G1|]. intros r Hr. destruct (G2 r Hr) as (e & He & Ee). exists e. split; [exact He|]. rewrite Ee. field. lra.
Qed.
Lemma zf_independent n k l : -1 < k -> -1 < zernike_b d l -> independent zf (n, k, l).
Proof.
  intros Hk Hb m c H. apply (unit_independent_above mass Hm (-1) m k (zernike_b d l) c ltac:(lra) Hk Hb). intros z Hz.
  set (q := sqrt ((z + 1) / 2)). assert (Hq : 0 < q) by (apply sqrt_lt_R0; lra). specialize (H (R0 * q) ltac:(apply Rmult_lt_0_compat; assumption)).
  assert (Ea : arg (R0 * q) = z). { unfold arg. replace (R0 * q / R0) with q by (field; lra). unfold q. cbn [pow]. rewrite Rmult_1_r, sqrt_sqrt by lra. field. }
  unfold series in H. cbn [zf] in H. rewrite Ea in H. set (Q := scale_of k l * Rpower (R0 * q / R0) l) in H. assert (0 < Q) by (apply Rmult_lt_0_compat; [apply scale_pos|apply exp_pos]).
  rewrite (Rtotal_ext m _ (fun n => Q * (c n * unit_polynomial mass n k (zernike_b d l) z))) in H by (intros; ring). rewrite Rtotal_scale in H. apply Rmult_integral in H. destruct H as [H|H]; [lra|exact H].
Qed.
Lemma zf_zernike n k l i r : 0 < r -> zf (n, k, INR l) i r = zernike mass d R0 k l i r.
Proof. intros Hr. cbn [zf]. unfold zernike, scale_of, arg, zernike_b. rewrite Rpower_pow by (apply ratio_pos, Hr). reflexivity. Qed.
Lemma series_zernike n k l m c r : 0 < r -> series m c (zf (n, k, INR l)) r = series m c (zernike mass d R0 k l) r.
Proof. intros Hr. apply Rtotal_ext. intros i _. rewrite zf_zernike by exact Hr. reflexivity. Qed.
(** *** Powers, and values *)
Lemma iterate_shift c i n k l : flip c = false -> iterated i (shift c) (n, k, l) = ((Z.of_nat i * dn c + n)%Z, IZR (Z.of_nat i * da c) + k, IZR (Z.of_nat i * db c) + l).
Proof.
  intros Hf. induction i as [|i IH]; [cbn; rewrite !Rplus_0_l; reflexivity|]. cbn [iterated]. rewrite IH. unfold shift. rewrite Hf. rewrite Nat2Z.inj_succ. unfold Z.succ. rewrite !Z.mul_add_distr_r, !plus_IZR, !Z.mul_1_l. apply f_equal2; [apply f_equal2; [lia|lra]|lra].
Qed.
Lemma zb_of (l : nat) : (1 <= d)%nat -> -1 < zernike_b d (INR l) /\ ((2 <= d)%nat -> (0 < l)%nat -> 0 < zernike_b d (INR l)).
Proof. intros Hd. unfold zernike_b. pose proof (pos_INR l). apply le_INR in Hd. change (INR 1) with 1 in Hd. split; [lra|]. intros H1 H2. apply le_INR in H1. change (INR 2) with 2 in H1. apply lt_0_INR in H2. lra. Qed.
Lemma pow_R plus (m l : nat) n k : (2 <= d)%nat -> (1 <= n)%nat -> -1 < k -> (plus = true \/ (m <= l)%nat) ->
  represents_at zf (opow (zernike_R d 1 (sign_of plus)) (S m)) (ptimes (fun r => (r / R0) ^ S m)) (Z.of_nat n, k, INR (if plus then l else S l)).
Proof.
  intros Hd Hn Hk Hp. set (l' := if plus then l else S l). assert (X : forall i, (i < S m)%nat -> represents_at zf (zernike_R d 1 (sign_of plus)) (ptimes (fun r => 1 * (r / R0))) (iterated i (shift (cod (zernike_R d 1 (sign_of plus)))) (Z.of_nat n, k, INR l'))).
  { intros i Hi. rewrite iterate_shift by reflexivity. cbn [zernike_R cod dn da db]. destruct plus; cbn [sign_of] in *.
    - change ((1 - 1) / 2)%Z with 0%Z. replace (Z.of_nat i * 0 + Z.of_nat n)%Z with (Z.of_nat n) by lia. replace (IZR (Z.of_nat i * 0) + k) with k by (rewrite Z.mul_0_r; lra). replace (IZR (Z.of_nat i * 1) + INR l') with (INR (i + l)) by (rewrite plus_INR, INR_IZR_INZ, Z.mul_1_r; reflexivity).
      pose proof (pos_INR (i + l)). apply R_up_pulled; [exact Hn|exact Hk|apply zb_of; lia|lra].
    - change ((1 - -1) / 2)%Z with 1%Z. destruct Hp as [Hp|Hp]; [discriminate|]. replace (Z.of_nat i * 1 + Z.of_nat n)%Z with (Z.of_nat (i + n)) by lia. replace (IZR (Z.of_nat i * 0) + k) with k by (rewrite Z.mul_0_r; lra).
      replace (IZR (Z.of_nat i * -1) + INR l') with (INR (l' - i)) by (unfold l'; rewrite minus_INR, (INR_IZR_INZ i) by lia; rewrite mult_IZR; lra).
      assert (0 < l' - i)%nat by (unfold l'; lia). apply R_down_pulled; [lia|exact Hk|apply zb_of; lia|apply lt_0_INR; lia]. }
  refine (represents_weaken _ _ _ _ _ (power_times zf _ (fun r => 1 * (r / R0)) _ (S m) _ (X 0%nat ltac:(lia)) X) _); [pose proof (pos_INR l'); cbn; lra|]. intros g h H r Hr. rewrite (H r Hr), Rmult_1_l. reflexivity.
Qed.
Lemma square_R n k l : (2 <= d)%nat -> (1 <= n)%nat -> -1 < k -> represents_at zf (omatmul (zernike_R d 1 (-1)) (zernike_R d 1 1)) (ptimes (fun r => (r / R0) ^ 2)) (Z.of_nat n, k, INR l).
Proof.
  intros Hd Hn Hk. pose proof (pos_INR l). refine (represents_weaken _ _ _ _ _ (product_represents zf _ _ (ptimes (fun r => 1 * (r / R0))) _ _ (R_up_pulled 1 n k (INR l) Hn Hk ltac:(apply zb_of; lia) ltac:(lra)) _) _).
  - intros y Hy. apply jcall_some in Hy. destruct Hy as [-> _]. split; [|apply ptimes_linear]. replace (shift (cod (zernike_R d 1 1)) (Z.of_nat n, k, INR l)) with (Z.of_nat n, k, INR (S l)) by (rewrite S_INR; unfold shift; cbn [cod zernike_R flip dn da db]; apply f_equal2; [apply f_equal2; [reflexivity|lra]|lra]).
    apply R_down_pulled; [exact Hn|exact Hk|apply zb_of; lia|apply lt_0_INR; lia].
  - intros g h (u & H1 & H2) r Hr. rewrite (H2 r Hr), (H1 r Hr). ring.
Qed.
Lemma squares_R j n k l : (2 <= d)%nat -> (1 <= n)%nat -> -1 < k -> represents_at zf (opow (omatmul (zernike_R d 1 (-1)) (zernike_R d 1 1)) j) (ptimes (fun r => (r / R0) ^ (2 * j))) (Z.of_nat n, k, INR l).
Proof.
  intros Hd Hn Hk. assert (X : forall i, represents_at zf (omatmul (zernike_R d 1 (-1)) (zernike_R d 1 1)) (ptimes (fun r => (r / R0) ^ 2)) (iterated i (shift (cod (omatmul (zernike_R d 1 (-1)) (zernike_R d 1 1)))) (Z.of_nat n, k, INR l))).
  { intros i. rewrite iterate_shift by reflexivity. change (dn (cod (omatmul (zernike_R d 1 (-1)) (zernike_R d 1 1)))) with 1%Z. change (da (cod (omatmul (zernike_R d 1 (-1)) (zernike_R d 1 1)))) with 0%Z. change (db (cod (omatmul (zernike_R d 1 (-1)) (zernike_R d 1 1)))) with 0%Z.
    replace (Z.of_nat i * 1 + Z.of_nat n)%Z with (Z.of_nat (i + n)) by lia. rewrite Z.mul_0_r, !Rplus_0_l. apply square_R; [exact Hd|lia|exact Hk]. }
  refine (represents_weaken _ _ _ _ _ (power_times zf _ (fun r => (r / R0) ^ 2) _ j _ (X 0%nat) (fun i _ => X i)) _); [pose proof (pos_INR l); cbn; lra|]. intros g h H r Hr. rewrite (H r Hr), pow_mult. reflexivity.
Qed.
Definition rises (order : Z) : nat := Z.to_nat (- order).
Lemma pow_cod o c m : cod o = c -> flip c = false -> cod (opow o m) = Jcod (Z.of_nat m * dn c) (Z.of_nat m * da c) (Z.of_nat m * db c) false.
Proof.
  intros <- Hf. induction m as [|m IH]; [reflexivity|]. cbn [opow omatmul cod]. rewrite IH. destruct (cod o) as [x y z f]. cbn in Hf |- *. subst f. unfold jadd. cbn. f_equal; lia.
Qed.
Lemma mult_pulled order e (l : nat) n k : (2 <= d)%nat -> (1 <= n)%nat -> -1 < k -> (0 <= Z.of_nat l + order)%Z -> (0 <= e)%Z ->
  cod (multiplication_operator d order e) = Jcod (Z.of_nat (rises order) + e / 2) 0 order false
  /\ represents_at zf (multiplication_operator d order e) (ptimes (fun r => (r / R0) ^ (Z.abs_nat order + 2 * Z.to_nat (e / 2)))) (Z.of_nat n, k, INR l).
Proof.
  intros Hd Hn Hk Ho He. unfold multiplication_operator.
  set (o := if (order =? 0)%Z then zernike_Id d else if (order <? 0)%Z then opow (zernike_R d 1 (-1)) (Z.to_nat (Z.abs order)) else opow (zernike_R d 1 1) (Z.to_nat (Z.abs order))).
  assert (Xo : cod o = Jcod (Z.of_nat (rises order)) 0 order false /\ represents_at zf o (ptimes (fun r => (r / R0) ^ Z.abs_nat order)) (Z.of_nat n, k, INR l)).
  { unfold o, rises. destruct (Z.eqb_spec order 0) as [->|Hz]; [split; [reflexivity|]|destruct (Z.ltb_spec order 0)].
    - refine (represents_weaken _ _ _ _ _ (Id_pulled n k (INR l) Hn Hk ltac:(pose proof (pos_INR l); lra)) _). intros g h H r Hr. rewrite (H r Hr). reflexivity.
    - destruct (Z.to_nat (Z.abs order)) as [|m] eqn:Em; [lia|]. split; [rewrite (pow_cod (zernike_R d 1 (-1)) (Jcod 1 0 (-1) false) _ eq_refl eq_refl); cbn [dn da db]; f_equal; lia|].
      destruct l as [|l]; [lia|]. pose proof (pow_R false m l n k Hd Hn Hk ltac:(right; lia)) as X. replace (Z.abs_nat order) with (S m) by lia. exact X.
    - destruct (Z.to_nat (Z.abs order)) as [|m] eqn:Em; [lia|]. split; [rewrite (pow_cod (zernike_R d 1 1) (Jcod 0 0 1 false) _ eq_refl eq_refl); cbn [dn da db]; f_equal; lia|].
      pose proof (pow_R true m l n k Hd Hn Hk ltac:(left; reflexivity)) as X. replace (Z.abs_nat order) with (S m) by lia. exact X. }
  destruct Xo as [Co Xo]. destruct (Z.ltb_spec 0 e).
  - split.
    + cbn [omatmul cod]. rewrite Co, (pow_cod (omatmul (zernike_R d 1 (-1)) (zernike_R d 1 1)) (Jcod 1 0 0 false) _ eq_refl eq_refl). unfold jadd. cbn [dn da db flip xorb]. assert (0 <= e / 2)%Z by (apply Z.div_pos; lia). f_equal; lia.
    + refine (represents_weaken _ _ _ _ _ (product_represents zf _ _ (ptimes (fun r => (r / R0) ^ (2 * Z.to_nat (e / 2)))) _ _ Xo _) _).
      * intros y Hy. apply jcall_some in Hy. destruct Hy as [-> _]. split; [|apply ptimes_linear]. rewrite Co. unfold shift. cbn [flip dn da db].
        replace (Z.of_nat (rises order) + Z.of_nat n)%Z with (Z.of_nat (rises order + n)) by lia. replace (IZR order + INR l) with (INR (Z.to_nat (Z.of_nat l + order))) by (rewrite !INR_IZR_INZ, Z2Nat.id, plus_IZR by lia; lra). rewrite Rplus_0_l. apply squares_R; [exact Hd|lia|exact Hk].
      * intros g h (u & H1 & H2) r Hr. rewrite (H2 r Hr), (H1 r Hr), pow_add. ring.
  - assert (e = 0)%Z by lia. subst e. split; [rewrite Co; change (0 / 2)%Z with 0%Z; f_equal; lia|]. change (Z.to_nat (0 / 2)) with 0%nat. rewrite Nat.mul_0_r, Nat.add_0_r. exact Xo.
Qed.
Lemma pow_E dk n k l : (1 <= d)%nat -> (1 <= n)%nat -> -1 < k -> cod (opow (zernike_E d R0 1) dk) = Jcod 0 (Z.of_nat dk) 0 false /\ represents_at zf (opow (zernike_E d R0 1) dk) (ptimes (fun _ => 1)) (Z.of_nat n, k, INR l).
Proof.
  intros Hd Hn Hk. pose proof (pos_INR l). split; [rewrite (pow_cod (zernike_E d R0 1) (Jcod 0 1 0 false) _ eq_refl eq_refl); cbn [dn da db]; f_equal; lia|].
  assert (X : forall i, represents_at zf (zernike_E d R0 1) (ptimes (fun _ => 1)) (iterated i (shift (cod (zernike_E d R0 1))) (Z.of_nat n, k, INR l))).
  { intros i. rewrite iterate_shift by reflexivity. cbn [zernike_E cod dn da db]. change ((1 - 1) / 2)%Z with 0%Z. replace (Z.of_nat i * 0 + Z.of_nat n)%Z with (Z.of_nat n) by lia. rewrite Z.mul_0_r, Rplus_0_l, Z.mul_1_r, <- INR_IZR_INZ.
    pose proof (pos_INR i). apply E_pulled; [exact Hn|lra|apply zb_of; lia|lra]. }
  refine (represents_weaken _ _ _ _ _ (power_times zf _ (fun _ => 1) _ dk _ (X 0%nat) (fun i _ => X i)) _); [cbn; lra|]. intros g h H' r Hr. rewrite (H' r Hr), pow1. reflexivity.
Qed.
Lemma zernike_values n k (l : nat) r : (1 <= d)%nat -> -1 < k -> 0 < r -> zernike_polynomials mass d n k (INR l) (arg r) = Some (map (fun i => zernike mass d R0 k l i r) (seq 0 n)).
Proof.
  intros Hd Hk Hr. destruct (zb_of l Hd) as [Hb _]. destruct (Hm k (zernike_b d (INR l)) Hk Hb) as (Hpos & _). unfold zernike_polynomials.
  replace (zernike_init mass d k (INR l) (arg r)) with (scale_of k (INR l) * Rpower (r / R0) (INR l) / sqrt (mass k (zernike_b d (INR l)))).
  - rewrite (polynomials_scaled mass Hm) by assumption. f_equal. apply map_ext. intros i. rewrite <- (zf_zernike 0 k l i r Hr). reflexivity.
  - unfold zernike_init, scale_of. pose proof (ratio_pos r Hr) as Hq. rewrite <- (Rpower_sqrt (mass k (zernike_b d (INR l)))) by exact Hpos. rewrite <- (Rpower_sqrt (Rpower 2 _)) by apply exp_pos. unfold Rdiv. rewrite <- Rpower_Ropp. rewrite Rpower_mult.
    unfold Rpower. rewrite <- !exp_plus. f_equal. assert (E : ln (1 + arg r) = ln 2 + 2 * ln (r / R0)).
    { unfold arg. replace (1 + (2 * (r / R0) ^ 2 - 1)) with (2 * (r / R0 * (r / R0))) by ring. rewrite !ln_mult; try lra; try nra. }
    unfold Rdiv in E. set (q := ln (r * / R0)) in *. set (mu := ln (mass _ _)). clearbody q mu. destruct (Req_EM_T (INR l) 0) as [->|_]; [|rewrite E]; field.
Qed.
End Zernike.

Section Shell.
Context (mass : R -> R -> R) (Hm : mass_rules mass) (d : nat) (r0 r1 a b : R) (H0 : 0 < r0) (H1 : r0 < r1) (Ha : -1 < a) (Hb : -1 < b).
Notation fam := (family mass true).
Notation w := (width r0 r1).
Lemma w_pos : 0 < w. Proof. unfold width. lra. Qed.
Definition native (r : R) : R := (2 * r - (r1 + r0)) / w.
Definition sf (x : domain) (i : nat) (r : R) : R := let '(_, k, _) := x in Rpower (w / r) k * unit_polynomial mass i (a + k) (b + k) (native r).
Lemma sf_unsized : unsized sf. Proof. intros n n' p q i v. reflexivity. Qed.
Lemma inverse_pos r : 0 < r -> 0 < w / r. Proof. intros H. apply Rdiv_lt_0_compat; [apply w_pos|exact H]. Qed.
(** Sums with numbers. *)
Lemma number_represents o c v x t : admissible x -> represents_at fam o (multiplied v) x -> oadd_number o c = Some t -> represents_at fam t (multiplied (fun z => v z + c)) x.
Proof.
  intros Hx H. unfold oadd_number. destruct (Req_EM_T c 0) as [->|Hc].
  - intros E. injection E as <-. refine (represents_weaken _ _ _ _ _ H _). intros g h E z. rewrite E. ring.
  - intros E. pose proof (identity_represents fam o _ x Hx H) as HI. pose proof (scale_represents fam c _ _ _ HI) as HS.
    refine (represents_weaken _ _ _ _ _ (sum_represents fam _ _ _ _ _ _ (fam_unsized mass true) E HS H) _). intros g h (u1 & u2 & (u & E1 & E2) & E3 & E4) z. rewrite E4, E2, <- E1, E3. ring.
Qed.
Lemma Z_cod Zo : Z_op true = Some Zo -> dn (cod Zo) = 1%Z /\ da (cod Zo) = 0%Z /\ db (cod Zo) = 0%Z /\ flip (cod Zo) = false.
Proof. destruct (Z_op_some true) as (c & C1 & C2 & C3 & C4 & C5). rewrite C5. intros E. injection E as <-. cbn. tauto. Qed.
Lemma number_cod o c : da (cod o) = 0%Z -> db (cod o) = 0%Z -> flip (cod o) = false -> (0 <= dn (cod o))%Z -> exists t, oadd_number o c = Some t /\ cod t = cod o.
Proof.
  intros E1 E2 E3 E4. unfold oadd_number. destruct (Req_EM_T c 0); [exists o; split; reflexivity|]. unfold oadd, jor. cbn [oscale oidentity cod]. replace (jeq (cod o) jzero) with true by (symmetry; apply jeq_spec; cbn; tauto). cbn [jzero dn]. destruct (Z.leb_spec 0 (dn (cod o))); [|lia]. eexists. split; reflexivity.
Qed.
Lemma shifted_represents n p q : (1 <= n)%nat -> -1 < p -> -1 < q -> exists z, shifted_Z r0 r1 = Some z /\ dn (cod z) = 1%Z /\ da (cod z) = 0%Z /\ db (cod z) = 0%Z /\ flip (cod z) = false
  /\ represents_at fam z (multiplied (fun z => z + (r1 + r0) / w)) (Z.of_nat n, p, q).
Proof.
  intros Hn Hp Hq. destruct (jacobi_Z mass Hm n p q Hn Hp Hq) as (Zo & EZ & HZ). destruct (Z_cod Zo EZ) as (C1 & C2 & C3 & C4).
  destruct (number_cod Zo ((r1 + r0) / w) C2 C3 C4 ltac:(lia)) as (t & Et & Ec). exists t. unfold shifted_Z. rewrite EZ. cbn [obind]. split; [exact Et|]. rewrite Ec. repeat (split; [assumption|]). refine (number_represents Zo _ _ (Z.of_nat n, p, q) t _ HZ Et). cbn. lra.
Qed.
Lemma shift_plain o n p q : flip (cod o) = false -> shift (cod o) (n, p, q) = ((dn (cod o) + n)%Z, IZR (da (cod o)) + p, IZR (db (cod o)) + q).
Proof. intros H. unfold shift. rewrite H. reflexivity. Qed.
Lemma AB_represents n p q : (1 <= n)%nat -> -1 < p -> -1 < q -> represents_at fam AB (multiplied (fun _ => 1)) (Z.of_nat n, p, q).
Proof.
  intros Hn Hp Hq. refine (represents_weaken _ _ _ _ _ (product_represents fam _ _ (multiplied (fun _ => 1)) (multiplied (fun _ => 1)) _ (proj1 (jacobi_B mass Hm true n p q Hn Hp Hq)) _) _).
  - intros y Hy. apply jcall_some in Hy. destruct Hy as [-> _]. split; [|apply multiplied_linear]. rewrite shift_plain by reflexivity. cbn [B_op cod dn da db]. change ((1 - 1) / 2 + Z.of_nat n)%Z with (Z.of_nat n). apply (jacobi_A mass Hm true); [exact Hn|lra..].
  - intros g h (u & E1 & E2) z. rewrite E2, E1. ring.
Qed.
Lemma A_zero_represents n p q : -1 < p -> -1 < q -> represents_at fam A_zero (multiplied (fun _ => p)) (Z.of_nat n, p, q).
Proof.
  intros Hp Hq. exists (Z.of_nat n, p, q). eexists. split; [apply jcall_some; split; [cbn; repeat f_equal; lra|cbn; lra]|]. split; [cbn [A_zero fn]; destruct (Z.ltb_spec (Z.of_nat n) 0); [lia|reflexivity]|]. cbn [nr nc]. rewrite size_nat, rows_nat. split; [reflexivity|]. split; [reflexivity|].
  intros j Hj z. unfold combination. cbn [at_]. rewrite (band_sum n 0 _ j _ j) by lia. reflexivity.
Qed.
(** The operator inside: [((z + rho) g)' - (k + 1 + c) g], over the width. *)
Definition jderive (s : R) (x : domain) (g h : R -> R) : Prop := forall z, exists e, is_derive g z e /\ h z = 1 / w * ((z + (r1 + r0) / w) * e + s * g z).
Definition order_shift (dl : Z) (l : R) : R := IZR dl * l + (if (dl =? -1)%Z then 1 else 0) * (2 - INR d).
Lemma inner_represents dl l n p q : (1 <= n)%nat -> -1 < p -> -1 < q -> exists o, shell_D_inner d r0 r1 a dl l = Some o /\ cod o = Jcod 0 1 1 false
  /\ represents_at fam o (jderive (a - p - order_shift dl l)) (Z.of_nat n, p, q).
Proof.
  intros Hn Hp Hq. destruct (shifted_represents n p q Hn Hp Hq) as (z & Ez & C1 & C2 & C3 & C4 & Hz). unfold shell_D_inner. rewrite Ez. cbn [obind].
  destruct (number_cod A_zero (- a) eq_refl eq_refl eq_refl ltac:(cbn; lia)) as (K1 & EK1 & CK1). rewrite EK1. cbn [obind].
  destruct (number_cod K1 (IZR dl * l + (if (dl =? -1)%Z then 1 else 0) * (2 - INR d)) ltac:(rewrite CK1; reflexivity) ltac:(rewrite CK1; reflexivity) ltac:(rewrite CK1; reflexivity) ltac:(rewrite CK1; cbn; lia)) as (K & EK & CK). rewrite EK. cbn [obind]. fold (order_shift dl l) in EK.
  assert (CD : cod (omatmul (D_op true 1) z) = Jcod 0 1 1 false). { cbn [omatmul cod D_op jadd flip]. rewrite C1, C2, C3, C4. reflexivity. }
  assert (CKA : cod (omatmul K AB) = Jcod 0 1 1 false). { cbn [omatmul cod]. rewrite CK, CK1. reflexivity. }
  assert (Es : exists t, osub (omatmul (D_op true 1) z) (omatmul K AB) = Some t /\ cod t = Jcod 0 1 1 false).
  { unfold osub, oadd, oneg. cbn [oscale cod]. unfold jor. rewrite CD, CKA. eexists. split; reflexivity. }
  destruct Es as (t & Et & Ct). rewrite Et. cbn [obind]. eexists. split; [reflexivity|]. split; [exact Ct|].
  assert (HD : represents_at fam (omatmul (D_op true 1) z) (composed (cod z) (differential (fun _ _ => 0) (fun _ _ => 1)) (multiplied (fun z => z + (r1 + r0) / w))) (Z.of_nat n, p, q)).
  { apply product_represents; [exact Hz|]. intros y Hy. apply jcall_some in Hy. destruct Hy as [-> _]. rewrite shift_plain by exact C4. rewrite C1, C2, C3. replace (1 + Z.of_nat n)%Z with (Z.of_nat (S n)) by lia. split; [apply (jacobi_D mass Hm true); lra|].
    split; [intros g h g' h' E X1 X2 v; destruct (E v) as (e & He & Ee); exists e; split; [apply (is_derive_ext g); [exact X1|exact He]|rewrite <- X1, <- X2; exact Ee]|].
    split; [intros v; exists 0; split; [apply @is_derive_const|ring]|].
    split; [intros g h g' h' E E' v; destruct (E v) as (e & He & Ee), (E' v) as (e' & He' & Ee'); exists (e + e'); split; [apply @is_derive_plus; assumption|rewrite Ee, Ee'; ring]
           |intros c g h E v; destruct (E v) as (e & He & Ee); exists (c * e); split; [apply is_derive_scal; exact He|rewrite Ee; ring]]. }
  assert (HK : represents_at fam (omatmul K AB) (multiplied (fun _ => 1 + p - a + order_shift dl l)) (Z.of_nat n, p, q)).
  { refine (represents_weaken _ _ _ _ _ (product_represents fam K AB (multiplied (fun _ => 1 + p - a + order_shift dl l)) (multiplied (fun _ => 1)) _ (AB_represents n p q Hn Hp Hq) _) _).
    - intros y Hy. apply jcall_some in Hy. destruct Hy as [-> _]. split; [|apply multiplied_linear]. rewrite shift_plain by reflexivity. change (dn (cod AB) + Z.of_nat n)%Z with (Z.of_nat n). cbn [AB omatmul cod A_op B_op jadd flip da db].
      change (1 + 0)%Z with 1%Z. change (0 + 1)%Z with 1%Z.
      assert (Hx : admissible (Z.of_nat n, 1 + p, 1 + q)) by (cbn; lra).
      pose proof (number_represents K1 (order_shift dl l) _ _ K Hx (number_represents A_zero (- a) _ _ K1 Hx (A_zero_represents n (1 + p) (1 + q) ltac:(lra) ltac:(lra)) EK1) EK) as HH.
      refine (represents_weaken _ _ _ _ _ HH _). intros g h E v. rewrite E. ring.
    - intros g h (u & E1 & E2) v. rewrite E2, E1. ring. }
  pose proof (scale_represents fam (-1) _ _ _ HK) as HN. pose proof (sum_represents fam _ _ _ _ _ _ (fam_unsized mass true) Et HN HD) as HT. pose proof (scale_represents fam (1 / w) _ _ _ HT) as HF.
  refine (represents_weaken_at _ _ _ _ _ HF _). intros j h (u & (u1 & u2 & (u3 & E1 & E2) & (u4 & E3 & E4) & E5) & E6) v.
  pose proof (fam_derive mass true (Z.of_nat n) p q j v) as Hg. set (g := fam (Z.of_nat n, p, q) j) in *. set (e := slope j p q v / nf mass true j p q) in *. exists e. split; [exact Hg|].
  destruct (E4 v) as (e' & He & Ee). rewrite E6, E5, E2, E1, Ee.
  assert (E7 : e' = g v + (v + (r1 + r0) / w) * e).
  { apply is_derive_unique in He. rewrite <- He. apply is_derive_unique. apply (is_derive_ext (fun z => (z + (r1 + r0) / w) * g z)); [intros z'; symmetry; apply E3|].
    assert (Hl : is_derive (fun z => z + (r1 + r0) / w) v 1) by (auto_derive; [trivial|ring]). pose proof (is_derive_mult _ g v _ _ Hl Hg Rmult_comm) as Hmul. eapply eq_rect; [exact Hmul|]. change (1 * g v + (v + (r1 + r0) / w) * e = g v + (v + (r1 + r0) / w) * e). ring. }
  rewrite E7. ring.
Qed.
Lemma spulled s o o' L L' n k : represents_at fam o L (n, k + a, k + b) -> flip (cod o) = false -> flip (cod o') = false -> dn (cod o') = dn (cod o) -> da (cod o) = da (cod o') -> db (cod o) = da (cod o') -> db (cod o') = 0%Z ->
  -1 < IZR (da (cod o')) + k -> linear (L' (n, k, 0)) ->
  (fn o' (n, k, 0) = match at_k a b o (n, k, 0) with Some M => Some (mscale Rmult s M) | None => None end \/ (s = 1 /\ fn o' (n, k, 0) = at_k a b o (n, k, 0))) ->
  (forall j h, L (n, k + a, k + b) (unit_polynomial mass j (k + a) (k + b)) h -> L' (n, k, 0) (sf (n, k, 0) j) (fun r => Rpower (w / r) (IZR (da (cod o')) + k) * s * h (native r))) ->
  represents_at sf o' L' (n, k, 0).
Proof.
  intros (y & M & Ey & EM & Hr & Hc & H) F1 F2 E1 E2 E3 E4 Hk [Hx _] Hf HL. apply jcall_some in Ey. destruct Ey as [Ey _].
  assert (Ec : shift (cod o') (n, k, 0) = ((dn (cod o') + n)%Z, IZR (da (cod o')) + k, 0)) by (rewrite shift_plain by exact F2; rewrite E4; repeat f_equal; lra).
  assert (Eo : y = ((dn (cod o') + n)%Z, IZR (da (cod o')) + (k + a), IZR (da (cod o')) + (k + b))) by (rewrite Ey, shift_plain by exact F1; rewrite E1, E2, E3; reflexivity).
  assert (Es : size (shift (cod o') (n, k, 0)) = size y) by (rewrite Ec, Eo; reflexivity).
  assert (HM : exists M', fn o' (n, k, 0) = Some M' /\ nr M' = nr M /\ nc M' = nc M /\ forall i j, at_ M' i j = s * at_ M i j).
  { unfold at_k in Hf. rewrite EM in Hf. destruct Hf as [Hf|[-> Hf]]; rewrite Hf; eexists; (split; [reflexivity|]); (split; [reflexivity|]); (split; [reflexivity|]); intros; cbn; ring. }
  destruct HM as (M' & EM' & Hr' & Hc' & Ha'). exists (shift (cod o') (n, k, 0)), M'. split; [apply jcall_some; split; [reflexivity|rewrite Ec; cbn; lra]|]. split; [exact EM'|]. split; [rewrite Es, Hr'; exact Hr|]. split; [rewrite Hc'; exact Hc|].
  intros j Hj. refine (Hx _ _ _ _ (HL j _ (H j Hj)) (fun v => eq_refl) _). intros r. unfold combination. rewrite Es. rewrite <- Rtotal_scale. apply Rtotal_ext. intros i _. rewrite Ec, Eo, Ha'. cbn [sf family unit_family].
  replace (a + (IZR (da (cod o')) + k)) with (IZR (da (cod o')) + (k + a)) by ring. replace (b + (IZR (da (cod o')) + k)) with (IZR (da (cod o')) + (k + b)) by ring. ring.
Qed.
Lemma unit_ex j p q z : exists e, is_derive (unit_polynomial mass j p q) z e.
Proof. eexists. exact (fam_derive mass true 0%Z p q j z). Qed.
Lemma sf_derive n k j r e : 0 < r -> is_derive (unit_polynomial mass j (k + a) (k + b)) (native r) e ->
  is_derive (sf (n, k, 0) j) r (Rpower (w / r) k * (- k / r * unit_polynomial mass j (k + a) (k + b) (native r) + 2 / w * e)).
Proof.
  intros Hr He. pose proof w_pos as Hw. set (P := unit_polynomial mass j (k + a) (k + b)) in *.
  assert (D1 : is_derive (fun r => Rpower (w / r) k) r (- k / r * Rpower (w / r) k)).
  { unfold Rpower. auto_derive; [split; [lra|]; split; [exact (inverse_pos r Hr)|trivial]|]. unfold Rdiv. field. split; [lra|exact (Rgt_not_eq _ _ Hw)]. }
  assert (D2 : is_derive (fun r => P (native r)) r (2 / w * e)).
  { apply (is_derive_comp P native r e (2 / w)); [exact He|]. unfold native. auto_derive; [trivial|]. field. lra. }
  pose proof (is_derive_mult (fun r => Rpower (w / r) k) (fun r => P (native r)) r _ _ D1 D2 Rmult_comm) as D3.
  refine (is_derive_ext _ _ _ _ _ _); [|eapply eq_rect; [exact D3|]].
  - intros t. cbn [sf]. rewrite (Rplus_comm a k), (Rplus_comm b k). reflexivity.
  - change (- k / r * Rpower (w / r) k * P (native r) + Rpower (w / r) k * (2 / w * e) = Rpower (w / r) k * (- k / r * P (native r) + 2 / w * e)). ring.
Qed.
Lemma sf_at n k j r : sf (n, k, 0) j r = Rpower (w / r) k * unit_polynomial mass j (k + a) (k + b) (native r).
Proof. cbn [sf]. rewrite (Rplus_comm a k), (Rplus_comm b k). reflexivity. Qed.
Lemma native_shift r : native r + (r1 + r0) / w = 2 * r / w.
Proof. unfold native. pose proof w_pos. field. lra. Qed.
Lemma shell_D_pulled dl l n k : (1 <= n)%nat -> 0 <= k -> represents_at sf (shell_D d r0 r1 a b dl l) (pderive (fun r => - order_shift dl l / r)) (Z.of_nat n, k, 0).
Proof.
  intros Hn Hk. destruct (inner_represents dl l n (k + a) (k + b) Hn ltac:(lra) ltac:(lra)) as (o & Eo & Co & Ho). pose proof w_pos as Hw.
  apply (spulled 1 o _ _ _ _ _ Ho); try (rewrite Co; reflexivity); try reflexivity; try (cbn; lra); [apply pderive_linear|right; split; [reflexivity|]; unfold shell_D; cbn [fn]; rewrite Eo; reflexivity|].
  intros j h Hh r Hr. destruct (Hh (native r)) as (e & He & Ee). eexists. split; [apply sf_derive; [exact Hr|exact He]|]. rewrite Ee, native_shift, sf_at. cbn [shell_D cod da]. rewrite Rpower_S by (apply inverse_pos, Hr). field. lra.
Qed.
Lemma shell_lap_pulled dl1 l1 dl2 l2 n k : (1 <= n)%nat -> 0 <= k -> represents_at sf (omatmul (shell_D d r0 r1 a b dl2 l2) (shell_D d r0 r1 a b dl1 l1))
  (ptwice (fun r => (- order_shift dl1 l1 - order_shift dl2 l2) / r) (fun r => order_shift dl1 l1 * (order_shift dl2 l2 + 1) / r ^ 2)) (Z.of_nat n, k, 0).
Proof.
  intros Hn Hk. refine (represents_weaken _ _ _ _ _ (product_represents sf _ _ (pderive (fun r => - order_shift dl2 l2 / r)) _ _ (shell_D_pulled dl1 l1 n k Hn Hk) _) _).
  - intros y Hy. apply jcall_some in Hy. destruct Hy as [-> _]. split; [|apply pderive_linear]. rewrite shift_plain by reflexivity. cbn [shell_D cod dn da db]. rewrite Z.add_0_l, Rplus_0_l. apply shell_D_pulled; [exact Hn|lra].
  - intros g h (u & G1 & G2). destruct (derive_twice (0%Z, 0, 0) _ _ g u h G1 G2) as (f1 & X1 & X2). exists f1. split; [exact X1|]. intros r Hr. destruct (X2 r Hr) as (e & He & Ee). exists e. split; [exact He|]. rewrite Ee. field. lra.
Qed.
Lemma shell_E_pulled n k : (1 <= n)%nat -> 0 <= k -> exists E, shell_E r0 r1 a b = Some E /\ cod E = Jcod 1 1 0 false /\ represents_at sf E (ptimes (fun _ => 1)) (Z.of_nat n, k, 0).
Proof.
  intros Hn Hk. destruct (shifted_represents n (k + a) (k + b) Hn ltac:(lra) ltac:(lra)) as (z & Ez & C1 & C2 & C3 & C4 & Hz). pose proof w_pos as Hw. unfold shell_E. rewrite Ez. cbn [obind]. eexists. split; [reflexivity|]. split; [reflexivity|].
  assert (HE : represents_at fam (omatmul AB z) (multiplied (fun z => z + (r1 + r0) / w)) (Z.of_nat n, k + a, k + b)).
  { refine (represents_weaken _ _ _ _ _ (product_represents fam AB z (multiplied (fun _ => 1)) _ _ Hz _) _).
    - intros y Hy. apply jcall_some in Hy. destruct Hy as [-> _]. split; [|apply multiplied_linear]. rewrite shift_plain by exact C4. rewrite C1, C2, C3. replace (1 + Z.of_nat n)%Z with (Z.of_nat (S n)) by lia. apply AB_represents; [lia|lra..].
    - intros g h (u & E1 & E2) v. rewrite E2, E1. ring. }
  assert (CE : cod (omatmul AB z) = Jcod 1 1 1 false) by (cbn [omatmul cod]; clear - C1 C2 C3 C4; destruct (cod z); cbn in *; subst; reflexivity).
  apply (spulled (1 / 2) (omatmul AB z) _ _ _ _ _ HE); try (rewrite CE; reflexivity); try reflexivity; try (cbn; lra); [apply ptimes_linear|left; reflexivity|].
  intros j h Hh r Hr. rewrite (Hh (native r)), native_shift, sf_at. cbn [cod da]. rewrite Rpower_S by (apply inverse_pos, Hr). field. lra.
Qed.
Lemma shell_AB_pulled n k : (1 <= n)%nat -> 0 <= k -> represents_at sf (shell_AB a b) (ptimes (fun r => w / r)) (Z.of_nat n, k, 0).
Proof.
  intros Hn Hk. apply (spulled 1 AB _ _ _ _ _ (AB_represents n (k + a) (k + b) Hn ltac:(lra) ltac:(lra))); try reflexivity; try (cbn; lra); [apply ptimes_linear|right; split; reflexivity|].
  intros j h Hh r Hr. rewrite (Hh (native r)), sf_at. cbn [shell_AB cod da]. rewrite Rpower_S by (apply inverse_pos, Hr). ring.
Qed.
Lemma shell_R_pulled n k : (1 <= n)%nat -> 0 <= k -> exists o, shell_R r0 r1 a b = Some o /\ cod o = Jcod 1 0 0 false /\ represents_at sf o (ptimes (fun r => r)) (Z.of_nat n, k, 0).
Proof.
  intros Hn Hk. destruct (shifted_represents n (k + a) (k + b) Hn ltac:(lra) ltac:(lra)) as (z & Ez & C1 & C2 & C3 & C4 & Hz). pose proof w_pos as Hw. unfold shell_R. rewrite Ez. cbn [obind]. eexists. split; [reflexivity|]. split; [reflexivity|].
  apply (spulled (1 / 2 * w) z _ _ _ _ _ Hz); try (rewrite ?C1, ?C2, ?C3, ?C4; reflexivity); try reflexivity; try (cbn; lra); [apply ptimes_linear|left; reflexivity|].
  intros j h Hh r Hr. rewrite (Hh (native r)), native_shift, sf_at. cbn [cod da]. replace (IZR 0 + k) with k by lra. field. lra.
Qed.
Lemma shell_Z_pulled n k : (1 <= n)%nat -> 0 <= k -> exists z, Z_op true = Some z /\ represents_at sf (Op (at_k a b z) (Jcod 1 0 0 false)) (ptimes native) (Z.of_nat n, k, 0).
Proof.
  intros Hn Hk. destruct (jacobi_Z mass Hm n (k + a) (k + b) Hn ltac:(lra) ltac:(lra)) as (z & Ez & Hz). destruct (Z_cod z Ez) as (C1 & C2 & C3 & C4). exists z. split; [exact Ez|].
  apply (spulled 1 z _ _ _ _ _ Hz); try (rewrite ?C1, ?C2, ?C3, ?C4; reflexivity); try reflexivity; try (cbn; lra); [apply ptimes_linear|right; split; reflexivity|].
  intros j h Hh r Hr. rewrite (Hh (native r)), sf_at. cbn [cod da]. replace (IZR 0 + k) with k by lra. ring.
Qed.
Lemma power_represents o w n k dk (c : Z) : cod o = Jcod c 1 0 false -> (0 <= c)%Z -> (1 <= n)%nat -> (forall n k, (1 <= n)%nat -> 0 <= k -> represents_at sf o (ptimes w) (Z.of_nat n, k, 0)) -> 0 <= k ->
  cod (opow o dk) = Jcod (Z.of_nat dk * c) (Z.of_nat dk) 0 false /\ represents_at sf (opow o dk) (ptimes (fun r => w r ^ dk)) (Z.of_nat n, k, 0).
Proof.
  intros Hc Hc0 Hn H Hk. split; [rewrite (pow_cod o (Jcod c 1 0 false) _ Hc eq_refl); cbn [dn da db]; f_equal; lia|].
  assert (X : forall i, represents_at sf o (ptimes w) (iterated i (shift (cod o)) (Z.of_nat n, k, 0))).
  { intros i. rewrite iterate_shift by (rewrite Hc; reflexivity). rewrite Hc. cbn [dn da db]. replace (Z.of_nat i * c + Z.of_nat n)%Z with (Z.of_nat (i * Z.to_nat c + n)) by lia. rewrite Z.mul_1_r, Z.mul_0_r, <- INR_IZR_INZ, Rplus_0_l. pose proof (pos_INR i). apply H; [lia|lra]. }
  apply power_times; [cbn; lra|exact (X 0%nat)|intros i _; apply X].
Qed.
Lemma sf_independent n k : 0 <= k -> independent sf (n, k, 0).
Proof.
  intros Hk m c H. pose proof w_pos as Hw. assert (Hs : - ((r1 + r0) / w) < 1) by (assert (0 < (r1 + r0) / w) by (apply Rdiv_lt_0_compat; lra); lra).
  apply (unit_independent_above mass Hm _ m (k + a) (k + b) c Hs ltac:(lra) ltac:(lra)). intros z Hz. set (r := w / 2 * (z + (r1 + r0) / w)). assert (Hr : 0 < r) by (apply Rmult_lt_0_compat; lra). specialize (H r Hr).
  assert (En : native r = z) by (unfold native, r; field; lra). unfold series in H. rewrite (Rtotal_ext m _ (fun n => Rpower (w / r) k * (c n * unit_polynomial mass n (k + a) (k + b) z))) in H by (intros i _; rewrite sf_at, En; ring).
  rewrite Rtotal_scale in H. apply Rmult_integral in H. destruct H as [H|H]; [|exact H]. pose proof (exp_pos (k * ln (w / r))). unfold Rpower in H. lra.
Qed.
Lemma sf_shell n k i r : 0 < r -> sf (n, INR k, 0) i r = shell_function mass r0 r1 a b k i r.
Proof. intros Hr. cbn [sf]. unfold shell_function, native. rewrite Rpower_pow by (apply inverse_pos, Hr). reflexivity. Qed.
Lemma series_shell n k m c r : 0 < r -> series m c (sf (n, INR k, 0)) r = series m c (shell_function mass r0 r1 a b k) r.
Proof. intros Hr. apply Rtotal_ext. intros i _. rewrite sf_shell by exact Hr. reflexivity. Qed.
End Shell.

(** ** Statements about sums *)
Section Sums.
Context (f : domain -> nat -> R -> R).
Lemma series_same n c (p q : nat -> R -> R) r : (forall i, p i r = q i r) -> series n c p r = series n c q r.
Proof. intros H. apply Rtotal_ext. intros i _. rewrite H. reflexivity. Qed.
Lemma near r (P : R -> Prop) : 0 < r -> (forall t, 0 < t -> P t) -> locally r P.
Proof. intros Hr H. apply (filter_imp (fun t => 0 < t)); [exact H|]. apply open_gt. exact Hr. Qed.
Lemma derives_of o p p' n a b phi psi : represents_at f o (pderive p) (Z.of_nat n, a, b) -> (dn (cod o) <= 0)%Z ->
  (forall i r, 0 < r -> f (Z.of_nat n, a, b) i r = phi i r) -> (forall i r, 0 < r -> f (shift (cod o) (Z.of_nat n, a, b)) i r = psi i r) -> (forall r, 0 < r -> p r = p' r) ->
  derives n (squared o (Z.of_nat n, a, b)) phi psi p'.
Proof.
  intros H Hd E1 E2 E3. destruct (squared_sum f _ _ _ _ _ H (pderive_linear p _) Hd) as (M & EM & Hr & Hc & HM). exists M. repeat (split; [assumption|]). intros c r Hr0. destruct (HM c r Hr0) as (e & He & Ee). exists e. split.
  - apply (is_derive_ext_loc (series n c (f (Z.of_nat n, a, b)))); [|exact He]. apply near; [exact Hr0|]. intros t Ht. apply series_same. intros i. apply E1, Ht.
  - rewrite <- (series_same n c (f (Z.of_nat n, a, b)) phi r (fun i => E1 i r Hr0)), <- E3 by exact Hr0. rewrite <- Ee. apply series_same. intros i. symmetry. apply E2, Hr0.
Qed.
Lemma twice_of o p q p' q' n a b phi psi : represents_at f o (ptwice p q) (Z.of_nat n, a, b) -> (dn (cod o) <= 0)%Z ->
  (forall i r, 0 < r -> f (Z.of_nat n, a, b) i r = phi i r) -> (forall i r, 0 < r -> f (shift (cod o) (Z.of_nat n, a, b)) i r = psi i r) -> (forall r, 0 < r -> p r = p' r /\ q r = q' r) ->
  derives_twice n (squared o (Z.of_nat n, a, b)) phi psi p' q'.
Proof.
  intros H Hd E1 E2 E3. destruct (squared_sum f _ _ _ _ _ H (ptwice_linear p q _) Hd) as (M & EM & Hr & Hc & HM). exists M. repeat (split; [assumption|]). intros c. destruct (HM c) as (f1 & D1 & D2). exists f1. split.
  - intros r Hr0. apply (is_derive_ext_loc (series n c (f (Z.of_nat n, a, b)))); [|exact (D1 r Hr0)]. apply near; [exact Hr0|]. intros t Ht. apply series_same. intros i. apply E1, Ht.
  - intros r Hr0. destruct (D2 r Hr0) as (e & He & Ee). exists e. split; [exact He|]. destruct (E3 r Hr0) as [<- <-].
    rewrite <- (series_same n c (f (Z.of_nat n, a, b)) phi r (fun i => E1 i r Hr0)). rewrite <- Ee. apply series_same. intros i. symmetry. apply E2, Hr0.
Qed.
Lemma multiplies_of o w w' n m a b phi psi : unsized f -> (1 <= n)%nat -> (forall k, (1 <= k)%nat -> represents_at f o (ptimes w) (Z.of_nat k, a, b)) -> dn (cod o) = Z.of_nat m -> independent f (shift (cod o) (Z.of_nat n, a, b)) ->
  (forall i r, 0 < r -> f (Z.of_nat n, a, b) i r = phi i r) -> (forall i r, 0 < r -> f (shift (cod o) (Z.of_nat n, a, b)) i r = psi i r) -> (forall r, 0 < r -> w r = w' r) ->
  multiplies n m (squared o (Z.of_nat n, a, b)) phi psi w'.
Proof.
  intros Hu Hn H Hd Hi E1 E2 E3. destruct (squared_cut f o w n m a b Hu Hn H Hd Hi) as (M & EM & Hr & Hc & HM). exists M. repeat (split; [assumption|]). intros c Hz r Hr0. rewrite <- E3 by exact Hr0.
  rewrite <- (series_same n c (f (Z.of_nat n, a, b)) phi r (fun i => E1 i r Hr0)). rewrite <- (HM c Hz r Hr0). apply series_same. intros i. symmetry. apply E2, Hr0.
Qed.
End Sums.
(** Two ways to the same operator. *)
Lemma derives_both n A B C D phi psi chi omega s t s' t' : derives n (Some A) phi psi (fun r => s / r) -> derives n (Some B) psi omega (fun r => t / r) -> derives n (Some C) phi chi (fun r => s' / r) -> derives n (Some D) chi omega (fun r => t' / r) ->
  s + t = s' + t' -> s * (t - 1) = s' * (t' - 1) -> (forall c, (forall r, 0 < r -> series n c omega r = 0) -> forall i, (i < n)%nat -> c i = 0) ->
  forall c i, (i < n)%nat -> image B (image A c) i = image D (image C c) i.
Proof.
  intros (A' & EA & _ & _ & HA) (B' & EB & _ & _ & HB) (C' & EC & _ & _ & HC) (D' & ED & _ & _ & HD) E1 E2 Hi c i Hlt. injection EA as <-. injection EB as <-. injection EC as <-. injection ED as <-.
  assert (G : image B (image A c) i + -1 * image D (image C c) i = 0); [|lra]. apply (Hi (fun i => image B (image A c) i + -1 * image D (image C c) i)); [|exact Hlt]. intros r Hr. unfold series.
  rewrite (Rtotal_ext n _ (fun i => image B (image A c) i * omega i r + -1 * (image D (image C c) i * omega i r))) by (intros; ring). rewrite Rtotal_add, Rtotal_scale. fold (series n (image B (image A c)) omega r) (series n (image D (image C c)) omega r).
  assert (X : forall A B psi s t, (forall c r, 0 < r -> exists e, is_derive (series n c phi) r e /\ series n (image A c) psi r = e + s / r * series n c phi r) -> (forall c r, 0 < r -> exists e, is_derive (series n c psi) r e /\ series n (image B c) omega r = e + t / r * series n c psi r) ->
    ptwice (fun r => (s + t) / r) (fun r => s * (t - 1) / r ^ 2) (0%Z, 0, 0) (series n c phi) (series n (image B (image A c)) omega)).
  { clear. intros A B psi s t H1 H2. apply (derive_twice (0%Z, 0, 0) s t _ (series n (image A c) psi)); [intros r Hr; apply H1, Hr|intros r Hr; apply H2, Hr]. }
  destruct (X _ _ _ _ _ HA HB) as (f1 & F1 & F2). destruct (X _ _ _ _ _ HC HD) as (g1 & G1 & G2). rewrite <- E1, <- E2 in G2.
  assert (Ef : forall t, 0 < t -> f1 t = g1 t) by (intros x Hx; rewrite <- (is_derive_unique _ _ _ (F1 x Hx)); exact (is_derive_unique _ _ _ (G1 x Hx))).
  destruct (F2 r Hr) as (e & He & Ee), (G2 r Hr) as (e' & He' & Ee'). rewrite Ee, Ee', (Ef r Hr).
  assert (@eq R e e'); [|rewrite H; ring]. rewrite <- (is_derive_unique _ _ _ He), <- (is_derive_unique _ _ _ He'). apply Derive_ext_loc. apply near; assumption.
Qed.
Lemma derives_twice_both n A B L phi psi omega s t p q : derives n (Some A) phi psi (fun r => s / r) -> derives n (Some B) psi omega (fun r => t / r) -> derives_twice n (Some L) phi omega p q ->
  (forall r, 0 < r -> p r = (s + t) / r /\ q r = s * (t - 1) / r ^ 2) -> (forall c, (forall r, 0 < r -> series n c omega r = 0) -> forall i, (i < n)%nat -> c i = 0) ->
  forall c i, (i < n)%nat -> image L c i = image B (image A c) i.
Proof.
  intros (A' & EA & _ & _ & HA) (B' & EB & _ & _ & HB) (L' & EL & _ & _ & HL) E Hi c i Hlt. injection EA as <-. injection EB as <-. injection EL as <-.
  assert (G : image L c i + -1 * image B (image A c) i = 0); [|lra]. apply (Hi (fun i => image L c i + -1 * image B (image A c) i)); [|exact Hlt]. intros r Hr. unfold series.
  rewrite (Rtotal_ext n _ (fun i => image L c i * omega i r + -1 * (image B (image A c) i * omega i r))) by (intros; ring). rewrite Rtotal_add, Rtotal_scale. fold (series n (image B (image A c)) omega r) (series n (image L c) omega r).
  destruct (derive_twice (0%Z, 0, 0) s t (series n c phi) (series n (image A c) psi) (series n (image B (image A c)) omega) (fun r Hr => HA c r Hr) (fun r Hr => HB _ r Hr)) as (f1 & F1 & F2). destruct (HL c) as (g1 & G1 & G2).
  assert (Ef : forall t, 0 < t -> f1 t = g1 t) by (intros x Hx; rewrite <- (is_derive_unique _ _ _ (F1 x Hx)); exact (is_derive_unique _ _ _ (G1 x Hx))).
  destruct (F2 r Hr) as (e & He & Ee), (G2 r Hr) as (e' & He' & Ee'). destruct (E r Hr) as [Ep Eq]. rewrite Ee, Ee', (Ef r Hr), Ep, Eq.
  assert (@eq R e e'); [|rewrite H; ring]. rewrite <- (is_derive_unique _ _ _ He), <- (is_derive_unique _ _ _ He'). apply Derive_ext_loc. apply near; assumption.
Qed.
Lemma derives_same n M phi psi p p' : (forall r, 0 < r -> p r = p' r) -> derives n M phi psi p -> derives n M phi psi p'.
Proof. intros E (A & EA & H1 & H2 & H). exists A. repeat (split; [assumption|]). intros c r Hr. rewrite <- E by exact Hr. apply H, Hr. Qed.
