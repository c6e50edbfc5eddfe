(** Spin-weighted spherical harmonics: the properties. *)
From Coq Require Import List ZArith Reals Bool Lia Lra.
Import ListNotations.
From Coquelicot Require Import Coquelicot.
From Verif Require Import CSR_Spec MatSolvers_Proofs Codomain_Proofs JacobiCalc_Model JacobiCalc_Spec JacobiCalc_Proofs JacobiCalc_Ops Radial_Model GaussTransforms_Spec GaussTransforms_Proofs GaussTransforms_Props Integrals_Proofs SphereOps_Spec Sphere_Model Sphere_Spec Sphere_Proofs Sphere_Props Harmonics_Model Harmonics_Spec Harmonics_Proofs.
Local Open Scope R_scope.

Section Mass.
Context (mass : R -> R -> R) (Hm : true_mass mass).
Notation Y := (harmonic mass).

(** ** Jacobi polynomials *)
(** The polynomials that the library builds are orthonormal for the weight [(1-z)^a (1+z)^b]: every natural [a] and [b]. *)
Theorem polynomials_orthonormal a b i j : RInt (fun z => weight_function a b z * unit_polynomial mass i (INR a) (INR b) z * unit_polynomial mass j (INR a) (INR b) z) (-1) 1 = delta i j.
Proof. apply (unit_orthonormal mass Hm). Qed.
(** So points and weights that integrate the polynomials of degree below [2 n] with that weight are as the transforms of disks and
    intervals need them ([gauss]). *)
Theorem gauss_natural n a b q : length q = n -> (forall z w, In (z, w) q -> -1 < z < 1) ->
  (forall p, polynomial (2 * n) p -> weighted_sum q p = RInt (fun z => weight_function a b z * p z) (-1) 1) -> gauss mass n (INR a) (INR b) q.
Proof.
  intros H1 H2 H3. apply (gauss_of_exact mass n (INR a) (INR b) q (fun p => RInt (fun z => weight_function a b z * p z) (-1) 1) H1 H2 H3). intros l i j. unfold orthonormal. rewrite <- (unit_orthonormal mass Hm a (b + l) i j). apply Rint_ext. intros z. rewrite <- plus_INR. unfold weight_function. rewrite pow_add. ring.
Qed.

(** ** Harmonics *)
(** The rows that [harmonics] returns are the harmonics of the degrees from the lowest to the largest, also at the poles. *)
Theorem harmonics_values Lmax m s z : -1 <= z <= 1 -> harmonics mass Lmax m s z = Some (map (fun k => Y m s (lowest m s + Z.of_nat k) z) (seq 0 (Z.to_nat (Lmax + 1 - lowest m s)))).
Proof. apply (harmonics_some mass Hm). Qed.
(** They are orthonormal. *)
Theorem harmonics_orthonormal m s l l' : (lowest m s <= l)%Z -> (lowest m s <= l')%Z -> RInt (fun z => Y m s l z * Y m s l' z) (-1) 1 = if (l =? l')%Z then 1 else 0.
Proof. apply (harmonic_integral mass Hm). Qed.
(** The opposite order and spin. *)
Theorem harmonics_conjugate m s l z : Y (- m) (- s) l z = (if Z.even (m + s) then 1 else -1) * Y m s l z.
Proof. apply conjugate. Qed.
(** Derivatives: less or plus [(m + s cos)/sin] times the harmonic, they are the harmonics of next and previous spin, with the
    factors that the operators on spheres use ([raising], [lowering]). *)
Theorem harmonics_raised m s l th : (lowest m s <= l)%Z -> 0 < th < PI ->
  is_derive (fun t => Y m s l (cos t)) th ((IZR m + IZR s * cos th) / sin th * Y m s l (cos th) + sqrt 2 * raising l s * Y m (s + 1) l (cos th)).
Proof. intros Hl Ht. apply (raised mass Hm th Ht m s l Hl). Qed.
Theorem harmonics_lowered m s l th : (lowest m s <= l)%Z -> 0 < th < PI ->
  is_derive (fun t => Y m s l (cos t)) th (- ((IZR m + IZR s * cos th) / sin th) * Y m s l (cos th) + sqrt 2 * lowering l s * Y m (s - 1) l (cos th)).
Proof.
  intros Hl Ht. assert (Hl' : (lowest (- m) (- s) <= l)%Z) by (unfold lowest in *; lia). pose proof (raised mass Hm th Ht (- m) (- s) l Hl') as D. pose proof (is_derive_scal _ th (sgn (m + s)) _ D) as D'.
  replace (- s + 1)%Z with (- (s - 1))%Z in D' by lia. rewrite !conjugate in D'. pose proof (sgn_square (m + s)) as Q. assert (F : sgn (m + s) = - sgn (m + (s - 1))) by (rewrite <- sgn_succ; f_equal; lia).
  apply (is_derive_ext (fun t => sgn (m + s) * Y (- m) (- s) l (cos t))); [intros t; rewrite conjugate; on_R; rewrite <- Rmult_assoc, Q; ring|]. eapply eq_ind; [exact D'|]. on_R. rewrite !opp_IZR.
  assert (R : raising l (- s) = - lowering l s) by (unfold raising, lowering; do 4 f_equal; lia). rewrite R. pose proof (sgn_square (m + (s - 1))) as Q'.
  set (h := Y m s l (cos th)). set (h' := Y m (s - 1) l (cos th)). set (g := sgn (m + s)) in *. set (g' := sgn (m + (s - 1))) in *. set (w := sqrt 2 * lowering l s).
  transitivity (g * g * ((- IZR m + - IZR s * cos th) / sin th * h) - g * g' * (w * h')); [unfold w; ring|]. rewrite Q. replace (g * g') with (-1) by (rewrite F; lra). unfold w, Rdiv. ring.
Qed.

(** ** Colatitude transforms *)
Context (quadrature : nat -> R -> R -> list (R * R)).
Section Grid.
Context (d : dtype) (Nphi Ntheta Ng c0 n : nat) (Hg : good_resolution d Nphi) (H0 : (0 < Ntheta)%nat) (HN : (Nphi <= 2 * Ntheta)%nat) (HNg : (0 < Ng)%nat) (HNg2 : (Nphi <= 2 * Ng)%nat) (Hn : (c0 + n <= pieces d Nphi)%nat).
Notation q := (quadrature Ng 0 0).
Context (Hq : gauss_legendre Ng q).
Notation L := (top_degree d Ntheta).
Lemma grid_of : sphere_quadrature quadrature (Z.of_nat Ng - 1) = q.
Proof. unfold sphere_quadrature. replace (Z.to_nat (Z.of_nat Ng - 1 + 1)) with Ng by lia. reflexivity. Qed.
Lemma grid_point t : (t < Ng)%nat -> cos_grid quadrature Ng t = point q t /\ grid_weight quadrature Ng t = weight q t /\ -1 < point q t < 1.
Proof.
  intros Ht. unfold cos_grid, grid_weight. rewrite grid_of. split; [reflexivity|]. split; [reflexivity|]. destruct Hq as (HL & Hin & _). unfold point. apply (Hin _ (weight q t)). unfold weight. rewrite <- surjective_pairing. apply nth_In. lia.
Qed.
Lemma value_on_grid m s ell t : (t < Ng)%nat -> (lowest m s <= ell <= Z.of_nat L)%Z -> harmonic_value mass quadrature (Lmax d Ntheta) Ng m s ell t = Y m s ell (point q t).
Proof.
  intros Ht He. assert (Hp : (0 <= lowest m s)%Z) by (unfold lowest; lia). destruct (grid_point t Ht) as (E & _ & Hz). unfold harmonic_value. rewrite E, (harmonics_some mass Hm) by lra. change (Lmax d Ntheta) with L. fold (lowest m s). set (k := Z.to_nat (ell - lowest m s)). set (N := Z.to_nat _). assert (Hk : (k < N)%nat) by (unfold k, N; lia).
  rewrite (nth_indep _ 0 (Y m s (lowest m s + Z.of_nat 0) (point q t))) by (rewrite map_length, seq_length; exact Hk). rewrite (map_nth (fun k => Y m s (lowest m s + Z.of_nat k) (point q t))), seq_nth by exact Hk. f_equal. unfold k. lia.
Qed.
(** The points pick the coefficients of a sum of harmonics. *)
Lemma project m s ell N c : (lowest m s <= ell < Z.of_nat Ng)%Z -> (N <= Ng)%nat ->
  total Ng (fun t => Y m s ell (point q t) * weight q t * harmonic_sum mass m s N c (point q t)) = if (ell <? Z.of_nat N)%Z then c (Z.to_nat ell) else 0.
Proof.
  intros He HNn. destruct Hq as (HL & _). assert (Hp : (0 <= lowest m s)%Z) by (unfold lowest; lia).
  transitivity (total N (fun l => if (lowest m s <=? Z.of_nat l)%Z then c l * (if (ell =? Z.of_nat l)%Z then 1 else 0) else 0)).
  - transitivity (total N (fun l => total Ng (fun t => Y m s ell (point q t) * weight q t * (if (lowest m s <=? Z.of_nat l)%Z then c l * Y m s (Z.of_nat l) (point q t) else 0)))).
    + rewrite (MatSolvers_Proofs.total_swap 0 1 Rplus Rmult Rminus Rdiv Ropp Rinv Rf). apply Rtotal_ext. intros t Ht. unfold harmonic_sum. rewrite <- Rtotal_scale. reflexivity.
    + apply Rtotal_ext. intros l Hl. destruct (Z.leb_spec (lowest m s) (Z.of_nat l)) as [H|H]; [|apply Rtotal_zero; intros t Ht; ring].
      rewrite <- (harmonic_points mass Hm Ng q m s ell (Z.of_nat l) Hq He ltac:(lia)). rewrite weighted_total, HL, <- Rtotal_scale. apply Rtotal_ext. intros t Ht. ring.
  - destruct (Z.ltb_spec ell (Z.of_nat N)) as [H|H].
    + rewrite (Rtotal_single N (Z.to_nat ell)).
      * destruct (Z.leb_spec (lowest m s) (Z.of_nat (Z.to_nat ell))); [|lia]. destruct (Z.eqb_spec ell (Z.of_nat (Z.to_nat ell))); [ring|lia].
      * lia.
      * intros l Hl Hne. destruct (Z.leb_spec (lowest m s) (Z.of_nat l)); [|reflexivity]. destruct (Z.eqb_spec ell (Z.of_nat l)); [lia|ring].
    + apply Rtotal_zero. intros l Hl. destruct (Z.leb_spec (lowest m s) (Z.of_nat l)); [|reflexivity]. destruct (Z.eqb_spec ell (Z.of_nat l)); [lia|ring].
Qed.
(** The backward transform: every row of the grid has the values of the sum of harmonics with the coefficients of its order and part,
    of the degrees that the grid has points for. *)
Theorem colatitude_values s c : exists g, colatitude_backward mass quadrature d Nphi Ntheta Ng c0 n s c = Some g
  /\ forall x, (x < half_chunk d Nphi * n)%nat -> exists m, (forall t, fst (half_group d Nphi (half_chunk d Nphi * c0 + x) t) = m)
  /\ exists row col : nat -> nat, (forall ell, (Z.abs m <= Z.of_nat ell)%Z -> (ell <= L)%nat ->
        (row ell < coeff_chunk d * n)%nat /\ (col ell < columns d Nphi Ntheta)%nat /\ (row ell mod parts d = x mod parts d)%nat /\ coeff_group d Nphi Ntheta (coeff_chunk d * c0 + row ell) (col ell) = (m, Z.of_nat ell))
     /\ forall t, (t < Ng)%nat -> g x t = harmonic_sum mass m s (Nat.min (L + 1) Ng) (fun ell => c (row ell) (col ell)) (point q t).
Proof.
  destruct (sphere_backward 0 1 Rplus Rmult Rminus Rdiv Ropp Rinv Rf (harmonic_value mass quadrature (Lmax d Ntheta) Ng) (grid_weight quadrature Ng) d Nphi Ntheta Ng c0 n s c Hg H0 HN HNg HNg2 Hn) as (g & E & G). exists g. split; [exact E|].
  intros x Hx. destruct (G x Hx) as (m & Ho & row & col & Hrc & Hv). exists m. split; [exact Ho|]. exists row, col. split; [exact Hrc|]. intros t Ht. rewrite Hv. unfold harmonic_sum. clear Hv.
  set (F := fun l => if (l <? Ng)%nat then if (lowest m s <=? Z.of_nat l)%Z then c (row l) (col l) * Y m s (Z.of_nat l) (point q t) else 0 else 0). transitivity (total (L + 1) F).
  - apply Rtotal_ext. intros l Hl. unfold F. destruct (Nat.ltb_spec l Ng) as [H1|H1]; [|rewrite andb_false_r; reflexivity]. rewrite andb_true_r. destruct (Z.leb_spec (lowest m s) (Z.of_nat l)) as [H2|H2].
    + rewrite (proj2 (Z.leb_le (Z.abs m) (Z.of_nat l))), (proj2 (Z.leb_le (Z.abs s) (Z.of_nat l))) by (unfold lowest in H2; lia). cbn [andb]. rewrite value_on_grid by (try exact Ht; lia). ring.
    + destruct (Z.leb_spec (Z.abs m) (Z.of_nat l)), (Z.leb_spec (Z.abs s) (Z.of_nat l)); cbn [andb]; try reflexivity. unfold lowest in H2. lia.
  - rewrite (Rtotal_more (Nat.min (L + 1) Ng) (L + 1) F).
    + apply Rtotal_ext. intros l Hl. unfold F. destruct (Nat.ltb_spec l Ng); [reflexivity|lia].
    + lia.
    + intros l Hl. unfold F. destruct (Nat.ltb_spec l Ng); [lia|reflexivity].
Qed.
(** Forward after backward: the coefficients of the degrees that have harmonics of the spin and that the grid has points for. *)
Lemma same_place a b a' b' : (a < coeff_chunk d * n)%nat -> (a' < coeff_chunk d * n)%nat -> (b < columns d Nphi Ntheta)%nat -> (b' < columns d Nphi Ntheta)%nat -> (a mod parts d = a' mod parts d)%nat ->
  coeff_group d Nphi Ntheta (coeff_chunk d * c0 + a) b = coeff_group d Nphi Ntheta (coeff_chunk d * c0 + a') b' -> a = a' /\ b = b'.
Proof.
  change (coeff_chunk d) with (parts d). intros Ha Ha' Hb Hb' Em E. pose proof (parts_pos d) as HP. rewrite !coeff_group_canon in E by (try assumption; nia). rewrite !local_row in E by exact HP.
  pose proof (Nat.div_mod a (parts d) ltac:(lia)) as E1. pose proof (Nat.div_mod a' (parts d) ltac:(lia)) as E2. assert (a / parts d < n)%nat by (apply Nat.div_lt_upper_bound; lia). assert (a' / parts d < n)%nat by (apply Nat.div_lt_upper_bound; lia).
  apply canon_inj in E as (Ea & Eb); try assumption; try lia.
Qed.
Theorem colatitude_round_trip s c : exists g c', colatitude_backward mass quadrature d Nphi Ntheta Ng c0 n s c = Some g /\ colatitude_forward mass quadrature d Nphi Ntheta Ng c0 n s g = Some c'
  /\ forall a b, (a < coeff_chunk d * n)%nat -> (b < columns d Nphi Ntheta)%nat -> let (_, ell) := coeff_group d Nphi Ntheta (coeff_chunk d * c0 + a) b in
       c' a b = if (Z.abs s <=? ell)%Z && (ell <? Z.of_nat Ng)%Z then c a b else 0.
Proof.
  destruct (colatitude_values s c) as (g & E & G). exists g. destruct (sphere_forward 0 1 Rplus Rmult Rminus Rdiv Ropp Rinv Rf (harmonic_value mass quadrature (Lmax d Ntheta) Ng) (grid_weight quadrature Ng) d Nphi Ntheta Ng c0 n s g Hg H0 HN HNg HNg2 Hn) as (c' & E' & F).
  exists c'. split; [exact E|]. split; [exact E'|]. intros a b Ha Hb. specialize (F a b Ha Hb). destruct (coeff_group d Nphi Ntheta (coeff_chunk d * c0 + a) b) as [m ell] eqn:Eg. destruct F as (x & Hx & Hp & Ho & ->).
  destruct (Z.leb_spec (Z.abs s) ell) as [Hs|Hs]; [|reflexivity]. destruct (Z.ltb_spec ell (Z.of_nat Ng)) as [He|He]; [|reflexivity]. cbn [andb].
  destruct (G x Hx) as (m' & Ho' & row & col & Hrc & Hv). assert (m' = m) by (rewrite <- (Ho' 0%nat); apply Ho). subst m'.
  assert (Hmode : (Z.abs m <= ell <= Z.of_nat L)%Z).
  { change (coeff_chunk d) with (parts d) in *. pose proof (sphere_packed d Nphi Ntheta (parts d * c0 + a) b Hg H0 HN) as K. rewrite coeff_shape_rows in K by exact Hg. specialize (K ltac:(pose proof (parts_pos d); nia) Hb). rewrite Eg in K. unfold is_mode in K. lia. }
  assert (Hlow : (lowest m s <= ell)%Z) by (unfold lowest; lia). assert (Hlt : (Z.to_nat ell < Nat.min (L + 1) Ng)%nat) by lia.
  rewrite (Rtotal_ext Ng _ (fun t => Y m s ell (point q t) * weight q t * harmonic_sum mass m s (Nat.min (L + 1) Ng) (fun ell => c (row ell) (col ell)) (point q t))).
  - rewrite project by lia. destruct (Z.ltb_spec ell (Z.of_nat (Nat.min (L + 1) Ng))) as [_|]; [|lia]. destruct (Hrc (Z.to_nat ell) ltac:(lia) ltac:(lia)) as (R1 & R2 & R3 & R4). rewrite Z2Nat.id in R4 by lia.
    destruct (same_place (row (Z.to_nat ell)) (col (Z.to_nat ell)) a b R1 Ha R2 Hb) as (-> & ->); [congruence|congruence|reflexivity].
  - intros t Ht. rewrite Hv by exact Ht. rewrite value_on_grid by (try exact Ht; lia). rewrite (proj1 (proj2 (grid_point t Ht))). reflexivity.
Qed.

(** ** Interpolation in colatitude *)
Lemma vector_value s m theta : (Z.abs s <= Z.of_nat L)%Z -> (Z.abs m <= Z.of_nat L)%Z -> (Z.abs m <= Z.of_nat Ng)%Z ->
  exists v, interpolation_vector mass quadrature (Lmax d Ntheta) Ng s m theta = Some v
  /\ forall t, (t < Ng)%nat -> v t = total (Nat.min (L + 1) Ng) (fun l => if (lowest m s <=? Z.of_nat l)%Z then Y m s (Z.of_nat l) (cos theta) * (Y m s (Z.of_nat l) (point q t) * weight q t) else 0).
Proof.
  intros Hs HmL HmN. unfold interpolation_vector. change (Lmax d Ntheta) with L. rewrite (proj2 (Z.leb_le m (Z.of_nat L))) by lia. rewrite (harmonics_some mass Hm) by (pose proof (COS_bound theta); lra).
  cbn [obind]. destruct (swsh_value 0 Rmult (harmonic_value mass quadrature L Ng) (grid_weight quadrature Ng) true L Ng s m HmL HmN) as (M & -> & HM). fold (lowest m s). rewrite map_length, seq_length.
  assert (Hlow : (Z.abs m <= lowest m s <= Z.of_nat L)%Z) by (unfold lowest; lia).
  destruct (Nat.ltb_spec 0 (Z.to_nat (Z.of_nat L + 1 - lowest m s))); [|lia]. destruct (Nat.eqb_spec (Z.to_nat (Z.of_nat L + 1 - lowest m s)) (Z.to_nat (Z.of_nat L + 1 - Z.abs m) - Z.to_nat (lowest m s - Z.abs m))); [|lia].
  cbn [andb]. eexists. split; [reflexivity|]. intros t Ht. cbv beta. set (N := Z.to_nat (Z.of_nat L + 1 - lowest m s)) in *.
  set (F := fun l : nat => if (lowest m s <=? Z.of_nat l)%Z then Y m s (Z.of_nat l) (cos theta) * (if (l <? Ng)%nat then Y m s (Z.of_nat l) (point q t) * weight q t else 0) else 0).
  transitivity (total (L + 1) F).
  - replace (L + 1)%nat with (Z.to_nat (lowest m s) + N)%nat by (unfold N; lia). rewrite (total_tail 0 1 Rplus Rmult Rminus Rdiv Ropp Rinv Rf).
    + apply Rtotal_ext. intros k Hk. rewrite (nth_indep _ 0 (Y m s (lowest m s + Z.of_nat 0) (cos theta))) by (rewrite map_length, seq_length; exact Hk). rewrite (map_nth (fun k => Y m s (lowest m s + Z.of_nat k) (cos theta))), seq_nth by exact Hk. cbn [Nat.add].
      rewrite HM. unfold coef, F. replace (Z.of_nat (Z.to_nat (lowest m s) + k)) with (lowest m s + Z.of_nat k)%Z by lia. replace (Z.abs m + Z.of_nat (Z.to_nat (lowest m s - Z.abs m) + k))%Z with (lowest m s + Z.of_nat k)%Z by lia.
      destruct (Z.leb_spec (lowest m s) (lowest m s + Z.of_nat k)); [|lia]. destruct (Z.leb_spec (Z.abs s) (lowest m s + Z.of_nat k)); [|unfold lowest in *; lia]. cbn [andb].
      destruct (Z.ltb_spec (lowest m s + Z.of_nat k) (Z.of_nat Ng)), (Nat.ltb_spec (Z.to_nat (lowest m s) + k) Ng); try lia; [|ring]. change L with (Lmax d Ntheta). rewrite value_on_grid by (try exact Ht; change L with (Lmax d Ntheta) in *; unfold N in *; lia). rewrite (proj1 (proj2 (grid_point t Ht))). reflexivity.
    + intros j Hj. unfold F. destruct (Z.leb_spec (lowest m s) (Z.of_nat j)); [lia|reflexivity].
  - rewrite (Rtotal_more (Nat.min (L + 1) Ng) (L + 1) F).
    + apply Rtotal_ext. intros l Hl. unfold F. destruct (Nat.ltb_spec l Ng); [reflexivity|lia].
    + lia.
    + intros l Hl. unfold F. destruct (Nat.ltb_spec l Ng); [lia|]. destruct (lowest m s <=? Z.of_nat l)%Z; ring.
Qed.
Definition interpolated (s : Z) (theta : R) (g : nat -> nat -> R) (x : nat) : R :=
  let m := half_order d Nphi (fst (half_row d Nphi c0 x)) (snd (half_row d Nphi c0 x)) in
  total Ng (fun t => total (Nat.min (L + 1) Ng) (fun l => if (lowest m s <=? Z.of_nat l)%Z then Y m s (Z.of_nat l) (cos theta) * (Y m s (Z.of_nat l) (point q t) * weight q t) else 0) * g x t).
Lemma loop_value s theta g maps out : (Z.abs s <= Z.of_nat L)%Z -> listed d Nphi Ntheta c0 n maps ->
  exists out', interpolate_loop mass quadrature (Lmax d Ntheta) Ng s theta g maps out = Some out' /\ forall x, out' x = if existsb (fun e : m_map => inside x (snd (fst (fst e)))) maps then interpolated s theta g x else out x.
Proof.
  intros Hs. revert out. induction maps as [|e maps IH]; intros out Hl; [exists out; split; reflexivity|]. destruct (Hl e (or_introl eq_refl)) as (k & u & Hh & ->). pose proof Hh as (Hk & Hu & _).
  destruct (entry_columns d Nphi Ntheta c0 n k u Hg Hn Hh (or_intror (or_intror (exact_balanced d _ _ H0 HN)))) as (_ & HmL & _).
  destruct (vector_value s (half_order d Nphi k u) theta Hs HmL (order_bound (fun _ _ _ _ => 0) (fun _ => 0) d Nphi Ntheta Ng c0 n Hg Hn (exact_balanced d _ _ H0 HN) HNg2 k u ltac:(lia) Hu)) as (v & Ev & Hv).
  unfold entry_at at 1. cbn [interpolate_loop]. rewrite Ev. cbn [obind]. edestruct IH as (out' & -> & Ho); [intros e He; apply Hl; right; exact He|]. exists out'. split; [reflexivity|]. intros x. rewrite Ho. cbn [existsb]. unfold entry_at. cbn [fst snd].
  destruct (existsb (fun e : m_map => inside x (snd (fst (fst e)))) maps); [rewrite orb_true_r; reflexivity|]. rewrite orb_false_r. destruct (inside x _) eqn:Ei; [|reflexivity]. apply half_row_iff in Ei; [|lia|exact Hu]. unfold interpolated. rewrite Ei. cbn [fst snd].
  apply Rtotal_ext. intros t Ht. rewrite Hv by exact Ht. reflexivity.
Qed.
(** Interpolation at a colatitude: the rows of the grid that have the values of a sum of harmonics of their order, of the degrees that
    the transforms keep, give the value of this sum there. *)
Theorem colatitude_interpolated s theta g : (Z.abs s <= Z.of_nat L)%Z ->
  exists out, interpolate_colatitude mass quadrature d Nphi Ntheta Ng c0 n s theta g = Some out
  /\ forall x m c, (x < half_chunk d Nphi * n)%nat -> (forall t, fst (half_group d Nphi (half_chunk d Nphi * c0 + x) t) = m) ->
       (forall t, (t < Ng)%nat -> g x t = harmonic_sum mass m s (Nat.min (L + 1) Ng) c (point q t)) -> out x = harmonic_sum mass m s (Nat.min (L + 1) Ng) c (cos theta).
Proof.
  intros Hs. unfold interpolate_colatitude. destruct (m_maps_entries d Nphi Ntheta Ng c0 n Hg HNg Hn) as (maps & -> & _ & Hin). cbn [obind]. destruct (loop_value s theta g maps (fun _ => 0) Hs (fun e He => proj1 (Hin e) He)) as (out & -> & Ho). exists out. split; [reflexivity|].
  intros x m c Hxx Hmm Hgx. rewrite Ho. destruct (row_order d Nphi c0 n x 0 Hg Hn Hxx) as (Hk & Hu & Eo & _). rewrite Hmm in Eo. destruct (half_row d Nphi c0 x) as [k u] eqn:Ehr. cbn [fst snd] in *. assert (Hk0 : (c0 <= k)%nat) by (unfold half_row in Ehr; injection Ehr as <- _; apply Nat.le_add_r).
  destruct (existsb (fun e : m_map => inside x (snd (fst (fst e)))) maps) eqn:Eb.
  - unfold interpolated. rewrite Ehr. cbn [fst snd]. rewrite <- Eo. rewrite (Rtotal_ext Ng _ (fun t => total (Nat.min (L + 1) Ng) (fun l => if (lowest m s <=? Z.of_nat l)%Z then Y m s (Z.of_nat l) (cos theta) * (Y m s (Z.of_nat l) (point q t) * weight q t * harmonic_sum mass m s (Nat.min (L + 1) Ng) c (point q t)) else 0))).
    + rewrite (total_swap 0 1 Rplus Rmult Rminus Rdiv Ropp Rinv Rf). unfold harmonic_sum at 2. apply Rtotal_ext. intros l Hl. destruct (Z.leb_spec (lowest m s) (Z.of_nat l)) as [H|H]; [|apply Rtotal_zero; reflexivity].
      rewrite Rtotal_scale, project by lia. destruct (Z.ltb_spec (Z.of_nat l) (Z.of_nat (Nat.min (L + 1) Ng))); [|lia]. rewrite Nat2Z.id. ring.
    + intros t Ht. rewrite Hgx by exact Ht. rewrite Rmult_comm, <- Rtotal_scale. apply Rtotal_ext. intros l Hl. destruct (lowest m s <=? Z.of_nat l)%Z; ring.
  - symmetry. apply Rtotal_zero. intros l Hl. destruct (Z.leb_spec (lowest m s) (Z.of_nat l)) as [H|H]; [|reflexivity]. exfalso.
    assert (He : (snd (span d Nphi Ntheta k u) <= fst (span d Nphi Ntheta k u))%nat).
    { destruct (le_lt_dec (snd (span d Nphi Ntheta k u)) (fst (span d Nphi Ntheta k u))) as [K|K]; [exact K|exfalso]. assert (X : existsb (fun e : m_map => inside x (snd (fst (fst e)))) maps = true); [|congruence]. apply existsb_exists. exists (entry_at d Nphi Ntheta c0 k u).
      split; [apply Hin; exists k, u; split; [split; [lia|split; [exact Hu|exact K]]|reflexivity]|]. unfold entry_at. cbn [fst snd]. apply half_row_iff; [lia|exact Hu|exact Ehr]. }
    assert (Hout : (Z.of_nat L < Z.abs m)%Z).
    { rewrite Eo. unfold half_order. revert He. unfold span, offset. change (Lmax d Ntheta) with L. destruct Hu as [->|[-> HN2]]; cbn [Nat.eqb]; destruct (Nat.eqb_spec k 0) as [->|Hk1]; cbn [fst snd]; intros He; try lia.
      pose proof (top_range d Nphi Hg HN2) as (_ & _ & HT). destruct (Nat.leb_spec Nphi 2); [lia|]. unfold top_order in *. unfold top_degree in *. destruct d; lia. }
    unfold lowest in H. lia.
Qed.
(** So coefficients give, by the backward transform and interpolation, the values of their sums of harmonics at any colatitude. *)
Theorem colatitude_coefficients s theta c : (Z.abs s <= Z.of_nat L)%Z ->
  exists g out, colatitude_backward mass quadrature d Nphi Ntheta Ng c0 n s c = Some g /\ interpolate_colatitude mass quadrature d Nphi Ntheta Ng c0 n s theta g = Some out
  /\ forall x, (x < half_chunk d Nphi * n)%nat -> exists m, (forall t, fst (half_group d Nphi (half_chunk d Nphi * c0 + x) t) = m)
  /\ exists row col : nat -> nat, (forall ell, (Z.abs m <= Z.of_nat ell)%Z -> (ell <= L)%nat ->
        (row ell < coeff_chunk d * n)%nat /\ (col ell < columns d Nphi Ntheta)%nat /\ (row ell mod parts d = x mod parts d)%nat /\ coeff_group d Nphi Ntheta (coeff_chunk d * c0 + row ell) (col ell) = (m, Z.of_nat ell))
     /\ out x = harmonic_sum mass m s (Nat.min (L + 1) Ng) (fun ell => c (row ell) (col ell)) (cos theta).
Proof.
  intros Hs. destruct (colatitude_values s c) as (g & E & G). destruct (colatitude_interpolated s theta g Hs) as (out & E' & I). exists g, out. split; [exact E|]. split; [exact E'|]. intros x Hx. destruct (G x Hx) as (m & Ho & row & col & Hrc & Hv). exists m. split; [exact Ho|]. exists row, col. split; [exact Hrc|]. apply I; assumption.
Qed.
(** Components whose spin exceeds every degree have no harmonics.  The transforms give zero for them, but interpolation fails. *)
Theorem interpolation_high_spin_refuted s theta : c0 = 0%nat -> (0 < n)%nat -> (Z.of_nat L < Z.abs s)%Z ->
  (forall c, exists g, colatitude_backward mass quadrature d Nphi Ntheta Ng c0 n s c = Some g /\ forall x t, (x < half_chunk d Nphi * n)%nat -> (t < Ng)%nat -> g x t = 0)
  /\ forall g, interpolate_colatitude mass quadrature d Nphi Ntheta Ng c0 n s theta g = None.
Proof.
  intros Hc0 Hn0 Hs. split.
  - intros c. destruct (colatitude_values s c) as (g & E & G). exists g. split; [exact E|]. intros x t Hx Ht. destruct (G x Hx) as (m & _ & row & col & _ & Hv). rewrite Hv by exact Ht. apply Rtotal_zero. intros l Hl. destruct (Z.leb_spec (lowest m s) (Z.of_nat l)); [unfold lowest in *; lia|reflexivity].
  - intros g. unfold interpolate_colatitude. destruct (m_maps_entries d Nphi Ntheta Ng c0 n Hg HNg Hn) as (maps & -> & _ & Hin). cbn [obind]. destruct maps as [|e maps].
    + exfalso. apply (proj2 (Hin (entry_at d Nphi Ntheta c0 0 0))). exists 0%nat, 0%nat. split; [|reflexivity]. split; [lia|]. split; [left; reflexivity|]. unfold span. cbn [Nat.eqb fst snd]. lia.
    + destruct (proj1 (Hin e) (or_introl eq_refl)) as (k & u & Hh & ->). destruct (entry_columns d Nphi Ntheta c0 n k u Hg Hn Hh (or_intror (or_intror (exact_balanced d _ _ H0 HN)))) as (_ & HmL & _).
      unfold entry_at at 1. cbn [interpolate_loop]. unfold interpolation_vector. rewrite (proj2 (Z.leb_le (half_order d Nphi k u) (Z.of_nat (Lmax d Ntheta)))) by lia. rewrite (harmonics_some mass Hm) by (pose proof (COS_bound theta); lra). cbn [obind].
      set (m := half_order d Nphi k u) in *. replace (Z.to_nat (Z.of_nat (Lmax d Ntheta) + 1 - lowest m s)) with 0%nat by (unfold lowest; change (Lmax d Ntheta) with L; lia). cbn [seq map length Nat.ltb Nat.leb andb]. destruct (swsh_matrix _ _ _ _ _ _ _ _ _) as [[[R M]|]|]; reflexivity.
Qed.
End Grid.
End Mass.

Print Assumptions polynomials_orthonormal.
Print Assumptions gauss_natural.
Print Assumptions harmonics_values.
Print Assumptions harmonics_orthonormal.
Print Assumptions harmonics_conjugate.
Print Assumptions harmonics_raised.
Print Assumptions harmonics_lowered.
Print Assumptions colatitude_values.
Print Assumptions colatitude_round_trip.
Print Assumptions colatitude_interpolated.
Print Assumptions colatitude_coefficients.
Print Assumptions interpolation_high_spin_refuted.

(** ** Cases that meet the hypotheses *)
Example sample_true : true_mass sample_mass.
Proof. split; [exact sample_rules|exact sample_legendre]. Qed.
Example two_points_legendre : gauss_legendre 2 two_points.
Proof.
  set (s := sqrt (1 / 3)). assert (Hs : s * s = 1 / 3) by (apply sqrt_sqrt; lra). assert (Hs0 : 0 < s) by (apply sqrt_lt_R0; lra). assert (s < 1) by nra. split; [reflexivity|]. split; [intros z w [E|[E|[]]]; injection E as <- <-; fold s; lra|].
  intros p (c & Hc). unfold weighted_sum, two_points. cbn [map fold_right fst snd]. fold s. set (G := fun z => c 0%nat * z + c 1%nat * z ^ 2 / 2 + c 2%nat * z ^ 3 / 3 + c 3%nat * z ^ 4 / 4).
  rewrite (RInt_ext p (fun z => c 0%nat + c 1%nat * z + c 2%nat * z ^ 2 + c 3%nat * z ^ 3)) by (intros z _; rewrite Hc; cbn; ring). symmetry. apply is_RInt_unique. rewrite !Hc.
  replace (1 * CSR_Spec.total 0 Rplus (2 * 2) (fun k => c k * (- s) ^ k) + (1 * CSR_Spec.total 0 Rplus (2 * 2) (fun k => c k * s ^ k) + 0)) with (minus (G 1) (G (-1))).
  - apply (is_RInt_derive G); [intros z _; unfold G; auto_derive; [trivial|field]|]. intros z _. apply (@ex_derive_continuous R_AbsRing R_NormedModule). auto_derive. trivial.
  - unfold minus, plus, opp, G. cbn. transitivity (2 * c 0%nat + 2 * (s * s) * c 2%nat); [rewrite Hs; field|ring].
Qed.
(** Two colatitudes and four azimuths, complex: the orders 0, 1, 2 and -1, spin 1. *)
Example sample_sphere theta c : exists g c' out, colatitude_backward sample_mass (fun _ _ _ => two_points) Complex128 4 2 2 0 2 1 c = Some g
  /\ colatitude_forward sample_mass (fun _ _ _ => two_points) Complex128 4 2 2 0 2 1 g = Some c' /\ interpolate_colatitude sample_mass (fun _ _ _ => two_points) Complex128 4 2 2 0 2 1 theta g = Some out
  /\ coeff_group Complex128 4 2 0 1 = (0, 1)%Z /\ c' 0%nat 1%nat = c 0%nat 1%nat /\ coeff_group Complex128 4 2 0 0 = (0, 0)%Z /\ c' 0%nat 0%nat = 0
  /\ fst (half_group Complex128 4 0 0) = 0%Z /\ exists x, out 0%nat = x * harmonic sample_mass 0 1 1 (cos theta).
Proof.
  assert (Hg : good_resolution Complex128 4) by (split; [lia|right; reflexivity]). assert (Hn : (0 + 2 <= pieces Complex128 4)%nat) by (cbn; lia).
  destruct (colatitude_round_trip sample_mass sample_true (fun _ _ _ => two_points) Complex128 4 2 2 0 2 Hg ltac:(lia) ltac:(lia) ltac:(lia) ltac:(lia) Hn two_points_legendre 1 c) as (g & c' & E1 & E2 & H).
  destruct (colatitude_coefficients sample_mass sample_true (fun _ _ _ => two_points) Complex128 4 2 2 0 2 Hg ltac:(lia) ltac:(lia) ltac:(lia) ltac:(lia) Hn two_points_legendre 1 theta c ltac:(cbn; lia)) as (g' & out & E3 & E4 & I).
  rewrite E1 in E3. injection E3 as <-. exists g, c', out. split; [exact E1|]. split; [exact E2|]. split; [exact E4|]. split; [reflexivity|]. split; [exact (H 0%nat 1%nat ltac:(cbn; lia) ltac:(vm_compute; lia))|]. split; [reflexivity|]. split; [exact (H 0%nat 0%nat ltac:(cbn; lia) ltac:(vm_compute; lia))|]. split; [reflexivity|].
  destruct (I 0%nat ltac:(vm_compute; lia)) as (m & Ho & row & col & _ & ->). specialize (Ho 0%nat). change (0%Z = m) in Ho. subst m. exists (c (row 1%nat) (col 1%nat)). unfold harmonic_sum. change (Nat.min (top_degree Complex128 2 + 1) 2) with 2%nat. rewrite !Rtotal_S. rewrite (MatSolvers_Proofs.total_0 0 Rplus). change (lowest 0 1 <=? Z.of_nat 0)%Z with false. change (lowest 0 1 <=? Z.of_nat 1)%Z with true. cbv iota. change (Z.of_nat 1) with 1%Z. ring.
Qed.
(** Real fields on two colatitudes have the degree 0 only: vectors cannot be interpolated. *)
Example sample_high_spin theta g : interpolate_colatitude sample_mass (fun _ _ _ => two_points) Float64 4 2 2 0 1 1 theta g = None.
Proof.
  apply (interpolation_high_spin_refuted sample_mass sample_true (fun _ _ _ => two_points) Float64 4 2 2 0 1); try lia; try (cbn; lia); [split; [lia|right; reflexivity]|exact two_points_legendre].
Qed.
(** Harmonics of degree 1 and order 0. *)
Example sample_harmonic z : -1 <= z <= 1 -> harmonics sample_mass 1 0 0 z = Some [sqrt (1 / 2); sqrt (3 / 2) * z].
Proof.
  intros Hz. rewrite (harmonics_values sample_mass sample_true) by exact Hz. change (Z.to_nat (1 + 1 - lowest 0 0)) with 2%nat. cbn [seq map]. unfold harmonic. change (lowest 0 0) with 0%Z. change (Z.even (Z.max 0 (- 0))) with true. change (Z.abs_nat (0 + 0)) with 0%nat. change (Z.abs_nat (0 - 0)) with 0%nat.
  change (Z.to_nat (0 + Z.of_nat 0 - 0)) with 0%nat. change (Z.to_nat (0 + Z.of_nat 1 - 0)) with 1%nat. cbn [INR]. unfold weight_function. cbn [pow]. rewrite (Rmult_1_l 1), sqrt_1, (Rmult_1_l 1). unfold unit_polynomial, norm2. rewrite sample_legendre.
  replace (classical 0 0 0 z) with 1 by (unfold classical; cbn; field). replace (classical 1 0 0 z) with z by (unfold classical; cbn; field).
  assert (E : rising (0 + 1) 1 * rising (0 + 1) 1 / (INR (fact 1) * rising (0 + 0 + 2) 0 * (2 * INR 1 + 0 + 0 + 1)) = 1 / 3) by (cbn; field). rewrite E. do 2 f_equal; [|f_equal].
  - rewrite sqrt_div by lra. rewrite sqrt_1, !Rmult_1_r. ring.
  - replace (3 / 2) with (/ (2 * (1 / 3))) by field. rewrite sqrt_inv. unfold Rdiv. ring.
Qed.
