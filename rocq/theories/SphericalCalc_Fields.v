(** Tensor fields in balls and shells: proofs about sums of modes. *)
From Coq Require Import List ZArith Reals Bool Lia Lra.
From Coquelicot Require Import Coquelicot.
Import ListNotations.
From Verif Require Import Intertwiner_Model Intertwiner_Spec Intertwiner_Proofs.
From Verif Require SphereOps_Model SphereOps_Spec SphereOps_Proofs SphereOps_Props.
From Verif Require Import JacobiCalc_Spec SphericalVec_Model SphericalVec_Spec SphericalVec_Proofs SphericalVec_Props Harmonics_Spec Harmonics_Proofs Harmonics_Props.
From Verif Require Import SphereCalc_Spec SphereCalc_Proofs SphereCalc_Props SphericalCalc_Spec SphericalCalc_Proofs.
Local Open Scope R_scope.
Notation spin := SphereOps_Spec.spin.

(** ** Turning sums *)
Lemma tilt_ext a i : forall T T', (forall j, length j = length i -> T j = T' j) -> tilt a T i = tilt a T' i.
Proof.
  induction i as [|x i IH]; intros T T' H; [reflexivity|]. cbn [tilt]. rewrite (IH (fun j : index => T (x :: j)) (fun j : index => T' (x :: j))) by (intros j Hj; apply H; cbn; congruence). rewrite !H by reflexivity. reflexivity.
Qed.
Lemma tilt_csum {A} (ms : list A) a i : forall T : index -> A -> C, tilt a (fun j : index => csum ms (T j)) i = csum ms (fun m => tilt a (fun j : index => T j m) i).
Proof.
  induction i as [|x i IH]; intros T; cbn [tilt]; [symmetry; apply csum_zero; reflexivity|]. rewrite (IH (fun j : index => T (x :: j))). clear IH. unfold csum. induction ms as [|m ms IHm]; cbn [map fold_right]; [destruct (x =? 1 - a)%nat, (x =? 2)%nat; ring|]. rewrite <- IHm. destruct (x =? 1 - a)%nat, (x =? 2)%nat; ring.
Qed.
Lemma spin_cons a i : spin (a :: i) = (value a + spin i)%Z.
Proof. rewrite !spin_total. cbn [map]. apply zsum_c. Qed.
Lemma tilt_weight a i : (a < 2)%nat -> List.Forall (fun x => (x < 3)%nat) i -> forall (T : index -> C) (w : Z -> C) z, tilt a (fun j : index => Cmult (T j) (w (z + spin j)%Z)) i = Cmult (tilt a T i) (w (z + spin i + value a)%Z).
Proof.
  intros Ha F. induction F as [|x i Hx F IH]; intros T w z; cbn [tilt]; [ring|].
  rewrite (tilt_ext a i (fun j : index => Cmult (T (x :: j)) (w (z + spin (x :: j))%Z)) (fun j : index => Cmult (T (x :: j)) (w ((z + value x) + spin j)%Z))) by (intros j _; rewrite spin_cons; do 2 f_equal; lia).
  rewrite (IH (fun j : index => T (x :: j)) w (z + value x)%Z), !spin_cons. replace (z + value x + spin i + value a)%Z with (z + (value x + spin i) + value a)%Z by ring.
  destruct (x =? 1 - a)%nat eqn:E1; [apply Nat.eqb_eq in E1; subst x|]; destruct (_ =? 2)%nat eqn:E2; try (apply Nat.eqb_eq in E2).
  - lia.
  - replace (z + (value 2 + spin i))%Z with (z + (value (1 - a) + spin i) + value a)%Z by (destruct a as [|[|a]]; cbn [value Nat.sub]; lia). ring.
  - subst x. replace (z + (value a + spin i))%Z with (z + (value 2 + spin i) + value a)%Z by (cbn [value]; lia). ring.
  - ring.
Qed.
Lemma tilt_scale a i : forall (T : index -> C) k, tilt a (fun j : index => Cmult k (T j)) i = Cmult k (tilt a T i).
Proof. induction i as [|x i IH]; intros T k; cbn [tilt]; [ring|]. rewrite (IH (fun j : index => T (x :: j))). destruct (x =? 1 - a)%nat, (x =? 2)%nat; ring. Qed.

Section Sums.
Context (mass : R -> R -> R) (modes : list (Z * Z)).
Notation wave ml p := (cos (IZR (fst ml) * p), sin (IZR (fst ml) * p)).
(** Turned components, with [z] the spin of indices that are not turned. *)
Lemma tilt_component a i (c : index -> Z * Z -> C) (h : index -> index) z phi theta : (a < 2)%nat -> List.Forall (fun x => (x < 3)%nat) i -> (forall j, spin (h j) = z + spin j)%Z ->
  tilt a (fun j : index => component mass modes c (h j) phi theta) i = csum modes (fun ml => Cmult (Cmult (tilt a (fun j : index => c (h j) ml) i) (wave ml phi)) (RtoC (shape mass (fst ml) (z + spin i + value a) (snd ml) theta))).
Proof.
  intros Ha Hi Hh. unfold component. rewrite (tilt_csum modes a i (fun (j : index) ml => Cmult (Cmult (c (h j) ml) (wave ml phi)) (RtoC (shape mass (fst ml) (spin (h j)) (snd ml) theta)))). apply csum_same. intros ml.
  rewrite (tilt_ext a i _ (fun j : index => Cmult (c (h j) ml) (Cmult (wave ml phi) (RtoC (shape mass (fst ml) (z + spin j) (snd ml) theta))))) by (intros j _; rewrite Hh; ring).
  rewrite (tilt_weight a i Ha Hi (fun j : index => c (h j) ml) (fun s => Cmult (wave ml phi) (RtoC (shape mass (fst ml) s (snd ml) theta))) z). ring.
Qed.
(** Components that are linear in others. *)
Lemma component_sum c c1 c2 i phi theta : (forall ml, In ml modes -> c i ml = Cplus (c1 i ml) (c2 i ml)) -> component mass modes c i phi theta = Cplus (component mass modes c1 i phi theta) (component mass modes c2 i phi theta).
Proof. intros H. unfold component. rewrite (csum_ext modes _ (fun ml => Cplus (Cmult (Cmult (c1 i ml) (wave ml phi)) (RtoC (shape mass (fst ml) (spin i) (snd ml) theta))) (Cmult (Cmult (c2 i ml) (wave ml phi)) (RtoC (shape mass (fst ml) (spin i) (snd ml) theta))))) by (intros ml Hml; rewrite (H ml Hml); ring). apply csum_add. intros; reflexivity. Qed.
Lemma component_same c c1 i phi theta : (forall ml, In ml modes -> c i ml = c1 i ml) -> component mass modes c i phi theta = component mass modes c1 i phi theta.
Proof. intros H. unfold component. apply csum_ext. intros ml Hml. rewrite (H ml Hml). reflexivity. Qed.
Lemma component_scale c k i phi theta : component mass modes (fun (j : index) ml => Cmult k (c j ml)) i phi theta = Cmult k (component mass modes c i phi theta).
Proof. unfold component, csum. induction modes as [|ml ms IH]; cbn [map fold_right]; [ring|]. rewrite IH. ring. Qed.
(** Where no harmonics are. *)
Lemma shape_none m s l theta : SphereOps_Spec.exists_at l s = false -> shape mass m s l theta = 0.
Proof. intros H. apply Z.leb_gt in H. unfold shape. destruct (lowest m s <=? l)%Z eqn:E; [|reflexivity]. apply Z.leb_le in E. unfold lowest in E. lia. Qed.
End Sums.
Lemma zero_derive t : has_derivative (fun _ => RtoC 0) t (RtoC 0).
Proof. split; exact (is_derive_const (K := R_AbsRing) (V := R_NormedModule) 0 t). Qed.
Lemma csum_derive {A} (ms : list A) (f : R -> A -> C) (f' : A -> C) t : (forall x, In x ms -> has_derivative (fun t => f t x) t (f' x)) -> has_derivative (fun t => csum ms (f t)) t (csum ms f').
Proof.
  intros H. induction ms as [|x ms IH].
  - exact (zero_derive t).
  - change (has_derivative (fun t => f t x + csum ms (f t))%C t (f' x + csum ms f')%C). apply derivative_plus; [apply H; left; reflexivity|]. apply IH. intros y Hy. apply H. right. exact Hy.
Qed.
Lemma component_derive mass modes (c : R -> index -> Z * Z -> C) c' i phi theta r : (forall ml, In ml modes -> has_derivative (fun r => c r i ml) r (c' i ml)) -> has_derivative (fun r => component mass modes (c r) i phi theta) r (component mass modes c' i phi theta).
Proof.
  intros H. unfold component. apply (csum_derive modes (fun r ml => ((c r i ml * (cos (IZR (fst ml) * phi), sin (IZR (fst ml) * phi))) * RtoC (shape mass (fst ml) (spin i) (snd ml) theta))%C)). intros ml Hml.
  set (w := (cos (IZR (fst ml) * phi), sin (IZR (fst ml) * phi)) : C). set (z := RtoC (shape mass (fst ml) (spin i) (snd ml) theta)).
  apply (derivative_ext (fun r => (w * z) * c r i ml)%C); [intros; ring|]. replace (c' i ml * w * z)%C with ((w * z) * c' i ml)%C by ring. apply derivative_times. apply H. exact Hml.
Qed.

(** Radial derivatives of spin components. *)
Definition slope_of (f : R -> C) (r : R) : C := (Derive (fun t => Re (f t)) r, Derive (fun t => Im (f t)) r).
Lemma slope_unique f r e : has_derivative f r e -> slope_of f r = e.
Proof. intros [H1 H2]. unfold slope_of. apply injective_projections; cbn [fst snd]; apply is_derive_unique; assumption. Qed.
Lemma spin_none n l F i : (0 <= l)%Z -> is_component n i -> SphereOps_Spec.exists_at l (spin i) = false -> spin_value n l F i = RtoC 0.
Proof.
  intros Hl Hi H. apply Z.leb_gt in H. rewrite spin_total in H. rewrite (spin_parts n l F i Hi). pose proof (tup_values n i Hi) as Ht.
  rewrite !(spins_supp l Hl n _ _ Ht) by (rewrite Z.add_0_r; exact H). reflexivity.
Qed.
Lemma spin_derive n l (F : R -> index -> C) F' i r : (0 <= l)%Z -> is_component n i -> (forall b, is_component n b -> present l b -> has_derivative (fun r => F r b) r (F' b)) ->
  has_derivative (fun r => spin_value n l (F r) i) r (spin_value n l F' i).
Proof.
  intros Hl Hi H. unfold spin_value. apply (csum_derive (indices n) (fun r b => RtoC (Q l (map value b) (map value i)) * F r b)%C). intros b Hb. apply indices_in in Hb.
  destruct (allowed_dec l (map value b)) as [A|N].
  - apply derivative_times. apply H; [exact Hb|]. apply (present_allowed n l b Hl Hb). exact A.
  - rewrite (Q_none l n _ (tup_values n b Hb) N _ (tup_values n i Hi)). apply (derivative_ext (fun _ => RtoC 0)); [intros; ring|]. replace (RtoC 0 * F' b)%C with (RtoC 0) by ring. apply zero_derive.
Qed.

(** ** What the operators of balls and shells do to spin components *)
Lemma function_zero N c phi r : (forall n, c n = RtoC 0) -> function_of N c phi r = RtoC 0.
Proof. intros H. unfold function_of. apply injective_projections; cbn [fst snd RtoC]; (rewrite (series_ext N _ (fun n => 0 * 0 + 0 * 0)) by (intros n _; rewrite H; unfold Re, Im, RtoC; cbn [fst snd]; lra)); rewrite (series_linear N 0 0 (fun _ => 0) (fun _ => 0)); lra. Qed.
Section Volume.
Context (mass : R -> R -> R) (Hm : mass_rules mass) (g : geometry) (k rank N : nat) (HN : (1 <= N)%nat) (Hp : proper g k) (l : Z) (Hl : (0 <= l)%Z) (x u : vectors).
Notation F r := (at_radius mass g k N l x r).
Notation U r := (at_radius mass g (S k) N l u r).
Definition radial_slope (r : R) (b : index) : C := slope_of (fun t => at_radius mass g k N l x t b) r.
Lemma slope_at b d r e : degree l b = d -> has_derivative (function_of N (x b) (SphericalVec_Spec.modes mass g k d)) r e -> radial_slope r b = e.
Proof. intros <- D. exact (slope_unique _ _ _ D). Qed.
Lemma minus_degree b : degree l (0%nat :: b) = (degree l b - 1)%Z. Proof. rewrite degree_cons. cbn [value]. lia. Qed.
Lemma plus_degree b : degree l (1%nat :: b) = (degree l b + 1)%Z. Proof. rewrite degree_cons. reflexivity. Qed.
Lemma same_degree b : degree l (2%nat :: b) = degree l b. Proof. rewrite degree_cons. cbn [value]. lia. Qed.
Lemma gradient_spin i r : 0 < r -> is_component rank i -> gradient g k N rank l x = Some u ->
  has_derivative (fun t => spin_value rank l (F t) i) r (spin_value rank l (radial_slope r) i)
  /\ spin_value (S rank) l (U r) (2%nat :: i) = spin_value rank l (radial_slope r) i
  /\ forall a, (a < 2)%nat -> spin_value (S rank) l (U r) (a :: i) = (RtoC (/ r) * (RtoC (ladder l a (spin i)) * spin_value rank l (F r) i + tilt a (spin_value rank l (F r)) i))%C.
Proof.
  intros Hr Hi Hg. destruct (spherical_gradient mass Hm g N l k rank x HN Hl Hp) as (u' & E & H1 & H2). assert (u' = u) by congruence. subst u'. clear E H2.
  split.
  - apply (spin_derive rank l (fun t => F t) (radial_slope r) i r Hl Hi). intros b Hb Pb. destruct (H1 b Hb Pb r Hr) as (e & D & _). rewrite (slope_at b _ r e eq_refl D). exact D.
  - apply (gradient_coefficients l Hl rank r ltac:(lra) (F r) (radial_slope r) (U r) i Hi). intros b Hb Pb. cbv zeta. destruct (H1 b Hb Pb r Hr) as (e & D & E0 & E1 & E2). rewrite (slope_at b _ r e eq_refl D). unfold at_radius. rewrite minus_degree, plus_degree.
    split; [exact E0|]. split; [exact E1|]. apply function_zero. exact E2.
Qed.
Lemma radial_derive n b r : 0 < r -> is_component n b -> present l b -> has_derivative (fun t => F t b) r (radial_slope r b).
Proof.
  intros Hr Hb Pb. destruct (spherical_gradient mass Hm g N l k n x HN Hl Hp) as (u' & _ & H1 & _). destruct (H1 b Hb Pb r Hr) as (e & D & _). rewrite (slope_at b _ r e eq_refl D). exact D.
Qed.
Lemma spin_slope n i r : 0 < r -> is_component n i -> has_derivative (fun t => spin_value n l (F t) i) r (spin_value n l (radial_slope r) i).
Proof. intros Hr Hi. apply (spin_derive n l (fun t => F t) (radial_slope r) i r Hl Hi). intros b Hb Pb. apply (radial_derive n b r Hr Hb Pb). Qed.
Lemma divergence_spin i r : 0 < r -> is_component rank i -> divergence g k N rank l x = Some u ->
  let T := spin_value (S rank) l (F r) in
  spin_value rank l (U r) i = (spin_value (S rank) l (radial_slope r) (2%nat :: i) + RtoC (2 / r) * T (2%nat :: i) + RtoC (/ r) * (inward l T 0 i + inward l T 1 i))%C.
Proof.
  intros Hr Hi Hg T. destruct (spherical_divergence mass Hm g N l k rank x HN Hl Hp) as (u' & E & H1 & H2). assert (u' = u) by congruence. subst u'. clear E H2.
  apply (divergence_coefficients l Hl rank r ltac:(lra) (F r) (radial_slope r) (U r) i Hi). intros b Hb Pb. cbv zeta. destruct (H1 b Hb Pb r Hr) as (em & ep & Dp & Dm & E). rewrite (slope_at (1%nat :: b) _ r ep (plus_degree b) Dp). unfold at_radius. rewrite minus_degree, plus_degree. rewrite E.
  assert (Pl : (0 <= degree l b)%Z) by (apply (allowed_degree rank l b Hl Hb); apply (allowed_present rank l b Hl Hb); exact Pb).
  destruct (Z.eq_dec (degree l b) 0) as [Z|NZ].
  - rewrite Z. replace (lower 0) with 0 by (symmetry; apply lower_0). ring.
  - rewrite (slope_at (0%nat :: b) _ r em (minus_degree b) (Dm ltac:(lia))). reflexivity.
Qed.
Lemma curl_spin i r : 0 < r -> is_component rank i -> curl g k N rank l x = Some u ->
  let T := spin_value (S rank) l (F r) in
  spin_value (S rank) l (U r) (2%nat :: i) = (Ci * (RtoC (/ r) * (inward l T 0 i - inward l T 1 i)))%C
  /\ forall a, (a < 2)%nat -> spin_value (S rank) l (U r) (a :: i) = (Ci * RtoC (IZR (value a)) * (spin_value (S rank) l (radial_slope r) (a :: i) + RtoC (/ r) * (T (a :: i) - (RtoC (ladder l a (spin i)) * T (2%nat :: i) + tilt a (fun j => T (2%nat :: j)) i))))%C.
Proof.
  intros Hr Hi Hg T. destruct (spherical_curl mass Hm g N l k rank x HN Hl Hp) as (u' & E & H1 & H2). assert (u' = u) by congruence. subst u'. clear E.
  apply (curl_coefficients l Hl rank r ltac:(lra) (F r) (radial_slope r) (U r) i Hi).
  - intros b Hb Pb Pl. cbv zeta. destruct (H1 b Hb Pb Pl r Hr) as (em & ep & e0 & Dm & Dp & D0 & E0 & E1 & E2). rewrite (slope_at (1%nat :: b) _ r ep (plus_degree b) Dp), (slope_at (0%nat :: b) _ r em (minus_degree b) Dm), (slope_at (2%nat :: b) _ r e0 (same_degree b) D0). unfold at_radius. rewrite minus_degree, plus_degree, same_degree. split; [exact E0|]. split; [exact E1|exact E2].
  - intros b a Hb Pb Pl Ha. unfold at_radius. apply function_zero. intros n. apply H2; [exact Hb|exact Ha|right; exact Pl].
Qed.
End Volume.

(** ** Sums of modes of which the sphere's operators make others *)
Section Sphere.
Context (mass : R -> R -> R) (modes : list (Z * Z)) (rank : nat) (r : R) (Hr : r <> 0) (c : index -> Z * Z -> C).
Notation sig n := (repeat 3%nat n).
Lemma index_component n i : is_component n i -> SphereOps_Spec.is_index (sig n) i.
Proof. intros [<- F]. induction F as [|a i Ha F IH]; cbn [length repeat]; constructor; assumption. Qed.
Lemma ladder_component i a phi theta : is_component rank i -> (a < 2)%nat -> (forall ml, In ml modes -> SphereOps_Spec.exists_at (snd ml) (spin i) = false -> c i ml = RtoC 0) ->
  component mass modes (on_modes (fun l => SphereOps_Model.gradient (sig rank) l r) c) (a :: i) phi theta = component mass modes (fun _ ml => RtoC (/ r) * (RtoC (ladder (snd ml) a (spin i)) * c i ml))%C (a :: i) phi theta.
Proof.
  intros Hi Ha H. unfold component. apply csum_ext. intros [m l] Hml. cbn [fst snd]. specialize (H _ Hml). cbn [snd] in H. unfold on_modes. cbn [fst snd].
  pose proof (index_component rank i Hi) as Hx.
  assert (G : forall y, SphereOps_Model.gradient (sig rank) l r y (a :: i) = (if SphereOps_Spec.exists_at l (spin i) && SphereOps_Spec.exists_at l (spin (a :: i)) then ladder l a (spin i) else 0) / r * y i).
  { intros y. destruct (SphereOps_Props.sphere_gradient (sig rank) l r y i Hx) as [G1 G0]. rewrite spin_cons. destruct a as [|[|a]]; [| |lia]; cbn [value ladder].
    - rewrite G0. replace (-1 + spin i)%Z with (spin i - 1)%Z by ring. reflexivity.
    - rewrite G1. replace (1 + spin i)%Z with (spin i + 1)%Z by ring. reflexivity. }
  rewrite !G. destruct (SphereOps_Spec.exists_at l (spin i)) eqn:E1; cbn [andb].
  - destruct (SphereOps_Spec.exists_at l (spin (a :: i))) eqn:E2.
    + f_equal. f_equal. destruct (c i (m, l)) as [p q]. unfold Re, Im, Cmult, RtoC. cbn [fst snd]. apply injective_projections; cbn [fst snd]; field; exact Hr.
    + rewrite (shape_none mass m _ l theta E2). ring.
  - rewrite (H eq_refl). apply injective_projections; unfold Re, Im, Cmult, RtoC; cbn [fst snd]; field; exact Hr.
Qed.
Lemma back_component i phi theta : is_component rank i -> (forall a ml, (a < 2)%nat -> In ml modes -> SphereOps_Spec.exists_at (snd ml) (spin (a :: i)) = false -> c (a :: i) ml = RtoC 0) ->
  component mass modes (on_modes (fun l => SphereOps_Model.divergence (3%nat :: sig rank) l r) c) i phi theta
  = component mass modes (fun _ ml => RtoC (/ r) * (RtoC (ladder_back (snd ml) 0 (spin i)) * c (0%nat :: i) ml + RtoC (ladder_back (snd ml) 1 (spin i)) * c (1%nat :: i) ml))%C i phi theta.
Proof.
  intros Hi H. unfold component. apply csum_ext. intros [m l] Hml. cbn [fst snd]. pose proof (H 0%nat _ ltac:(lia) Hml) as H0. pose proof (H 1%nat _ ltac:(lia) Hml) as H1. clear H. cbn [snd] in H0, H1. rewrite spin_cons in H0, H1. cbn [value] in H0, H1. replace (-1 + spin i)%Z with (spin i - 1)%Z in H0 by ring. replace (1 + spin i)%Z with (spin i + 1)%Z in H1 by ring. unfold on_modes. cbn [fst snd].
  pose proof (index_component rank i Hi) as Hx. rewrite !(SphereOps_Props.sphere_divergence 3 (sig rank) l r _ i ltac:(lia) Hx). cbn [ladder_back].
  destruct (SphereOps_Spec.exists_at l (spin i)) eqn:E; cbn [andb]; [|rewrite (shape_none mass m _ l theta E); ring].
  destruct (SphereOps_Spec.exists_at l (spin i - 1)) eqn:E0; [|rewrite (H0 eq_refl)]; (destruct (SphereOps_Spec.exists_at l (spin i + 1)) eqn:E1; [|rewrite (H1 eq_refl)]); apply injective_projections; unfold Re, Im, Cmult, Cplus, RtoC; cbn [fst snd]; field; exact Hr.
Qed.
End Sphere.
