(** C87: advective grid-crossing frequencies. *)
From Coq Require Import List ZArith Reals Bool Lra Lia.
From Coquelicot Require Import Coquelicot.
Import ListNotations.
From Verif Require Import AffineCOV_Model AdvectiveCFL_Model AdvectiveCFL_Spec AdvectiveCFL_Proofs.
From Verif Require FlowTools_Model FlowTools_Spec FlowTools_Props.
Local Open Scope R_scope.

(** ** Cartesian systems *)
(** At every point of every process the frequency is the sum over the directions that have a basis of speed over the spacing of the grid at
    that point, for systems on the first axes, and for systems on any axes when no velocity component's basis is Chebyshev. *)
Theorem cartesian_crossings p first bases bounds u :
  (forall i b, nth i bases None = Some b -> on b (fst (bounds i)) (snd (bounds i)) /\ (is_chebyshev (b_kind b) = true -> first = 0%nat)) ->
  exists F, cartesian_frequency p first bases u = Some F /\
  forall x, (forall i b, nth i bases None = Some b -> within p (first + i) (points b) (x (first + i)%nat)) ->
    F x = sum_to (length bases) (direction p first bases bounds u x).
Proof.
  intros H. set (f := fun ib : nat * option interval => match snd ib with Some b => obind (axis_spacing p (fst ib) (first + fst ib) b) (fun s => Some (Some s)) | None => Some None end).
  assert (Hex : exists ss, omap_all f (combine (seq 0 (length bases)) bases) = Some ss).
  { apply omap_all_exists. intros [i ob] Hin. destruct (enumerate_in _ _ _ _ Hin) as (j & -> & Hj). cbn [Nat.add] in *. destruct ob as [b|]; [|now exists None].
    destruct (H j b) as [Ho Hc]; [now apply nth_error_nth with (1 := Hj)|]. destruct (axis_spacing_value p j (first + j) b _ _ Ho) as (s & Es & _); [intros Hk; rewrite (Hc Hk); reflexivity|].
    exists (Some s). unfold f. cbn [fst snd]. now rewrite Es. }
  destruct Hex as [ss Ess]. unfold cartesian_frequency, cartesian_spacing. fold f. rewrite Ess. cbn [obind]. eexists. split; [reflexivity|]. intros x Hx.
  destruct (omap_all_nth _ _ _ Ess) as [Hlen Hn]. rewrite combine_length, seq_length, Nat.min_id in Hlen. unfold cartesian_add. rewrite cartesian_add_value, Rplus_0_l, Hlen.
  apply sum_to_ext. intros i Hi. cbn [Nat.add]. destruct (nth_error bases i) as [ob|] eqn:Ei; [|apply nth_error_None in Ei; lia].
  destruct (Hn i _ (enumerate_nth _ _ _ Ei 0%nat)) as (s & Hs & Fs). rewrite (nth_error_nth _ _ None Hs). unfold direction. rewrite (nth_error_nth _ _ None Ei).
  pose proof (nth_error_nth _ _ None Ei) as En. unfold f in Fs. cbn [fst snd Nat.add] in Fs. destruct ob as [b|]; [|now injection Fs as <-].
  destruct (H i b En) as [Ho Hc]. destruct (axis_spacing_value p i (first + i) b _ _ Ho) as (s' & Es & _ & Hv); [intros Hk; rewrite (Hc Hk); reflexivity|].
  rewrite Es in Fs. cbn in Fs. injection Fs as <-. cbn [along crossing]. now rewrite (Hv _ (Hx i b En)).
Qed.

(** Points of dealiased grids: the smallest number that the factor times the size does not exceed. *)
Theorem grid_points s n : 0 <= s -> n <> 1%nat -> s * INR n <= INR (grid_size s n) < s * INR n + 1.
Proof.
  intros Hs Hn. unfold grid_size. destruct (Nat.eqb_spec n 1); [contradiction|]. unfold ceiling. destruct (base_Int_part (- (s * INR n))) as [H1 H2].
  assert (H0 : 0 <= s * INR n) by (apply Rmult_le_pos; [exact Hs|apply pos_INR]).
  assert (Hz : (0 <= - Int_part (- (s * INR n)))%Z) by (apply le_IZR; rewrite opp_IZR; lra). rewrite (INR_IZR_INZ (Z.to_nat _)), Z2Nat.id, opp_IZR by exact Hz. lra.
Qed.

(** Uniform grids: when the dealias factor gives a whole number of points, the spacing is the length over the number of modes. *)
Theorem fourier_spacing b lo hi g : b_kind b = FourierKind -> 0 < b_dealias b -> (0 < b_size b)%nat -> INR (points b) = b_dealias b * INR (b_size b) -> spacing b lo hi g = (hi - lo) / INR (b_size b).
Proof. intros E Hd Hs Hp. unfold spacing. rewrite E, Hp. assert (0 < INR (b_size b)) by (apply lt_0_INR; lia). field. split; lra. Qed.

(** Chebyshev grids: the spacing is the rate at which the position changes with the index, times the dealias factor; it is positive, and half
    the distance between the neighbours of a point is at most it. *)
Theorem chebyshev_spacing b lo hi g : on b lo hi -> is_chebyshev (b_kind b) = true -> 0 < b_dealias b -> (g < points b)%nat ->
  is_derive (fun t => b_dealias b * chebyshev_grid lo hi (points b) t) (INR g) (spacing b lo hi g) /\ 0 < spacing b lo hi g /\
  b_dealias b * ((chebyshev_grid lo hi (points b) (INR g + 1) - chebyshev_grid lo hi (points b) (INR g - 1)) / 2) <= spacing b lo hi g.
Proof.
  intros Ho Hk Hd Hg. unfold spacing. destruct (b_kind b) as [|a b']; [discriminate|]. rewrite Hk. pose proof (on_order _ _ _ Ho) as Hlt. set (N := points b) in *.
  assert (HN : 0 < INR N) by (apply lt_0_INR; lia). pose proof PI_RGT_0 as Hpi. pose proof (pos_INR g) as Hg0.
  assert (Hsin : 0 < sin (PI * (INR g + 1 / 2) / INR N)).
  { apply sin_gt_0.
    - apply Rdiv_lt_0_compat; [apply Rmult_lt_0_compat; lra|exact HN].
    - apply Rmult_lt_reg_r with (INR N); [exact HN|]. unfold Rdiv at 1. rewrite Rmult_assoc, Rinv_l, Rmult_1_r by lra. apply Rmult_lt_compat_l; [exact Hpi|].
      assert (INR (S g) <= INR N) by (apply le_INR; lia). rewrite S_INR in *. lra. }
  assert (Hpos : 0 < PI / INR N) by (apply Rdiv_lt_0_compat; lra). split; [|split].
  - unfold chebyshev_grid. auto_derive; [trivial|]. unfold Rdiv. field. lra.
  - apply Rmult_lt_0_compat; [exact Hd|]. apply Rmult_lt_0_compat; [lra|]. now apply Rmult_lt_0_compat.
  - apply Rmult_le_compat_l; [lra|]. unfold chebyshev_grid. set (y := PI * (INR g + 1 / 2) / INR N) in *. set (h := PI / INR N) in *.
    replace (PI * (INR g + 1 + 1 / 2) / INR N) with (y + h) by (unfold y, h; field; lra). replace (PI * (INR g - 1 + 1 / 2) / INR N) with (y - h) by (unfold y, h; field; lra).
    rewrite cos_plus, cos_minus. replace ((lo + (hi - lo) * (1 - (cos y * cos h - sin y * sin h)) / 2 - (lo + (hi - lo) * (1 - (cos y * cos h + sin y * sin h)) / 2)) / 2) with ((hi - lo) / 2 * (sin h * sin y)) by field.
    apply Rmult_le_compat_l; [lra|]. apply Rmult_le_compat_r; [lra|]. left. apply sin_lt_x. exact Hpos.
Qed.

(** Other grids: between its neighbours the spacing of an increasing grid is positive, and grids with equal distances have that distance. *)
Theorem grid_spacing x N g : (3 <= N)%nat -> (g < N)%nat ->
  ((0 < g < N - 1)%nat -> (forall i, (i < N - 1)%nat -> x i < x (S i)) -> 0 < grid_step x N g) /\ (forall h, (forall i, (i < N - 1)%nat -> x (S i) = x i + h) -> grid_step x N g = h).
Proof.
  intros HN Hg. unfold grid_step. split.
  - intros Hi H. destruct (Nat.eqb_spec g 0); [lia|]. destruct (Nat.eqb_spec g (N - 1)); [lia|]. pose proof (H g ltac:(lia)) as H1. pose proof (H (pred g) ltac:(lia)) as H2.
    replace (S (pred g)) with g in H2 by lia. lra.
  - intros h H. destruct (Nat.eqb_spec g 0); [rewrite (H 1%nat), (H 0%nat) by lia; lra|]. destruct (Nat.eqb_spec g (N - 1)).
    + replace (N - 1)%nat with (S (S (N - 3))) by lia. replace (N - 2)%nat with (S (N - 3)) by lia. rewrite (H (S (N - 3))), (H (N - 3)%nat) by lia. lra.
    + rewrite (H g) by lia. replace (x g) with (x (S (pred g))) by (f_equal; lia). rewrite (H (pred g)) by lia. lra.
Qed.

(** A Chebyshev basis on an axis that is not its component's number: an exception, whenever both axes are local. *)
Theorem chebyshev_offset_refuted p first b lo hi u : (0 < first)%nat -> on b lo hi -> is_chebyshev (b_kind b) = true -> is_local p 0%nat = true -> is_local p first = true ->
  cartesian_frequency p first [Some b] u = None.
Proof.
  intros Hf Ho Hk L0 L1. unfold cartesian_frequency, cartesian_spacing. cbn [length seq combine omap_all fst snd]. rewrite Nat.add_0_r.
  unfold axis_spacing, local_grid_spacing. destruct (global_spacing_value _ _ _ Ho) as (g & -> & Hl & _). cbn [obind]. rewrite Hk. destruct (Nat.eqb_spec 0 first); [lia|].
  rewrite pick_length, !elements_local, !seq_length by assumption. fold (points b). pose proof (on_points _ _ _ Ho). destruct (Nat.eqb_spec 1 (points b)); [lia|]. reflexivity.
Qed.

(** ** Disks, annuli, spheres, balls and shells *)
Lemma azimuth_gradient n : (3 <= n)%nat -> exists g, gradient (azimuths n) = Some g /\ length g = n /\ forall j, (j < n)%nat -> nth j g 0 = 2 * PI / INR n.
Proof.
  intros Hn. assert (Hl : length (azimuths n) = n) by (unfold azimuths; now rewrite map_length, seq_length). rewrite gradient_value by lia. rewrite Hl. eexists. split; [reflexivity|].
  split; [now rewrite map_length, seq_length|]. intros j Hj. rewrite nth_step by exact Hj. apply grid_spacing; try lia. intros i Hi.
  assert (E : forall k, (k < n)%nat -> nth k (azimuths n) 0 = 2 * PI / INR n * INR k).
  { intros k Hk. unfold azimuths. set (F := fun j => 2 * PI / INR n * INR j). rewrite nth_indep with (d' := F 0%nat) by (rewrite map_length, seq_length; lia). now rewrite map_nth, seq_nth by lia. }
  rewrite !E by lia. rewrite S_INR. ring.
Qed.

(** What [local_grid_spacing] gives for azimuth, before any frequency is computed. *)
Theorem azimuth_spacing_value p axis n : (3 <= n)%nat -> azimuth_spacing p axis n (azimuths n) None = Some (map (fun _ => Some (2 * PI / INR n)) (elements p axis n)).
Proof.
  intros Hn. destruct (azimuth_gradient n Hn) as (g & Hg & Hl & Hv). unfold azimuth_spacing. rewrite Hg. cbn [obind]. unfold pick. f_equal. apply map_ext_in. intros e He. apply elements_bound in He.
  rewrite nth_indep with (d' := Some 0) by (rewrite map_length; lia). rewrite (map_nth Some). now rewrite Hv.
Qed.

Lemma fill_some v (l : list (option R)) x : (x < length l)%nat -> nth x (fill (Some v) l) None = Some v.
Proof. revert x. unfold fill. induction l as [|a m IH]; intros [|x] H; cbn in *; try lia; [reflexivity|]. apply IH. lia. Qed.
Lemma fill_inf (l : list (option R)) x : nth x (fill None l) None = None.
Proof. revert x. unfold fill. induction l as [|a m IH]; intros [|x]; cbn; auto. Qed.
Lemma fill_fill v w l : fill v (fill w l) = fill v l.
Proof. unfold fill. now rewrite map_map. Qed.

(** Azimuthal speed times the largest order over the radius of the disk, or over that of the point in an annulus, plus radial speed over the
    spacing of the radial grid. *)
Theorem polar_crossings p axis b u : polar_points b ->
  exists F, polar_frequency p axis b None u = Some F /\
  forall x, within p axis (p_points b) (x axis) -> within p (axis + 1) (length (p_radii b)) (x (axis + 1)%nat) ->
    let g := global_index p (axis + 1) (length (p_radii b)) (x (axis + 1)%nat) in
    F x = Rabs (u 0%nat x) * azimuth_crossing b (nth g (p_radii b) 0) + Rabs (u 1%nat x) / (p_dealias b * grid_step (fun j => nth j (p_radii b) 0) (length (p_radii b)) g).
Proof.
  intros [Ha Hr]. unfold polar_frequency, polar_spacing, azimuth_spacing. rewrite (gradient_value (p_azimuths b) Ha). cbn [obind]. set (A := pick None _ _).
  assert (LA : length A = length (elements p axis (p_points b))) by (unfold A; apply pick_length).
  unfold radius_spacing. rewrite (gradient_value (p_radii b) Hr). cbn [obind]. set (S := map (Rmult (p_dealias b)) _).
  assert (HS : forall x, within p (axis + 1) (length (p_radii b)) x -> nth x S 0 = p_dealias b * grid_step (fun j => nth j (p_radii b) 0) (length (p_radii b)) (global_index p (axis + 1) (length (p_radii b)) x)).
  { intros x Hx. unfold S. rewrite nth_indep with (d' := Rmult (p_dealias b) 0) by (rewrite map_length, pick_length; exact Hx). rewrite map_nth, pick_nth by exact Hx. f_equal.
    apply nth_step. apply (global_bound p (axis + 1)). exact Hx. }
  destruct (Nat.eqb_spec (p_mmax b) 0) as [E0|E0]; [|destruct (p_kind b) as [radius|] eqn:Ek]; eexists; (split; [reflexivity|]); intros x H1 H2; set (g := global_index p (axis + 1) (length (p_radii b)) (x (axis + 1)%nat)); unfold polar_add, azimuthal_at, azimuth_crossing; rewrite ?Ek, (HS _ H2); fold g; cbn [crossing].
  - rewrite fill_inf. rewrite E0. cbn [INR crossing]. destruct (p_kind b); unfold Rdiv at 2; ring.
  - rewrite fill_some by (rewrite LA; exact H1). cbn [crossing]. unfold Rdiv at 1 2. rewrite Rinv_mult, Rinv_inv. unfold Rdiv. ring.
  - set (F := fun r => r / INR (p_mmax b)). rewrite nth_indep with (d' := F 0) by (rewrite map_length, pick_length; exact H2). rewrite map_nth, pick_nth by exact H2. fold (global_index p (axis + 1) (length (p_radii b)) (x (axis + 1)%nat)). fold g.
    unfold F. unfold Rdiv at 1 2. rewrite Rinv_mult, Rinv_inv. unfold Rdiv. ring.
Qed.

(** Computing frequencies again on the same basis gives the same. *)
Theorem polar_again p axis b u az r c : polar_spacing p axis b None = Some (az, r, c) -> polar_frequency p axis b c u = polar_frequency p axis b None u.
Proof.
  unfold polar_frequency. intros H. rewrite H. revert H. unfold polar_spacing. destruct (azimuth_spacing p axis (p_points b) (p_azimuths b) None) as [a|]; [|discriminate]. cbn [obind].
  destruct (radius_spacing p (axis + 1) (p_radii b)) as [rr|]; destruct (Nat.eqb_spec (p_mmax b) 0); destruct (p_kind b); cbn [obind]; intros H; try discriminate; injection H as <- <- <-; cbn [azimuth_spacing obind]; now rewrite ?fill_fill.
Qed.

(** But on a disk the spacing in azimuth that the basis then reports is no longer that of its grid. *)
Theorem azimuth_spacing_refuted p axis b radius n az r c : p_kind b = DiskPlane radius -> p_azimuths b = azimuths n -> p_points b = n -> (3 <= n)%nat -> (0 < p_mmax b)%nat ->
  polar_spacing p axis b None = Some (az, r, c) -> azimuth_spacing p axis n (azimuths n) c = Some (map (fun _ => Some (radius / INR (p_mmax b))) (elements p axis n)).
Proof.
  intros Hk Ha Hp Hn Hm. unfold polar_spacing. rewrite Ha, Hp, azimuth_spacing_value by exact Hn. cbn [obind]. rewrite Hk. destruct (Nat.eqb_spec (p_mmax b) 0); [lia|].
  destruct (radius_spacing p (axis + 1) (p_radii b)); [|discriminate]. cbn [obind]. intros [= _ _ <-]. cbn [azimuth_spacing]. unfold fill. now rewrite map_map.
Qed.

(** Spheres: the length of the tangent vector times the root of L (L + 1) over the radius. *)
Theorem sphere_crossings p axis b u : (3 <= length (s_azimuths b))%nat ->
  exists F, sphere_frequency p axis b None u = Some F /\
  forall x, within p axis (s_points b) (x axis) -> F x = sqrt (u 0%nat x ^ 2 + u 1%nat x ^ 2) * sqrt (INR (s_Lmax b) * INR (S (s_Lmax b))) / s_radius b.
Proof.
  intros Ha. unfold sphere_frequency, sphere_spacing, azimuth_spacing. rewrite (gradient_value _ Ha). cbn [obind]. eexists. split; [reflexivity|]. intros x Hx. unfold s2_spacing. rewrite S_INR.
  fold (speed u x). destruct (Nat.eqb_spec (s_Lmax b) 0) as [->|].
  - rewrite fill_inf. cbn [crossing INR]. rewrite Rmult_0_l, sqrt_0. unfold Rdiv. ring.
  - rewrite fill_some by (rewrite pick_length; exact Hx). cbn [crossing]. unfold Rdiv at 1 2. rewrite Rinv_mult, Rinv_inv. unfold Rdiv. ring.
Qed.
Theorem sphere_again p axis b u s c : sphere_spacing p axis b None = Some (s, c) -> sphere_frequency p axis b c u = sphere_frequency p axis b None u.
Proof.
  unfold sphere_frequency. intros H. rewrite H. revert H. unfold sphere_spacing. destruct (azimuth_spacing p axis (s_points b) (s_azimuths b) None) as [a|]; [|discriminate]. cbn [obind].
  intros [= <- <-]. cbn [azimuth_spacing obind]. unfold s2_spacing. destruct (Nat.eqb_spec (s_Lmax b) 0); now rewrite fill_fill.
Qed.

(** Balls and shells: the same with the radius of the ball, or that of the point in a shell, plus radial speed over the spacing of the radial grid. *)
Theorem volume_crossings p axis b u : (length (v_azimuths b) = 1 \/ 3 <= length (v_azimuths b))%nat -> (3 <= length (v_radii b))%nat ->
  exists F, volume_frequency p axis b u = Some F /\
  forall x, within p axis (v_points b) (x axis) -> within p (axis + 2) (length (v_radii b)) (x (axis + 2)%nat) ->
    let g := global_index p (axis + 2) (length (v_radii b)) (x (axis + 2)%nat) in
    F x = sqrt (u 0%nat x ^ 2 + u 1%nat x ^ 2) * sqrt (INR (v_Lmax b) * INR (S (v_Lmax b))) / match v_kind b with BallVolume radius => radius | ShellVolume => nth g (v_radii b) 0 end
          + Rabs (u 2%nat x) / (v_dealias b * grid_step (fun j => nth j (v_radii b) 0) (length (v_radii b)) g).
Proof.
  intros Ha Hr. unfold volume_frequency, volume_spacing.
  assert (exists a, volume_local p axis (v_points b) (v_azimuths b) = Some a /\ length a = length (elements p axis (v_points b))) as (a & -> & La).
  { unfold volume_local, volume_global_spacing. destruct (Nat.eqb_spec (length (v_azimuths b)) 1); [eexists; split; [reflexivity|apply pick_length]|]. rewrite gradient_value by lia. eexists. split; [reflexivity|apply pick_length]. }
  cbn [obind]. unfold volume_local, volume_global_spacing. destruct (Nat.eqb_spec (length (v_radii b)) 1); [lia|]. rewrite gradient_value by lia. cbn [obind]. eexists. split; [reflexivity|].
  intros x H1 H2. set (g := global_index p (axis + 2) (length (v_radii b)) (x (axis + 2)%nat)). rewrite S_INR. fold (speed u x). set (S := map (times_inf (v_dealias b)) _).
  assert (HS : nth (x (axis + 2)%nat) S None = Some (v_dealias b * grid_step (fun j => nth j (v_radii b) 0) (length (v_radii b)) g)).
  { unfold S. rewrite nth_indep with (d' := times_inf (v_dealias b) None) by (rewrite map_length, pick_length; exact H2). rewrite map_nth, pick_nth by exact H2. fold (global_index p (axis + 2) (length (v_radii b)) (x (axis + 2)%nat)). fold g.
    pose proof (global_bound _ _ _ _ H2) as Hg. fold g in Hg. rewrite nth_indep with (d' := Some 0) by (rewrite !map_length, seq_length; exact Hg). rewrite (map_nth Some), nth_step by exact Hg. cbn [times_inf]. f_equal. ring. }
  rewrite HS. cbn [crossing]. f_equal. unfold s2_spacing. destruct (v_kind b) as [radius|]; destruct (Nat.eqb_spec (v_Lmax b) 0) as [->|].
  - rewrite fill_inf. cbn [crossing INR]. rewrite Rmult_0_l, sqrt_0. unfold Rdiv. ring.
  - rewrite fill_some by (rewrite La; exact H1). cbn [crossing]. unfold Rdiv at 1 2. rewrite Rinv_mult, Rinv_inv. unfold Rdiv. ring.
  - rewrite fill_inf. cbn [crossing INR times_inf]. rewrite Rmult_0_l, sqrt_0. unfold Rdiv. ring.
  - rewrite fill_some by (rewrite La; exact H1). cbn [crossing times_inf]. rewrite pick_nth by exact H2. fold (global_index p (axis + 2) (length (v_radii b)) (x (axis + 2)%nat)). fold g.
    unfold Rdiv. rewrite !Rmult_1_l, Rinv_mult, Rinv_inv. ring.
Qed.

(** Without azimuthal dependence, one point in azimuth, disks, annuli and spheres raise an exception, which balls and shells do not. *)
Theorem axisymmetric_refuted p axis u : (forall b, length (p_azimuths b) = 1%nat -> polar_frequency p axis b None u = None) /\ (forall b, length (s_azimuths b) = 1%nat -> sphere_frequency p axis b None u = None).
Proof.
  split; intros b H; [unfold polar_frequency, polar_spacing|unfold sphere_frequency, sphere_spacing]; unfold azimuth_spacing; rewrite gradient_short by lia; reflexivity.
Qed.

(** ** Direct products *)
(** Each system adds its own frequency, of its own components. *)
Theorem product_crossings systems : forall start u out x,
  (forall dim add freq, In (dim, add, freq) systems -> forall u out x, add u out x = out x + freq u x) ->
  product_add (map fst systems) start u out x =
  out x + (fix total (l : list (nat * (velocity -> (position_ -> R) -> position_ -> R) * (velocity -> position_ -> R))) (start : nat) : R :=
             match l with [] => 0 | (dim, _, freq) :: l => freq (fun i => u (start + i)%nat) x + total l (start + dim)%nat end) systems start.
Proof.
  induction systems as [|[[dim add] freq] systems IH]; intros start u out x H; cbn [map fst product_add]; [ring|].
  rewrite IH by (intros d a f Hin; apply (H d a f); now right). rewrite (H dim add freq) by now left. ring.
Qed.
(** Those of Cartesian systems and of disks and annuli do. *)
Theorem systems_add : (forall first s u out x, cartesian_add first s u out x = out x + cartesian_add first s u (fun _ => 0) x) /\
  (forall axis az r u out x, polar_add axis az r u out x = out x + polar_add axis az r u (fun _ => 0) x).
Proof. split; intros; [unfold cartesian_add; rewrite !cartesian_add_value; ring|unfold polar_add; ring]. Qed.

(** ** Time steps *)
(** A direction's crossings are no more than all. *)
Theorem direction_below p first bases bounds u x i : (i < length bases)%nat ->
  (forall j b, nth j bases None = Some b -> 0 < spacing b (fst (bounds j)) (snd (bounds j)) (global_index p (first + j) (points b) (x (first + j)%nat))) ->
  direction p first bases bounds u x i <= sum_to (length bases) (direction p first bases bounds u x).
Proof.
  intros Hi H. apply sum_to_above; [|exact Hi]. intros j _. unfold direction. destruct (nth j bases None) as [b|] eqn:E; [|lra]. apply Rmult_le_pos; [apply Rabs_pos|]. left. apply Rinv_0_lt_compat, H, E.
Qed.

Lemma point_freq_above j fields f : In f fields -> Rabs (nth j f 0) <= FlowTools_Spec.point_freq j fields.
Proof.
  assert (Hp : forall l, 0 <= FlowTools_Spec.point_freq j l) by (induction l as [|g l IHl]; cbn; [lra|pose proof (Rabs_pos (nth j g 0)); lra]).
  induction fields as [|g fields IH]; intros H; [easy|]. cbn. destruct H as [->|H]; [pose proof (Hp fields); lra|]. specialize (IH H). pose proof (Rabs_pos (nth j g 0)). lra.
Qed.
(** So with the adaptive time step (C40), when it is computed anew and its lower bounds allow, no component of a velocity whose frequencies
    were added crosses more than the safety factor of a spacing in a step, up to the threshold, at any point of any process. *)
Theorem no_crossing c s initial it procs f d n fields freq j (speed dx : R) :
  FlowTools_Spec.guarded c s -> 0 <= FlowTools_Model.threshold c <= 1 -> ((it - 1) mod FlowTools_Model.cadence c = 0)%Z -> (initial < it - 1)%Z ->
  (forall n fields, In (n, fields) procs -> List.Forall (fun g => length g = n) fields) ->
  FlowTools_Spec.largest_frequency f procs -> 0 < f -> FlowTools_Model.min_dt c <= FlowTools_Model.safety c / f -> FlowTools_Model.min_change c * s <= FlowTools_Model.safety c / f ->
  FlowTools_Model.compute_timestep c initial it (map snd procs) (FlowTools_Model.Fin s) = Some d ->
  In (n, fields) procs -> In freq fields -> (j < n)%nat -> 0 < dx -> Rabs speed / dx <= nth j freq 0 ->
  exists r, d = FlowTools_Model.Fin r /\ r * (1 - FlowTools_Model.threshold c) * Rabs speed <= FlowTools_Model.safety c * dx.
Proof.
  intros Hg Ht Hc Hi Hl Hf Hpos Hm Hch Hd Hin Hfr Hj Hdx Hs. destruct (FlowTools_Props.cfl_limit c s initial it procs f d Hg (proj1 Ht) Hc Hi Hl Hf Hpos Hm Hch Hd) as (r & -> & Hr).
  exists r. split; [reflexivity|]. destruct Hf as [_ Hf]. pose proof (Hf n fields j Hin Hj) as H1. pose proof (point_freq_above j fields freq Hfr) as H2. pose proof (Rle_abs (nth j freq 0)) as H3.
  assert (H4 : Rabs speed / dx <= f) by lra. assert (H5 : Rabs speed <= f * dx) by (apply Rmult_le_reg_r with (/ dx); [now apply Rinv_0_lt_compat|]; rewrite Rmult_assoc, Rinv_r, Rmult_1_r by lra; exact H4).
  pose proof (Rabs_pos speed) as H0. pose proof (FlowTools_Spec.guard_safety _ _ Hg) as Hsaf.
  apply Rle_trans with (FlowTools_Model.safety c / f * Rabs speed); [now apply Rmult_le_compat_r|].
  apply Rle_trans with (FlowTools_Model.safety c / f * (f * dx)); [apply Rmult_le_compat_l; [left; now apply Rdiv_lt_0_compat|exact H5]|]. right. field. lra.
Qed.

Print Assumptions cartesian_crossings.
Print Assumptions grid_points.
Print Assumptions fourier_spacing.
Print Assumptions chebyshev_spacing.
Print Assumptions grid_spacing.
Print Assumptions chebyshev_offset_refuted.
Print Assumptions azimuth_spacing_value.
Print Assumptions polar_crossings.
Print Assumptions polar_again.
Print Assumptions azimuth_spacing_refuted.
Print Assumptions sphere_crossings.
Print Assumptions sphere_again.
Print Assumptions volume_crossings.
Print Assumptions axisymmetric_refuted.
Print Assumptions product_crossings.
Print Assumptions systems_add.
Print Assumptions direction_below.
Print Assumptions no_crossing.

(** A periodic direction of 4 modes on [0, 2] with 6 points, a direction without a basis and Chebyshev points on [0, 1]; the second of two
    processes, which has the last three points along the first axis. *)
Lemma points_whole s n N : 0 <= s -> n <> 1%nat -> s * INR n = INR N -> grid_size s n = N.
Proof.
  intros Hs Hn E. pose proof (grid_points s n Hs Hn) as [H1 H2]. rewrite E in *. assert (H3 : (N <= grid_size s n)%nat) by (apply INR_le; exact H1).
  assert (H4 : (grid_size s n < S N)%nat) by (apply INR_lt; rewrite S_INR; exact H2). lia.
Qed.
Definition sample_wave : interval := Interval FourierKind 4 (3 / 2) (Cov 0 (2 * PI) (2 * PI - 0) ((0 + 2 * PI) / 2) 0 2 (2 - 0) ((0 + 2) / 2) ((2 - 0) / (2 * PI - 0))) (fun n => repeat 0 n).
Definition sample_chebyshev : interval := Interval (JacobiKind (- (1 / 2)) (- (1 / 2))) 3 1 (Cov (-1) 1 (1 - -1) ((-1 + 1) / 2) 0 1 (1 - 0) ((0 + 1) / 2) ((1 - 0) / (1 - -1))) (fun n => repeat 0 n).
Definition sample_process : process := Process (fun i => negb (i =? 0)%nat) (fun i => if (i =? 0)%nat then 2%nat else 1%nat) (fun i => if (i =? 0)%nat then 1%nat else 0%nat).
Example sample_crossings : let bases := [Some sample_wave; None; Some sample_chebyshev] in
  exists F, cartesian_frequency sample_process 0 bases (fun i _ => match i with O => -3 | _ => 2 end) = Some F /\
  F (fun i => match i with O => 2%nat | _ => 1%nat end) = 3 / (1 / 2) + 2 / (PI / 6).
Proof.
  assert (P1 : points sample_wave = 6%nat) by (apply points_whole; cbn; [lra|lia|lra]). assert (P2 : points sample_chebyshev = 3%nat) by (apply points_whole; cbn; [lra|lia|lra]).
  pose proof PI_RGT_0 as Hpi. set (bounds := fun i : nat => if (i =? 0)%nat then (0, 2) else (0, 1)).
  assert (O1 : on sample_wave 0 2).
  { split; [lra| |rewrite P1; reflexivity|rewrite P1; lia]. unfold affine_cov, pydiv. cbn. destruct (Req_EM_T (2 * PI - 0) 0); [lra|reflexivity]. }
  assert (O2 : on sample_chebyshev 0 1).
  { split; [lra| |rewrite P2; reflexivity|rewrite P2; lia]. unfold affine_cov, pydiv. cbn. destruct (Req_EM_T (1 - -1) 0); [lra|reflexivity]. }
  intros bases. destruct (cartesian_crossings sample_process 0 bases bounds (fun i _ => match i with O => -3 | _ => 2 end)) as (F & HF & Hv).
  { intros [|[|[|i]]] b E; cbn in E; try discriminate; try (injection E as <-); [now split|now split|destruct i; discriminate]. }
  exists F. split; [exact HF|]. rewrite Hv.
  - cbn [bases length sum_to]. unfold direction. cbn [nth bases bounds Nat.eqb fst snd Nat.add]. unfold global_index. rewrite P1, P2. unfold spacing. rewrite P1, P2. cbn [b_kind b_dealias sample_wave sample_chebyshev].
    replace (is_chebyshev (JacobiKind (- (1 / 2)) (- (1 / 2)))) with true by (unfold is_chebyshev; destruct (Req_EM_T (- (1 / 2)) (- (1 / 2))); [reflexivity|contradiction]).
    cbn -[Rabs sin PI Rdiv]. replace (PI * (1 + 1 / 2) / (1 + 1 + 1)) with (PI / 2) by field. rewrite sin_PI2, (Rabs_left (-3)), (Rabs_right 2) by lra. field. lra.
  - intros [|[|[|i]]] b E; cbn in E; try discriminate; try (injection E as <-); unfold within; rewrite ?P1, ?P2; try (cbn; lia). destruct i; discriminate.
Qed.

(** A disk whose azimuthal spacing is a sixth of a turn, until frequencies are computed on it. *)
Definition sample_disk : polar_basis := PolarBasis (DiskPlane 1) (azimuths 6) [1 / 4; 1 / 2; 3 / 4] 6 2 1.
Example sample_overwritten p : is_local p 0%nat = true -> exists az r c, polar_spacing p 0 sample_disk None = Some (az, r, c) /\
  option_map (@length _) (azimuth_spacing p 0 6 (azimuths 6) None) = Some 6%nat /\ azimuth_spacing p 0 6 (azimuths 6) c <> azimuth_spacing p 0 6 (azimuths 6) None.
Proof.
  intros L. destruct (polar_crossings p 0 sample_disk (fun _ _ => 0)) as (F & HF & _); [split; cbn; lia|]. unfold polar_frequency in HF.
  destruct (polar_spacing p 0 sample_disk None) as [[[az r] c]|] eqn:E; [|discriminate]. exists az, r, c. split; [reflexivity|].
  rewrite (azimuth_spacing_refuted p 0 sample_disk 1 6 az r c eq_refl eq_refl eq_refl ltac:(lia) ltac:(cbn; lia) E), azimuth_spacing_value by lia. rewrite elements_local by exact L. split; [reflexivity|].
  cbn. intros [= H _ _ _ _ _]. pose proof PI2_3_2. lra.
Qed.
Example sample_bounds : FlowTools_Spec.guarded FlowTools_Props.ex_cfl (1 / 5) /\ Rabs (-2) / 1 <= nth 0 [4; -2] 0 /\ 0 <= FlowTools_Model.threshold FlowTools_Props.ex_cfl <= 1.
Proof. split; [apply FlowTools_Props.cfl_ex|]. rewrite Rabs_left by lra. cbn. lra. Qed.
