(** Storage and transforms of disks and annuli: theorems. *)
From Coq Require Import List Arith Bool ZArith Reals Lia Lra.
Import ListNotations.
From Verif Require Import MatSolvers_Model Codomain_Proofs JacobiCalc_Spec JacobiCalc_Props Radial_Spec GaussTransforms_Model GaussTransforms_Spec GaussTransforms_Props Sphere_Model Sphere_Spec Sphere_Proofs Polar_Model Polar_Spec Polar_Proofs.
From Verif Require JacobiCalc_Proofs JacobiCalc_Ops.
Local Open Scope nat_scope.

(** ** Storage *)
(** With more than two azimuthal points and one radial one, the resolutions that are accepted are even, and divisible by four for real data. *)
Theorem polar_resolutions d Nphi Nr : 2 < Nphi -> 1 < Nr -> (polar_allowed d Nphi Nr = true <-> good_resolution d Nphi).
Proof.
  intros H Hr. unfold polar_allowed, good_resolution. rewrite mmax_big by exact H. destruct (Nat.ltb_spec 0 (Nr - 1)) as [_|]; [|lia]. cbn [andb]. rewrite negb_involutive. destruct d; cbn [andb negb].
  - rewrite andb_true_r, Nat.eqb_eq. lia.
  - rewrite negb_involutive, andb_true_iff, !Nat.eqb_eq. split; [intros [_ E]; split; [lia|right; exact E]|]. intros [_ [->|E]]; [lia|]. split; [|exact E].
    pose proof (Nat.div_mod Nphi 4 ltac:(lia)) as Ed. rewrite E in Ed. rewrite Ed. replace (4 * (Nphi / 4) + 0) with (2 * (Nphi / 4) * 2) by lia. apply Nat.mod_mul. lia.
Qed.
Section Storage.
Context (p : polar) (d : dtype) (Nphi Nr : nat) (Hg : good_resolution d Nphi) (H2 : Nphi <> 2).
(** Every mode is stored at exactly one place, for each of its parts. *)
Theorem polar_modes_stored m n part : is_polar_mode p d Nphi Nr m n -> part < parts d ->
  exists! ij : nat * nat, fst ij < polar_rows d Nphi /\ snd ij < Nr /\ fst ij mod parts d = part /\ polar_group p d Nphi (fst ij) (snd ij) = Some (m, n).
Proof.
  intros [Hm Hn] Hp. pose proof (parts_pos d) as HP. rewrite orders_rows by assumption. destruct (stored_gorder _ _ _ Hg Hm) as (q & Hq & Em). exists (parts d * q + part, Z.to_nat n). split.
  - cbn [fst snd]. split; [nia|]. split; [lia|]. split; [symmetry; apply (Nat.mod_unique _ _ q); lia|]. rewrite polar_group_row by assumption. rewrite <- Em. destruct (Nat.ltb_spec (Z.to_nat n) (first_degree p m)); [lia|]. do 2 f_equal. lia.
  - intros [i j] (Hi & Hj & Hp' & E). cbn [fst snd] in *. pose proof (Nat.div_mod i (parts d) ltac:(lia)) as Ei. assert (Hq' : i / parts d < orders d Nphi) by (apply Nat.div_lt_upper_bound; lia).
    rewrite Ei in E. rewrite polar_group_row in E by (try assumption; lia). destruct (j <? _); [discriminate|]. injection E as E1 E2. rewrite Em in E1. apply gorder_inj in E1; try assumption. rewrite Ei, E1, Hp', <- E2, Nat2Z.id. reflexivity.
Qed.
(** The elements that are kept valid are those that hold modes (for scalars, without the sine part of order zero). *)
Theorem polar_elements scalar i j : i < polar_rows d Nphi -> j < Nr ->
  (polar_valid p d Nphi scalar i j = true <-> exists m n, polar_group p d Nphi i j = Some (m, n) /\ is_polar_mode p d Nphi Nr m n /\ ~ (scalar = true /\ m = 0%Z /\ d = Float64 /\ i mod parts d = 1)).
Proof.
  intros Hi Hj. rewrite orders_rows in Hi by assumption. pose proof (parts_pos d) as HP. pose proof (Nat.div_mod i (parts d) ltac:(lia)) as Ei. assert (Hq : i / parts d < orders d Nphi) by (apply Nat.div_lt_upper_bound; lia).
  assert (Hk : i mod parts d < parts d) by (apply Nat.mod_upper_bound; lia). unfold polar_valid. assert (EG := polar_group_row p d Nphi (i / parts d) (i mod parts d) j Hg Hq Hk). rewrite <- Ei in EG. rewrite EG.
  set (m := gorder d Nphi (i / parts d)) in *. assert (Hm : stored_order d Nphi m) by (apply gorder_stored; assumption). destruct (Nat.ltb_spec j (first_degree p m)) as [H|H].
  - split; [discriminate|]. intros (m' & n' & E & _). discriminate.
  - rewrite nmin_first. destruct (Z.leb_spec (Z.of_nat (first_degree p m)) (Z.of_nat j)); [|lia].
    assert (HM : is_polar_mode p d Nphi Nr m (Z.of_nat j)) by (split; [exact Hm|lia]).
    assert (Hodd : (m =? 0)%Z && (i mod 2 =? 1) = true <-> m = 0%Z /\ d = Float64 /\ i mod parts d = 1).
    { rewrite andb_true_iff, Z.eqb_eq, Nat.eqb_eq. destruct d; cbn [parts]; [|tauto]. split; [|intros (_ & H' & _); discriminate]. intros [E0 E1]. exfalso. unfold m, gorder in E0. cbn [parts] in *. rewrite Nat.div_1_r in *. rewrite E1 in E0.
      destruct (order_index _ _ _ Hg Hq) as [H3 [H4|H4]]; [lia|]. apply half_order_zero in E0; [lia|exact Hg|exact H3|right; lia]. }
    split.
    + intros Hv. exists m, (Z.of_nat j). split; [reflexivity|]. split; [exact HM|]. intros (-> & Hx). apply Hodd in Hx. rewrite Hx in Hv. discriminate.
    + intros (m' & n' & E & _ & Hx). injection E as <- <-. destruct scalar; [|reflexivity]. destruct ((m =? 0)%Z && (i mod 2 =? 1)) eqn:Eo; [|reflexivity]. exfalso. apply Hx. split; [reflexivity|apply Hodd; reflexivity].
Qed.

(** ** The table of orders *)
Context (Ng c0 n : nat) (HN : 0 < Ng) (Hn : c0 + n <= orders d Nphi).
Lemma order_of a : a < parts d * n -> order_in d Nphi c0 a = gorder d Nphi (c0 + a / parts d) /\ c0 <= c0 + a / parts d < c0 + n.
Proof.
  intros Ha. pose proof (parts_pos d) as HP. assert (a / parts d < n) by (apply Nat.div_lt_upper_bound; lia). pose proof (Nat.div_mod a (parts d) ltac:(lia)) as Ea. split; [|split; [apply Nat.le_add_r|apply Nat.add_lt_mono_l; assumption]]. unfold order_in.
  replace (parts d * c0 + a) with (parts d * (c0 + a / parts d) + a mod parts d) by nia. rewrite group_of_row; [reflexivity|exact Hg|lia|apply Nat.mod_upper_bound; lia].
Qed.
Lemma resolved_orders : (forall a, a < parts d * n -> first_degree p (order_in d Nphi c0 a) < Nr) -> forall q, c0 <= q < c0 + n -> first_degree p (gorder d Nphi q) < Nr.
Proof.
  intros H q Hq. pose proof (parts_pos d) as HP. specialize (H (parts d * (q - c0)) ltac:(nia)). destruct (order_of (parts d * (q - c0)) ltac:(nia)) as [E _]. rewrite E in H.
  rewrite (Nat.mul_comm (parts d)), Nat.div_mul in H by lia. replace (c0 + (q - c0)) with q in H by lia. exact H.
Qed.
(** On a process on which every order has a degree, the table has every order once, with its rows and its columns. *)
Theorem polar_order_table : (forall a, a < parts d * n -> first_degree p (order_in d Nphi c0 a) < Nr) ->
  exists maps, polar_maps p d Nphi Nr Ng c0 n = Some maps /\ NoDup (map (fun e : polar_map => fst (fst (fst e))) maps) /\ Forall (right_polar_entry p d Nphi Nr c0 n) maps
  /\ forall a, a < parts d * n -> exists e, In e maps /\ in_range a (snd (fst e)).
Proof.
  intros Hf. pose proof (resolved_orders Hf) as Hq. exists (map (polar_entry p d Nphi Nr c0) (seq c0 n)). split; [apply polar_maps_entries; assumption|]. pose proof (parts_pos d) as HP.
  assert (Hrow : forall q a, c0 <= q < c0 + n -> in_range a (parts d * (q - c0), parts d * (q - c0) + parts d) <-> c0 + a / parts d = q).
  { intros q a Hqq. unfold in_range. cbn [fst snd]. split.
    - intros Ha. replace (a / parts d) with (q - c0); [lia|]. apply (Nat.div_unique _ _ _ (a - parts d * (q - c0))); lia.
    - intros <-. pose proof (Nat.div_mod a (parts d) ltac:(lia)). pose proof (Nat.mod_upper_bound a (parts d) ltac:(lia)). replace (c0 + a / parts d - c0) with (a / parts d) by lia. lia. }
  split; [|split].
  - rewrite map_map. unfold polar_entry. cbn [fst]. assert (HI : forall q q', In q (seq c0 n) -> In q' (seq c0 n) -> gorder d Nphi q = gorder d Nphi q' -> q = q') by (intros q q' Hi Hi' E; apply in_seq in Hi; apply in_seq in Hi'; apply gorder_inj in E; [exact E|exact Hg|lia|lia]).
    revert HI. generalize (seq_NoDup n c0). generalize (seq c0 n) as l. clear. intros l Hd HI. induction Hd as [|x l Hx Hd IH]; [constructor|]. cbn [map]. constructor; [|apply IH; intros q q' Hq Hq'; apply HI; right; assumption]. intros Hi. apply in_map_iff in Hi as (y & E & Hy). apply HI in E; [subst y; contradiction|right; exact Hy|left; reflexivity].
  - apply Forall_forall. intros e He. apply in_map_iff in He as (q & <- & Hi). apply in_seq in Hi. unfold right_polar_entry, polar_entry. split; [reflexivity|]. split; [|split].
    + intros a Ha. rewrite Hrow by lia. destruct (order_of a Ha) as [-> Hd]. split; [intros ->; reflexivity|]. intros E. apply gorder_inj in E; [exact E|exact Hg|lia|lia].
    + cbn [snd]. nia.
    + intros j. unfold in_range. cbn [fst snd]. lia.
  - intros a Ha. destruct (order_of a Ha) as [_ Hd]. exists (polar_entry p d Nphi Nr c0 (c0 + a / parts d)). pose proof Hd as Hx. split; [apply in_map, in_seq; exact Hx|]. cbn [polar_entry fst snd]. apply Hrow; [exact Hx|reflexivity].
Qed.
(** A process with an order that has no degree cannot make the table: every transform on it raises. *)
Theorem polar_overresolved_refuted a : a < parts d * n -> Nr <= first_degree p (order_in d Nphi c0 a) -> polar_maps p d Nphi Nr Ng c0 n = None.
Proof. intros Ha Hf. destruct (order_of a Ha) as [E Hd]. rewrite E in Hf. apply (polar_maps_fail p d Nphi Nr Ng c0 n Hg H2 HN Hn (c0 + a / parts d)); [lia|exact Hf]. Qed.
(** If the basis does not warn about the resolution (basis.py:2357-2358), every order has a degree; annuli always have them. *)
Theorem polar_resolved : 0 < Nr -> (p = Disk -> mmax Nphi <= 2 * (Nr - 1)) -> forall a, a < parts d * n -> first_degree p (order_in d Nphi c0 a) < Nr.
Proof.
  intros H0 Hw a Ha. destruct p; [exact H0|]. specialize (Hw eq_refl). destruct (order_of a Ha) as [-> Hd]. assert (Hs := gorder_stored d Nphi (c0 + a / parts d) Hg ltac:(lia)). set (m := gorder _ _ _) in *. cbn [first_degree]. apply Nat.div_lt_upper_bound; [lia|].
  unfold mmax in Hw. pose proof (Nat.div_mod (Nphi - 1) 2 ltac:(lia)). pose proof (Nat.mod_upper_bound (Nphi - 1) 2 ltac:(lia)). destruct d; unfold stored_order in Hs; lia.
Qed.
End Storage.

(** ** Disks *)
Section Mass.
Context (mass : R -> R -> R) (Hm : mass_rules mass) (quadrature : nat -> R -> R -> list (R * R)).
Section Disk.
Context (d : dtype) (Nphi Nr : nat) (Hg : good_resolution d Nphi) (H2 : Nphi <> 2) (Ng c0 n : nat) (HN : 0 < Ng) (Hn : c0 + n <= orders d Nphi)
  (alpha : R) (Ha : (-1 < alpha)%R) (k : nat) (s : Z) (radius : R) (Hr : (0 < radius)%R) (Hq : gauss mass Ng alpha 0 (quadrature Ng alpha 0)) (early : bool)
  (Hf : forall a, a < parts d * n -> first_degree Disk (order_in d Nphi c0 a) < Nr).
Notation first m := (first_degree Disk m).
Notation shown m := (Z.abs m <=? 2 * (Z.of_nat Nr - 1))%Z.
Let fwd (m : Z) (x : nat -> R) (i : nat) : R := match disk_forward_matrix mass quadrature early Ng Nr alpha k m s with Some F => image F x i | None => 0%R end.
Let bwd (m : Z) (x : nat -> R) (t : nat) : R := match disk_backward_matrix mass quadrature Ng Nr alpha k m s with Some B => image B x t | None => 0%R end.
Lemma first_bound m : first m < Nr -> (Z.abs m / 2 < Z.of_nat Nr)%Z.
Proof. intros H. cbn [first_degree] in H. rewrite <- Zabs2Nat.id_abs. change 2%Z with (Z.of_nat 2). rewrite <- Nat2Z.inj_div. lia. Qed.
Lemma matrices_of q : c0 <= q < c0 + n -> exists F B, disk_forward_matrix mass quadrature early Ng Nr alpha k (gorder d Nphi q) s = Some F /\ disk_backward_matrix mass quadrature Ng Nr alpha k (gorder d Nphi q) s = Some B
  /\ nr F = Nr - first (gorder d Nphi q) /\ nc F = Ng /\ nr B = Ng /\ nc B = Nr - first (gorder d Nphi q).
Proof.
  intros Hi. pose proof (resolved_orders Disk d Nphi Nr Hg H2 Ng c0 n HN Hn Hf q Hi) as Hb. destruct (disk_transforms mass Hm quadrature early Ng Nr alpha k radius Ha Hr (gorder d Nphi q) s Hq (first_bound _ Hb)) as (F & B & EF & EB & H3 & H4 & H5 & H6 & _). exists F, B. auto 10.
Qed.
Lemma div_row q a : c0 <= q -> inside a (parts d * (q - c0), parts d * (q - c0) + parts d) = (a / parts d =? q - c0).
Proof.
  intros Hc. pose proof (parts_pos d) as HP. destruct (Nat.eqb_spec (a / parts d) (q - c0)) as [E|E].
  - apply inside_iff. cbn [fst snd]. rewrite <- E. pose proof (Nat.div_mod a (parts d) ltac:(lia)). pose proof (Nat.mod_upper_bound a (parts d) ltac:(lia)). lia.
  - destruct (inside a _) eqn:Ei; [|reflexivity]. apply inside_iff in Ei. cbn [fst snd] in Ei. exfalso. apply E. symmetry. apply (Nat.div_unique _ _ _ (a - parts d * (q - c0))); lia.
Qed.
Lemma forward_values g l c : (forall q, In q l -> c0 <= q < c0 + n) -> exists c', disk_forward_loop mass quadrature early Ng Nr alpha k s g (map (polar_entry Disk d Nphi Nr c0) l) c = Some c' /\ forall a j,
  c' a j = let m := gorder d Nphi (c0 + a / parts d) in if existsb (fun q => a / parts d =? q - c0) l && shown m && (first m <=? j) && (j <? Nr) then fwd m (g a) (j - first m) else c a j.
Proof.
  revert c. induction l as [|q l IH]; intros c Hl; [exists c; split; [reflexivity|reflexivity]|]. cbn [map disk_forward_loop].
  assert (Hqq : c0 <= q < c0 + n) by (apply Hl; left; reflexivity). destruct (matrices_of q Hqq) as (F & B & EF & EB & H3 & H4 & H5 & H6). set (m := gorder d Nphi q) in *.
  assert (ES : exists c1, disk_forward_step mass quadrature early Ng Nr alpha k s g (polar_entry Disk d Nphi Nr c0 q) c = Some c1 /\ forall a j, c1 a j = if (a / parts d =? q - c0) && shown m && (first m <=? j) && (j <? Nr) then fwd m (g a) (j - first m) else c a j).
  { unfold disk_forward_step, polar_entry. fold m. destruct (shown m).
    - rewrite EF. cbn [fst snd]. rewrite Nat.eqb_refl, H3, H4, !Nat.eqb_refl. cbn [andb orb]. eexists. split; [reflexivity|]. intros a j. cbv beta. rewrite div_row by lia. rewrite andb_true_r. destruct (Nat.eqb_spec (a / parts d) (q - c0)) as [E|E]; [|reflexivity]. cbn [andb].
      unfold inside. cbn [fst snd]. destruct (Nat.leb_spec (first m) j) as [E1|E1]; [|reflexivity]. destruct (Nat.ltb_spec j Nr) as [E2|E2]; [|reflexivity]. cbn [andb]. unfold fwd. rewrite EF. unfold image. rewrite H4.
      pose proof (Nat.div_mod a (parts d)) as Hd. pose proof (parts_pos d). rewrite E in Hd. assert (Hx : parts d * (q - c0) + (a - parts d * (q - c0)) = a) by lia.
      rewrite Hx. destruct (Nat.eqb_spec (Nr - first m) 1) as [E3|E3]; [|reflexivity]. replace (j - first m) with 0 by lia. reflexivity.
    - exists c. split; [reflexivity|]. intros a j. rewrite andb_false_r. reflexivity. }
  destruct ES as (c1 & -> & Hc1). destruct (IH c1) as (c' & E' & Hc'); [intros x Hx; apply Hl; right; exact Hx|]. exists c'. split; [exact E'|]. intros a j. rewrite Hc'. cbv zeta. cbn [existsb].
  destruct (existsb (fun q => a / parts d =? q - c0) l && shown (gorder d Nphi (c0 + a / parts d)) && (first (gorder d Nphi (c0 + a / parts d)) <=? j) && (j <? Nr)) eqn:Eb.
  - apply andb_true_iff in Eb as [Eb E1]. apply andb_true_iff in Eb as [Eb E2]. apply andb_true_iff in Eb as [Eb E3]. rewrite Eb, E1, E2, E3, orb_true_r. reflexivity.
  - rewrite Hc1. destruct (Nat.eqb_spec (a / parts d) (q - c0)) as [E|E]; cbn [orb].
    + replace (c0 + a / parts d) with q by lia. fold m. reflexivity.
    + rewrite Eb. reflexivity.
Qed.
Lemma backward_values c l g : (forall q, In q l -> c0 <= q < c0 + n) -> exists g', disk_backward_loop mass quadrature Ng Nr alpha k s c (map (polar_entry Disk d Nphi Nr c0) l) g = Some g' /\ forall a t,
  g' a t = let m := gorder d Nphi (c0 + a / parts d) in if existsb (fun q => a / parts d =? q - c0) l then if shown m then bwd m (fun i => c a (first m + i)) t else 0%R else g a t.
Proof.
  revert g. induction l as [|q l IH]; intros g Hl; [exists g; split; [reflexivity|reflexivity]|]. cbn [map disk_backward_loop].
  assert (Hqq : c0 <= q < c0 + n) by (apply Hl; left; reflexivity). destruct (matrices_of q Hqq) as (F & B & EF & EB & H3 & H4 & H5 & H6). set (m := gorder d Nphi q) in *.
  assert (ES : exists g1, disk_backward_step mass quadrature Ng Nr alpha k s c (polar_entry Disk d Nphi Nr c0 q) g = Some g1 /\ forall a t, g1 a t = if (a / parts d =? q - c0) then if shown m then bwd m (fun i => c a (first m + i)) t else 0%R else g a t).
  { unfold disk_backward_step, polar_entry. fold m. rewrite Z.gtb_ltb, Z.ltb_antisym. destruct (shown m); cbn [negb].
    - rewrite EB. cbn [fst snd]. rewrite Nat.eqb_refl, H5, H6, !Nat.eqb_refl. cbn [andb]. eexists. split; [reflexivity|]. intros a t. cbv beta. rewrite div_row by lia. destruct (Nat.eqb_spec (a / parts d) (q - c0)) as [E|E]; [|reflexivity]. unfold bwd. rewrite EB. unfold image. rewrite H6.
      pose proof (Nat.div_mod a (parts d)) as Hd. pose proof (parts_pos d). rewrite E in Hd. assert (Hx : parts d * (q - c0) + (a - parts d * (q - c0)) = a) by lia. rewrite Hx. reflexivity.
    - eexists. split; [reflexivity|]. intros a t. cbv beta. rewrite div_row by lia. reflexivity. }
  destruct ES as (g1 & -> & Hg1). destruct (IH g1) as (g' & E' & Hg'); [intros x Hx; apply Hl; right; exact Hx|]. exists g'. split; [exact E'|]. intros a t. rewrite Hg'. cbv zeta. cbn [existsb].
  destruct (existsb (fun q => a / parts d =? q - c0) l) eqn:Eb; [rewrite orb_true_r; reflexivity|]. rewrite orb_false_r, Hg1. destruct (Nat.eqb_spec (a / parts d) (q - c0)) as [E|E]; [|reflexivity]. replace (c0 + a / parts d) with q by lia. fold m. reflexivity.
Qed.
Lemma all_matrices forward e : disk_matrices mass quadrature e Ng Nr alpha k s forward (map (polar_entry Disk d Nphi Nr c0) (seq c0 n)) = true.
Proof.
  unfold disk_matrices. apply forallb_forall. intros x Hx. apply in_map_iff in Hx as (q & <- & Hi). apply in_seq in Hi. cbn [polar_entry fst]. pose proof (resolved_orders Disk d Nphi Nr Hg H2 Ng c0 n HN Hn Hf q ltac:(lia)) as Hb.
  destruct (disk_transforms mass Hm quadrature e Ng Nr alpha k radius Ha Hr (gorder d Nphi q) s Hq (first_bound _ Hb)) as (F & B & -> & -> & _). destruct forward; reflexivity.
Qed.
Lemma covered a : a < parts d * n -> existsb (fun q => a / parts d =? q - c0) (seq c0 n) = true.
Proof. intros Hi. destruct (order_of d Nphi Hg H2 Ng c0 n HN Hn a Hi) as [_ Hd]. apply existsb_exists. exists (c0 + a / parts d). split; [apply in_seq; lia|]. apply Nat.eqb_eq. lia. Qed.
Lemma forward_made g : exists c', disk_forward mass quadrature early d Nphi Nr Ng c0 n alpha k s g = Some c' /\ forall a j, a < parts d * n -> j < Nr ->
  c' a j = let m := order_in d Nphi c0 a in if shown m && (first m <=? j) then fwd m (g a) (j - first m) else 0%R.
Proof.
  unfold disk_forward. rewrite (polar_maps_entries Disk d Nphi Nr Ng c0 n Hg H2 HN Hn (resolved_orders Disk d Nphi Nr Hg H2 Ng c0 n HN Hn Hf)), all_matrices.
  destruct (forward_values g (seq c0 n) (fun _ _ => 0%R)) as (c' & E & H); [intros q Hi; apply in_seq in Hi; lia|]. exists c'. split; [exact E|]. intros a j Hi Hj. rewrite H, covered by exact Hi. destruct (order_of d Nphi Hg H2 Ng c0 n HN Hn a Hi) as [-> _]. cbv zeta. destruct (Nat.ltb_spec j Nr); [|lia]. cbn [andb]. rewrite andb_true_r. reflexivity.
Qed.
(** Coefficients are sent to the values of their series, order by order: rows whose order is more than twice the largest degree vanish. *)
Theorem polar_disk_backward c : exists g, disk_backward mass quadrature d Nphi Nr Ng c0 n alpha k s c = Some g /\ forall a t, a < parts d * n -> t < Ng ->
  let m := order_in d Nphi c0 a in
  g a t = if shown m then series (Nat.min (Nr - first m) (Ng - Z.abs_nat (m + s) / 2)) (fun i => c a (first m + i)) (zernike mass 2 radius (alpha + INR k) (Z.abs_nat (m + s))) (ball_point radius (point (quadrature Ng alpha 0) t)) else 0%R.
Proof.
  unfold disk_backward. rewrite (polar_maps_entries Disk d Nphi Nr Ng c0 n Hg H2 HN Hn (resolved_orders Disk d Nphi Nr Hg H2 Ng c0 n HN Hn Hf)), all_matrices.
  destruct (backward_values c (seq c0 n) (fun _ _ => 0%R)) as (g & E & H); [intros q Hi; apply in_seq in Hi; lia|]. exists g. split; [exact E|]. intros a t Hi Ht. rewrite H, covered by exact Hi. pose proof (Hf a Hi) as Hb. destruct (order_of d Nphi Hg H2 Ng c0 n HN Hn a Hi) as [Eo _]. rewrite <- Eo. cbv zeta. destruct (shown _); [|reflexivity].
  destruct (disk_transforms mass Hm quadrature early Ng Nr alpha k radius Ha Hr (order_in d Nphi c0 a) s Hq (first_bound _ Hb)) as (F & B & _ & EB & _ & _ & _ & _ & HB & _). unfold bwd. rewrite EB. apply HB. exact Ht.
Qed.
(** Values of series that the points can integrate are sent to the coefficients. *)
Theorem polar_disk_forward c g (count : Z -> nat) : (forall m, count m <= Nr - first m /\ count m <= Ng - Z.abs_nat (m + s) / 2) ->
  (forall a t, a < parts d * n -> t < Ng -> let m := order_in d Nphi c0 a in
     g a t = series (count m) (fun i => c a (first m + i)) (zernike mass 2 radius (alpha + INR k) (Z.abs_nat (m + s))) (ball_point radius (point (quadrature Ng alpha 0) t))) ->
  exists c', disk_forward mass quadrature early d Nphi Nr Ng c0 n alpha k s g = Some c' /\ forall a j, a < parts d * n -> j < Nr -> let m := order_in d Nphi c0 a in
  c' a j = if shown m && (first m <=? j) && (j - first m <? count m) then c a j else 0%R.
Proof.
  intros Hc HG. destruct (forward_made g) as (c' & E & H). exists c'. split; [exact E|]. intros a j Hi Hj m. rewrite (H a j Hi Hj). cbv zeta. fold m. destruct (shown m); [|reflexivity]. cbn [andb]. destruct (Nat.leb_spec (first m) j) as [Hj1|]; [|reflexivity]. cbn [andb].
  pose proof (Hf a Hi) as Hb. fold m in Hb. destruct (disk_transforms mass Hm quadrature early Ng Nr alpha k radius Ha Hr m s Hq (first_bound _ Hb)) as (F & B & EF & _ & _ & _ & _ & _ & _ & HF & _). unfold fwd. rewrite EF.
  rewrite (HF (count m) (fun i => c a (first m + i)) (g a) (proj1 (Hc m)) (proj2 (Hc m))).
  - replace (first m + (j - first m)) with j by lia. reflexivity.
  - intros t Ht. apply HG; assumption.
  - change (Z.abs_nat m / 2) with (first m). lia.
Qed.
(** To the grid and back: what is kept is kept unchanged, the rest is zero.  Without orders but zero, real data on the grid have one row. *)
Theorem polar_disk_round_trip c : exists g c', disk_backward mass quadrature d Nphi Nr Ng c0 n alpha k s c = Some g /\ disk_forward mass quadrature early d Nphi Nr Ng c0 n alpha k s g = Some c'
  /\ forall a j, a < parts d * n -> j < Nr -> c' a j = if kept Nr Ng (order_in d Nphi c0 a) s j then c a j else 0%R.
Proof.
  destruct (polar_disk_backward c) as (g & Eg & HG). destruct (forward_made g) as (c' & E & H). exists g, c'. split; [exact Eg|]. split; [exact E|]. intros a j Hi Hj. rewrite (H a j Hi Hj). cbv zeta. set (m := order_in d Nphi c0 a) in *. unfold kept. destruct (shown m) eqn:Es; [|reflexivity]. cbn [andb].
  destruct (Nat.leb_spec (first m) j) as [Hj1|]; [|reflexivity]. cbn [andb]. pose proof (Hf a Hi) as Hb. fold m in Hb. destruct (disk_transforms mass Hm quadrature early Ng Nr alpha k radius Ha Hr m s Hq (first_bound _ Hb)) as (F & B & EF & _ & _ & _ & _ & _ & _ & HF & _). unfold fwd. rewrite EF.
  rewrite (HF (Nat.min (Nr - first m) (Ng - Z.abs_nat (m + s) / 2)) (fun i => c a (first m + i)) (g a)).
  - replace (first m + (j - first m)) with j by lia. destruct (Nat.ltb_spec (j - first m) (Nat.min (Nr - first m) (Ng - Z.abs_nat (m + s) / 2))), (Nat.ltb_spec (j - first m) (Ng - Z.abs_nat (m + s) / 2)); try lia; reflexivity.
  - change (Z.abs_nat m / 2) with (first m). lia.
  - lia.
  - intros t Ht. pose proof (HG a t Hi Ht) as HH. cbv zeta in HH. fold m in HH. rewrite Es in HH. exact HH.
  - change (Z.abs_nat m / 2) with (first m). lia.
Qed.
Theorem polar_scalar_round_trip c : s = 0%Z -> exists g c', disk_backward mass quadrature d Nphi Nr Ng c0 n alpha k s c = Some g /\ disk_forward mass quadrature early d Nphi Nr Ng c0 n alpha k s (expanded d Nphi g) = Some c'
  /\ forall a j, a < parts d * n -> j < Nr -> c' a j = if (a <? field_rows d Nphi) && kept Nr Ng (order_in d Nphi c0 a) s j then c a j else 0%R.
Proof.
  intros Hs. destruct (polar_disk_backward c) as (g & Eg & HG). destruct (polar_disk_round_trip c) as (g' & c1 & Eg' & E1 & H1). rewrite Eg in Eg'. injection Eg' as <-. exists g.
  destruct (forward_made g) as (c1' & E1' & F1). rewrite E1 in E1'. injection E1' as <-. destruct (forward_made (expanded d Nphi g)) as (c2 & E2 & F2). exists c2. split; [exact Eg|]. split; [exact E2|]. intros a j Hi Hj.
  assert (Hc : a < field_rows d Nphi /\ (forall t, expanded d Nphi g a t = g a t) \/ (field_rows d Nphi <= a /\ forall t, expanded d Nphi g a t = 0%R)).
  { unfold expanded, field_rows. pose proof (orders_rows d Nphi Hg H2) as Ho. assert (Hpa : a < parts d * orders d Nphi) by nia. rewrite <- Ho in Hpa. unfold polar_rows in Hpa. destruct d; [left; split; [exact Hpa|reflexivity]|].
    destruct (Nat.eqb_spec (mmax Nphi) 0) as [Em|Em].
    - destruct (Nat.ltb_spec a 1); [left|right]; (split; [lia|reflexivity]).
    - left. split; [|reflexivity]. destruct (Nat.ltb_spec 1 Nphi) as [|H0]; [exact Hpa|]. exfalso. apply Em. unfold mmax. replace (Nphi - 1) with 0 by lia. reflexivity. }
  pose proof (F2 a j Hi Hj) as F2'. pose proof (F1 a j Hi Hj) as F1'. cbv zeta in F1', F2'. destruct Hc as [[Ha1 Ha2]|[Ha1 Ha2]].
  - destruct (Nat.ltb_spec a (field_rows d Nphi)); [|lia]. cbn [andb]. rewrite <- (H1 a j Hi Hj), F1', F2'. destruct (shown _ && _); [|reflexivity]. unfold fwd. destruct (disk_forward_matrix _ _ _ _ _ _ _ _ _); [|reflexivity]. apply Rtotal_ext. intros t _. rewrite Ha2. reflexivity.
  - destruct (Nat.ltb_spec a (field_rows d Nphi)); [lia|]. cbn [andb]. rewrite F2'. destruct (shown _ && _); [|reflexivity]. unfold fwd. destruct (disk_forward_matrix _ _ _ _ _ _ _ _ _); [|reflexivity]. unfold image. apply JacobiCalc_Ops.Rtotal_zero. intros t _. rewrite Ha2. ring.
Qed.
End Disk.
(** An order that is one more than twice the largest degree has a stored coefficient that the grid never shows and that the transforms lose. *)
Theorem disk_top_order_refuted early d Nphi Nr Ng c0 n alpha k s a : good_resolution d Nphi -> Nphi <> 2 -> 0 < Ng -> c0 + n <= orders d Nphi -> (-1 < alpha)%R -> gauss mass Ng alpha 0 (quadrature Ng alpha 0) ->
  (forall a, a < parts d * n -> first_degree Disk (order_in d Nphi c0 a) < Nr) -> a < parts d * n -> Z.abs (order_in d Nphi c0 a) = (2 * Z.of_nat Nr - 1)%Z ->
  is_polar_mode Disk d Nphi Nr (order_in d Nphi c0 a) (Z.of_nat Nr - 1)
  /\ forall c, exists g c', disk_backward mass quadrature d Nphi Nr Ng c0 n alpha k s c = Some g /\ (forall t, t < Ng -> g a t = 0%R) /\ disk_forward mass quadrature early d Nphi Nr Ng c0 n alpha k s g = Some c' /\ c' a (Nr - 1) = 0%R.
Proof.
  intros Hg H2 HN Hn Ha Hq Hf Hi Ho. pose proof (Hf a Hi) as Hb. split.
  - destruct (order_of d Nphi Hg H2 Ng c0 n HN Hn a Hi) as [E Hd]. split; [rewrite E; apply gorder_stored; [exact Hg|lia]|lia].
  - intros c. destruct (polar_disk_backward d Nphi Nr Hg H2 Ng c0 n HN Hn alpha Ha k s 1 Rlt_0_1 Hq early Hf c) as (g & Eg & HG). destruct (polar_disk_round_trip d Nphi Nr Hg H2 Ng c0 n HN Hn alpha Ha k s 1 Rlt_0_1 Hq early Hf c) as (g' & c' & Eg' & Ec & H).
    rewrite Eg in Eg'. injection Eg' as <-. exists g, c'. split; [exact Eg|].
    assert (Es : (Z.abs (order_in d Nphi c0 a) <=? 2 * (Z.of_nat Nr - 1))%Z = false) by (apply Z.leb_gt; lia). split; [|split; [exact Ec|]].
    + intros t Ht. pose proof (HG a t Hi Ht) as HH. cbv zeta in HH. rewrite Es in HH. exact HH.
    + rewrite (H a (Nr - 1) Hi ltac:(lia)). unfold kept. rewrite Es. reflexivity.
Qed.

(** ** Annuli *)
Theorem polar_annulus_round_trip early N M inner outer a b k c : 1 <= N -> 1 <= M -> (0 < inner)%R -> (inner < outer)%R -> (-1 < a)%R -> (-1 < b)%R -> gauss mass N a b (quadrature N a b) ->
  exists g c', annulus_backward mass quadrature N M inner outer a b k c = Some g /\ annulus_forward mass quadrature early N M inner outer a b k g = Some c'
  /\ (forall i t, t < N -> g i t = series (Nat.min M N) (c i) (shell_function mass inner outer a b k) (inner + (outer - inner) * (1 + point (quadrature N a b) t) / 2)%R)
  /\ forall i j, j < M -> c' i j = if j <? N then c i j else 0%R.
Proof.
  intros HN HM Hin Hout Ha Hb Hq. assert (T := fun i => shell_transforms mass Hm quadrature N M HN HM inner outer Hin Hout a b Ha Hb k Hq early (c i)).
  unfold annulus_backward, annulus_forward. destruct (T 0) as (g0 & E0 & _ & c0 & F0 & _). rewrite E0. eexists. eexists. split; [reflexivity|]. split.
  - cbv beta. rewrite E0, F0. reflexivity.
  - split; intros i; destruct (T i) as (gi & Ei & Hi & ci & Fi & Hci); cbv beta; rewrite Ei; [exact Hi|]. rewrite Fi. exact Hci.
Qed.
End Mass.
Print Assumptions polar_resolutions.
Print Assumptions polar_modes_stored.
Print Assumptions polar_elements.
Print Assumptions polar_order_table.
Print Assumptions polar_overresolved_refuted.
Print Assumptions polar_resolved.
Print Assumptions polar_disk_backward.
Print Assumptions polar_disk_forward.
Print Assumptions polar_disk_round_trip.
Print Assumptions polar_scalar_round_trip.
Print Assumptions disk_top_order_refuted.
Print Assumptions polar_annulus_round_trip.

(** ** Examples *)
(** Eight azimuthal points, two radial ones, real data: the orders are 0, 3, 1, 2 in pairs of rows; 3 keeps its degree 1. *)
Example sample_table : polar_maps Disk Float64 8 2 3 0 4 = Some [(0%Z, (0, 2), (0, 2), (0, 2)); (3%Z, (2, 4), (2, 4), (1, 2)); (1%Z, (4, 6), (4, 6), (0, 2)); (2%Z, (6, 8), (6, 8), (1, 2))].
Proof. vm_compute. reflexivity. Qed.
(** On a process with the last two of the orders. *)
Example sample_part : polar_maps Disk Float64 8 2 3 2 2 = Some [(1%Z, (0, 2), (0, 2), (0, 2)); (2%Z, (2, 4), (2, 4), (1, 2))].
Proof. vm_compute. reflexivity. Qed.
(** One azimuthal point: the rows of the grid are two after the expansion. *)
Example sample_axisymmetric : polar_maps Disk Float64 1 3 4 0 1 = Some [(0%Z, (0, 2), (0, 2), (0, 3))] /\ field_rows Float64 1 = 1.
Proof. split; vm_compute; reflexivity. Qed.
(** Twelve azimuthal points and two radial ones: the orders reach 5, whose first degree is 2. *)
Example sample_overresolved : polar_maps Disk Float64 12 2 3 0 6 = None /\ first_degree Disk 5 = 2 /\ polar_allowed Float64 12 2 = true /\ polar_maps Annulus Float64 12 2 3 0 6 <> None.
Proof. repeat split; try (vm_compute; reflexivity). vm_compute. discriminate. Qed.
(** Four azimuthal points, two radial ones and two Gauss points: the orders are 0 and 1; everything is kept. *)
Example sample_disk_field c : exists g c', disk_backward JacobiCalc_Proofs.sample_mass (fun _ _ _ => two_points) Float64 4 2 2 0 2 0 1 0 c = Some g
  /\ disk_forward JacobiCalc_Proofs.sample_mass (fun _ _ _ => two_points) true Float64 4 2 2 0 2 0 1 0 g = Some c' /\ forall a j, a < 4 -> j < 2 -> c' a j = c a j.
Proof.
  assert (Hg : good_resolution Float64 4) by (split; [lia|right; reflexivity]).
  assert (Hf : forall a, a < parts Float64 * 2 -> first_degree Disk (order_in Float64 4 0 a) < 2) by (intros a Ha; cbn [parts] in Ha; do 4 (destruct a as [|a]; [vm_compute; lia|]); lia).
  destruct (polar_disk_round_trip JacobiCalc_Proofs.sample_mass JacobiCalc_Proofs.sample_rules (fun _ _ _ => two_points) Float64 4 2 Hg ltac:(lia) 2 0 2 ltac:(lia) ltac:(vm_compute; lia) 0 ltac:(lra) 1 0%Z 1 Rlt_0_1 two_points_gauss true Hf c) as (g & c' & Eg & Ec & H).
  exists g, c'. split; [exact Eg|]. split; [exact Ec|]. intros a j Hi Hj. rewrite (H a j Hi Hj). do 4 (destruct a as [|a]; [do 2 (destruct j as [|j]; [reflexivity|]); lia|]). lia.
Qed.
(** Order 3 with two radial degrees. *)
Example sample_lost c : exists g c', disk_backward JacobiCalc_Proofs.sample_mass (fun _ _ _ => two_points) Float64 8 2 2 0 4 0 0 0 c = Some g /\ (forall t, t < 2 -> g 2 t = 0%R)
  /\ disk_forward JacobiCalc_Proofs.sample_mass (fun _ _ _ => two_points) true Float64 8 2 2 0 4 0 0 0 g = Some c' /\ c' 2 1 = 0%R.
Proof.
  assert (Hg : good_resolution Float64 8) by (split; [lia|right; reflexivity]).
  assert (Hf : forall a, a < parts Float64 * 4 -> first_degree Disk (order_in Float64 8 0 a) < 2) by (intros a Ha; cbn [parts] in Ha; do 8 (destruct a as [|a]; [vm_compute; lia|]); lia).
  apply (disk_top_order_refuted JacobiCalc_Proofs.sample_mass JacobiCalc_Proofs.sample_rules (fun _ _ _ => two_points) true Float64 8 2 2 0 4 0 0 0%Z 2 Hg ltac:(lia) ltac:(lia) ltac:(vm_compute; lia) ltac:(lra) two_points_gauss Hf); [cbn; lia|reflexivity].
Qed.
