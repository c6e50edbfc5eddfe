(** Interpolation in the radius gives the values of the functions, lifts have one radial function, and edges share their radius.  Property C82. *)
From Coq Require Import List Arith Bool ZArith Reals Lia Lra.
Import ListNotations.
From Verif Require Import CSR_Spec JacobiCalc_Spec TupleTools_Model Intertwiner_Model Intertwiner_Spec Intertwiner_Proofs Radial_Model Radial_Spec Radial_Props Sphere_Model Sphere_Spec Sphere_Proofs Sphere_Props SphereEll_Model SphereEll_Spec SphereEll_Proofs SphereEll_Props.
From Verif Require Import Polar_Model Polar_Spec Polar_Proofs Polar_Props Integrals_Spec Averages_Spec Boundary_Model Boundary_Spec Boundary_Proofs.
From Verif Require Import Codomain_Proofs.
From Verif Require JacobiCalc_Props JacobiCalc_Proofs JacobiCalc_Ops Integrals_Model.
Local Open Scope nat_scope.

Section Mass.
Context (mass : R -> R -> R) (Hm : mass_rules mass).

(** ** Disks and annuli *)
(** On every process, every spin component of every order gets the value of its radial function at the position, whatever the buffer held
    before. *)
Theorem disk_interpolation_value d Nphi Nr Ng c0 n radius alpha k s position x out0 : (0 < radius)%R -> (-1 < alpha + INR k)%R -> (0 < position)%R ->
  good_resolution d Nphi -> Nphi <> 2 -> 0 < Ng -> c0 + n <= orders d Nphi -> (forall a, a < parts d * n -> first_degree Disk (order_in d Nphi c0 a) < Nr) ->
  exists out, polar_interpolate Disk d Nphi Nr Ng c0 n (disk_vector mass radius alpha k Nr s position) x out0 = Some out
  /\ forall a, a < parts d * n -> let m := order_in d Nphi c0 a in
     out a = series (Nr - first_degree Disk m) (fun i => x a (first_degree Disk m + i)) (zernike mass 2 radius (alpha + INR k) (Z.abs_nat (m + s))) position.
Proof.
  intros Hr Hk Hp Hg H2 HN Hn Hf. apply (polar_interpolate_value Disk d Nphi Nr Ng c0 n (fun m => zernike mass 2 radius (alpha + INR k) (Z.abs_nat (m + s)))); try assumption.
  intros m Hl. unfold disk_vector. rewrite nmin_first_size. apply disk_values; try assumption. lia.
Qed.
Theorem annulus_interpolation_value d Nphi Nr Ng c0 n inner outer ka kb k position x out0 : (0 < inner)%R -> (inner < outer)%R -> (-1 < ka)%R -> (-1 < kb)%R -> (0 < position)%R -> 0 < Nr ->
  good_resolution d Nphi -> Nphi <> 2 -> 0 < Ng -> c0 + n <= orders d Nphi ->
  exists out, polar_interpolate Annulus d Nphi Nr Ng c0 n (annulus_vector mass inner outer ka kb k Nr position) x out0 = Some out
  /\ forall a, a < parts d * n -> out a = series Nr (x a) (shell_function mass inner outer ka kb k) position.
Proof.
  intros Hi Ho Ha Hb Hp HNr Hg H2 HN Hn. destruct (polar_interpolate_value Annulus d Nphi Nr Ng c0 n (fun _ => shell_function mass inner outer ka kb k) (annulus_vector mass inner outer ka kb k Nr position) position Hg H2 HN Hn (fun _ _ => HNr)) with (x := x) (out0 := out0) as (out & E & V).
  - intros m _. unfold annulus_vector, first_degree. rewrite Nat.sub_0_r. apply shell_values; assumption.
  - exists out. split; [exact E|]. intros a Hal. rewrite (V a Hal). unfold first_degree. rewrite Nat.sub_0_r. reflexivity.
Qed.
(** For scalar fields of real data: the processes together hold the coefficients of one function on the circle, the values of the field at
    the position. *)
Lemma order_in_shift d Nphi c0 a : order_in d Nphi c0 a = order_in d Nphi 0 (parts d * c0 + a).
Proof. unfold order_in. rewrite Nat.mul_0_r. reflexivity. Qed.
Theorem disk_interpolation_field Nphi Nr radius alpha k position C : (0 < radius)%R -> (-1 < alpha + INR k)%R -> (0 < position)%R -> good_resolution Float64 Nphi -> Nphi <> 2 ->
  (forall i, i < polar_rows Float64 Nphi -> first_degree Disk (order_in Float64 Nphi 0 i) < Nr) ->
  exists E, (forall Ng c0 n out0, 0 < Ng -> c0 + n <= orders Float64 Nphi ->
    exists out, polar_interpolate Disk Float64 Nphi Nr Ng c0 n (disk_vector mass radius alpha k Nr 0 position) (fun a => C (2 * c0 + a)) out0 = Some out /\ forall a, a < 2 * n -> out a = E (2 * c0 + a))
  /\ forall phi, circle_field Nphi E phi = polar_field Disk Nphi Nr (fun m => zernike mass 2 radius (alpha + INR k) (Z.abs_nat m)) C phi position.
Proof.
  intros Hr Hk Hp Hg H2 Hf.
  exists (fun i => let m := order_in Float64 Nphi 0 i in series (Nr - first_degree Disk m) (fun n => C i (first_degree Disk m + n)) (zernike mass 2 radius (alpha + INR k) (Z.abs_nat m)) position). split; [|reflexivity].
  intros Ng c0 n out0 HN Hn. destruct (disk_interpolation_value Float64 Nphi Nr Ng c0 n radius alpha k 0 position (fun a => C (2 * c0 + a)) out0) as (out & E & V); try assumption.
  - intros a Ha. rewrite order_in_shift. apply Hf. rewrite orders_rows by assumption. cbn [parts] in *. lia.
  - exists out. split; [exact E|]. intros a Ha. rewrite (V a Ha). rewrite order_in_shift. cbn [parts]. rewrite Z.add_0_r. reflexivity.
Qed.
Theorem annulus_interpolation_field Nphi Nr inner outer ka kb k position C : (0 < inner)%R -> (inner < outer)%R -> (-1 < ka)%R -> (-1 < kb)%R -> (0 < position)%R -> 0 < Nr -> good_resolution Float64 Nphi -> Nphi <> 2 ->
  exists E, (forall Ng c0 n out0, 0 < Ng -> c0 + n <= orders Float64 Nphi ->
    exists out, polar_interpolate Annulus Float64 Nphi Nr Ng c0 n (annulus_vector mass inner outer ka kb k Nr position) (fun a => C (2 * c0 + a)) out0 = Some out /\ forall a, a < 2 * n -> out a = E (2 * c0 + a))
  /\ forall phi, circle_field Nphi E phi = polar_field Annulus Nphi Nr (fun _ => shell_function mass inner outer ka kb k) C phi position.
Proof.
  intros Hi Ho Ha Hb Hp HNr Hg H2. exists (fun i => series Nr (C i) (shell_function mass inner outer ka kb k) position). split.
  - intros Ng c0 n out0 HN Hn. destruct (annulus_interpolation_value Float64 Nphi Nr Ng c0 n inner outer ka kb k position (fun a => C (2 * c0 + a)) out0) as (out & E & V); try assumption. exists out. split; [exact E|]. exact V.
  - intros phi. unfold circle_field, polar_field. apply Rtotal_ext. intros i Hi'. cbn zeta. unfold first_degree. rewrite Nat.sub_0_r. reflexivity.
Qed.

(** ** Balls and shells *)
Section Spheres.
Context (d : dtype) (Nphi Ntheta c0 n j0 nc Nr order : nat) (position : R).
Context (Hg : good_resolution d Nphi) (HT : 0 < Ntheta) (HN : Nphi <= 2 * Ntheta) (Hc : c0 + n <= pieces d Nphi) (Hj : j0 + nc <= columns d Nphi Ntheta) (HS : ~ straddled d Nphi Ntheta c0 n j0 nc) (Hp : (0 < position)%R).
(** On every process the spin components of a tensor are those of the values of its regularity components at the position, whatever the
    buffer held before: what it keeps for the components that a degree does not have goes nowhere. *)
Theorem ball_interpolation_value radius alpha k x out0 : (0 < radius)%R -> (-1 < alpha + INR k)%R -> top_degree d Ntheta / 2 < Nr ->
  exists out, ball_interpolate order (ell_maps d Nphi Ntheta c0 n j0 nc) ball_nmin Nr (ball_vector mass radius alpha k Nr position) x out0 = Some out
  /\ forall a b s f, a < parts d * n -> b < nc -> In s (components order) -> let ell := degree d Nphi Ntheta c0 j0 a b in let first := Z.to_nat (ell / 2) in
     (forall r, In r (components order) -> regularity_exists ell r -> f r = series (Nr - first) (fun q => x r a b (first + q)) (zernike mass 3 radius (alpha + INR k) (Z.to_nat (ell + sumZ r))) position) ->
     out s a b = spin_component order ell f s.
Proof.
  intros Hr Hk Ht.
  assert (HB : forall e, In e (ell_maps d Nphi Ntheta c0 n j0 nc) -> (0 <= fst (fst e) <= Z.of_nat (top_degree d Ntheta))%Z).
  { intros e Hi. destruct (entry_degree _ _ _ _ _ _ _ _ Hi) as (a & b & Ha & Hb & ->). apply (degree_bounds d Nphi Ntheta c0 n j0 nc); assumption. }
  destruct (ball_interpolate_value order (ell_maps d Nphi Ntheta c0 n j0 nc) (fun e He => proj1 (HB e He)) ball_nmin Nr x (fun ell t => zernike mass 3 radius (alpha + INR k) (Z.to_nat (ell + t))) position (ball_vector mass radius alpha k Nr position)) with (out0 := out0) as (out & E & V).
  - intros e r Hi Hr' Hx. unfold ball_vector, ball_nmin. pose proof (HB e Hi) as Hb. apply ball_values; try assumption.
    + assert (Z.to_nat (fst (fst e) / 2) <= top_degree d Ntheta / 2) by (rewrite <- (Nat2Z.id (top_degree d Ntheta / 2)), Nat2Z.inj_div; apply Z2Nat.inj_le; try apply Z.div_pos; try lia; apply Z.div_le_mono; lia). lia.
    + rewrite Z2Nat.id; [reflexivity|]. apply (exists_nonneg _ order); [apply Hb|exact Hr'|exact Hx].
  - exists out. split; [exact E|]. intros a b s f Ha Hb Hs. cbv zeta. intros Hf. assert (Ha' : a < coeff_chunk d * n) by (replace (coeff_chunk d) with (parts d) by (destruct d; reflexivity); exact Ha).
    destruct (ell_table d Nphi Ntheta c0 n j0 nc Hg HT HN Hc Hj HS a b Ha' Hb) as (e & He & El). rewrite <- El in *. apply V; [exact He|exact Hs|exact Hf].
Qed.
Theorem shell_interpolation_value inner outer ka kb k x out0 : (0 < inner)%R -> (inner < outer)%R -> (-1 < ka)%R -> (-1 < kb)%R -> 0 < Nr ->
  exists out, shell_interpolate order (ell_maps d Nphi Ntheta c0 n j0 nc) Nr (shell_interpolation mass inner outer ka kb k Nr position) x out0 = Some out
  /\ forall a b s f, a < parts d * n -> b < nc -> In s (components order) -> let ell := degree d Nphi Ntheta c0 j0 a b in
     (forall r, In r (components order) -> regularity_exists ell r -> f r = series Nr (x r a b) (shell_function mass inner outer ka kb k) position) ->
     out s a b = spin_component order ell f s.
Proof.
  intros Hi Ho Ha Hb HNr.
  assert (HB : forall e, In e (ell_maps d Nphi Ntheta c0 n j0 nc) -> (0 <= fst (fst e))%Z).
  { intros e He. destruct (entry_degree _ _ _ _ _ _ _ _ He) as (a & b & Ha' & Hb' & ->). apply (degree_bounds d Nphi Ntheta c0 n j0 nc); assumption. }
  destruct (shell_interpolate_value order (ell_maps d Nphi Ntheta c0 n j0 nc) HB Nr x position (shell_interpolation mass inner outer ka kb k Nr position) (shell_function mass inner outer ka kb k) ltac:(apply shell_values; assumption) out0) as (out & E & V).
  exists out. split; [exact E|]. intros a b s f Ha' Hb' Hs. cbv zeta. intros Hf. assert (Ha'' : a < coeff_chunk d * n) by (replace (coeff_chunk d) with (parts d) by (destruct d; reflexivity); exact Ha').
  destruct (ell_table d Nphi Ntheta c0 n j0 nc Hg HT HN Hc Hj HS a b Ha'' Hb') as (e & He & El). rewrite <- El in *. apply V; [exact He|exact Hs|exact Hf].
Qed.
End Spheres.
(** For scalar fields of real data: the processes together hold the coefficients of one function on the sphere, the values of the field at
    the position. *)
Lemma degree_shift Nphi Ntheta c0 j0 a b : degree Float64 Nphi Ntheta c0 j0 a b = snd (coeff_group Float64 Nphi Ntheta (2 * c0 + a) (j0 + b)). Proof. reflexivity. Qed.
Lemma scalar_component ell f : spin_component 0 ell f [] = f []. Proof. unfold spin_component, components, sumR. cbn. ring. Qed.
Theorem ball_interpolation_field Nphi Ntheta Nr radius alpha k position C : (0 < radius)%R -> (-1 < alpha + INR k)%R -> (0 < position)%R -> good_resolution Float64 Nphi -> 0 < Ntheta -> Nphi <= 2 * Ntheta -> top_degree Float64 Ntheta / 2 < Nr ->
  exists E, (forall c0 n j0 nc out0, c0 + n <= pieces Float64 Nphi -> j0 + nc <= columns Float64 Nphi Ntheta -> ~ straddled Float64 Nphi Ntheta c0 n j0 nc ->
    exists out, ball_interpolate 0 (ell_maps Float64 Nphi Ntheta c0 n j0 nc) ball_nmin Nr (ball_vector mass radius alpha k Nr position) (fun _ a b => C (2 * c0 + a) (j0 + b)) out0 = Some out /\ forall a b, a < 2 * n -> b < nc -> out [] a b = E (2 * c0 + a) (j0 + b))
  /\ forall Y phi z, sphere_field Nphi Ntheta Y E phi z = spherical_field Nphi Ntheta Nr (fun ell => Z.to_nat (ell / 2)) Y (fun ell => zernike mass 3 radius (alpha + INR k) (Z.to_nat ell)) C phi z position.
Proof.
  intros Hr Hk Hp Hg HT HN Ht.
  exists (fun i j => let ell := snd (coeff_group Float64 Nphi Ntheta i j) in series (Nr - Z.to_nat (ell / 2)) (fun q => C i j (Z.to_nat (ell / 2) + q)) (zernike mass 3 radius (alpha + INR k) (Z.to_nat ell)) position). split.
  - intros c0 n j0 nc out0 Hc Hj HS. destruct (ball_interpolation_value Float64 Nphi Ntheta c0 n j0 nc Nr 0 position Hg HT HN Hc Hj HS Hp radius alpha k (fun _ a b => C (2 * c0 + a) (j0 + b)) out0 Hr Hk Ht) as (out & E & V).
    exists out. split; [exact E|]. intros a b Ha Hb. cbn zeta. rewrite <- degree_shift.
    rewrite (V a b [] (fun _ => let ell := degree Float64 Nphi Ntheta c0 j0 a b in series (Nr - Z.to_nat (ell / 2)) (fun q => C (2 * c0 + a) (j0 + b) (Z.to_nat (ell / 2) + q)) (zernike mass 3 radius (alpha + INR k) (Z.to_nat ell)) position) Ha Hb (or_introl eq_refl)); [apply scalar_component|].
    intros r [<-|[]] _. cbn [sumZ fold_right]. rewrite Z.add_0_r. reflexivity.
  - intros Y phi z. unfold sphere_field, spherical_field. apply Rtotal_ext. intros i _. apply Rtotal_ext. intros j _. destruct (coeff_group Float64 Nphi Ntheta i j) as [m ell]. reflexivity.
Qed.
Theorem shell_interpolation_field Nphi Ntheta Nr inner outer ka kb k position C : (0 < inner)%R -> (inner < outer)%R -> (-1 < ka)%R -> (-1 < kb)%R -> (0 < position)%R -> 0 < Nr -> good_resolution Float64 Nphi -> 0 < Ntheta -> Nphi <= 2 * Ntheta ->
  exists E, (forall c0 n j0 nc out0, c0 + n <= pieces Float64 Nphi -> j0 + nc <= columns Float64 Nphi Ntheta -> ~ straddled Float64 Nphi Ntheta c0 n j0 nc ->
    exists out, shell_interpolate 0 (ell_maps Float64 Nphi Ntheta c0 n j0 nc) Nr (shell_interpolation mass inner outer ka kb k Nr position) (fun _ a b => C (2 * c0 + a) (j0 + b)) out0 = Some out /\ forall a b, a < 2 * n -> b < nc -> out [] a b = E (2 * c0 + a) (j0 + b))
  /\ forall Y phi z, sphere_field Nphi Ntheta Y E phi z = spherical_field Nphi Ntheta Nr (fun _ => 0) Y (fun _ => shell_function mass inner outer ka kb k) C phi z position.
Proof.
  intros Hi Ho Ha Hb Hp HNr Hg HT HN. exists (fun i j => series Nr (C i j) (shell_function mass inner outer ka kb k) position). split.
  - intros c0 n j0 nc out0 Hc Hj HS. destruct (shell_interpolation_value Float64 Nphi Ntheta c0 n j0 nc Nr 0 position Hg HT HN Hc Hj HS Hp inner outer ka kb k (fun _ a b => C (2 * c0 + a) (j0 + b)) out0 Hi Ho Ha Hb HNr) as (out & E & V).
    exists out. split; [exact E|]. intros a b Ha' Hb'. rewrite (V a b [] (fun _ => series Nr (C (2 * c0 + a) (j0 + b)) (shell_function mass inner outer ka kb k) position) Ha' Hb' (or_introl eq_refl)); [apply scalar_component|]. reflexivity.
  - intros Y phi z. unfold sphere_field, spherical_field. apply Rtotal_ext. intros i _. apply Rtotal_ext. intros j _. destruct (coeff_group Float64 Nphi Ntheta i j) as [m ell]. rewrite Nat.sub_0_r. reflexivity.
Qed.
End Mass.

(** ** Lifts *)
(** A lift is defined if its place, counted from the end if negative, is one of the group, and is then the boundary value times the radial
    function of that place. *)
Theorem lift_defined n size tau : (exists c, lift n size tau = Some c) <-> (- Z.of_nat size <= n < Z.of_nat size)%Z.
Proof.
  unfold lift, lift_column. destruct (Z.ltb_spec n 0) as [H|H].
  - destruct (Z.leb_spec 0 (n + Z.of_nat size)), (Z.ltb_spec (n + Z.of_nat size) (Z.of_nat size)); cbn [andb option_map]; (split; [intros [c E]; discriminate || lia|intros H'; (eexists; reflexivity) || lia]).
  - destruct (Z.leb_spec 0 n), (Z.ltb_spec n (Z.of_nat size)); cbn [andb option_map]; (split; [intros [c E]; discriminate || lia|intros H'; (eexists; reflexivity) || lia]).
Qed.
Theorem lift_function n size tau c : lift n size tau = Some c ->
  exists i, i < size /\ (Z.of_nat i = n \/ Z.of_nat i = n + Z.of_nat size)%Z /\ only i tau c /\ forall radial r, series size c radial r = (tau * radial i r)%R.
Proof.
  unfold lift. destruct (lift_column n size) as [column|] eqn:E; [|discriminate]. intros [= <-]. destruct (lift_column_nth _ _ _ E) as (i & Hi & Hp & Hc). exists i. split; [exact Hi|]. split; [exact Hp|].
  assert (O : only i tau (fun j => nth j column 0 * tau)%R) by (intros j; rewrite Hc; destruct (j =? i); ring). split; [exact O|]. intros radial r. unfold series.
  rewrite (Rtotal_ext _ _ (fun j => if j =? i then (tau * radial i r)%R else 0%R)) by (intros j _; rewrite O; destruct (Nat.eqb_spec j i) as [->|]; ring). rewrite (JacobiCalc_Ops.Rtotal_single size i); [rewrite Nat.eqb_refl; reflexivity|exact Hi|]. intros j _ Hj. destruct (Nat.eqb_spec j i); [contradiction|reflexivity].
Qed.
(** On a disk every order that has degrees takes a lift to its last one ... *)
Theorem disk_lift_last Nr m tau : first_degree Disk m < Nr -> exists c, disk_lift (-1) Nr m tau = Some c /\ only (Nr - first_degree Disk m - 1) tau c.
Proof.
  intros H. unfold disk_lift. rewrite nmin_first_size. destruct (proj2 (lift_defined (-1) (Nr - first_degree Disk m) tau)) as [c E]; [lia|]. exists c. split; [exact E|]. destruct (lift_function _ _ _ _ E) as (i & Hi & Hp & Ho & _). replace (Nr - first_degree Disk m - 1) with i by lia. exact Ho.
Qed.
(** ... but a lift to the second last one fails with as many azimuthal orders as the radial degrees can hold, because the largest has only
    one degree. *)
Theorem disk_lift_second_refuted Nr tau : 0 < Nr -> stored_order Float64 (4 * Nr) (2 * Z.of_nat Nr - 1) /\ polar_allowed Float64 (4 * Nr) Nr = true /\ first_degree Disk (2 * Z.of_nat Nr - 1) < Nr
  /\ disk_lift (-2) Nr (2 * Z.of_nat Nr - 1) tau = None.
Proof.
  intros H. assert (F : first_degree Disk (2 * Z.of_nat Nr - 1) = Nr - 1).
  { unfold first_degree. replace (Z.abs_nat (2 * Z.of_nat Nr - 1)) with (1 + (Nr - 1) * 2) by lia. rewrite Nat.div_add by lia. reflexivity. }
  split; [|split; [|split]].
  - unfold stored_order. replace (4 * Nr / 2) with (2 * Nr) by (replace (4 * Nr) with (2 * Nr * 2) by lia; rewrite Nat.div_mul; lia). lia.
  - unfold polar_allowed. replace (4 * Nr mod 2 =? 0) with true by (symmetry; apply Nat.eqb_eq; replace (4 * Nr) with (2 * Nr * 2) by lia; apply Nat.mod_mul; lia). replace (4 * Nr mod 4 =? 0) with true by (symmetry; apply Nat.eqb_eq; rewrite Nat.mul_comm; apply Nat.mod_mul; lia).
    rewrite !andb_false_r. reflexivity.
  - rewrite F. lia.
  - destruct (disk_lift (-2) Nr (2 * Z.of_nat Nr - 1) tau) as [c|] eqn:E; [|reflexivity]. exfalso. unfold disk_lift in E. rewrite nmin_first_size, F in E. assert (X : exists c, lift (-2) (Nr - (Nr - 1)) tau = Some c) by (exists c; exact E). apply lift_defined in X. lia.
Qed.

(** ** Edges *)
Section EdgeProps.
Context (key : nat -> nat).
Definition fresh : edges := {| radius_of := fun _ => None; called := fun _ => [] |}.
(** What a history of calls, each by a disk or annulus and with a radius, leaves. *)
Definition after (h : list (nat * option R)) : edges := fold_left (fun s c => S1_basis key s (fst c) (snd c)) h fresh.
Lemma called_after h i r : In r (called (after h) i) <-> In (i, r) h.
Proof.
  unfold after. induction h as [|[j r'] h IH] using rev_ind; [cbn; tauto|]. rewrite fold_left_app, in_app_iff. cbn [fold_left fst snd]. set (s := fold_left _ h fresh) in *. unfold S1_basis. destruct (in_dec option_R_dec r' (called s j)) as [H|H].
  - rewrite IH. split; [tauto|]. intros [X|[X|[]]]; [exact X|]. injection X as -> ->. apply IH. exact H.
  - cbn [called]. destruct (Nat.eqb_spec i j) as [->|E].
    + cbn [In]. rewrite IH. split; [intros [->|X]; tauto|]. intros [X|[X|[]]]; [tauto|]. injection X as ->. tauto.
    + rewrite IH. split; [tauto|]. intros [X|[X|[]]]; [exact X|]. injection X as -> ->. contradiction.
Qed.
(** The last call that is new to its disk or annulus sets the radius that all of those with the same circle report. *)
Theorem edge_radius h1 i r h2 : ~ In (i, r) h1 -> (forall h j r' h', h2 = h ++ (j, r') :: h' -> key j = key i -> In (j, r') (h1 ++ (i, r) :: h)) ->
  radius_of (after (h1 ++ (i, r) :: h2)) (key i) = r.
Proof.
  intros Hn H2. induction h2 as [|[j r'] h2 IH] using rev_ind.
  - unfold after. rewrite fold_left_app. cbn [fold_left fst snd]. fold (after h1). unfold S1_basis. destruct (in_dec _ _ _) as [X|X]; [apply called_after in X; contradiction|]. cbn [radius_of]. rewrite Nat.eqb_refl. reflexivity.
  - assert (E : after (h1 ++ (i, r) :: h2 ++ [(j, r')]) = S1_basis key (after (h1 ++ (i, r) :: h2)) j r') by (unfold after; rewrite app_comm_cons, app_assoc, fold_left_app; reflexivity). rewrite E.
    assert (V : radius_of (after (h1 ++ (i, r) :: h2)) (key i) = r) by (apply IH; intros h j' r'' h' -> Hk; apply (H2 h j' r'' (h' ++ [(j, r')])); [rewrite <- app_assoc; reflexivity|exact Hk]).
    unfold S1_basis. destruct (in_dec _ _ _) as [X|X]; [exact V|]. cbn [radius_of]. destruct (Nat.eqb_spec (key i) (key j)) as [K|K]; [|exact V]. exfalso. apply X. apply called_after. apply (H2 h2 j r' []); [reflexivity|symmetry; exact K].
Qed.
(** Right after the construction the edge of a disk and the outer edge of an annulus have their radii, but the inner edge has the outer
    radius. *)
Theorem new_disk_edge s i radius : called s i = [] -> radius_of (new_disk key s i radius) (key i) = Some radius.
Proof.
  intros E. unfold new_disk, S1_basis at 2. rewrite E. cbn [in_dec]. destruct (in_dec option_R_dec None []) as [[]|_]. unfold S1_basis. cbn [called]. rewrite Nat.eqb_refl. destruct (in_dec _ _ _) as [[X|[]]|_]; [discriminate|]. cbn [radius_of]. rewrite Nat.eqb_refl. reflexivity.
Qed.
Theorem inner_edge_refuted s i inner outer : called s i = [] -> inner <> outer -> radius_of (new_annulus key s i inner outer) (key i) = Some outer.
Proof.
  intros E N. unfold new_annulus, S1_basis at 3. rewrite E. destruct (in_dec option_R_dec None []) as [[]|_]. unfold S1_basis at 2. cbn [called]. rewrite Nat.eqb_refl. destruct (in_dec _ _ _) as [[X|[]]|_]; [discriminate|]. unfold S1_basis. cbn [called]. rewrite Nat.eqb_refl.
  destruct (in_dec _ _ _) as [[X|[X|[]]]|_]; [congruence|discriminate|]. cbn [radius_of]. rewrite Nat.eqb_refl. reflexivity.
Qed.
(** Interpolation of a field on a new disk at another radius changes the radius of the edge. *)
Theorem disk_edge_refuted s i radius position : called s i = [] -> position <> radius -> radius_of (S1_basis key (new_disk key s i radius) i (Some position)) (key i) = Some position.
Proof. intros E N. assert (X := inner_edge_refuted s i radius position E ltac:(congruence)). exact X. Qed.
End EdgeProps.

(** ** Examples *)
(** Resolutions that meet the conditions; a scalar and a vector at degree one. *)
Example boundary_conditions : good_resolution Float64 16 /\ (forall i, i < polar_rows Float64 16 -> first_degree Disk (order_in Float64 16 0 i) < 5) /\ orders Float64 16 = 8
  /\ 16 <= 2 * 8 /\ top_degree Float64 8 / 2 < 5 /\ pieces Float64 16 = 4 /\ ~ straddled Float64 16 8 0 4 0 7 /\ mass_rules JacobiCalc_Proofs.sample_mass.
Proof.
  split; [unfold good_resolution; split; [lia|right; reflexivity]|]. split.
  - intros i Hi. change (polar_rows Float64 16) with 16 in Hi. do 16 (destruct i as [|i]; [vm_compute; lia|]). lia.
  - split; [reflexivity|]. split; [lia|]. split; [cbn; lia|]. split; [reflexivity|]. split; [apply ell_table_usual; left; reflexivity|]. exact JacobiCalc_Proofs.sample_rules.
Qed.
Example vector_components : components 1 = [[(-1)%Z]; [1%Z]; [0%Z]] /\ regularity_allowed 1 [(-1)%Z] = true /\ regularity_allowed 0 [(-1)%Z] = false /\ regularity_allowed 0 [0%Z] = false /\ regularity_allowed 0 [1%Z] = true.
Proof. repeat split; reflexivity. Qed.
Example lift_example : exists c, lift (-1) 3 5 = Some c /\ c 2 = 5%R /\ c 1 = 0%R.
Proof. destruct (proj2 (lift_defined (-1) 3 5)) as [c E]; [lia|]. exists c. split; [exact E|]. destruct (lift_function _ _ _ _ E) as (i & Hi & Hp & Ho & _). assert (i = 2) as -> by lia. split; [exact (Ho 2)|exact (Ho 1)]. Qed.
Example edge_example : radius_of (after (fun _ => 0) [(0, None); (0, Some 1%R); (0, Some 2%R); (1, None); (1, Some 3%R); (0, Some 1%R)]) 0 = Some 3%R.
Proof.
  apply (edge_radius (fun _ => 0) [(0, None); (0, Some 1%R); (0, Some 2%R); (1, None)] 1 (Some 3%R) [(0, Some 1%R)]).
  - cbn. intros [X|[X|[X|[X|[]]]]]; try discriminate; injection X; lra.
  - intros h j r' h' E _. destruct h as [|c h]; [injection E as <- <- _; cbn; tauto|]. injection E as _ E. destruct h; discriminate.
Qed.

Print Assumptions disk_interpolation_value.
Print Assumptions annulus_interpolation_value.
Print Assumptions disk_interpolation_field.
Print Assumptions annulus_interpolation_field.
Print Assumptions ball_interpolation_value.
Print Assumptions shell_interpolation_value.
Print Assumptions ball_interpolation_field.
Print Assumptions shell_interpolation_field.
Print Assumptions lift_defined.
Print Assumptions lift_function.
Print Assumptions disk_lift_last.
Print Assumptions disk_lift_second_refuted.
Print Assumptions edge_radius.
Print Assumptions new_disk_edge.
Print Assumptions inner_edge_refuted.
Print Assumptions disk_edge_refuted.
