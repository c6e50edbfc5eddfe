(** Interpolation in the radius: the loops. *)
From Coq Require Import List Arith Bool ZArith Reals Lia Lra.
Import ListNotations.
From Verif Require Import CSR_Spec TupleTools_Model TupleTools_Proofs Intertwiner_Model Intertwiner_Spec Intertwiner_Proofs Radial_Model Radial_Spec Sphere_Model Sphere_Spec Sphere_Proofs Sphere_Props SphereEll_Model SphereEll_Spec SphereEll_Proofs Polar_Model Polar_Spec Polar_Proofs Polar_Props Boundary_Model Boundary_Spec.
From Verif Require Import Codomain_Proofs.
From Verif Require Integrals_Model.
Local Open Scope nat_scope.

Lemma fold_some {S E} (step : option S -> E -> option S) (pure : S -> E -> S) l : (forall s e, In e l -> step (Some s) e = Some (pure s e)) -> forall s, fold_left step l (Some s) = Some (fold_left pure l s).
Proof. induction l as [|e l IH]; intros H s; [reflexivity|]. cbn [fold_left]. rewrite H by (left; reflexivity). apply IH. intros s' e' He. apply H. right. exact He. Qed.
Lemma filter_prod {A B} (p : A -> bool) (q : B -> bool) l l' x y : filter p l = [x] -> filter q l' = [y] -> filter (fun c => p (fst c) && q (snd c)) (list_prod l l') = [(x, y)].
Proof.
  intros Hp Hq. assert (R : forall z, filter (fun c => p (fst c) && q (snd c)) (map (fun y => (z, y)) l') = if p z then [(z, y)] else []).
  { intros z. destruct (p z) eqn:E.
    - transitivity (map (fun y => (z, y)) (filter q l')); [|rewrite Hq; reflexivity]. clear Hq. induction l' as [|w l' IH]; [reflexivity|]. cbn [map filter fst snd]. rewrite E. cbn [andb]. destruct (q w); cbn [map]; rewrite IH; reflexivity.
    - clear Hq. induction l' as [|w l' IH]; [reflexivity|]. cbn [map filter fst snd]. rewrite E. exact IH. }
  assert (G : forall m, filter (fun c => p (fst c) && q (snd c)) (list_prod m l') = map (fun z => (z, y)) (filter p m)).
  { induction m as [|z m IH]; [reflexivity|]. cbn [list_prod filter]. rewrite filter_app, R, IH. destruct (p z); reflexivity. }
  rewrite G, Hp. reflexivity.
Qed.
Lemma filter_eq r l : NoDup l -> In r l -> filter (tuple_eqb r) l = [r].
Proof.
  assert (Z : forall l, ~ In r l -> filter (tuple_eqb r) l = []).
  { induction l0 as [|z l0 IH]; intros Hi; [reflexivity|]. cbn [filter]. unfold tuple_eqb at 1. destruct (list_eq_dec Z.eq_dec r z) as [E|E]; [exfalso; apply Hi; left; congruence|]. apply IH. intros H; apply Hi; right; exact H. }
  induction 1 as [|z l Hz Hd IH]; intros Hi; [destruct Hi|]. cbn [filter]. unfold tuple_eqb at 1. destruct (list_eq_dec Z.eq_dec r z) as [E|E]; [subst z; rewrite Z by exact Hz; reflexivity|]. apply IH. destruct Hi; [congruence|assumption].
Qed.
Lemma components_nodup n : NoDup (range ordering n). Proof. apply range_nodup. repeat constructor; cbn; intuition discriminate. Qed.
Lemma apply_row_value f n x position : apply_row (map (fun i => f i position) (seq 0 n)) n x = Some (series n x f position).
Proof.
  unfold apply_row. rewrite map_length, seq_length, Nat.eqb_refl. f_equal. unfold series. apply Rtotal_ext. intros i Hi. rewrite Rmult_comm. f_equal.
  rewrite (nth_indep _ _ (f 0%nat position)) by (rewrite map_length, seq_length; exact Hi). rewrite (map_nth (fun i => f i position)), seq_nth by exact Hi. reflexivity.
Qed.

(** ** Disks and annuli *)
Lemma nmin_first_size p m Nr : Integrals_Model.n_size (nmin p m) Nr = Nr - first_degree p m.
Proof. unfold Integrals_Model.n_size. rewrite nmin_first. rewrite Nat2Z.id. reflexivity. Qed.
Section Polar.
Context (p : polar) (d : dtype) (Nphi Nr Ng c0 n : nat) (radial : Z -> nat -> R -> R) (vector : Z -> option (list R)) (position : R).
Context (Hg : good_resolution d Nphi) (H2 : Nphi <> 2) (HN : 0 < Ng) (Hn : c0 + n <= orders d Nphi).
Context (Hf : forall a, a < parts d * n -> first_degree p (order_in d Nphi c0 a) < Nr).
Context (Hv : forall m, first_degree p m < Nr -> vector m = Some (map (fun i => radial m i position) (seq 0 (Nr - first_degree p m)))).
Lemma polar_interpolate_value x out0 : exists out, polar_interpolate p d Nphi Nr Ng c0 n vector x out0 = Some out
  /\ forall a, a < parts d * n -> out a = let m := order_in d Nphi c0 a in series (Nr - first_degree p m) (fun i => x a (first_degree p m + i)) (radial m) position.
Proof.
  pose proof (resolved_orders p d Nphi Nr Hg H2 Ng c0 n HN Hn Hf) as Hq. unfold polar_interpolate. rewrite polar_maps_entries by assumption. cbn [obind]. pose proof (parts_pos d) as HP.
  set (pure := fun (out : nat -> R) (e : polar_map) => let '(m, mg, mc, ns) := e in fun a => if inside a mc then series (snd ns - fst ns) (fun i => x a (fst ns + i)) (radial m) position else out a).
  rewrite (fold_some _ pure).
  - eexists. split; [reflexivity|]. intros a Ha. destruct (order_of d Nphi Hg H2 Ng c0 n HN Hn a Ha) as [Eo Ho]. set (q := c0 + a / parts d) in *.
    assert (Hin : forall q', c0 <= q' < c0 + n -> inside a (parts d * (q' - c0), parts d * (q' - c0) + parts d) = (q' =? q)).
    { intros q' Hq'. unfold inside. cbn [fst snd]. pose proof (Nat.div_mod a (parts d) ltac:(lia)) as Ea. pose proof (Nat.mod_upper_bound a (parts d) ltac:(lia)) as Eb. destruct (Nat.eqb_spec q' q) as [->|E].
      - unfold q. replace (c0 + a / parts d - c0) with (a / parts d) by lia. apply andb_true_iff. split; [apply Nat.leb_le; lia|apply Nat.ltb_lt; lia].
      - apply andb_false_iff. destruct (Nat.le_gt_cases q' q); [right; apply Nat.ltb_ge|left; apply Nat.leb_gt]; unfold q in *; nia. }
    assert (HF : filter (fun e : polar_map => inside a (snd (fst e))) (map (polar_entry p d Nphi Nr c0) (seq c0 n)) = [polar_entry p d Nphi Nr c0 q]).
    { assert (G : forall l, NoDup l -> In q l -> (forall q', In q' l -> c0 <= q' < c0 + n) -> filter (fun e : polar_map => inside a (snd (fst e))) (map (polar_entry p d Nphi Nr c0) l) = [polar_entry p d Nphi Nr c0 q]); [|apply G; [apply seq_NoDup|apply in_seq; exact Ho|intros q' Hq'; apply in_seq in Hq'; exact Hq']].
      assert (Z : forall l, ~ In q l -> (forall q', In q' l -> c0 <= q' < c0 + n) -> filter (fun e : polar_map => inside a (snd (fst e))) (map (polar_entry p d Nphi Nr c0) l) = []).
      { induction l as [|z l IH]; intros Hi Hl; [reflexivity|]. cbn [map filter]. change (snd (fst (polar_entry p d Nphi Nr c0 z))) with (parts d * (z - c0), parts d * (z - c0) + parts d). rewrite Hin by (apply Hl; left; reflexivity).
        destruct (Nat.eqb_spec z q) as [E|E]; [exfalso; apply Hi; left; exact E|]. apply IH; [intros H; apply Hi; right; exact H|intros q' Hq'; apply Hl; right; exact Hq']. }
      induction 1 as [|z l Hz Hd IH]; intros Hi Hl; [destruct Hi|]. cbn [map filter]. change (snd (fst (polar_entry p d Nphi Nr c0 z))) with (parts d * (z - c0), parts d * (z - c0) + parts d). rewrite Hin by (apply Hl; left; reflexivity).
      destruct (Nat.eqb_spec z q) as [->|E]; [rewrite Z; [reflexivity|exact Hz|intros q' Hq'; apply Hl; right; exact Hq']|]. apply IH; [destruct Hi; [contradiction|assumption]|intros q' Hq'; apply Hl; right; exact Hq']. }
    destruct (fold_once (fun e : polar_map => inside a (snd (fst e))) pure (fun (o : nat -> R) (_ : unit) => o a) _ _ HF) with (s := out0) as (o' & _ & E).
    + intros o [[[m mg] mc] ns] He _. cbn [pure fst snd] in *. rewrite He. reflexivity.
    + rewrite (E tt). unfold pure, polar_entry. rewrite Hin by exact Ho. rewrite Nat.eqb_refl. cbn [fst snd]. rewrite Eo. reflexivity.
  - intros o e He. apply in_map_iff in He. destruct He as (q & <- & Hi). apply in_seq in Hi. unfold polar_interpolate_step, polar_entry, pure. cbn [obind fst snd]. rewrite Hv by (apply Hq; exact Hi). cbn [obind]. rewrite apply_row_value. cbn [obind]. f_equal.
    apply FunctionalExtensionality.functional_extensionality. intros a. destruct (inside _ _); [|reflexivity]. rewrite apply_row_value. reflexivity.
Qed.
End Polar.

(** ** Balls and shells *)
Lemma allowed_exists ell n r : (0 <= ell)%Z -> In r (components n) -> (regularity_allowed ell r = true <-> regularity_exists ell r).
Proof.
  intros Hl Hr. apply in_components in Hr. rewrite (exists_allowed ell n r Hl Hr). unfold allowed, regularity_allowed. destruct r as [|x r]; [split; reflexivity|]. rewrite (forbidden_walks ell n _ Hr). destruct (walks_out _ _); cbn; split; congruence.
Qed.
Lemma exists_nonneg ell n r : (0 <= ell)%Z -> In r (components n) -> regularity_exists ell r -> (0 <= ell + sumZ r)%Z.
Proof. intros Hl Hr E. apply in_components in Hr. rewrite sumZ_zsum. apply (allowed_nonneg ell Hl). apply (exists_allowed ell n r Hl Hr). exact E. Qed.
Lemma Q_absent ell n r s : (0 <= ell)%Z -> In r (components n) -> In s (components n) -> ~ regularity_exists ell r -> Q ell r s = 0%R.
Proof. intros Hl Hr Hs E. apply in_components in Hr, Hs. apply (Q_none ell n); try assumption. intros A. apply E. apply (exists_allowed ell n r Hl Hr). exact A. Qed.

(** The degrees in the table. *)
Lemma degree_bounds d Nphi Ntheta c0 n j0 nc a b : good_resolution d Nphi -> 0 < Ntheta -> Nphi <= 2 * Ntheta -> c0 + n <= pieces d Nphi -> j0 + nc <= columns d Nphi Ntheta -> a < coeff_chunk d * n -> b < nc ->
  (0 <= degree d Nphi Ntheta c0 j0 a b <= Z.of_nat (top_degree d Ntheta))%Z.
Proof.
  intros Hg H0 HN Hc Hj Ha Hb. rewrite (degree_value d Nphi Ntheta c0 n j0 nc) by assumption. change (Lmax d Ntheta) with (top_degree d Ntheta). rewrite columns_offset in Hj. change (Lmax d Ntheta) with (top_degree d Ntheta) in Hj.
  pose proof (parts_pos d) as HP. assert (Hq : a / parts d < n) by (apply Nat.div_lt_upper_bound; [lia|]; replace (coeff_chunk d) with (parts d) in Ha by (destruct d; reflexivity); exact Ha).
  unfold ell_at, offset, pieces in *. change (Lmax d Ntheta) with (top_degree d Ntheta) in *. set (c := c0 + a / parts d) in *. assert (Hcc : c < c0 + n) by (unfold c; lia). clearbody c. clear Hq Ha HP. unfold good_resolution in Hg. destruct Hg as [Hp Hg].
  destruct (Nat.leb_spec Nphi 2) as [H|H].
  - destruct (Nat.eqb_spec c 0); [|lia]. destruct (Nat.leb_spec (j0 + b) (top_degree d Ntheta)); lia.
  - destruct d; cbn [top_degree] in *; pose proof (Nat.div_mod Nphi 2 ltac:(lia)) as E2; pose proof (Nat.mod_upper_bound Nphi 2 ltac:(lia)); pose proof (Nat.div_mod Nphi 4 ltac:(lia)) as E4; pose proof (Nat.mod_upper_bound Nphi 4 ltac:(lia));
    destruct (Nat.eqb_spec c 0); repeat match goal with |- context [?x <=? ?y] => destruct (Nat.leb_spec x y) | |- context [?x <? ?y] => destruct (Nat.ltb_spec x y) end; lia.
Qed.
Lemma entry_degree d Nphi Ntheta c0 n j0 nc e : In e (ell_maps d Nphi Ntheta c0 n j0 nc) -> exists a b, a < coeff_chunk d * n /\ b < nc /\ fst (fst e) = degree d Nphi Ntheta c0 j0 a b.
Proof.
  unfold ell_maps. intros Hi. apply in_flat_map in Hi. destruct Hi as (ell & Hl & Hi). apply in_map_iff in Hi. destruct Hi as (s & <- & _). cbn [fst]. unfold local_groupsets in Hl. rewrite ordered_set_in in Hl.
  apply in_flat_map in Hl. destruct Hl as (a & Ha & Hl). apply in_map_iff in Hl. destruct Hl as (b & E & Hb). apply in_seq in Ha, Hb. exists a, b. split; [lia|]. split; [lia|]. symmetry. exact E.
Qed.

Section Tensors.
Context (order : nat) (maps : list ell_map) (Hmaps : forall e, In e maps -> (0 <= fst (fst e))%Z).
Context (first : Z -> nat) (Nr : nat) (x : tuple -> nat -> nat -> nat -> R) (radial : Z -> Z -> nat -> R -> R) (position : R).
Definition regularity_value (ell : Z) (r : tuple) (a b : nat) : R := series (Nr - first ell) (fun q => x r a b (first ell + q)) (radial ell (sumZ r)) position.
Section Point.
Context (a b : nat) (e : ell_map) (He : filter (fun e => covers e a b) maps = [e]).
Let ell := fst (fst e).
Lemma entry_in : In e maps. Proof. assert (H : In e (filter (fun e => covers e a b) maps)) by (rewrite He; left; reflexivity). apply filter_In in H. apply H. Qed.
Lemma entry_covers : covers e a b = true. Proof. assert (H : In e (filter (fun e => covers e a b) maps)) by (rewrite He; left; reflexivity). apply filter_In in H. apply H. Qed.
Lemma ell_nonneg : (0 <= ell)%Z. Proof. apply Hmaps. apply entry_in. Qed.
Lemma recombined out f s : In s (components order) -> (forall r, In r (components order) -> regularity_exists ell r -> out r a b = f r) ->
  regularity_to_spin order maps out s a b = spin_component order ell f s.
Proof.
  intros Hs Hf. unfold regularity_to_spin, spin_component. destruct order as [|o] eqn:Eo.
  - cbn in Hs. destruct Hs as [<-|[]]. change (0 <? 0) with false. cbn iota. rewrite Hf.
    + cbn. ring.
    + left. reflexivity.
    + intros [|] u v E; discriminate.
  - change (0 <? S o) with true. cbn iota. rewrite <- Eo in *.
    destruct (fold_once (fun e => covers e a b) (regularity_to_spin_step order) (fun (t : tensor) s => t s a b) _ _ He) with (s := out) as (o' & Eo' & E).
    + intros t e' H s'. unfold regularity_to_spin_step. rewrite H. reflexivity.
    + rewrite (E s). unfold regularity_to_spin_step. rewrite entry_covers. fold ell. unfold rsum, sumR. fold (components order). f_equal. apply map_ext_in. intros r Hr. rewrite Eo'.
      destruct (regularity_allowed ell r) eqn:A.
      * rewrite Hf; [reflexivity|exact Hr|]. apply (allowed_exists ell order r ell_nonneg Hr). exact A.
      * rewrite (Q_absent ell order r s ell_nonneg Hr Hs); [ring|]. intros X. apply (allowed_exists ell order r ell_nonneg Hr) in X. congruence.
Qed.
End Point.
Section Ball.
Context (vector : Z -> Z -> option (list R)).
Context (Hv : forall e r, In e maps -> In r (components order) -> regularity_exists (fst (fst e)) r -> vector (fst (fst e)) (sumZ r) = Some (map (fun i => radial (fst (fst e)) (sumZ r) i position) (seq 0 (Nr - first (fst (fst e)))))).
Lemma ball_interpolate_value out0 : exists out, ball_interpolate order maps first Nr vector x out0 = Some out
  /\ forall a b e s f, filter (fun e => covers e a b) maps = [e] -> In s (components order) -> (forall r, In r (components order) -> regularity_exists (fst (fst e)) r -> f r = regularity_value (fst (fst e)) r a b) ->
     out s a b = spin_component order (fst (fst e)) f s.
Proof.
  unfold ball_interpolate.
  set (pure := fun (out : tensor) (re : tuple * ell_map) => let (r, e) := re in if regularity_allowed (fst (fst e)) r then (fun r' a b => if tuple_eqb r' r && covers e a b then regularity_value (fst (fst e)) r a b else out r' a b) else out).
  rewrite (fold_some _ pure).
  - eexists. split; [reflexivity|]. intros a b e s f He Hs Hf. apply recombined; [exact He|exact Hs|]. intros r Hr Hx. rewrite (Hf r Hr Hx).
    pose proof (filter_prod (tuple_eqb r) (fun e => covers e a b) _ _ _ _ (filter_eq r _ (components_nodup order) Hr) He) as HF.
    destruct (fold_once _ pure (fun (t : tensor) (_ : unit) => t r a b) _ _ HF) with (s := out0) as (o' & _ & E).
    + intros t [r' e'] H _. cbn [pure fst snd] in *. destruct (regularity_allowed _ _); [|reflexivity]. rewrite H. reflexivity.
    + rewrite (E tt). unfold pure. rewrite (proj2 (allowed_exists _ order r (ell_nonneg a b e He) Hr) Hx). rewrite (entry_covers a b e He). unfold tuple_eqb. destruct (list_eq_dec _ _ _); [reflexivity|contradiction].
  - intros o [r e] Hi. apply in_prod_iff in Hi. destruct Hi as [Hr Hi]. unfold ball_interpolate_step, pure. cbn [obind]. destruct (regularity_allowed _ _) eqn:A; [|reflexivity].
    rewrite <- sumZ_zsum, Hv; [|exact Hi|exact Hr|apply (allowed_exists _ order r (Hmaps e Hi) Hr); exact A]. cbn [obind]. rewrite apply_row_value. cbn [obind]. f_equal.
    apply FunctionalExtensionality.functional_extensionality. intros r'. apply FunctionalExtensionality.functional_extensionality. intros a. apply FunctionalExtensionality.functional_extensionality. intros b.
    destruct (_ && _); [|reflexivity]. rewrite apply_row_value. reflexivity.
Qed.
End Ball.
Section Shell.
Context (vector : option (list R)) (Hfirst : forall ell, first ell = 0) (function : nat -> R -> R) (Hradial : forall ell t i z, radial ell t i z = function i z).
Context (Hv : vector = Some (map (fun i => function i position) (seq 0 Nr))).
Lemma shell_interpolate_value out0 : exists out, shell_interpolate order maps Nr vector x out0 = Some out
  /\ forall a b e s f, filter (fun e => covers e a b) maps = [e] -> In s (components order) -> (forall r, In r (components order) -> regularity_exists (fst (fst e)) r -> f r = series Nr (x r a b) function position) ->
     out s a b = spin_component order (fst (fst e)) f s.
Proof.
  unfold shell_interpolate.
  set (pure := fun (out : tensor) (re : tuple * ell_map) => let (r, e) := re in if regularity_allowed (fst (fst e)) r then (fun r' a b => if tuple_eqb r' r && covers e a b then (out r' a b + series Nr (x r a b) function position)%R else out r' a b) else out).
  rewrite (fold_some _ pure).
  - eexists. split; [reflexivity|]. intros a b e s f He Hs Hf. apply recombined; [exact He|exact Hs|]. intros r Hr Hx. rewrite (Hf r Hr Hx).
    pose proof (filter_prod (tuple_eqb r) (fun e => covers e a b) _ _ _ _ (filter_eq r _ (components_nodup order) Hr) He) as HF.
    destruct (fold_once _ pure (fun (t : tensor) (_ : unit) => t r a b) _ _ HF) with (s := (fun _ _ _ => 0%R) : tensor) as (o' & Z & E).
    + intros t [r' e'] H _. cbn [pure fst snd] in *. destruct (regularity_allowed _ _); [|reflexivity]. rewrite H. reflexivity.
    + rewrite (E tt). unfold pure. rewrite (proj2 (allowed_exists _ order r (ell_nonneg a b e He) Hr) Hx). rewrite (entry_covers a b e He). unfold tuple_eqb. destruct (list_eq_dec _ _ _); [|contradiction]. cbn [andb]. rewrite (Z tt). ring.
  - intros o [r e] Hi. unfold shell_interpolate_step, pure. cbn [obind]. destruct (regularity_allowed _ _) eqn:A; [|reflexivity]. cbn [andb]. rewrite Hv. cbn [obind]. rewrite apply_row_value. cbn [obind]. f_equal.
    apply FunctionalExtensionality.functional_extensionality. intros r'. apply FunctionalExtensionality.functional_extensionality. intros a. apply FunctionalExtensionality.functional_extensionality. intros b.
    destruct (_ && _); [|reflexivity]. rewrite apply_row_value. reflexivity.
Qed.
End Shell.
End Tensors.

(** ** Lifts *)
Lemma lift_column_nth n size column : lift_column n size = Some column -> exists i, i < size /\ (Z.of_nat i = n \/ Z.of_nat i = n + Z.of_nat size)%Z /\ forall j, nth j column 0%R = if j =? i then 1%R else 0%R.
Proof.
  unfold lift_column. set (place := if (n <? 0)%Z then (n + Z.of_nat size)%Z else n). destruct ((0 <=? place)%Z && (place <? Z.of_nat size)%Z) eqn:E; [|discriminate]. apply andb_true_iff in E. destruct E as [E1 E2]. apply Z.leb_le in E1. apply Z.ltb_lt in E2.
  intros [= <-]. exists (Z.to_nat place). split; [lia|]. split; [unfold place in *; destruct (Z.ltb_spec n 0); lia|]. intros j. destruct (Nat.lt_ge_cases j size) as [Hj|Hj].
  - rewrite (nth_indep _ _ ((fun i => if (Z.of_nat i =? place)%Z then 1%R else 0%R) 0%nat)) by (rewrite map_length, seq_length; exact Hj). rewrite (map_nth (fun i => if (Z.of_nat i =? place)%Z then 1%R else 0%R)), seq_nth by exact Hj. cbn [Nat.add].
    destruct (Z.eqb_spec (Z.of_nat j) place), (Nat.eqb_spec j (Z.to_nat place)); try reflexivity; lia.
  - rewrite nth_overflow by (rewrite map_length, seq_length; exact Hj). destruct (Nat.eqb_spec j (Z.to_nat place)); [lia|reflexivity].
Qed.
