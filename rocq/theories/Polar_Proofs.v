(** Storage and transforms of disks and annuli: proofs. *)
From Coq Require Import List Arith Bool ZArith Lia FunctionalExtensionality.
Import ListNotations.
From Verif Require Import CSR_Spec FourierCalc_Model Sphere_Model Sphere_Spec Sphere_Proofs Polar_Model Polar_Spec.
From Verif Require Blocks_Model.
Local Open Scope nat_scope.

(** ** Orders by row *)
Definition gorder (d : dtype) (Nphi q : nat) : Z := half_order d Nphi (q / 2) (q mod 2).
Lemma orders_rows d Nphi : good_resolution d Nphi -> Nphi <> 2 -> polar_rows d Nphi = parts d * orders d Nphi.
Proof.
  intros Hg H2. unfold polar_rows, orders. destruct (Nat.leb_spec Nphi 2) as [H|H].
  - destruct (good_small _ _ Hg H) as [->|[-> _]]; [destruct d; reflexivity|lia].
  - destruct (good_big _ _ Hg H) as (h & -> & H0 & E & _). destruct d; cbn [parts] in *; [lia|]. destruct (Nat.ltb_spec 1 (2 * 2 * h)); [|lia]. lia.
Qed.
Lemma orders_pieces d Nphi : good_resolution d Nphi -> 2 < Nphi -> orders d Nphi = 2 * pieces d Nphi.
Proof.
  intros Hg H. unfold orders, pieces. destruct (Nat.leb_spec Nphi 2) as [H1|_]; [lia|]. destruct (good_big _ _ Hg H) as (h & -> & H0 & E & _). destruct d; cbn [parts] in *; [lia|].
  rewrite E. replace (2 * 2 * h / 4) with h by (symmetry; replace (2 * 2 * h) with (h * 4) by lia; apply Nat.div_mul; lia). reflexivity.
Qed.
Lemma order_index d Nphi q : good_resolution d Nphi -> q < orders d Nphi -> q / 2 < pieces d Nphi /\ half_ok Nphi (q mod 2).
Proof.
  intros Hg Hq. pose proof (Nat.mod_upper_bound q 2 ltac:(lia)) as Hb. destruct (Nat.le_gt_cases Nphi 2) as [H|H].
  - unfold orders in Hq. unfold pieces. destruct (Nat.leb_spec Nphi 2); [|lia]. assert (q = 0) as -> by lia. split; [cbn; lia|left; reflexivity].
  - rewrite orders_pieces in Hq by assumption. split; [apply Nat.div_lt_upper_bound; lia|]. unfold half_ok. lia.
Qed.
Lemma group_of_row d Nphi q k t : good_resolution d Nphi -> q < orders d Nphi -> k < parts d -> half_group d Nphi (parts d * q + k) t = (gorder d Nphi q, Z.of_nat t).
Proof.
  intros Hg Hq Hk. destruct (order_index _ _ _ Hg Hq) as [H1 H2]. unfold gorder. rewrite <- (half_group_canon d Nphi (q / 2) (q mod 2) k t Hg H1 H2 Hk). f_equal.
  rewrite half_chunk_parts. destruct (Nat.leb_spec Nphi 2) as [H|H].
  - unfold orders in Hq. destruct (Nat.leb_spec Nphi 2); [|lia]. assert (q = 0) as -> by lia. cbn. lia.
  - pose proof (Nat.div_mod q 2 ltac:(lia)). nia.
Qed.
Lemma gorder_inj d Nphi q q' : good_resolution d Nphi -> q < orders d Nphi -> q' < orders d Nphi -> gorder d Nphi q = gorder d Nphi q' -> q = q'.
Proof.
  intros Hg Hq Hq' E. destruct (order_index _ _ _ Hg Hq) as [H1 H2]. destruct (order_index _ _ _ Hg Hq') as [H3 H4]. apply half_order_inj in E; try assumption. destruct E as [E1 E2].
  rewrite (Nat.div_mod q 2), (Nat.div_mod q' 2) by lia. congruence.
Qed.
Lemma gorder_stored d Nphi q : good_resolution d Nphi -> q < orders d Nphi -> stored_order d Nphi (gorder d Nphi q).
Proof.
  intros Hg Hq. destruct (order_index _ _ _ Hg Hq) as [H1 H2]. unfold gorder, half_order. destruct H2 as [->|[-> HN]]; cbn [Nat.eqb].
  - apply positive_range; assumption.
  - destruct (Nat.eqb_spec (q / 2) 0); [apply top_range; assumption|apply folded_range; [exact Hg|lia]].
Qed.
Lemma stored_gorder d Nphi m : good_resolution d Nphi -> stored_order d Nphi m -> exists q, q < orders d Nphi /\ m = gorder d Nphi q.
Proof.
  intros Hg Hm. assert (Hcu : exists c u, c < pieces d Nphi /\ half_ok Nphi u /\ m = half_order d Nphi c u).
  { destruct (order_kinds _ _ _ Hg Hm) as [(c & Hc & ->)|[(c & Hc & ->)|[HN ->]]].
    - exists c, 0. split; [exact Hc|]. split; [left; reflexivity|reflexivity].
    - exists c, 1. split; [lia|]. split; [right; split; [reflexivity|]; unfold pieces in Hc; destruct (Nat.leb_spec Nphi 2); lia|]. unfold half_order. cbn [Nat.eqb]. destruct (Nat.eqb_spec c 0); [lia|reflexivity].
    - exists 0, 1. split; [unfold pieces; destruct (Nat.leb_spec Nphi 2); [lia|]; destruct (good_big _ _ Hg HN) as (h & -> & Hh & _); destruct d; cbn [parts]; apply Nat.div_str_pos; lia|]. split; [right; auto|reflexivity]. }
  destruct Hcu as (c & u & Hc & Hu & ->). exists (2 * c + u). unfold gorder.
  assert (Hu2 : u < 2) by (unfold half_ok in Hu; lia).
  replace ((2 * c + u) / 2) with c by (apply (Nat.div_unique _ _ _ u); lia). replace ((2 * c + u) mod 2) with u by (apply (Nat.mod_unique _ _ c); lia). split; [|reflexivity].
  destruct (Nat.le_gt_cases Nphi 2) as [H|H]; [|rewrite orders_pieces by assumption; lia]. unfold half_ok in Hu. unfold orders, pieces in *. destruct (Nat.leb_spec Nphi 2); lia.
Qed.
Lemma nmin_first p m : nmin p m = Z.of_nat (first_degree p m).
Proof. destruct p; [reflexivity|]. cbn [nmin first_degree]. rewrite Nat2Z.inj_div, Zabs2Nat.id_abs. reflexivity. Qed.
Lemma polar_group_row p d Nphi q k j : good_resolution d Nphi -> q < orders d Nphi -> k < parts d ->
  polar_group p d Nphi (parts d * q + k) j = if j <? first_degree p (gorder d Nphi q) then None else Some (gorder d Nphi q, Z.of_nat j).
Proof.
  intros Hg Hq Hk. unfold polar_group. rewrite group_of_row by assumption. rewrite nmin_first. destruct (Nat.ltb_spec j (first_degree p (gorder d Nphi q))), (Z.ltb_spec (Z.of_nat j) (Z.of_nat (first_degree p (gorder d Nphi q)))); try reflexivity; lia.
Qed.

(** ** The table of orders *)
Lemma masked_coded gs G nr nc m : masked_slices gs G nr nc (Some m, None) = groupset_slices gs (fun a b => match G a b with Some g => g | None => (m + 1, 0)%Z end) nr nc (Some m, None).
Proof.
  unfold masked_slices, groupset_slices. cbn [fst snd]. cbv zeta.
  assert (E : (fun a b => matches_masked (Some m) (option_map fst (G a b)) && matches_masked None (option_map snd (G a b))) = (fun a b => matches (Some m) (fst (match G a b with Some g => g | None => (m + 1, 0)%Z end)) && matches None (snd (match G a b with Some g => g | None => (m + 1, 0)%Z end)))).
  { extensionality a. extensionality b. destruct (G a b) as [g|]; cbn; [reflexivity|]. destruct (Z.eqb_spec m (m + 1)); [lia|reflexivity]. }
  assert (E' := fun a b => f_equal (fun f => f a b) E). cbn beta in E'.
  assert (E1 : forall s0 s1, filter (fun a => existsb (fun b => matches_masked (Some m) (option_map fst (G a b)) && matches_masked None (option_map snd (G a b))) s1) s0 = filter (fun a => existsb (fun b => matches (Some m) (fst (match G a b with Some g => g | None => (m + 1, 0)%Z end)) && matches None (snd (match G a b with Some g => g | None => (m + 1, 0)%Z end))) s1) s0).
  { intros s0 s1. apply filter_ext. intros a. induction s1 as [|b s1 IH]; [reflexivity|]. cbn [existsb]. rewrite IH, E'. reflexivity. }
  assert (E2 : forall s0 s1, filter (fun b => existsb (fun a => matches_masked (Some m) (option_map fst (G a b)) && matches_masked None (option_map snd (G a b))) s0) s1 = filter (fun b => existsb (fun a => matches (Some m) (fst (match G a b with Some g => g | None => (m + 1, 0)%Z end)) && matches None (snd (match G a b with Some g => g | None => (m + 1, 0)%Z end))) s0) s1).
  { intros s0 s1. apply filter_ext. intros b. induction s0 as [|a s0 IH]; [reflexivity|]. cbn [existsb]. rewrite IH, E'. reflexivity. }
  apply flat_map_ext. intros s0. apply flat_map_ext. intros s1. rewrite E1, E2. reflexivity.
Qed.
Definition polar_entry (p : polar) (d : dtype) (Nphi Nr c0 q : nat) : polar_map :=
  let P := parts d in let m := gorder d Nphi q in let s := (P * (q - c0), P * (q - c0) + P) in (m, s, s, (first_degree p m, Nr)).
Lemma ordered_repeat {A} (l : list A) (f : A -> Z) (g : A -> list Z) : NoDup l -> (forall x y, In x l -> In y l -> f x = f y -> x = y) ->
  (forall x, In x l -> g x <> [] /\ forall y, In y (g x) -> y = f x) -> ordered_set (flat_map g l) = map f l.
Proof.
  intros Hd Hi Hg. unfold ordered_set. induction l as [|x l IH] using rev_ind; [reflexivity|].
  assert (Hl : ~ In x l) by (apply NoDup_remove in Hd; rewrite app_nil_r in Hd; apply Hd).
  assert (E : nodup Z.eq_dec (rev (flat_map g (l ++ [x]))) = f x :: nodup Z.eq_dec (rev (flat_map g l))).
  { rewrite flat_map_app. cbn [flat_map]. rewrite app_nil_r, rev_app_distr. destruct (Hg x) as [H1 H2]; [apply in_or_app; right; left; reflexivity|].
    assert (H1' : rev (g x) <> []) by (intros E; apply H1; rewrite <- (rev_involutive (g x)), E; reflexivity). assert (H2' : forall y, In y (rev (g x)) -> y = f x) by (intros y Hy; apply H2; apply in_rev; exact Hy).
    assert (Hn : ~ In (f x) (rev (flat_map g l))).
    { intros Hx. apply in_rev in Hx. apply in_flat_map in Hx as (z & Hz & Hx). destruct (Hg z) as [_ H3]; [apply in_or_app; left; exact Hz|]. apply H3 in Hx. apply Hi in Hx; [|apply in_or_app; right; left; reflexivity|apply in_or_app; left; exact Hz]. subst z. contradiction. }
    revert H1' H2'. clear -Hn. generalize (rev (g x)) as u. intros u. induction u as [|y u IHu]; intros H1 H2; [contradiction|]. assert (y = f x) as -> by (apply H2; left; reflexivity). cbn [app nodup].
    destruct u as [|y' u]; [cbn [app]; destruct (in_dec Z.eq_dec (f x) (rev (flat_map g l))); [contradiction|reflexivity]|].
    destruct (in_dec Z.eq_dec (f x) ((y' :: u) ++ rev (flat_map g l))) as [H|H]; [|exfalso; apply H; left; apply H2; right; left; reflexivity].
    apply IHu; [discriminate|]. intros z Hz. apply H2. right. exact Hz. }
  rewrite E. cbn [rev]. rewrite IH, map_app; [reflexivity|apply NoDup_remove_1 in Hd; rewrite app_nil_r in Hd; exact Hd| |].
  - intros a b Ha Hb. apply Hi; apply in_or_app; left; assumption.
  - intros a Ha. apply Hg. apply in_or_app. left. exact Ha.
Qed.
Lemma all_some_map {A B} (f : A -> option B) (h : A -> B) l : (forall x, In x l -> f x = Some (h x)) -> all_some (map f l) = Some (map h l).
Proof. induction l as [|x l IH]; intros H; [reflexivity|]. cbn [map all_some]. rewrite H by (left; reflexivity). rewrite IH; [reflexivity|]. intros y Hy. apply H. right. exact Hy. Qed.
Lemma all_some_none {A B} (f : A -> option B) l x : In x l -> f x = None -> all_some (map f l) = None.
Proof. induction l as [|y l IH]; [intros []|]. intros [->|Hx] E; cbn [map all_some]; [rewrite E; reflexivity|]. rewrite (IH Hx E). destruct (f y); reflexivity. Qed.

Section Table.
Context (p : polar) (d : dtype) (Nphi Nr Ng c0 n : nat) (Hg : good_resolution d Nphi) (H2 : Nphi <> 2) (HN : 0 < Ng) (Hn : c0 + n <= orders d Nphi).
Let P := parts d.
Let gc := polar_grid_chunk d Nphi.
Let gg := fun a b => half_group d Nphi (gc * c0 + a) b.
Let cg := fun a b => polar_group p d Nphi (P * c0 + a) b.
Lemma few : Nphi = 1 -> orders d Nphi = 1. Proof. intros ->. reflexivity. Qed.
Lemma grid_chunk : gc = P \/ Nphi = 1 /\ d = Float64 /\ gc = 1.
Proof.
  unfold gc, P, polar_grid_chunk. destruct d; [left; reflexivity|]. destruct (Nat.eqb_spec (mmax Nphi) 0) as [E|E]; [right|left; reflexivity]. split; [|split; reflexivity].
  destruct (Nat.le_gt_cases Nphi 2) as [H|H]; [destruct (good_small _ _ Hg H) as [->|[_ Hx]]; [reflexivity|discriminate]|]. apply mmax_big in H. rewrite E in H. discriminate.
Qed.
Lemma P_pos : 0 < P. Proof. unfold P. apply parts_pos. Qed.
Lemma row_split x : x < P * n -> x / P < n /\ x mod P < P /\ x = P * (x / P) + x mod P.
Proof. pose proof P_pos as HP. intros H. split; [apply Nat.div_lt_upper_bound; lia|]. split; [apply Nat.mod_upper_bound; lia|apply Nat.div_mod; lia]. Qed.
Lemma grid_groups : map fst (flat_map (fun a => map (fun b => gg a b) (seq 0 Ng)) (seq 0 (gc * n))) = flat_map (fun a => map (fun b => fst (gg a b)) (seq 0 Ng)) (seq 0 (gc * n)).
Proof. induction (seq 0 (gc * n)) as [|a l IH]; [reflexivity|]. cbn [flat_map]. rewrite map_app, IH, map_map. reflexivity. Qed.
Lemma groupsets : local_groupsets fst gg (gc * n) Ng = map (gorder d Nphi) (seq c0 n).
Proof.
  unfold local_groupsets. pose proof P_pos as HP.
  assert (Hi : forall x y, In x (seq c0 n) -> In y (seq c0 n) -> gorder d Nphi x = gorder d Nphi y -> x = y) by (intros x y Hx Hy; apply in_seq in Hx; apply in_seq in Hy; apply gorder_inj; [exact Hg|lia|lia]).
  assert (Hgc : 0 < gc) by (destruct grid_chunk as [E|(_ & _ & E)]; rewrite E; [exact HP|lia]).
  assert (E : forall c m, flat_map (fun a => map (fun b => fst (gg a b)) (seq 0 Ng)) (seq (gc * c) (gc * m)) = flat_map (fun q => flat_map (fun k => map (fun b => fst (gg (gc * (q - c0) + k) b)) (seq 0 Ng)) (seq 0 gc)) (seq (c + c0) m)).
  { intros c m. revert c. induction m as [|m IH]; intros c; [rewrite Nat.mul_0_r; reflexivity|]. replace (gc * S m) with (gc + gc * m) by lia. rewrite seq_app, flat_map_app. cbn [seq flat_map]. f_equal.
    - rewrite Nat.add_sub. generalize (gc * c) as s. clear. intros s. assert (E : seq s gc = map (plus s) (seq 0 gc)) by (clear; rewrite <- (Nat.add_0_r s) at 1; generalize 0 as t; induction gc as [|g IH]; intros t; [reflexivity|]; cbn [seq map]; rewrite <- IH; do 2 f_equal; lia). rewrite E. rewrite flat_map_concat_map, map_map, <- flat_map_concat_map. reflexivity.
    - replace (gc * c + gc) with (gc * S c) by lia. rewrite IH. reflexivity. }
  specialize (E 0 n). rewrite Nat.mul_0_r in E. rewrite E. cbn [plus]. apply ordered_repeat; [apply seq_NoDup|exact Hi|].
  intros q Hq. apply in_seq in Hq. split.
  - destruct gc as [|g]; [lia|]. destruct Ng as [|G]; [lia|]. discriminate.
  - intros y Hy. apply in_flat_map in Hy as (k & Hk & Hy). apply in_seq in Hk. apply in_map_iff in Hy as (b & <- & Hb). unfold gg.
    destruct grid_chunk as [E1|(E1 & _ & E2)].
    + rewrite E1 in *. replace (P * c0 + (P * (q - c0) + k)) with (parts d * q + k) by (fold P; nia). rewrite group_of_row; [reflexivity|exact Hg|lia|exact (proj2 Hk)].
    + pose proof (few E1). assert (q = 0) by lia. assert (k = 0) by lia. subst q k. rewrite Nat.sub_0_l, Nat.mul_0_r, Nat.add_0_r. replace (gc * c0) with (parts d * 0 + 0) by lia. rewrite group_of_row; [reflexivity|exact Hg|lia|exact P_pos].
Qed.
Lemma grid_slice q : c0 <= q < c0 + n -> exists s, groupset_slices (P, 1) gg (gc * n) Ng (Some (gorder d Nphi q), None) = [((P * (q - c0), P * (q - c0) + P), s)].
Proof.
  intros Hq. pose proof P_pos as HP. exists (0, Ng). destruct grid_chunk as [E1|(E1 & E1' & E2)].
  - rewrite E1. apply (row_slices P gg n Ng (fun q' _ => gorder d Nphi (c0 + q'))).
    + exact HP.
    + intros a b Ha Hb. apply row_split in Ha as (H3 & H4 & H5). unfold gg. rewrite E1. replace (P * c0 + a) with (parts d * (c0 + a / P) + a mod P) by (fold P; nia). rewrite group_of_row; [reflexivity|exact Hg|lia|exact H4].
    + lia.
    + exact HN.
    + lia.
    + intros b Hb. replace (c0 + (q - c0)) with q by lia. split; [lia|reflexivity].
    + intros q' b Hq' Hne Hb E. apply gorder_inj in E; [lia|exact Hg|lia|lia].
  - pose proof (few E1). assert (q = 0) by lia. assert (c0 = 0) by lia. assert (n = 1) by lia. subst q.
    assert (EP : P = 2) by (unfold P; rewrite E1'; reflexivity). rewrite EP. replace (gc * n) with 1 by lia. unfold groupset_slices. cbn [fst snd subslices Blocks_Model.cdiv]. change (Blocks_Model.cdiv 1 2) with 1. cbn [seq map flat_map within bounds Nat.mul plus Nat.min Nat.sub].
    assert (Eg : forall b, fst (gg 0 b) = gorder d Nphi 0) by (intros b; unfold gg; replace (gc * c0 + 0) with (parts d * 0 + 0) by lia; rewrite group_of_row; [reflexivity|exact Hg|lia|exact HP]).
    assert (Er : filter (fun a => existsb (fun b => matches (Some (gorder d Nphi 0)) (fst (gg a b)) && matches None (snd (gg a b))) (seq 0 Ng)) [0] = [0]).
    { cbn [filter]. replace (existsb _ (seq 0 Ng)) with true; [reflexivity|]. symmetry. apply existsb_exists. exists 0. split; [apply in_seq; lia|]. cbn [matches]. rewrite Eg, Z.eqb_refl. reflexivity. }
    rewrite Er. assert (Ec : filter (fun b => existsb (fun a => matches (Some (gorder d Nphi 0)) (fst (gg a b)) && matches None (snd (gg a b))) [0]) (seq 0 Ng) = seq 0 Ng).
    { rewrite (filter_ext_seq _ (fun _ => true)); [generalize 0 as s; clear; induction Ng as [|g IH]; intros s; [reflexivity|]; cbn; rewrite IH; reflexivity|]. intros b _. cbn [existsb matches]. rewrite Eg, Z.eqb_refl. reflexivity. }
    rewrite Ec, last_seq by exact HN. destruct Ng as [|g]; [lia|]. cbn [seq hd app]. repeat f_equal; lia.
Qed.
Lemma coeff_slice q : c0 <= q < c0 + n -> first_degree p (gorder d Nphi q) < Nr ->
  masked_slices (P, 1) cg (P * n) Nr (Some (gorder d Nphi q), None) = [((P * (q - c0), P * (q - c0) + P), (first_degree p (gorder d Nphi q), Nr))].
Proof.
  intros Hq Hf. pose proof P_pos as HP. rewrite masked_coded. set (m := gorder d Nphi q) in *.
  apply (row_slices P _ n Nr (fun q' b => if b <? first_degree p (gorder d Nphi (c0 + q')) then (m + 1)%Z else gorder d Nphi (c0 + q'))).
  - exact HP.
  - intros a b Ha Hb. apply row_split in Ha as (H3 & H4 & H5). unfold cg. replace (P * c0 + a) with (parts d * (c0 + a / P) + a mod P) by (fold P; nia). rewrite polar_group_row; [|exact Hg|lia|exact H4]. destruct (b <? _); reflexivity.
  - lia.
  - exact Hf.
  - lia.
  - intros b Hb. replace (c0 + (q - c0)) with q by lia. fold m. destruct (Nat.ltb_spec b (first_degree p m)); [split; lia|]. split; [lia|reflexivity].
  - intros q' b Hq' Hne Hb E. destruct (b <? _); [lia|]. apply gorder_inj in E; [lia|exact Hg|lia|lia].
Qed.
Lemma polar_maps_entries : (forall q, c0 <= q < c0 + n -> first_degree p (gorder d Nphi q) < Nr) -> polar_maps p d Nphi Nr Ng c0 n = Some (map (polar_entry p d Nphi Nr c0) (seq c0 n)).
Proof.
  intros Hf. unfold polar_maps. cbv zeta. fold gc. change (polar_chunk d) with P. change (group_rows d) with P. change (fun a b => half_group d Nphi (gc * c0 + a) b) with gg. change (fun a b => polar_group p d Nphi (P * c0 + a) b) with cg.
  rewrite groupsets, map_map. apply all_some_map. intros q Hq. apply in_seq in Hq. rewrite coeff_slice by (try apply Hf; lia). destruct (grid_slice q ltac:(lia)) as (s & ->). reflexivity.
Qed.
Lemma polar_maps_fail q : c0 <= q < c0 + n -> Nr <= first_degree p (gorder d Nphi q) -> polar_maps p d Nphi Nr Ng c0 n = None.
Proof.
  intros Hq Hf. unfold polar_maps. cbv zeta. fold gc. change (polar_chunk d) with P. change (group_rows d) with P. change (fun a b => half_group d Nphi (gc * c0 + a) b) with gg. change (fun a b => polar_group p d Nphi (P * c0 + a) b) with cg.
  rewrite groupsets, map_map. apply (all_some_none _ _ q); [apply in_seq; lia|]. replace (masked_slices (P, 1) cg (P * n) Nr (Some (gorder d Nphi q), None)) with (@nil ((nat * nat) * (nat * nat))); [reflexivity|]. symmetry.
  unfold masked_slices. cbn [fst snd subslices]. pose proof P_pos as HP.
  rewrite cdiv_mul by exact HP. assert (Hs : forall s0, In s0 (map (fun q => Some (P * q, P * q + P)) (seq 0 n)) -> filter (fun a => existsb (fun b => matches_masked (Some (gorder d Nphi q)) (option_map fst (cg a b)) && matches_masked None (option_map snd (cg a b))) (within None Nr)) (within s0 (P * n)) = []).
  { intros s0 Hs. apply in_map_iff in Hs as (q' & <- & Hq'). apply in_seq in Hq'. apply filter_nil. intros a Ha. cbn [within] in Ha. apply in_seq in Ha. apply existsb_false. intros b Hb. cbn [within] in Hb. apply in_seq in Hb.
    destruct (row_split a ltac:(nia)) as (H3 & H4 & H5). unfold cg. replace (P * c0 + a) with (parts d * (c0 + a / P) + a mod P) by (fold P; nia). rewrite polar_group_row; [|exact Hg|lia|exact H4].
    destruct (Nat.ltb_spec b (first_degree p (gorder d Nphi (c0 + a / P)))) as [|Hb']; [reflexivity|]. cbn. rewrite andb_true_r. apply Z.eqb_neq. intros E. apply gorder_inj in E; [|exact Hg|lia|lia]. rewrite <- E in Hb'. lia. }
  induction (map (fun q => Some (P * q, P * q + P)) (seq 0 n)) as [|s0 l IH]; [reflexivity|]. cbn [flat_map]. rewrite Hs by (left; reflexivity). apply IH. intros s1 H1. apply Hs. right. exact H1.
Qed.
End Table.
