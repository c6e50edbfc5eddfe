(** Storage and transforms of spherical harmonics: theorems. *)
From Coq Require Import List Arith Bool ZArith Lia Field.
Import ListNotations.
From Verif Require Import CSR_Spec FourierCalc_Model Sphere_Model Sphere_Spec Sphere_Proofs.
From Verif Require Blocks_Model MatSolvers_Proofs.
Local Open Scope nat_scope.

(** ** Storage *)
(** The resolutions that are accepted: one point, or an even number of them, divisible by four for real data. *)
Theorem sphere_resolutions d Nphi : 0 < Nphi -> (resolution_allowed d Nphi = true <-> good_resolution d Nphi).
Proof.
  intros H. unfold resolution_allowed, good_resolution. destruct (Nat.ltb_spec 1 Nphi) as [H1|H1]; cbn [andb negb].
  - destruct d; cbn [andb negb].
    + rewrite andb_true_r, negb_involutive, Nat.eqb_eq. lia.
    + rewrite andb_true_iff, !negb_involutive, !Nat.eqb_eq. split; [intros [_ E]; split; [exact H|right; exact E]|]. intros [_ [->|E]]; [lia|]. split; [|exact E].
      pose proof (Nat.div_mod Nphi 4 ltac:(lia)) as Ed. rewrite E in Ed. rewrite Ed. replace (4 * (Nphi / 4) + 0) with (2 * (Nphi / 4) * 2) by lia. apply Nat.mod_mul. lia.
  - split; [intros _; split; [exact H|left; lia]|reflexivity].
Qed.
Lemma canon_inj d Nphi Ntheta c j c' j' : good_resolution d Nphi -> c < pieces d Nphi -> c' < pieces d Nphi -> j < columns d Nphi Ntheta -> j' < columns d Nphi Ntheta ->
  canon d Nphi Ntheta c j = canon d Nphi Ntheta c' j' -> c = c' /\ j = j'.
Proof.
  intros Hg Hc Hc' Hj Hj' E. assert (E1 := f_equal fst E). rewrite !canon_order in E1. apply half_order_inj in E1; try assumption; try (apply half_at_ok; assumption). destruct E1 as [<- Eh]. split; [reflexivity|].
  apply (f_equal snd) in E. rewrite columns_offset in *. unfold canon, half_at in *. destruct (c =? 0).
  - destruct (Nat.leb_spec j (Lmax d Ntheta)), (Nat.leb_spec j' (Lmax d Ntheta)); try discriminate; cbn [snd] in E; lia.
  - destruct (Nat.ltb_spec j (c + offset d Nphi Ntheta)), (Nat.ltb_spec j' (c + offset d Nphi Ntheta)); try discriminate; cbn [snd] in E; lia.
Qed.
Lemma canon_mode d Nphi Ntheta c j : good_resolution d Nphi -> c < pieces d Nphi -> j < columns d Nphi Ntheta -> let (m, ell) := canon d Nphi Ntheta c j in
  stored_order d Nphi m /\ (ell <= Z.of_nat (Lmax d Ntheta))%Z.
Proof.
  intros Hg Hc Hj. pose proof (half_at_ok d Nphi Ntheta c j Hc Hj) as Hu. pose proof (canon_order d Nphi Ntheta c j) as E. rewrite columns_offset in Hj. unfold canon, half_at in *.
  destruct (Nat.eqb_spec c 0) as [->|H0].
  - destruct (Nat.leb_spec j (Lmax d Ntheta)); split; try lia; [apply (positive_range d Nphi 0); assumption|]. destruct Hu as [Hu|[_ Hu]]; [discriminate|]. apply top_range; assumption.
  - destruct (Nat.ltb_spec j (c + offset d Nphi Ntheta)); split; try lia; [apply folded_range; [exact Hg|lia]|apply positive_range; assumption].
Qed.
Lemma mode_place d Nphi Ntheta m ell : good_resolution d Nphi -> is_mode d Nphi Ntheta m ell -> exists c j, c < pieces d Nphi /\ j < columns d Nphi Ntheta /\ canon d Nphi Ntheta c j = (m, ell).
Proof.
  intros Hg [Hm He]. rewrite <- Lmax_top in He. destruct (order_kinds _ _ _ Hg Hm) as [(c & Hc & ->)|[(c & Hc & ->)|[HN ->]]].
  - exists c. rewrite columns_offset. unfold canon. destruct (Nat.eqb_spec c 0) as [->|H0].
    + exists (Z.to_nat ell). split; [exact Hc|]. split; [lia|]. destruct (Nat.leb_spec (Z.to_nat ell) (Lmax d Ntheta)); [f_equal; lia|lia].
    + exists (Z.to_nat ell + offset d Nphi Ntheta). split; [exact Hc|]. split; [lia|]. match goal with |- context [?x <? ?y] => destruct (Nat.ltb_spec x y); [lia|] end. f_equal; lia.
  - exists c, (Lmax d Ntheta - Z.to_nat ell). rewrite columns_offset. split; [lia|]. split; [lia|]. unfold canon. destruct (Nat.eqb_spec c 0); [lia|].
    assert (Lmax d Ntheta - Z.to_nat ell < c + offset d Nphi Ntheta).
    { unfold folded, offset, pieces in *. destruct (Nat.leb_spec Nphi 2) as [H|H]; [lia|]. destruct (good_big _ _ Hg H) as (h & EN & H0 & E & _). destruct d; cbn [parts] in *; rewrite E in *; [lia|].
      rewrite EN in Hc. replace (2 * 2 * h / 4) with h in Hc by (symmetry; replace (2 * 2 * h) with (h * 4) by lia; apply Nat.div_mul; lia). lia. }
    destruct (Nat.ltb_spec (Lmax d Ntheta - Z.to_nat ell) (c + offset d Nphi Ntheta)); [|lia]. f_equal; lia.
  - exists 0, (Z.to_nat ell + offset d Nphi Ntheta). pose proof (top_range _ _ Hg HN) as (_ & _ & H0). rewrite columns_offset. split; [unfold pieces; destruct (Nat.leb_spec Nphi 2); [lia|]; destruct (good_big _ _ Hg HN) as (h & -> & Hh & _); destruct d; cbn [parts]; apply Nat.div_str_pos; lia|].
    split; [lia|]. unfold canon. cbn [Nat.eqb].
    assert (Lmax d Ntheta < Z.to_nat ell + offset d Nphi Ntheta) by (unfold offset, top_order in *; destruct (Nat.leb_spec Nphi 2); [lia|]; destruct d; lia).
    destruct (Nat.leb_spec (Z.to_nat ell + offset d Nphi Ntheta) (Lmax d Ntheta)); [lia|]. f_equal; lia.
Qed.
(** Every mode is stored at exactly one place, for each of its parts. *)
Theorem sphere_modes_stored d Nphi Ntheta m ell part : good_resolution d Nphi -> is_mode d Nphi Ntheta m ell -> part < parts d ->
  exists! ij : nat * nat, fst ij < fst (coeff_shape d Nphi Ntheta) /\ snd ij < snd (coeff_shape d Nphi Ntheta) /\ fst ij mod parts d = part /\ coeff_group d Nphi Ntheta (fst ij) (snd ij) = (m, ell).
Proof.
  intros Hg Hm Hp. destruct (mode_place _ _ _ _ _ Hg Hm) as (c & j & Hc & Hj & E). pose proof (parts_pos d) as HP. rewrite coeff_shape_rows by exact Hg. fold (columns d Nphi Ntheta).
  assert (Ed : (parts d * c + part) / parts d = c) by (symmetry; apply (Nat.div_unique _ _ _ part); lia).
  exists (parts d * c + part, j). split.
  - cbn [fst snd]. split; [nia|]. split; [exact Hj|]. split; [symmetry; apply (Nat.mod_unique _ _ c); lia|]. rewrite coeff_group_canon by (try assumption; nia). rewrite Ed. exact E.
  - intros [i' j'] (Hi' & Hj' & Hp' & E'). cbn [fst snd] in *. rewrite coeff_group_canon in E' by assumption. assert (Hc' : i' / parts d < pieces d Nphi) by (apply Nat.div_lt_upper_bound; lia).
    rewrite <- E in E'. apply canon_inj in E'; try assumption. destruct E' as [Ec <-]. pose proof (Nat.div_mod i' (parts d) ltac:(lia)). f_equal. rewrite Ec, Hp' in *. lia.
Qed.
(** The elements that are kept valid are those that hold modes that the spin of the component allows (for scalars and vectors, without
    the sine parts of degree zero). *)
Theorem sphere_elements d Nphi Ntheta rank s i j : good_resolution d Nphi -> i < fst (coeff_shape d Nphi Ntheta) -> j < snd (coeff_shape d Nphi Ntheta) ->
  (coeff_valid d Nphi Ntheta rank s i j = true <-> let (m, ell) := coeff_group d Nphi Ntheta i j in
     is_mode d Nphi Ntheta m ell /\ (rank = 0 \/ (Z.abs s <= ell)%Z) /\ ~ (d = Float64 /\ rank <= 1 /\ ell = 0%Z /\ i mod 2 = 1)).
Proof.
  intros Hg Hi Hj. rewrite coeff_shape_rows in Hi by exact Hg. fold (columns d Nphi Ntheta) in Hj. unfold coeff_valid. rewrite coeff_group_canon by assumption. pose proof (parts_pos d) as HP.
  assert (Hc : i / parts d < pieces d Nphi) by (apply Nat.div_lt_upper_bound; lia). pose proof (canon_mode d Nphi Ntheta _ j Hg Hc Hj) as Hm. destruct (canon d Nphi Ntheta (i / parts d) j) as [m ell]. destruct Hm as [Hm HL]. rewrite Lmax_top in HL.
  assert (HV : (match rank with 0 => negb (Z.abs m >? ell)%Z | S _ => negb (Z.max (Z.abs m) (Z.abs s) >? ell)%Z end) = true <-> (Z.abs m <= ell)%Z /\ (rank = 0 \/ (Z.abs s <= ell)%Z)).
  { destruct rank; rewrite negb_true_iff, Z.gtb_ltb, Z.ltb_ge; lia. }
  unfold is_mode. destruct d.
  - rewrite HV. split; [intros [H1 H2]; split; [split; [exact Hm|split; assumption]|split; [exact H2|intros [H3 _]; discriminate]]|]. intros ((_ & H1 & _) & H2 & _). split; assumption.
  - destruct (Nat.leb_spec rank 1), (Z.eqb_spec ell 0), (Nat.eqb_spec (i mod 2) 1); cbn [andb]; try (rewrite HV; split; [intros [H1 H2]; split; [split; [exact Hm|split; assumption]|split; [exact H2|intros (H3 & H4 & H5 & H6); (lia || contradiction)]]|intros ((_ & H1 & _) & H2 & _); split; assumption]).
    split; [discriminate|]. intros (_ & _ & H4). exfalso. apply H4. repeat split; assumption.
Qed.
(** With no more than two azimuthal points per colatitudinal one, no element is wasted. *)
Theorem sphere_packed d Nphi Ntheta i j : good_resolution d Nphi -> 0 < Ntheta -> Nphi <= 2 * Ntheta -> i < fst (coeff_shape d Nphi Ntheta) -> j < snd (coeff_shape d Nphi Ntheta) ->
  let (m, ell) := coeff_group d Nphi Ntheta i j in is_mode d Nphi Ntheta m ell.
Proof.
  intros Hg H0 HN Hi Hj. rewrite coeff_shape_rows in Hi by exact Hg. fold (columns d Nphi Ntheta) in Hj. rewrite coeff_group_canon by assumption. pose proof (parts_pos d) as HP.
  assert (Hc : i / parts d < pieces d Nphi) by (apply Nat.div_lt_upper_bound; lia). set (c := i / parts d) in *.
  pose proof (half_at_ok d Nphi Ntheta c j Hc Hj) as Hu. set (u := half_at d Nphi Ntheta c j) in *. pose proof (proj1 (half_at_span d Nphi Ntheta c j u Hj Hu) eq_refl) as Hs.
  assert (Hh : here d Nphi Ntheta 0 (pieces d Nphi) c u) by (split; [lia|split; [exact Hu|lia]]).
  destruct (entry_columns d Nphi Ntheta 0 (pieces d Nphi) c u Hg ltac:(lia) Hh (or_intror (or_intror (exact_balanced _ _ _ H0 HN)))) as (Hl & Hm & Hq). apply (slice_in d Nphi Ntheta 0 c u j) in Hs.
  destruct (index_of_nth _ _ Hs) as (q & _ & Hq1 & Hq2). specialize (Hq q Hq1). rewrite Hq2 in Hq. pose proof (canon_mode d Nphi Ntheta c j Hg Hc Hj) as Hmo. rewrite Hq in *. destruct Hmo as [Hmo HL]. split; [exact Hmo|]. rewrite <- Lmax_top. lia.
Qed.
(** The azimuthal direction is dealt out in as many pieces before as after the colatitude transform. *)
Theorem sphere_pieces d Nphi Ntheta : good_resolution d Nphi -> fst (coeff_shape d Nphi Ntheta) = coeff_chunk d * pieces d Nphi /\ half_shape d Nphi = half_chunk d Nphi * pieces d Nphi.
Proof.
  intros Hg. split; [apply coeff_shape_rows; exact Hg|]. rewrite half_chunk_parts. unfold half_shape, pieces. destruct (Nat.leb_spec Nphi 2) as [H|H].
  - rewrite mmax_small by exact H. destruct d; reflexivity.
  - rewrite mmax_big by exact H. destruct (good_big _ _ Hg H) as (h & -> & H0 & E & _). destruct d; cbn [parts] in *; [rewrite E; lia|]. replace (2 * 2 * h / 4) with h by (symmetry; replace (2 * 2 * h) with (h * 4) by lia; apply Nat.div_mul; lia). lia.
Qed.
Lemma row_order d Nphi c0 n x t : good_resolution d Nphi -> c0 + n <= pieces d Nphi -> x < half_chunk d Nphi * n ->
  fst (half_row d Nphi c0 x) < c0 + n /\ half_ok Nphi (snd (half_row d Nphi c0 x)) /\ fst (half_group d Nphi (half_chunk d Nphi * c0 + x) t) = half_order d Nphi (fst (half_row d Nphi c0 x)) (snd (half_row d Nphi c0 x))
  /\ x = half_chunk d Nphi * (fst (half_row d Nphi c0 x) - c0) + parts d * snd (half_row d Nphi c0 x) + x mod parts d.
Proof.
  intros Hg Hn Hx. unfold half_row. cbn [fst snd]. pose proof (parts_pos d) as HP.
  assert (HH : exists r, half_chunk d Nphi = parts d * r /\ 0 < r /\ forall u, u < r -> half_ok Nphi u).
  { rewrite half_chunk_parts. unfold half_ok. destruct (Nat.leb_spec Nphi 2); [exists 1|exists 2]; (split; [lia|split; [lia|intros; lia]]). }
  destruct HH as (r & EH & Hr & Hu). rewrite EH in *. set (P := parts d) in *. assert (Hx1 : x / (P * r) < n) by (apply Nat.div_lt_upper_bound; lia).
  pose proof (Nat.div_mod x (P * r) ltac:(lia)) as E1. pose proof (Nat.mod_upper_bound x (P * r) ltac:(lia)) as B1. pose proof (Nat.div_mod (x mod (P * r)) P ltac:(lia)) as E2. pose proof (Nat.mod_upper_bound (x mod (P * r)) P ltac:(lia)) as B2.
  assert (Hu' : x mod (P * r) / P < r) by (apply Nat.div_lt_upper_bound; lia).
  assert (Ep : x mod P = x mod (P * r) mod P). { symmetry. apply (Nat.mod_unique _ _ (r * (x / (P * r)) + x mod (P * r) / P)); [exact B2|]. nia. }
  split; [lia|]. split; [apply Hu; exact Hu'|]. split.
  - replace (P * r * c0 + x) with (half_chunk d Nphi * (c0 + x / (P * r)) + parts d * (x mod (P * r) / P) + x mod (P * r) mod P) by (rewrite EH; fold P; nia).
    rewrite half_group_canon; [reflexivity|exact Hg|lia|apply Hu; exact Hu'|exact B2].
  - rewrite Ep, (Nat.add_comm c0), Nat.add_sub. rewrite <- Nat.add_assoc, <- E2. exact E1.
Qed.
(** In the layout between the transforms, every order has one row for each of its parts. *)
Theorem sphere_order_rows d Nphi m part : good_resolution d Nphi -> stored_order d Nphi m -> part < parts d ->
  exists! x, x < half_shape d Nphi /\ x mod parts d = part /\ forall t, fst (half_group d Nphi x t) = m.
Proof.
  intros Hg Hm Hp. rewrite (proj2 (sphere_pieces d Nphi 1 Hg)). pose proof (parts_pos d) as HP.
  assert (HH : exists r, half_chunk d Nphi = parts d * r /\ 0 < r /\ forall u, half_ok Nphi u <-> u < r).
  { rewrite half_chunk_parts. unfold half_ok. destruct (Nat.leb_spec Nphi 2); [exists 1|exists 2]; (split; [lia|split; [lia|intros; lia]]). }
  destruct HH as (r & EH & Hr & Hu).
  assert (Hcu : exists c u, c < pieces d Nphi /\ half_ok Nphi u /\ m = half_order d Nphi c u).
  { destruct (order_kinds _ _ _ Hg Hm) as [(c & Hc & ->)|[(c & Hc & ->)|[HN ->]]].
    - exists c, 0. split; [exact Hc|]. split; [left; reflexivity|reflexivity].
    - exists c, 1. split; [lia|]. split; [right; split; [reflexivity|]; unfold pieces in Hc; destruct (Nat.leb_spec Nphi 2); lia|]. unfold half_order. cbn [Nat.eqb]. destruct (Nat.eqb_spec c 0); [lia|reflexivity].
    - exists 0, 1. split; [unfold pieces; destruct (Nat.leb_spec Nphi 2); [lia|]; destruct (good_big _ _ Hg HN) as (h & -> & Hh & _); destruct d; cbn [parts]; apply Nat.div_str_pos; lia|]. split; [right; auto|reflexivity]. }
  destruct Hcu as (c & u & Hc & Hu' & Em). exists (half_chunk d Nphi * c + parts d * u + part). split.
  - split; [apply Hu in Hu'; rewrite EH; nia|]. split; [symmetry; apply (Nat.mod_unique _ _ (r * c + u)); [exact Hp|rewrite EH; nia]|]. intros t. rewrite half_group_canon by assumption. symmetry. exact Em.
  - intros x (Hx & Hxp & Hxo). specialize (Hxo 0). destruct (row_order d Nphi 0 (pieces d Nphi) x 0 Hg ltac:(lia) Hx) as (H1 & H2 & H3 & H4). rewrite Nat.mul_0_r in H3. cbn [plus] in H3. rewrite Hxo, Em in H3.
    apply half_order_inj in H3; try assumption. destruct H3 as [Ec Eu]. rewrite H4, <- Ec, <- Eu, Hxp. lia.
Qed.

(** ** The table of orders *)
(** On every process the table of orders can be made, has every order on it once, its entries have the modes of their orders in order,
    and every local element is in an entry. *)
Theorem sphere_order_table d Nphi Ntheta Ng c0 n : good_resolution d Nphi -> 0 < Ntheta -> Nphi <= 2 * Ntheta -> 0 < Ng -> c0 + n <= pieces d Nphi ->
  exists maps, m_maps d Nphi Ntheta Ng c0 n = Some maps /\ NoDup (map (fun e : m_map => fst (fst (fst e))) maps) /\ Forall (right_entry d Nphi Ntheta c0 n) maps
  /\ forall a b, a < coeff_chunk d * n -> b < columns d Nphi Ntheta -> exists e, In e maps /\ in_range a (snd (fst e)) /\ In b (slice_columns (snd e)).
Proof.
  intros Hg H0 HN HNg Hn. destruct (m_maps_entries d Nphi Ntheta Ng c0 n Hg HNg Hn) as (maps & E & Hd & Hin). exists maps. split; [exact E|]. split; [exact Hd|]. pose proof (parts_pos d) as HP.
  assert (HH : exists r, half_chunk d Nphi = parts d * r /\ 0 < r /\ forall u, half_ok Nphi u <-> u < r).
  { rewrite half_chunk_parts. unfold half_ok. destruct (Nat.leb_spec Nphi 2); [exists 1|exists 2]; (split; [lia|split; [lia|intros; lia]]). }
  destruct HH as (r & EH & Hr & Hu). split.
  - apply Forall_forall. intros e He. apply Hin in He as (c & u & Hh & ->).
    destruct (entry_columns d Nphi Ntheta c0 n c u Hg Hn Hh (or_intror (or_intror (exact_balanced _ _ _ H0 HN)))) as (Hl & Hm & Hq). pose proof Hh as (Hc & Hu' & _).
    unfold right_entry. assert (Er : forall a, in_range a (snd (fst (entry_at d Nphi Ntheta c0 c u))) -> a / parts d = c - c0) by (intros a Ha; apply (entry_rows d Nphi Ntheta c0 c u a); [lia|]; apply inside_iff; exact Ha).
    pose proof (fun b => slice_in d Nphi Ntheta c0 c u b) as Hsl. pose proof (span_columns d Nphi Ntheta c u) as HW. unfold entry_at in *. cbn [fst snd] in *. set (es := (fst (span d Nphi Ntheta c u), _, _)) in *. set (m := half_order d Nphi c u) in *.
    change (coeff_chunk d) with (parts d). apply Hu in Hu'. split; [reflexivity|]. split; [reflexivity|]. split; [nia|]. split; [rewrite EH; assert (r * (c - c0) + u + 1 <= r * n) by nia; nia|].
    split; [rewrite Nat.mul_comm; apply Nat.mod_mul; lia|]. split; [rewrite EH; replace (parts d * r * (c - c0) + parts d * u) with ((r * (c - c0) + u) * parts d) by lia; apply Nat.mod_mul; lia|]. split.
    + intros a [Ha1 Ha2] t. cbn [fst snd] in *. replace (half_chunk d Nphi * c0 + a) with (half_chunk d Nphi * c + parts d * u + (a - (half_chunk d Nphi * (c - c0) + parts d * u))) by (rewrite EH in *; nia).
      rewrite half_group_canon; [reflexivity|exact Hg|lia|apply Hu; exact Hu'|lia].
    + intros a Ha. apply Er in Ha. unfold modes_of_order. rewrite <- Lmax_top, <- Hl. apply nth_ext with (0, 0)%Z (0, 0)%Z; [rewrite !map_length, seq_length; reflexivity|].
      rewrite map_length. intros q Hq1. rewrite nth_indep with (d' := coeff_group d Nphi Ntheta (parts d * c0 + a) 0) by (rewrite map_length; exact Hq1). rewrite (map_nth (fun b => coeff_group d Nphi Ntheta (parts d * c0 + a) b)).
      rewrite nth_indep with (d' := (m, Z.abs m + Z.of_nat 0)%Z) by (rewrite map_length, seq_length; exact Hq1). rewrite (map_nth (fun k => (m, Z.abs m + Z.of_nat k)%Z)), seq_nth by exact Hq1. cbn [plus].
      assert (Hb : In (nth q (slice_columns es) 0) (slice_columns es)) by (apply nth_In; exact Hq1). apply Hsl in Hb.
      rewrite coeff_group_canon; [|exact Hg| |lia]; [rewrite local_row by exact HP; rewrite Ha; replace (c0 + (c - c0)) with c by lia; apply Hq; exact Hq1|].
      pose proof (Nat.div_mod a (parts d) ltac:(lia)) as Ed. pose proof (Nat.mod_upper_bound a (parts d) ltac:(lia)). rewrite Ha in Ed. nia.
  - intros a b Ha Hb. change (coeff_chunk d) with (parts d) in Ha. assert (Hq : a / parts d < n) by (apply Nat.div_lt_upper_bound; lia). set (c := c0 + a / parts d). assert (Hc : c < pieces d Nphi) by (unfold c; lia).
    pose proof (half_at_ok d Nphi Ntheta c b Hc Hb) as Hu'. set (u := half_at d Nphi Ntheta c b) in *. pose proof (proj1 (half_at_span d Nphi Ntheta c b u Hb Hu') eq_refl) as Hs.
    exists (entry_at d Nphi Ntheta c0 c u). split; [apply Hin; exists c, u; split; [|reflexivity]; split; [split; [apply Nat.le_add_r|apply Nat.add_lt_mono_l; exact Hq]|split; [exact Hu'|lia]]|]. split.
    + apply inside_iff. apply entry_rows; [apply Nat.le_add_r|]. unfold c. rewrite Nat.add_comm, Nat.add_sub. reflexivity.
    + apply slice_in. exact Hs.
Qed.

(** ** Colatitude transforms *)
Section Transforms.
Context {K : Type} (k0 k1 : K) (kadd kmul ksub kdiv : K -> K -> K) (kopp kinv : K -> K).
Context (Hf : field_theory k0 k1 kadd kmul ksub kopp kdiv kinv eq).
Add Field Ksphere : Hf.
Notation total := (CSR_Spec.total k0 kadd).
Notation total_zero := (MatSolvers_Proofs.total_zero k0 k1 kadd kmul ksub kdiv kopp kinv Hf).
Notation total_ext := (MatSolvers_Proofs.total_ext k0 k1 kadd kmul ksub kdiv kopp kinv Hf).
(** The forward transform on a process: the coefficient of every mode on it is the quadrature of the harmonic with the row of its
    order and part, or zero if the spin is above the degree or the grid has too few points for the degree. *)
Theorem sphere_forward Y w d Nphi Ntheta Ng c0 n s g : good_resolution d Nphi -> 0 < Ntheta -> Nphi <= 2 * Ntheta -> 0 < Ng -> Nphi <= 2 * Ng -> c0 + n <= pieces d Nphi ->
  exists c, forward_colatitude k0 kadd kmul Y w d Nphi Ntheta Ng c0 n s g = Some c
  /\ forall a b, a < coeff_chunk d * n -> b < columns d Nphi Ntheta -> let (m, ell) := coeff_group d Nphi Ntheta (coeff_chunk d * c0 + a) b in
       exists x, x < half_chunk d Nphi * n /\ x mod parts d = a mod parts d /\ (forall t, fst (half_group d Nphi (half_chunk d Nphi * c0 + x) t) = m)
       /\ c a b = if (Z.abs s <=? ell)%Z && (ell <? Z.of_nat Ng)%Z then total Ng (fun t => kmul (kmul (Y m s ell t) (w t)) (g x t)) else k0.
Proof.
  intros Hg H0 HN HNg HNg2 Hn. pose proof (exact_balanced d _ _ H0 HN) as Hx. unfold forward_colatitude. destruct (m_maps_entries d Nphi Ntheta Ng c0 n Hg HNg Hn) as (maps & -> & Hd & Hin).
  assert (Hl : listed d Nphi Ntheta c0 n maps) by (intros e He; apply Hin; exact He). rewrite (matrices_ok k0 kmul Y w d Nphi Ntheta Ng c0 n Hg Hn Hx HNg2) by exact Hl.
  destruct (forward_loop_value k0 k1 kadd kmul ksub kdiv kopp kinv Hf Y w d Nphi Ntheta Ng c0 n Hg Hn Hx HNg2 s g maps (fun _ _ => k0) Hl) as (c & -> & Hc). exists c. split; [reflexivity|].
  intros a b Ha Hb. change (coeff_chunk d) with (parts d) in *. pose proof (parts_pos d) as HP. assert (Hq : a / parts d < n) by (apply Nat.div_lt_upper_bound; lia). assert (Hk : c0 + a / parts d < pieces d Nphi) by (eapply Nat.lt_le_trans; [apply Nat.add_lt_mono_l; exact Hq|exact Hn]).
  rewrite coeff_group_canon by (try assumption; nia). rewrite local_row by exact HP. pose proof (half_at_ok d Nphi Ntheta (c0 + a / parts d) b Hk Hb) as Hu. pose proof (proj1 (half_at_span d Nphi Ntheta (c0 + a / parts d) b _ Hb Hu) eq_refl) as Hs.
  pose proof (canon_order d Nphi Ntheta (c0 + a / parts d) b) as Eo. rewrite Hc. replace (existsb (fun e => covers e a b) maps) with true.
  2:{ symmetry. apply existsb_exists. exists (entry_at d Nphi Ntheta c0 (c0 + a / parts d) (half_at d Nphi Ntheta (c0 + a / parts d) b)). split.
      - apply Hin. eexists _, _. split; [|reflexivity]. split; [split; [apply Nat.le_add_r|apply Nat.add_lt_mono_l; exact Hq]|split; [exact Hu|lia]].
      - unfold covers. apply andb_true_iff. split; [apply entry_rows; [apply Nat.le_add_r|]; rewrite Nat.add_comm, Nat.add_sub; reflexivity|]. apply mem_iff. apply slice_in. exact Hs. }
  unfold written. destruct (canon d Nphi Ntheta (c0 + a / parts d) b) as [m ell]. cbn [fst] in Eo. exists (row_of d Nphi Ntheta c0 a b). unfold row_of. set (u := half_at d Nphi Ntheta (c0 + a / parts d) b) in *.
  assert (HH : exists r, half_chunk d Nphi = parts d * r /\ u < r) by (rewrite half_chunk_parts; unfold half_ok in Hu; destruct (Nat.leb_spec Nphi 2); [exists 1|exists 2]; lia). destruct HH as (r & EH & Hur).
  pose proof (Nat.mod_upper_bound a (parts d) ltac:(lia)) as Bm. set (y := a / parts d) in *. clearbody y u. split; [rewrite EH; assert (r * y + u + 1 <= r * n) by nia; nia|].
  split; [symmetry; apply (Nat.mod_unique _ _ (r * y + u)); [exact Bm|rewrite EH; nia]|].
  split; [intros t; replace (half_chunk d Nphi * c0 + (half_chunk d Nphi * y + parts d * u + a mod parts d)) with (half_chunk d Nphi * (c0 + y) + parts d * u + a mod parts d) by lia; rewrite half_group_canon by assumption; symmetry; exact Eo|].
  unfold coef. destruct ((Z.abs s <=? ell)%Z && (ell <? Z.of_nat Ng)%Z); [reflexivity|]. apply total_zero. intros t _. ring.
Qed.
Lemma total_tail k R f : (forall j, j < k -> f j = k0) -> total (k + R) f = total R (fun q => f (k + q)).
Proof.
  intros H. induction R as [|R IH]; [rewrite Nat.add_0_r; apply total_zero; exact H|]. rewrite Nat.add_succ_r, !(MatSolvers_Proofs.total_S k0 k1 kadd kmul ksub kdiv kopp kinv Hf), IH. reflexivity.
Qed.
(** The backward transform on a process: every row of the grid is the sum of the harmonics of its order with the coefficients
    of that order and part, of the degrees that the grid has points for. *)
Theorem sphere_backward Y w d Nphi Ntheta Ng c0 n s c : good_resolution d Nphi -> 0 < Ntheta -> Nphi <= 2 * Ntheta -> 0 < Ng -> Nphi <= 2 * Ng -> c0 + n <= pieces d Nphi ->
  exists g, backward_colatitude k0 kadd kmul Y w d Nphi Ntheta Ng c0 n s c = Some g
  /\ forall x, x < half_chunk d Nphi * n -> exists m, (forall t, fst (half_group d Nphi (half_chunk d Nphi * c0 + x) t) = m)
  /\ exists row col : nat -> nat, (forall ell, (Z.abs m <= Z.of_nat ell)%Z -> ell <= top_degree d Ntheta ->
        row ell < coeff_chunk d * n /\ col ell < columns d Nphi Ntheta /\ row ell mod parts d = x mod parts d /\ coeff_group d Nphi Ntheta (coeff_chunk d * c0 + row ell) (col ell) = (m, Z.of_nat ell))
     /\ forall t, g x t = total (top_degree d Ntheta + 1) (fun ell => if (Z.abs m <=? Z.of_nat ell)%Z && (Z.abs s <=? Z.of_nat ell)%Z && (ell <? Ng) then kmul (Y m s (Z.of_nat ell) t) (c (row ell) (col ell)) else k0).
Proof.
  intros Hg H0 HN HNg HNg2 Hn. pose proof (exact_balanced d _ _ H0 HN) as Hx. unfold backward_colatitude. destruct (m_maps_entries d Nphi Ntheta Ng c0 n Hg HNg Hn) as (maps & -> & Hd & Hin).
  assert (Hl : listed d Nphi Ntheta c0 n maps) by (intros e He; apply Hin; exact He). rewrite (matrices_ok k0 kmul Y w d Nphi Ntheta Ng c0 n Hg Hn Hx HNg2) by exact Hl.
  destruct (backward_loop_value k0 k1 kadd kmul ksub kdiv kopp kinv Hf Y w d Nphi Ntheta Ng c0 n Hg Hn Hx HNg2 s c maps (fun _ _ => k0) Hl) as (g & -> & Hgv). exists g. split; [reflexivity|].
  intros x Hxx. change (coeff_chunk d) with (parts d) in *. pose proof (parts_pos d) as HP.
  pose proof (fun t => row_order d Nphi c0 n x t Hg Hn Hxx) as Hro. destruct (half_row d Nphi c0 x) as [k u] eqn:Ehr. cbn [fst snd] in Hro. destruct (Hro 0) as (Hk & Hu & _ & Ex).
  exists (half_order d Nphi k u). set (m := half_order d Nphi k u) in *. split; [intros t; apply Hro|]. assert (Hk0 : c0 <= k) by (unfold half_row in Ehr; injection Ehr as <- _; apply Nat.le_add_r).
  assert (Hkp : k < pieces d Nphi) by lia. set (L := Lmax d Ntheta). pose proof (Nat.mod_upper_bound x (parts d) ltac:(lia)) as Bx.
  rewrite <- Lmax_top. fold L.
  assert (Hempty : snd (span d Nphi Ntheta k u) <= fst (span d Nphi Ntheta k u) -> (Z.of_nat L < Z.abs m)%Z).
  { unfold m, span, half_order. unfold offset. fold L. intros He. destruct Hu as [->|[-> HN2]]; cbn [Nat.eqb] in *; destruct (Nat.eqb_spec k 0) as [->|Hk1]; cbn [fst snd] in *; try lia.
    pose proof (top_range d Nphi Hg HN2) as (_ & _ & HT). destruct (Nat.leb_spec Nphi 2); [lia|]. unfold top_order in *. destruct d; lia. }
  assert (Hcov : existsb (fun e : m_map => inside x (snd (fst (fst e)))) maps = true <-> fst (span d Nphi Ntheta k u) < snd (span d Nphi Ntheta k u)).
  { rewrite existsb_exists. split.
    - intros (e & He & Hi). apply Hin in He as (k' & u' & (Hk' & Hu' & Hs') & ->). unfold entry_at in Hi. cbn [fst snd] in Hi. apply (half_row_iff d Nphi c0 k' u' x) in Hi; [|lia|exact Hu']. rewrite Ehr in Hi. injection Hi as -> ->. exact Hs'.
    - intros Hs. exists (entry_at d Nphi Ntheta c0 k u). split; [apply Hin; exists k, u; split; [|reflexivity]; split; [lia|split; [exact Hu|exact Hs]]|]. unfold entry_at. cbn [fst snd]. apply (half_row_iff d Nphi c0 k u x); [lia|exact Hu|exact Ehr]. }
  destruct (existsb (fun e : m_map => inside x (snd (fst (fst e)))) maps) eqn:Eb.
  - pose proof (proj1 Hcov eq_refl) as Hs. assert (Hh : here d Nphi Ntheta c0 n k u) by (split; [lia|split; [exact Hu|exact Hs]]).
    destruct (entry_columns d Nphi Ntheta c0 n k u Hg Hn Hh (or_intror (or_intror Hx))) as (Hlen & Hm & Hnth). fold L m in Hlen, Hm, Hnth. set (cols := slice_columns (snd (entry_at d Nphi Ntheta c0 k u))) in *.
    exists (fun _ => parts d * (k - c0) + x mod parts d), (fun ell => nth (ell - Z.to_nat (Z.abs m)) cols 0). split.
    + intros ell He1 He2. split; [nia|]. set (q := ell - Z.to_nat (Z.abs m)). assert (Hq : q < length cols) by (unfold q; lia).
      assert (Hb : nth q cols 0 < columns d Nphi Ntheta) by (pose proof (nth_In cols 0 Hq) as Hb; apply slice_in in Hb; pose proof (span_columns d Nphi Ntheta k u); lia). split; [exact Hb|].
      assert (Em : (parts d * (k - c0) + x mod parts d) / parts d = k - c0) by (symmetry; apply (Nat.div_unique _ _ _ (x mod parts d)); lia).
      split; [symmetry; apply (Nat.mod_unique _ _ (k - c0)); lia|]. rewrite coeff_group_canon by (try assumption; nia). rewrite local_row by exact HP. rewrite Em. replace (c0 + (k - c0)) with k by lia. rewrite Hnth by exact Hq. f_equal. unfold q. lia.
    + intros t. rewrite Hgv, Eb. unfold summed. rewrite Ehr. fold cols m. rewrite Hlen. replace (L + 1) with (Z.to_nat (Z.abs m) + Z.to_nat (Z.of_nat L + 1 - Z.abs m)) by lia. rewrite total_tail.
      * apply total_ext. intros q Hq. unfold coef. replace (Z.to_nat (Z.abs m) + q - Z.to_nat (Z.abs m)) with q by lia. replace (Z.of_nat (Z.to_nat (Z.abs m) + q)) with (Z.abs m + Z.of_nat q)%Z by lia.
        destruct (Z.leb_spec (Z.abs m) (Z.abs m + Z.of_nat q)); [|lia]. cbn [andb]. destruct (Z.leb_spec (Z.abs s) (Z.abs m + Z.of_nat q)); cbn [andb]; [|ring].
        destruct (Z.ltb_spec (Z.abs m + Z.of_nat q) (Z.of_nat Ng)), (Nat.ltb_spec (Z.to_nat (Z.abs m) + q) Ng); try lia; [reflexivity|ring].
      * intros j Hj. destruct (Z.leb_spec (Z.abs m) (Z.of_nat j)); [lia|]. reflexivity.
  - assert (Hs : snd (span d Nphi Ntheta k u) <= fst (span d Nphi Ntheta k u)) by (destruct (le_lt_dec (snd (span d Nphi Ntheta k u)) (fst (span d Nphi Ntheta k u))) as [Hs|Hs]; [exact Hs|]; apply Hcov in Hs; discriminate).
    specialize (Hempty Hs). exists (fun _ => 0), (fun _ => 0). split; [intros ell He1 He2; lia|]. intros t. rewrite Hgv, Eb. symmetry. apply total_zero. intros j Hj. destruct (Z.leb_spec (Z.abs m) (Z.of_nat j)); [lia|]. reflexivity.
Qed.

(** ** More azimuthal than colatitudinal points *)
Lemma forward_stuck Y w L Ng s g e maps c : In e maps -> (forall c, forward_step k0 kadd kmul Y w L Ng s g e c = None) -> forward_loop k0 kadd kmul Y w L Ng s g maps c = None.
Proof. revert c. induction maps as [|e' maps IH]; intros c He Hs; [destruct He|]. cbn [forward_loop]. destruct He as [->|He]; [rewrite Hs; reflexivity|]. destruct (forward_step _ _ _ _ _ _ _ _ _ e' c); [apply IH; assumption|reflexivity]. Qed.
Lemma backward_stuck Y w L Ng s c e maps g : In e maps -> (forall g, backward_step k0 kadd kmul Y w L Ng s c e g = None) -> backward_loop k0 kadd kmul Y w L Ng s c maps g = None.
Proof. revert g. induction maps as [|e' maps IH]; intros g He Hs; [destruct He|]. cbn [backward_loop]. destruct He as [->|He]; [rewrite Hs; reflexivity|]. destruct (backward_step _ _ _ _ _ _ _ _ _ e' g); [apply IH; assumption|reflexivity]. Qed.
(** With more than two azimuthal points per colatitudinal one, transforms raise (complex data: always; real data: unless there
    are more than four), although the basis is accepted. *)
Theorem sphere_overresolved_refuted Y w d Nphi Ntheta Ng s : good_resolution d Nphi -> 2 * Ntheta < Nphi -> match d with Complex128 => 2 <= Ntheta | Float64 => Nphi <= 4 * (Ntheta - 2) end -> 0 < Ng ->
  (forall c, backward_colatitude k0 kadd kmul Y w d Nphi Ntheta Ng 0 (pieces d Nphi) s c = None)
  /\ (match d with Complex128 => 3 <= Ntheta | Float64 => Nphi < 4 * (Ntheta - 2) end -> forall g, forward_colatitude k0 kadd kmul Y w d Nphi Ntheta Ng 0 (pieces d Nphi) s g = None).
Proof.
  intros Hg HN Hd HNg. unfold backward_colatitude, forward_colatitude. destruct (m_maps_entries d Nphi Ntheta Ng 0 (pieces d Nphi) Hg HNg ltac:(lia)) as (maps & -> & _ & Hin).
  assert (HN2 : 2 < Nphi) by (destruct d; lia). destruct (good_big _ _ Hg HN2) as (h & EN & Hh & E & Hh2).
  set (k := pieces d Nphi - 1). assert (Ep : pieces d Nphi = h).
  { unfold pieces. destruct (Nat.leb_spec Nphi 2); [lia|]. destruct d; cbn [parts] in *; [lia|]. rewrite EN. replace (2 * 2 * h) with (h * 4) by lia. apply Nat.div_mul. lia. }
  assert (Eoff : offset d Nphi Ntheta = 0) by (unfold offset; destruct (Nat.leb_spec Nphi 2); [lia|]; destruct d; unfold Lmax; cbn [parts] in *; lia).
  assert (Hk : 1 < h) by (destruct d; cbn [parts] in *; lia). assert (Hk0 : k <> 0) by (unfold k; rewrite Ep; lia).
  assert (Hs : span d Nphi Ntheta k 1 = (0, Nat.min k (Lmax d Ntheta + 1))) by (unfold span; destruct (Nat.eqb_spec k 0); [contradiction|]; cbn [Nat.eqb]; rewrite Eoff, !Nat.add_0_r; reflexivity).
  assert (Hh' : here d Nphi Ntheta 0 (pieces d Nphi) k 1) by (split; [unfold k; rewrite Ep; lia|split; [right; auto|rewrite Hs; cbn [fst snd]; lia]]).
  assert (He : In (entry_at d Nphi Ntheta 0 k 1) maps) by (apply Hin; exists k, 1; auto).
  assert (Em : half_order d Nphi k 1 = match d with Complex128 => (-1)%Z | Float64 => Z.of_nat h end) by (unfold half_order, folded; cbn [Nat.eqb]; destruct (Nat.eqb_spec k 0); [contradiction|]; unfold k; rewrite Ep; destruct d; rewrite E; cbn [parts] in *; lia).
  assert (HL : match d with Complex128 => 1 <= Lmax d Ntheta /\ Lmax d Ntheta + 1 < h | Float64 => h <= Lmax d Ntheta /\ Lmax d Ntheta + 2 < 2 * h end) by (destruct d; unfold Lmax; cbn [parts] in *; lia).
  assert (Hrev : (0 =? 0) && negb (half_order d Nphi k 1 =? 0)%Z = true) by (rewrite Em; destruct d; cbn [parts] in *; [reflexivity|]; destruct (Z.eqb_spec (Z.of_nat h) 0); [lia|reflexivity]).
  assert (Hml : (Z.abs (half_order d Nphi k 1) <= Z.of_nat (Lmax d Ntheta))%Z) by (rewrite Em; destruct d; lia).
  set (L := Lmax d Ntheta) in *.
  assert (HRn : Z.to_nat (Z.of_nat L + 1 - Z.abs (half_order d Nphi k 1)) <> Nat.min k (L + 1)) by (rewrite Em; unfold k; rewrite Ep; destruct d; lia).
  split.
  - intros c. destruct (swsh_matrices _ _ _ _ _ _ _ _ maps); [|reflexivity]. apply backward_stuck with (e := entry_at d Nphi Ntheta 0 k 1); [exact He|]. intros g. unfold backward_step, entry_at. rewrite Hs. cbn [fst snd]. rewrite Hrev.
    destruct (Z.gtb_spec (Z.abs (half_order d Nphi k 1)) (Z.of_nat L)); [lia|]. unfold swsh_matrix. destruct (Z.gtb_spec (half_order d Nphi k 1) (Z.of_nat L)); [reflexivity|].
    destruct (Z.ltb_spec (Z.of_nat L + 1 - Z.abs (half_order d Nphi k 1)) 0); [reflexivity|]. cbn [slice_columns]. rewrite rev_length, seq_length. rewrite (proj2 (Nat.eqb_neq _ _) HRn), andb_false_r. reflexivity.
  - intros Hd' g. destruct (swsh_matrices _ _ _ _ _ _ _ _ maps); [|reflexivity]. apply forward_stuck with (e := entry_at d Nphi Ntheta 0 k 1); [exact He|]. intros c. unfold forward_step, entry_at. rewrite Hs. cbn [fst snd]. rewrite Hrev.
    destruct (Z.leb_spec (Z.abs (half_order d Nphi k 1)) (Z.of_nat L)); [|lia]. unfold swsh_matrix. destruct (Z.gtb_spec (half_order d Nphi k 1) (Z.of_nat L)); [reflexivity|].
    destruct (Z.ltb_spec (Z.of_nat L + 1 - Z.abs (half_order d Nphi k 1)) 0); [reflexivity|]. cbn [slice_columns]. rewrite rev_length, seq_length. rewrite (proj2 (Nat.eqb_neq _ _) HRn).
    assert (HR1 : Z.to_nat (Z.of_nat L + 1 - Z.abs (half_order d Nphi k 1)) <> 1) by (rewrite Em; unfold L, Lmax in *; destruct d; cbn [parts] in *; lia). rewrite (proj2 (Nat.eqb_neq _ _) HR1), andb_false_r. reflexivity.
Qed.
(** Complex data with two or more azimuthal points too many: transforms raise because the matrices of negative orders are made even if they
    are beyond the largest degree. *)
Theorem sphere_negative_orders_refuted Y w Nphi Ntheta Ng s : good_resolution Complex128 Nphi -> 0 < Ntheta -> 2 * Ntheta + 2 < Nphi -> 0 < Ng ->
  (forall c, backward_colatitude k0 kadd kmul Y w Complex128 Nphi Ntheta Ng 0 (pieces Complex128 Nphi) s c = None)
  /\ (forall g, forward_colatitude k0 kadd kmul Y w Complex128 Nphi Ntheta Ng 0 (pieces Complex128 Nphi) s g = None).
Proof.
  intros Hg HNt HN HNg. unfold backward_colatitude, forward_colatitude. destruct (m_maps_entries Complex128 Nphi Ntheta Ng 0 (pieces Complex128 Nphi) Hg HNg ltac:(lia)) as (maps & -> & _ & Hin).
  destruct (good_big _ _ Hg ltac:(lia)) as (h & EN & Hh & E & Hh2). cbn [parts] in *. assert (Ep : pieces Complex128 Nphi = h) by (unfold pieces; destruct (Nat.leb_spec Nphi 2); lia).
  assert (Hh' : here Complex128 Nphi Ntheta 0 (pieces Complex128 Nphi) 1 1) by (split; [lia|split; [right; lia|unfold span; cbn [Nat.eqb fst snd]; lia]]).
  assert (He : In (entry_at Complex128 Nphi Ntheta 0 1 1) maps) by (apply Hin; exists 1, 1; auto).
  assert (HM : forall fwd, swsh_matrices k0 kmul Y w fwd (Lmax Complex128 Ntheta) Ng s maps = false).
  { intros fwd. apply not_true_is_false. intros HT. unfold swsh_matrices in HT. rewrite forallb_forall in HT. specialize (HT _ He). unfold entry_at in HT. cbn [fst] in HT. unfold half_order, folded in HT. cbn [Nat.eqb] in HT. rewrite E in HT.
    unfold swsh_matrix, Lmax in HT. destruct (Z.gtb_spec (Z.of_nat 1 - Z.of_nat (1 * h)) (Z.of_nat (Ntheta - 1))); [lia|]. destruct (Z.ltb_spec (Z.of_nat (Ntheta - 1) + 1 - Z.abs (Z.of_nat 1 - Z.of_nat (1 * h))) 0); [discriminate|lia]. }
  rewrite !HM. split; reflexivity.
Qed.
(** On a grid with fewer points than an order, coefficients of that order that the quadrature cannot give are not set to zero. *)
Theorem sphere_coarse_grid_refuted : exists Y w g c, forward_colatitude k0 kadd kmul Y w Complex128 8 8 2 0 4 0 g = Some c
  /\ coeff_group Complex128 8 8 3 7 = (3, 3)%Z /\ c 3 7 <> k0.
Proof.
  exists (fun _ _ _ _ => k1), (fun _ => k1), (fun _ t => if t =? 0 then k1 else k0). eexists. split; [vm_compute; reflexivity|]. split; [reflexivity|].
  vm_compute. intros H. apply (F_1_neq_0 Hf). rewrite <- H. ring.
Qed.
End Transforms.

Print Assumptions sphere_resolutions.
Print Assumptions sphere_modes_stored.
Print Assumptions sphere_elements.
Print Assumptions sphere_packed.
Print Assumptions sphere_pieces.
Print Assumptions sphere_order_rows.
Print Assumptions sphere_order_table.
Print Assumptions sphere_forward.
Print Assumptions sphere_backward.
Print Assumptions sphere_overresolved_refuted.
Print Assumptions sphere_negative_orders_refuted.
Print Assumptions sphere_coarse_grid_refuted.

(** ** Cases that meet the hypotheses *)
Example sphere_complex_example : good_resolution Complex128 8 /\ 8 <= 2 * 5 /\ pieces Complex128 8 = 4 /\ columns Complex128 8 5 = 6
  /\ is_mode Complex128 8 5 (-2) 3 /\ coeff_group Complex128 8 5 2 1 = (-2, 3)%Z /\ is_mode Complex128 8 5 4 4 /\ coeff_group Complex128 8 5 0 5 = (4, 4)%Z
  /\ m_maps Complex128 8 5 5 1 2 = Some [((-3)%Z, (1, 2), (0, 1), (0, 2, true)); (1%Z, (0, 1), (0, 1), (2, 6, false)); ((-2)%Z, (3, 4), (1, 2), (0, 3, true)); (2%Z, (2, 3), (1, 2), (3, 6, false))].
Proof. repeat match goal with |- _ /\ _ => split end; try (vm_compute; reflexivity); try lia; try (unfold good_resolution; split; [lia|right; reflexivity]); unfold is_mode, stored_order; cbn; lia. Qed.
Example sphere_real_example : good_resolution Float64 8 /\ 8 <= 2 * 6 /\ pieces Float64 8 = 2 /\ columns Float64 8 6 = 7
  /\ is_mode Float64 8 6 2 4 /\ coeff_group Float64 8 6 3 0 = (2, 4)%Z /\ coeff_group Float64 8 6 3 3 = (1, 1)%Z
  /\ m_maps Float64 8 6 9 0 2 = Some [(0%Z, (0, 2), (0, 2), (0, 5, false)); (3%Z, (2, 4), (0, 2), (5, 7, false)); (2%Z, (6, 8), (2, 4), (0, 3, true)); (1%Z, (4, 6), (2, 4), (3, 7, false))].
Proof. repeat match goal with |- _ /\ _ => split end; try (vm_compute; reflexivity); try lia; try (unfold good_resolution; split; [lia|right; reflexivity]); unfold is_mode, stored_order; cbn; lia. Qed.
Example sphere_axisymmetric_example : good_resolution Float64 1 /\ pieces Float64 1 = 1 /\ columns Float64 1 6 = 5 /\ m_maps Float64 1 6 6 0 1 = Some [(0%Z, (0, 2), (0, 2), (0, 5, false))].
Proof. split; [unfold good_resolution; lia|]. repeat split; vm_compute; reflexivity. Qed.
Example sphere_overresolved_example : (good_resolution Complex128 8 /\ 2 * 3 < 8 /\ 3 <= 3) /\ (good_resolution Float64 32 /\ 2 * 12 < 32 /\ 32 < 4 * (12 - 2)).
Proof. repeat match goal with |- _ /\ _ => split end; try lia; unfold good_resolution; split; try lia; right; reflexivity. Qed.
