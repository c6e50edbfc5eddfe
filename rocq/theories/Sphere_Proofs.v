From Coq Require Import List Arith Bool ZArith Lia Field.
Import ListNotations.
From Verif Require Import CSR_Spec FourierCalc_Model Sphere_Model Sphere_Spec.
From Verif Require Blocks_Model FourierCalc_Proofs MatSolvers_Proofs.
Local Open Scope nat_scope.

(** ** The modes of a chunk *)
Definition top_order (d : dtype) (Nphi : nat) : Z := match d with Complex128 => Z.of_nat (Nphi / 2) | Float64 => (Z.of_nat (Nphi / 2) - 1)%Z end.
Definition folded (d : dtype) (Nphi c : nat) : Z :=
  match d with Complex128 => (Z.of_nat c - Z.of_nat (Nphi / 2))%Z | Float64 => (Z.of_nat (Nphi / 2) - 1 - Z.of_nat c)%Z end.
Definition offset (d : dtype) (Nphi Ntheta : nat) : nat :=
  if Nphi <=? 2 then 0 else match d with Complex128 => Lmax d Ntheta + 1 - Nphi / 2 | Float64 => Lmax d Ntheta + 2 - Nphi / 2 end.
Definition canon (d : dtype) (Nphi Ntheta c j : nat) : Z * Z :=
  let L := Lmax d Ntheta in let sh := offset d Nphi Ntheta in
  if c =? 0 then if j <=? L then (0%Z, Z.of_nat j) else (top_order d Nphi, Z.of_nat j - Z.of_nat sh)%Z
  else if j <? c + sh then (folded d Nphi c, Z.of_nat L - Z.of_nat j)%Z else (Z.of_nat c, Z.of_nat j - Z.of_nat sh)%Z.

Lemma good_small d Nphi : good_resolution d Nphi -> Nphi <= 2 -> Nphi = 1 \/ (Nphi = 2 /\ d = Complex128).
Proof. intros [H [->|H']] H2; [left; reflexivity|]. destruct d; assert (Nphi = 1 \/ Nphi = 2) as [->| ->] by lia; cbn in H'; try discriminate; auto. Qed.
Lemma good_big d Nphi : good_resolution d Nphi -> 2 < Nphi -> exists h, Nphi = 2 * parts d * h /\ 0 < h /\ Nphi / 2 = parts d * h /\ (d = Complex128 -> 2 <= h).
Proof.
  intros [H [->|H']] H2; [lia|]. destruct d; cbn [parts] in *.
  - exists (Nphi / 2). pose proof (Nat.div_mod Nphi 2 ltac:(lia)). lia.
  - exists (Nphi / 4). pose proof (Nat.div_mod Nphi 4 ltac:(lia)) as E. assert (Hh : Nphi = 4 * (Nphi / 4)) by lia. split; [lia|]. split; [lia|]. split; [|discriminate].
    rewrite Hh at 1. replace (4 * (Nphi / 4)) with (2 * (Nphi / 4) * 2) by lia. rewrite Nat.div_mul by lia. reflexivity.
Qed.
Lemma mmax_small Nphi : Nphi <= 2 -> (0 <? mmax Nphi) = false.
Proof. intros H. apply Nat.ltb_ge. unfold mmax. destruct Nphi as [|[|[|]]]; cbn; lia. Qed.
Lemma mmax_big Nphi : 2 < Nphi -> (0 <? mmax Nphi) = true.
Proof. intros H. apply Nat.ltb_lt. unfold mmax. apply Nat.div_str_pos. lia. Qed.
Lemma parts_pos d : 0 < parts d. Proof. destruct d; cbn; lia. Qed.
Lemma coeff_chunk_parts d : coeff_chunk d = parts d. Proof. destruct d; reflexivity. Qed.
Lemma group_rows_parts d : group_rows d = parts d. Proof. destruct d; reflexivity. Qed.
Lemma half_chunk_parts d Nphi : half_chunk d Nphi = if Nphi <=? 2 then parts d else 2 * parts d.
Proof. unfold half_chunk. destruct (Nat.leb_spec Nphi 2) as [H|H]; [rewrite mmax_small by exact H|rewrite mmax_big by exact H]; destruct d; reflexivity. Qed.
Lemma coeff_shape_rows d Nphi Ntheta : good_resolution d Nphi -> fst (coeff_shape d Nphi Ntheta) = parts d * pieces d Nphi.
Proof.
  intros Hg. unfold coeff_shape, pieces. destruct (Nat.leb_spec Nphi 2) as [H|H].
  - rewrite mmax_small by exact H. destruct d; reflexivity.
  - rewrite mmax_big by exact H. destruct (good_big _ _ Hg H) as (h & -> & H0 & E & _). destruct d; cbn [parts fst] in *.
    + rewrite E. lia.
    + rewrite E. replace (2 * 2 * h) with (h * 4) by lia. rewrite Nat.div_mul by lia. lia.
Qed.
Lemma columns_offset d Nphi Ntheta : columns d Nphi Ntheta = Lmax d Ntheta + 1 + offset d Nphi Ntheta.
Proof.
  unfold columns, coeff_shape, offset. destruct (Nat.leb_spec Nphi 2) as [H|H]; [rewrite mmax_small by exact H|rewrite mmax_big by exact H]; destruct d; cbn [snd]; lia.
Qed.
Lemma coeff_group_canon d Nphi Ntheta i j : good_resolution d Nphi -> i < parts d * pieces d Nphi -> j < columns d Nphi Ntheta ->
  coeff_group d Nphi Ntheta i j = canon d Nphi Ntheta (i / parts d) j.
Proof.
  intros Hg Hi Hj. rewrite columns_offset in Hj. unfold coeff_group, canon. unfold pieces, offset in *. destruct (Nat.leb_spec Nphi 2) as [H|H].
  - assert (E0 : i / parts d = 0) by (apply Nat.div_small; lia). rewrite E0. cbn [Nat.eqb]. destruct (Nat.leb_spec j (Lmax d Ntheta)); [|lia].
    destruct d; cbn [parts] in Hi.
    + assert (i = 0) as -> by lia. cbn [Z.of_nat Z.eqb andb]. destruct (Z.gtb_spec (Z.of_nat j) (Z.of_nat (Lmax Complex128 Ntheta))); [lia|]. reflexivity.
    + destruct (Z.ltb_spec (Z.of_nat i) 2); [|lia]. cbn [andb]. destruct (Z.gtb_spec (Z.of_nat j) (Z.of_nat (Lmax Float64 Ntheta))); [lia|]. reflexivity.
  - destruct (good_big _ _ Hg H) as (h & -> & H0 & E & _). destruct d; cbn [parts] in *; unfold top_order, folded; rewrite E in *; set (L := Lmax _ Ntheta) in *.
    + rewrite Nat.div_1_r. replace (Z.of_nat (2 * 1 * h) / 2)%Z with (Z.of_nat h) by (rewrite <- (Z.div_mul (Z.of_nat h) 2) by lia; f_equal; lia).
      replace ((Z.of_nat (2 * 1 * h) + 1) / 2)%Z with (Z.of_nat h) by (apply (Z.div_unique _ _ _ 1); lia).
      destruct (Nat.eqb_spec i 0) as [->|Hi0]; [change (Z.of_nat 0) with 0%Z; rewrite Z.eqb_refl|destruct (Z.eqb_spec (Z.of_nat i) 0); [lia|]]; cbn [andb].
      * destruct (Nat.leb_spec j L), (Z.gtb_spec (Z.of_nat j) (Z.of_nat L)); try lia; f_equal; lia.
      * destruct (Z.ltb_spec (Z.of_nat j - Z.max 0 (Z.of_nat L + 1 - Z.of_nat h)) (Z.of_nat i)), (Nat.ltb_spec j (i + (L + 1 - 1 * h))); try lia; f_equal; lia.
    + replace (Z.of_nat (2 * 2 * h) / 2)%Z with (Z.of_nat (2 * h)) by (rewrite <- (Z.div_mul (Z.of_nat (2 * h)) 2) by lia; f_equal; lia).
      replace (Z.of_nat i / 2)%Z with (Z.of_nat (i / 2)) by (rewrite Nat2Z.inj_div; reflexivity).
      pose proof (Nat.div_mod i 2 ltac:(lia)) as Ed. pose proof (Nat.mod_upper_bound i 2 ltac:(lia)). set (q := i / 2) in *. clearbody q.
      destruct (Nat.eqb_spec q 0) as [->|Hi0]; [destruct (Z.ltb_spec (Z.of_nat i) 2); [|lia]|destruct (Z.ltb_spec (Z.of_nat i) 2); [lia|]]; cbn [andb].
      * destruct (Nat.leb_spec j L), (Z.gtb_spec (Z.of_nat j) (Z.of_nat L)); try lia; f_equal; lia.
      * destruct (Z.ltb_spec (Z.of_nat j - Z.max 0 (Z.of_nat L + 2 - Z.of_nat (2 * h))) (Z.of_nat q)), (Nat.ltb_spec j (q + (L + 2 - 2 * h))); try lia; f_equal; lia.
Qed.
(** Orders of different chunks, or of different halves of a chunk, differ. *)
Lemma folded_range d Nphi c : good_resolution d Nphi -> 0 < c < pieces d Nphi -> stored_order d Nphi (folded d Nphi c) /\ folded d Nphi c <> 0%Z
  /\ (forall c', c' < pieces d Nphi -> folded d Nphi c <> Z.of_nat c') /\ (forall c', c' < pieces d Nphi -> folded d Nphi c = folded d Nphi c' -> c = c') /\ folded d Nphi c <> top_order d Nphi.
Proof.
  intros Hg Hc. unfold pieces in *. destruct (Nat.leb_spec Nphi 2) as [H|H]; [lia|]. destruct (good_big _ _ Hg H) as (h & -> & H0 & E & _). unfold folded, top_order, stored_order.
  destruct d; cbn [parts] in *; rewrite E in *.
  - repeat split; intros; try lia.
  - replace (2 * 2 * h / 4) with h in * by (symmetry; replace (2 * 2 * h) with (h * 4) by lia; apply Nat.div_mul; lia). repeat split; intros; try lia.
Qed.
Lemma positive_range d Nphi c : good_resolution d Nphi -> c < pieces d Nphi -> stored_order d Nphi (Z.of_nat c).
Proof.
  intros Hg Hc. unfold pieces, stored_order in *. destruct (Nat.leb_spec Nphi 2) as [H|H].
  - assert (c = 0) as -> by lia. destruct Hg. destruct d; split; cbn; lia.
  - destruct (good_big _ _ Hg H) as (h & -> & H0 & E & _). destruct d; cbn [parts] in *; [rewrite E in *; lia|].
    replace (2 * 2 * h / 4) with h in * by (symmetry; replace (2 * 2 * h) with (h * 4) by lia; apply Nat.div_mul; lia). lia.
Qed.
Lemma top_range d Nphi : good_resolution d Nphi -> 2 < Nphi -> stored_order d Nphi (top_order d Nphi) /\ (forall c', c' < pieces d Nphi -> top_order d Nphi <> Z.of_nat c') /\ (0 < top_order d Nphi)%Z.
Proof.
  intros Hg H. unfold pieces, stored_order, top_order in *. destruct (Nat.leb_spec Nphi 2) as [H'|_]; [lia|].
  destruct (good_big _ _ Hg H) as (h & -> & H0 & E & Hh). destruct d; cbn [parts] in *; rewrite E in *.
  - specialize (Hh eq_refl). repeat split; intros; try lia.
  - replace (2 * 2 * h / 4) with h in * by (symmetry; replace (2 * 2 * h) with (h * 4) by lia; apply Nat.div_mul; lia). repeat split; intros; lia.
Qed.
(** Every stored order is of one of the kinds. *)
Lemma order_kinds d Nphi m : good_resolution d Nphi -> stored_order d Nphi m ->
  (exists c, c < pieces d Nphi /\ m = Z.of_nat c) \/ (exists c, 0 < c < pieces d Nphi /\ m = folded d Nphi c) \/ (2 < Nphi /\ m = top_order d Nphi).
Proof.
  intros Hg Hm. unfold pieces, stored_order, folded, top_order in *. destruct (Nat.leb_spec Nphi 2) as [H|H].
  - left. exists 0. split; [lia|]. destruct (good_small _ _ Hg H) as [->|[-> ->]]; [|destruct Hm as [_ Hm]; rewrite Hm; reflexivity]. destruct d; lia.
  - destruct (good_big _ _ Hg H) as (h & -> & H0 & E & Hh). destruct d; cbn [parts] in *; rewrite E.
    + destruct (Z_lt_ge_dec m 0); [right; left; exists (Z.to_nat (m + Z.of_nat h)); lia|]. destruct (Z.eq_dec m (Z.of_nat h)); [right; right; lia|]. left. exists (Z.to_nat m). lia.
    + replace (2 * 2 * h / 4) with h in * by (symmetry; replace (2 * 2 * h) with (h * 4) by lia; apply Nat.div_mul; lia).
      destruct (Z_lt_ge_dec m (Z.of_nat h)); [left; exists (Z.to_nat m); lia|]. destruct (Z.eq_dec m (Z.of_nat (2 * h) - 1)); [right; right; lia|].
      right; left. exists (Z.to_nat (Z.of_nat (2 * h) - 1 - m)). lia.
Qed.
Lemma Lmax_top d Ntheta : Lmax d Ntheta = top_degree d Ntheta. Proof. destruct d; reflexivity. Qed.

(** ** The rows of the grid *)
Lemma arange_nth a b i : (i < Z.to_nat (b - a)) -> nth i (arange a b) 0%Z = (a + Z.of_nat i)%Z.
Proof. intros H. unfold arange. rewrite nth_indep with (d' := (a + Z.of_nat 0)%Z) by (rewrite map_length, seq_length; exact H). rewrite (map_nth (fun i => (a + Z.of_nat i)%Z)), seq_nth by exact H. reflexivity. Qed.
Lemma arange_length a b : length (arange a b) = Z.to_nat (b - a). Proof. unfold arange. rewrite map_length, seq_length. reflexivity. Qed.
Definition half_order (d : dtype) (Nphi c u : nat) : Z := if u =? 0 then Z.of_nat c else if c =? 0 then top_order d Nphi else folded d Nphi c.
Lemma half_group_canon d Nphi c u k t : good_resolution d Nphi -> c < pieces d Nphi -> (u = 0 \/ u = 1 /\ 2 < Nphi) -> k < parts d ->
  half_group d Nphi (half_chunk d Nphi * c + parts d * u + k) t = (half_order d Nphi c u, Z.of_nat t).
Proof.
  intros Hg Hc Hu Hk. unfold half_group. f_equal. unfold azimuth_wavenumbers, half_order. rewrite half_chunk_parts. unfold pieces in Hc. destruct (Nat.leb_spec Nphi 2) as [H|H].
  - assert (c = 0) as -> by lia. assert (u = 0) as -> by lia. cbn [Nat.eqb]. rewrite mmax_small by exact H. rewrite !Nat.mul_0_r. cbn [plus].
    destruct (good_small _ _ Hg H) as [->|[-> ->]].
    + destruct d; cbn [parts] in Hk; [assert (k = 0) as -> by lia; reflexivity|]. assert (k = 0 \/ k = 1) as [->| ->] by lia; reflexivity.
    + cbn [parts] in Hk. assert (k = 0) as -> by lia. reflexivity.
  - rewrite mmax_big by exact H. destruct (good_big _ _ Hg H) as (h & -> & H0 & E & Hh). unfold top_order, folded. destruct d; cbn [parts] in *; rewrite E in *; cbn [native_wavenumbers].
    + rewrite (FourierCalc_Proofs.take_all_map _ 0%Z).
      2:{ intros i Hi. unfold complex_m_perm in Hi. apply in_map_iff in Hi as (a & <- & Ha). apply in_seq in Ha. unfold complex_wavenumbers. rewrite E.
          replace (2 * 1 * h) with (h * 2) by lia. rewrite Nat.mod_mul by lia. cbn [Nat.eqb]. rewrite app_length, !arange_length.
          pose proof (Nat.div_mod a 2 ltac:(lia)). pose proof (Nat.mod_upper_bound a 2 ltac:(lia)). assert (a mod 2 = 0 \/ a mod 2 = 1) as [Ea|Ea] by lia; rewrite Ea in *; lia. }
      assert (k = 0) as -> by lia. set (x := 2 * 1 * c + 1 * u + 0). assert (Hx : x < 2 * 1 * h) by (unfold x; lia).
      assert (Ex : nth x (complex_m_perm (2 * 1 * h)) 0 = c + h * u).
      { unfold complex_m_perm. rewrite nth_indep with (d' := 0 / 2 + 2 * 1 * h / 2 * (0 mod 2)) by (rewrite map_length, seq_length; exact Hx).
        rewrite (map_nth (fun a => a / 2 + 2 * 1 * h / 2 * (a mod 2))), seq_nth by exact Hx. cbn [plus]. rewrite E.
        replace x with (u + c * 2) by (unfold x; lia). rewrite Nat.div_add, Nat.mod_add by lia. rewrite Nat.div_small, Nat.mod_small by lia. lia. }
      rewrite nth_indep with (d' := nth 0 (complex_wavenumbers (2 * 1 * h)) 0%Z) by (rewrite map_length; unfold complex_m_perm; rewrite map_length, seq_length; exact Hx).
      rewrite (map_nth (fun i => nth i (complex_wavenumbers (2 * 1 * h)) 0%Z)), Ex. unfold complex_wavenumbers. rewrite E.
      replace (2 * 1 * h) with (h * 2) by lia. rewrite Nat.mod_mul by lia. cbn [Nat.eqb].
      destruct Hu as [->|[-> _]]; cbn [Nat.eqb].
      * rewrite app_nth1 by (rewrite arange_length; lia). rewrite arange_nth by lia. lia.
      * destruct (Nat.eqb_spec c 0) as [->|Hc0].
        -- rewrite app_nth1 by (rewrite arange_length; lia). rewrite arange_nth by lia. lia.
        -- rewrite app_nth2 by (rewrite arange_length; lia). rewrite arange_length, arange_nth by lia. lia.
    + replace (2 * 2 * h / 4) with h in * by (symmetry; replace (2 * 2 * h) with (h * 4) by lia; apply Nat.div_mul; lia).
      assert (Ek : (2 * 2 * h - 1) / 2 = 2 * h - 1) by (symmetry; apply (Nat.div_unique _ _ _ 1); lia).
      assert (Hlen : length (real_wavenumbers (2 * 2 * h)) = 4 * h) by (unfold real_wavenumbers; rewrite FourierCalc_Proofs.repeat2_length, arange_length, Ek; lia).
      rewrite (FourierCalc_Proofs.take_all_map _ 0%Z).
      2:{ intros i Hi. unfold real_m_perm in Hi. apply in_map_iff in Hi as (a & <- & Ha). apply in_seq in Ha. rewrite Hlen. cbn zeta.
          pose proof (Nat.div_mod a 2 ltac:(lia)). pose proof (Nat.mod_upper_bound a 2 ltac:(lia)). pose proof (Nat.div_mod (a / 2) 2 ltac:(lia)). pose proof (Nat.mod_upper_bound (a / 2) 2 ltac:(lia)).
          set (q := a / 2) in *. assert (q mod 2 = 0 \/ q mod 2 = 1) as [Ea|Ea] by lia; rewrite Ea; lia. }
      set (x := 2 * 2 * c + 2 * u + k). assert (Hx : x < 2 * 2 * h) by (unfold x; lia).
      assert (Ex : nth x (real_m_perm (2 * 2 * h)) 0 = if u =? 0 then 2 * c + k else 4 * h - 2 - 2 * c + k).
      { unfold real_m_perm. match goal with |- nth x (map ?f _) 0 = _ => rewrite nth_indep with (d' := f 0) by (rewrite map_length, seq_length; exact Hx); rewrite (map_nth f), seq_nth by exact Hx end.
        cbn zeta. cbn [plus]. replace x with (k + (2 * c + u) * 2) by (unfold x; lia). rewrite Nat.div_add, Nat.mod_add by lia. rewrite (Nat.div_small k), (Nat.mod_small k) by lia. cbn [plus].
        replace (2 * c + u) with (u + c * 2) by lia. rewrite Nat.mod_add by lia. rewrite (Nat.mod_small u) by lia. destruct Hu as [->|[-> _]]; cbn [Nat.eqb]; lia. }
      rewrite nth_indep with (d' := nth 0 (real_wavenumbers (2 * 2 * h)) 0%Z) by (rewrite map_length; unfold real_m_perm; rewrite map_length, seq_length; exact Hx).
      rewrite (map_nth (fun i => nth i (real_wavenumbers (2 * 2 * h)) 0%Z)), Ex. unfold real_wavenumbers. rewrite FourierCalc_Proofs.repeat2_nth, Ek.
      destruct Hu as [->|[-> _]]; cbn [Nat.eqb].
      * replace ((2 * c + k) / 2) with c by (apply (Nat.div_unique _ _ _ k); lia). rewrite arange_nth by lia. lia.
      * replace ((4 * h - 2 - 2 * c + k) / 2) with (2 * h - 1 - c) by (apply (Nat.div_unique _ _ _ k); lia). rewrite arange_nth by lia. destruct (Nat.eqb_spec c 0) as [->|Hc0]; lia.
Qed.

(** ** Slices *)
Lemma filter_interval p n lo hi : lo <= hi -> hi <= n -> (forall b, b < n -> p b = true <-> lo <= b < hi) -> filter p (seq 0 n) = seq lo (hi - lo).
Proof.
  intros H1 H2 Hp. replace n with (lo + ((hi - lo) + (n - hi))) by lia. rewrite !seq_app, !filter_app. cbn [plus].
  assert (HN : forall s k, (forall b, s <= b < s + k -> p b = false) -> filter p (seq s k) = []).
  { intros s k. revert s. induction k as [|k IH]; intros s Hs; [reflexivity|]. cbn [seq filter]. rewrite Hs by lia. apply IH. intros b Hb. apply Hs. lia. }
  assert (HY : forall s k, (forall b, s <= b < s + k -> p b = true) -> filter p (seq s k) = seq s k).
  { intros s k. revert s. induction k as [|k IH]; intros s Hs; [reflexivity|]. cbn [seq filter]. rewrite Hs by lia. f_equal. apply IH. intros b Hb. apply Hs. lia. }
  rewrite (HN 0), (HY lo), (HN (lo + (hi - lo))); [rewrite app_nil_r; reflexivity| | |].
  - intros b Hb. apply not_true_is_false. intros Hb'. apply Hp in Hb'; lia.
  - intros b Hb. apply Hp; lia.
  - intros b Hb. apply not_true_is_false. intros Hb'. apply Hp in Hb'; lia.
Qed.
Lemma last_seq lo k d : 0 < k -> last (seq lo k) d = lo + k - 1.
Proof. destruct k as [|k]; [lia|]. intros _. rewrite seq_S, last_last. lia. Qed.
Lemma flat_map_single {A B} (f : A -> list B) l x : NoDup l -> In x l -> (forall y, In y l -> y <> x -> f y = []) -> flat_map f l = f x.
Proof.
  induction l as [|y l IH]; intros Hn Hx Hf; [destruct Hx|]. inversion_clear Hn as [|? ? Hy Hn']. cbn [flat_map]. destruct Hx as [->|Hx].
  - assert (E : forall l', (forall y, In y l' -> f y = []) -> flat_map f l' = []) by (clear; induction l' as [|a l' IH]; intros H; [reflexivity|]; cbn; rewrite H by (left; reflexivity); apply IH; intros y Hy; apply H; right; exact Hy).
    rewrite E; [apply app_nil_r|]. intros z Hz. apply Hf; [right; exact Hz|]. intros ->. exact (Hy Hz).
  - rewrite (Hf y); [|left; reflexivity|intros ->; exact (Hy Hx)]. apply IH; [exact Hn'|exact Hx|]. intros z Hz. apply Hf. right. exact Hz.
Qed.
Lemma cdiv_mul k n : 0 < k -> Blocks_Model.cdiv (k * n) k = n.
Proof. intros H. unfold Blocks_Model.cdiv. symmetry. apply (Nat.div_unique _ _ _ (k - 1)); lia. Qed.
Lemma filter_ext_seq p q s n : (forall b, s <= b < s + n -> p b = q b) -> filter p (seq s n) = filter q (seq s n).
Proof. revert s. induction n as [|n IH]; intros s H; [reflexivity|]. cbn [seq filter]. rewrite H by lia. rewrite IH by (intros; apply H; lia). reflexivity. Qed.
Lemma existsb_false {A} (f : A -> bool) l : (forall x, In x l -> f x = false) -> existsb f l = false.
Proof. intros H. apply not_true_is_false. intros E. apply existsb_exists in E as (x & Hx & E). rewrite H in E by exact Hx. discriminate. Qed.
Lemma filter_nil {A} (f : A -> bool) l : (forall x, In x l -> f x = false) -> filter f l = [].
Proof. induction l as [|x l IH]; intros H; [reflexivity|]. cbn [filter]. rewrite H by (left; reflexivity). apply IH. intros y Hy. apply H. right. exact Hy. Qed.
(** Slices of a group of the first direction, when the group only depends on the block of rows: one for the only block that has it. *)
Lemma row_slices gs (G : nat -> nat -> Z * Z) n nc f m q lo hi : 0 < gs -> (forall a b, a < gs * n -> b < nc -> fst (G a b) = f (a / gs) b) ->
  q < n -> lo < hi -> hi <= nc -> (forall b, b < nc -> f q b = m <-> lo <= b < hi) -> (forall q' b, q' < n -> q' <> q -> b < nc -> f q' b <> m) ->
  groupset_slices (gs, 1) G (gs * n) nc (Some m, None) = [((gs * q, gs * q + gs), (lo, hi))].
Proof.
  intros Hgs HG Hq Hlo Hhi Hin Hout. unfold groupset_slices. cbn [fst snd]. unfold subslices at 2. rewrite cdiv_mul by exact Hgs.
  cbn [subslices]. rewrite flat_map_concat_map, map_map, <- flat_map_concat_map. cbn [flat_map].
  assert (Hw : forall q', q' < n -> Nat.min (gs * q' + gs) (gs * n) - gs * q' = gs) by (intros q' Hq'; assert (gs * q' + gs <= gs * n) by nia; lia).
  assert (Hd : forall q' a, gs * q' <= a < gs * q' + gs -> a / gs = q') by (intros q' a Ha; symmetry; apply (Nat.div_unique _ _ _ (a - gs * q')); lia).
  rewrite (flat_map_single _ (seq 0 n) q); [|apply seq_NoDup|apply in_seq; lia|].
  - cbn [within bounds]. rewrite Hw by exact Hq. rewrite app_nil_r.
    assert (Ec : filter (fun b => existsb (fun a => matches (Some m) (fst (G a b)) && matches None (snd (G a b))) (seq (gs * q) gs)) (seq 0 nc) = seq lo (hi - lo)).
    { apply filter_interval; [lia|exact Hhi|]. intros b Hb. rewrite <- Hin by exact Hb. rewrite existsb_exists. cbn [matches]. split.
      - intros (a & Ha & E). apply in_seq in Ha. rewrite andb_true_r in E. apply Z.eqb_eq in E. rewrite HG, (Hd q) in E by (try lia; nia). symmetry. exact E.
      - intros E. exists (gs * q). split; [apply in_seq; lia|]. rewrite andb_true_r. apply Z.eqb_eq. rewrite HG, (Hd q) by (try lia; nia). symmetry. exact E. }
    rewrite Ec. assert (Er : filter (fun a => existsb (fun b => matches (Some m) (fst (G a b)) && matches None (snd (G a b))) (seq 0 nc)) (seq (gs * q) gs) = seq (gs * q) gs).
    { rewrite (filter_ext_seq _ (fun _ => true)); [clear; generalize (gs * q); induction gs as [|k IH]; intros s; [reflexivity|]; cbn; rewrite IH; reflexivity|].
      intros a Ha. apply existsb_exists. exists lo. split; [apply in_seq; lia|]. cbn [matches]. rewrite andb_true_r. apply Z.eqb_eq. rewrite HG, (Hd q) by (try lia; nia). symmetry. apply Hin; lia. }
    rewrite Er. destruct (seq (gs * q) gs) as [|x l] eqn:Es; [destruct gs; [lia|discriminate]|]. rewrite last_seq by lia. destruct (hi - lo) as [|k] eqn:Ek; [lia|]. cbn [seq hd]. repeat f_equal. lia.
  - intros q' Hq' Hne. apply in_seq in Hq'. cbn [within]. rewrite Hw by lia. rewrite (filter_nil (fun a => existsb _ _)); [reflexivity|].
    intros a Ha. apply in_seq in Ha. apply existsb_false. intros b Hb. apply in_seq in Hb. cbn [matches]. rewrite andb_true_r. apply Z.eqb_neq. rewrite HG, (Hd q') by (try lia; nia). intros E. apply (Hout q' b); [lia|exact Hne|lia|symmetry; exact E].
Qed.

(** ** The table of orders *)
Definition span (d : dtype) (Nphi Ntheta c u : nat) : nat * nat :=
  let L := Lmax d Ntheta in let sh := offset d Nphi Ntheta in let W := L + 1 + sh in
  if c =? 0 then if u =? 0 then (0, L + 1) else (L + 1, W) else if u =? 0 then (Nat.min (c + sh) W, W) else (0, Nat.min (c + sh) W).
Definition half_ok (Nphi u : nat) : Prop := u = 0 \/ u = 1 /\ 2 < Nphi.
Lemma half_order_inj d Nphi c u c' u' : good_resolution d Nphi -> c < pieces d Nphi -> c' < pieces d Nphi -> half_ok Nphi u -> half_ok Nphi u' ->
  half_order d Nphi c u = half_order d Nphi c' u' -> c = c' /\ u = u'.
Proof.
  intros Hg Hc Hc' Hu Hu' E. unfold half_order in E.
  assert (HT : 2 < Nphi -> forall x, x < pieces d Nphi -> top_order d Nphi <> Z.of_nat x) by (intros H x Hx; apply (top_range _ _ Hg H); exact Hx).
  destruct Hu as [->|[-> HN]], Hu' as [->|[-> HN']]; cbn [Nat.eqb] in E.
  - lia.
  - exfalso. destruct (Nat.eqb_spec c' 0) as [->|H0]; [apply (HT HN' c Hc); lia|]. destruct (folded_range d Nphi c' Hg ltac:(lia)) as (_ & _ & Hf & _). apply (Hf c Hc). lia.
  - exfalso. destruct (Nat.eqb_spec c 0) as [->|H0]; [apply (HT HN c' Hc'); lia|]. destruct (folded_range d Nphi c Hg ltac:(lia)) as (_ & _ & Hf & _). apply (Hf c' Hc'). lia.
  - destruct (Nat.eqb_spec c 0) as [->|H0], (Nat.eqb_spec c' 0) as [->|H0'].
    + split; reflexivity.
    + exfalso. destruct (folded_range d Nphi c' Hg ltac:(lia)) as (_ & _ & _ & _ & Hf). apply Hf. lia.
    + exfalso. destruct (folded_range d Nphi c Hg ltac:(lia)) as (_ & _ & _ & _ & Hf). apply Hf. lia.
    + split; [|reflexivity]. destruct (folded_range d Nphi c Hg ltac:(lia)) as (_ & _ & _ & Hf & _). apply Hf; [exact Hc'|exact E].
Qed.
Definition half_at (d : dtype) (Nphi Ntheta c b : nat) : nat :=
  if c =? 0 then if b <=? Lmax d Ntheta then 0 else 1 else if b <? c + offset d Nphi Ntheta then 1 else 0.
Lemma canon_order d Nphi Ntheta c b : fst (canon d Nphi Ntheta c b) = half_order d Nphi c (half_at d Nphi Ntheta c b).
Proof.
  unfold canon, half_order, half_at. destruct (Nat.eqb_spec c 0) as [->|H].
  - destruct (b <=? Lmax d Ntheta); reflexivity.
  - destruct (b <? c + offset d Nphi Ntheta); [|reflexivity]. cbn [Nat.eqb fst]. reflexivity.
Qed.
Lemma half_at_ok d Nphi Ntheta c b : c < pieces d Nphi -> b < columns d Nphi Ntheta -> half_ok Nphi (half_at d Nphi Ntheta c b).
Proof.
  rewrite columns_offset. unfold half_ok, half_at, pieces, offset. intros Hc Hb. destruct (Nat.leb_spec Nphi 2).
  - assert (c = 0) as -> by lia. cbn [Nat.eqb]. destruct (Nat.leb_spec b (Lmax d Ntheta)); [left; reflexivity|lia].
  - destruct (c =? 0); [destruct (b <=? Lmax d Ntheta)|destruct (b <? _)]; auto.
Qed.
Lemma half_at_span d Nphi Ntheta c b u : b < columns d Nphi Ntheta -> half_ok Nphi u -> half_at d Nphi Ntheta c b = u <-> fst (span d Nphi Ntheta c u) <= b < snd (span d Nphi Ntheta c u).
Proof.
  rewrite columns_offset. intros Hb Hu. unfold half_at, span. destruct Hu as [->|[-> _]]; destruct (Nat.eqb_spec c 0) as [->|Hc]; cbn [Nat.eqb fst snd].
  - destruct (Nat.leb_spec b (Lmax d Ntheta)); lia.
  - destruct (Nat.ltb_spec b (c + offset d Nphi Ntheta)); lia.
  - destruct (Nat.leb_spec b (Lmax d Ntheta)); lia.
  - destruct (Nat.ltb_spec b (c + offset d Nphi Ntheta)); lia.
Qed.
Lemma all_some_ok {A B} (f : A -> option B) (P : A -> B -> Prop) l : (forall x, In x l -> exists y, f x = Some y /\ P x y) -> exists r, all_some (map f l) = Some r /\ Forall2 P l r.
Proof.
  induction l as [|x l IH]; intros H; [exists []; split; [reflexivity|constructor]|]. destruct (H x (or_introl eq_refl)) as (y & Hy & HP).
  destruct (IH (fun z Hz => H z (or_intror Hz))) as (r & Hr & HF). exists (y :: r). cbn [map all_some]. rewrite Hy, Hr. split; [reflexivity|]. constructor; assumption.
Qed.
Lemma ordered_set_in l x : In x (ordered_set l) <-> In x l. Proof. unfold ordered_set. rewrite <- in_rev, nodup_In, <- in_rev. reflexivity. Qed.
Lemma ordered_set_nodup l : NoDup (ordered_set l). Proof. unfold ordered_set. apply NoDup_rev. apply NoDup_nodup. Qed.
Definition entry_at (d : dtype) (Nphi Ntheta c0 c u : nat) : m_map :=
  let P := parts d in let hc := half_chunk d Nphi in let s := span d Nphi Ntheta c u in let m := half_order d Nphi c u in
  (m, (hc * (c - c0) + P * u, hc * (c - c0) + P * u + P), (P * (c - c0), P * (c - c0) + P), (fst s, snd s, (fst s =? 0) && negb (m =? 0)%Z)).
Definition here (d : dtype) (Nphi Ntheta c0 n c u : nat) : Prop :=
  c0 <= c < c0 + n /\ half_ok Nphi u /\ fst (span d Nphi Ntheta c u) < snd (span d Nphi Ntheta c u).
Lemma span_columns d Nphi Ntheta c u : snd (span d Nphi Ntheta c u) <= columns d Nphi Ntheta.
Proof. rewrite columns_offset. unfold span. destruct (c =? 0), (u =? 0); cbn [snd]; lia. Qed.
Lemma m_maps_entries d Nphi Ntheta Ng c0 n : good_resolution d Nphi -> 0 < Ng -> c0 + n <= pieces d Nphi ->
  exists maps, m_maps d Nphi Ntheta Ng c0 n = Some maps /\ NoDup (map (fun e : m_map => fst (fst (fst e))) maps)
  /\ forall e, In e maps <-> exists c u, here d Nphi Ntheta c0 n c u /\ e = entry_at d Nphi Ntheta c0 c u.
Proof.
  intros Hg HNg Hn. unfold m_maps. cbv zeta. change (coeff_chunk d) with (parts d). change (group_rows d) with (parts d). set (P := parts d). assert (HP : 0 < P) by apply parts_pos. fold (columns d Nphi Ntheta). set (W := columns d Nphi Ntheta).
  set (cg := fun a b => coeff_group d Nphi Ntheta (P * c0 + a) b). set (gg := fun a b => half_group d Nphi (half_chunk d Nphi * c0 + a) b).
  assert (Hcg : forall a b, a < P * n -> b < W -> fst (cg a b) = half_order d Nphi (c0 + a / P) (half_at d Nphi Ntheta (c0 + a / P) b)).
  { intros a b Ha Hb. unfold cg. rewrite coeff_group_canon by (try assumption; fold P; nia). fold P. rewrite canon_order. replace ((P * c0 + a) / P) with (c0 + a / P); [reflexivity|].
    replace (P * c0 + a) with (a + c0 * P) by lia. rewrite Nat.div_add by lia. lia. }
  assert (Hr : exists r, half_chunk d Nphi = P * r /\ 0 < r /\ forall u, half_ok Nphi u <-> u < r).
  { rewrite half_chunk_parts. fold P. unfold half_ok. destruct (Nat.leb_spec Nphi 2); [exists 1|exists 2]; (split; [lia|split; [lia|intros u; lia]]). }
  destruct Hr as (r & Er & Hr0 & Hr).
  assert (Hgg : forall a b, a < P * (r * n) -> b < Ng -> fst (gg a b) = half_order d Nphi (c0 + a / P / r) ((a / P) mod r)).
  { intros a b Ha Hb. unfold gg. pose proof (Nat.div_mod a P ltac:(lia)) as E1. pose proof (Nat.mod_upper_bound a P ltac:(lia)) as B1. pose proof (Nat.div_mod (a / P) r ltac:(lia)) as E2. pose proof (Nat.mod_upper_bound (a / P) r ltac:(lia)) as B2.
    assert (a / P < r * n) by (apply Nat.div_lt_upper_bound; lia). assert (a / P / r < n) by (apply Nat.div_lt_upper_bound; lia).
    set (x := a / P) in *. set (y := x / r) in *. set (z := x mod r) in *. set (k := a mod P) in *. clearbody x y z k.
    replace (half_chunk d Nphi * c0 + a) with (half_chunk d Nphi * (c0 + y) + parts d * z + k) by (rewrite Er; fold P; nia).
    rewrite half_group_canon; [reflexivity|exact Hg|lia|apply Hr; exact B2|exact B1]. }
  assert (Hm : forall c u, here d Nphi Ntheta c0 n c u -> let m := half_order d Nphi c u in
    (match groupset_slices (P, 1) cg (P * n) W (Some m, None), groupset_slices (P, 1) gg (half_chunk d Nphi * n) Ng (Some m, None) with
     | [(mc_slice, ell_slice)], [(mg_slice, _)] => Some (m, mg_slice, mc_slice, (fst ell_slice, snd ell_slice, (fst ell_slice =? 0) && negb (m =? 0)%Z))
     | _, _ => None end) = Some (entry_at d Nphi Ntheta c0 c u)).
  { intros c u (Hc & Hu & Hs) m. pose proof (span_columns d Nphi Ntheta c u) as HsW. fold W in HsW. destruct (span d Nphi Ntheta c u) as [lo hi] eqn:Es. cbn [fst snd] in *.
    rewrite (row_slices P cg n W (fun q b => half_order d Nphi (c0 + q) (half_at d Nphi Ntheta (c0 + q) b)) m (c - c0) lo hi); try assumption; [|lia| |].
    - replace (half_chunk d Nphi * n) with (P * (r * n)) by (rewrite Er; lia).
      rewrite (row_slices P gg (r * n) Ng (fun q b => half_order d Nphi (c0 + q / r) (q mod r)) m (r * (c - c0) + u) 0 Ng).
      + unfold entry_at. rewrite Es. fold P m. cbn [fst snd]. rewrite Er. do 3 f_equal. f_equal. f_equal; lia.
      + exact HP.
      + exact Hgg.
      + apply Hr in Hu. nia.
      + exact HNg.
      + lia.
      + intros b Hb. apply Hr in Hu. replace ((r * (c - c0) + u) / r) with (c - c0) by (apply (Nat.div_unique _ _ _ u); lia). replace ((r * (c - c0) + u) mod r) with u by (apply (Nat.mod_unique _ _ (c - c0)); lia).
        replace (c0 + (c - c0)) with c by lia. split; [lia|reflexivity].
      + intros q' b Hq' Hne _ E. apply half_order_inj in E; [|exact Hg| |lia| |exact Hu].
        * destruct E as [E1 E2]. apply Hne. pose proof (Nat.div_mod q' r ltac:(lia)). nia.
        * assert (q' / r < n) by (apply Nat.div_lt_upper_bound; lia). lia.
        * apply Hr. apply Nat.mod_upper_bound. lia.
    - fold W. intros b Hb. replace (c0 + (c - c0)) with c by lia. pose proof (half_at_span d Nphi Ntheta c b u Hb Hu) as Hsp. rewrite Es in Hsp. cbn [fst snd] in Hsp. rewrite <- Hsp. split; [|intros ->; reflexivity].
      intros E. apply half_order_inj in E; try assumption; try lia. apply half_at_ok; [lia|exact Hb].
    - intros q' b Hq' Hne Hb E. apply half_order_inj in E; try assumption; try lia. apply half_at_ok; [lia|exact Hb]. }
  destruct (all_some_ok (fun m => match groupset_slices (P, 1) cg (P * n) W (Some m, None), groupset_slices (P, 1) gg (half_chunk d Nphi * n) Ng (Some m, None) with
     | [(mc_slice, ell_slice)], [(mg_slice, _)] => Some (m, mg_slice, mc_slice, (fst ell_slice, snd ell_slice, (fst ell_slice =? 0) && negb (m =? 0)%Z))
     | _, _ => None end) (fun m e => exists c u, here d Nphi Ntheta c0 n c u /\ m = half_order d Nphi c u /\ e = entry_at d Nphi Ntheta c0 c u) (local_groupsets fst cg (P * n) W)) as (maps & Emaps & HF).
  { intros m Hmm. unfold local_groupsets in Hmm. rewrite ordered_set_in in Hmm. apply in_flat_map in Hmm as (a & Ha & Hmm). apply in_map_iff in Hmm as (b & Em & Hb). apply in_seq in Ha. apply in_seq in Hb.
    assert (Hq : a / P < n) by (apply Nat.div_lt_upper_bound; lia). set (c := c0 + a / P). set (u := half_at d Nphi Ntheta c b). assert (Hu : half_ok Nphi u) by (apply half_at_ok; [lia|lia]).
    assert (Hh : here d Nphi Ntheta c0 n c u). { split; [split; [apply Nat.le_add_r|apply Nat.add_lt_mono_l; exact Hq]|]. split; [exact Hu|]. pose proof (proj1 (half_at_span d Nphi Ntheta c b u ltac:(unfold W in *; lia) Hu) eq_refl). lia. }
    rewrite Hcg in Em by lia. fold c u in Em. exists (entry_at d Nphi Ntheta c0 c u). split; [rewrite <- Em; apply (Hm c u Hh)|]. exists c, u. split; [exact Hh|]. split; [symmetry; exact Em|reflexivity]. }
  exists maps. split; [exact Emaps|].
  assert (Eo : map (fun e : m_map => fst (fst (fst e))) maps = local_groupsets fst cg (P * n) W).
  { clear -HF. induction HF as [|m e l r (c & u & _ & -> & ->) HF IH]; [reflexivity|]. cbn [map]. rewrite IH. reflexivity. }
  split; [rewrite Eo; apply ordered_set_nodup|]. intros e. split.
  - intros He. clear -HF He. induction HF as [|m e' l r (c & u & H1 & H2 & H3) HF IH]; [destruct He|]. destruct He as [<-|He]; [exists c, u; auto|]. apply IH. exact He.
  - intros (c & u & Hh & ->). pose proof Hh as (Hc & Hu & Hs).
    assert (Hin : In (half_order d Nphi c u) (local_groupsets fst cg (P * n) W)).
    { unfold local_groupsets. rewrite ordered_set_in. apply in_flat_map. exists (P * (c - c0)). split; [apply in_seq; nia|]. apply in_map_iff. exists (fst (span d Nphi Ntheta c u)).
      assert (HW : fst (span d Nphi Ntheta c u) < W) by (pose proof (span_columns d Nphi Ntheta c u); unfold W; lia). split; [|apply in_seq; lia].
      rewrite Hcg by (try exact HW; nia). replace (P * (c - c0) / P) with (c - c0) by (rewrite Nat.mul_comm, Nat.div_mul; lia). replace (c0 + (c - c0)) with c by lia.
      f_equal. apply half_at_span; [exact HW|exact Hu|lia]. }
    clear -HF Hin Hc Hu Hg Hn. revert Hin. induction HF as [|m e' l r (c' & u' & H1 & H2 & H3) HF IH]; [intros []|]. intros [E|Hin]; [|right; apply IH; exact Hin]. left. rewrite H2 in E.
    destruct H1 as (H1 & H1' & _). apply half_order_inj in E; try assumption; try lia. destruct E as [-> ->]. exact H3.
Qed.

(** ** Entries and the modes in them *)
Definition exact_fold (d : dtype) (Nphi Ntheta : nat) : Prop := Nphi <= 2 \/ match d with Complex128 => Nphi / 2 <= Lmax d Ntheta + 1 | Float64 => Nphi / 2 <= Lmax d Ntheta + 2 end.
Lemma exact_balanced d Nphi Ntheta : 0 < Ntheta -> Nphi <= 2 * Ntheta -> exact_fold d Nphi Ntheta.
Proof.
  intros H0 H. unfold exact_fold. destruct (le_lt_dec Nphi 2) as [H2|H2]; [left; exact H2|right]. assert (Nphi / 2 <= Ntheta) by (apply Nat.div_le_upper_bound; lia). destruct d; unfold Lmax; lia.
Qed.
Lemma list_ext' {A} (l l' : list A) d : length l = length l' -> (forall i, i < length l -> nth i l d = nth i l' d) -> l = l'.
Proof. intros H1 H2. apply nth_ext with d d; assumption. Qed.
Lemma slice_length s : length (slice_columns s) = if snd s then snd (fst s) else snd (fst s) - fst (fst s).
Proof. destruct s as [[a b] []]; cbn; [rewrite rev_length|]; rewrite seq_length; reflexivity. Qed.
Lemma half_order_zero d Nphi c u : good_resolution d Nphi -> c < pieces d Nphi -> half_ok Nphi u -> half_order d Nphi c u = 0%Z <-> c = 0 /\ u = 0.
Proof.
  intros Hg Hc Hu. split; [|intros [-> ->]; reflexivity]. intros E. change 0%Z with (Z.of_nat 0) in E. apply (half_order_inj d Nphi c u 0 0 Hg Hc ltac:(lia) Hu (or_introl eq_refl)). exact E.
Qed.
Lemma entry_columns d Nphi Ntheta c0 n c u : good_resolution d Nphi -> c0 + n <= pieces d Nphi -> here d Nphi Ntheta c0 n c u -> (u = 0 \/ c = 0 \/ exact_fold d Nphi Ntheta) ->
  let es := snd (entry_at d Nphi Ntheta c0 c u) in let m := half_order d Nphi c u in
  length (slice_columns es) = Z.to_nat (Z.of_nat (Lmax d Ntheta) + 1 - Z.abs m) /\ (Z.abs m <= Z.of_nat (Lmax d Ntheta))%Z
  /\ forall q, q < length (slice_columns es) -> canon d Nphi Ntheta c (nth q (slice_columns es) 0) = (m, Z.abs m + Z.of_nat q)%Z.
Proof.
  intros Hg Hn (Hc & Hu & Hs) Hcase es m. assert (Hcp : c < pieces d Nphi) by lia. unfold es, entry_at. cbn [snd fst]. fold m.
  assert (Hz : (m =? 0)%Z = (c =? 0) && (u =? 0)).
  { destruct (Z.eqb_spec m 0) as [E|E].
    - apply half_order_zero in E; try assumption. destruct E as [-> ->]. reflexivity.
    - symmetry. apply not_true_is_false. intros E'. apply andb_true_iff in E' as [E1 E2]. apply Nat.eqb_eq in E1, E2. apply E. apply half_order_zero; auto. }
  rewrite Hz. pose proof (top_range d Nphi Hg) as HT. pose proof (folded_range d Nphi c Hg) as HF. unfold canon, exact_fold, pieces in *. unfold m, half_order, span in *. unfold offset in *.
  set (L := Lmax d Ntheta) in *. destruct Hu as [->|[-> HN]].
  - cbn [Nat.eqb] in *. destruct (Nat.eqb_spec c 0) as [->|H0]; cbn [fst snd andb negb Nat.eqb] in *.
    + unfold slice_columns. rewrite seq_length. split; [lia|]. split; [lia|]. intros q Hq. rewrite seq_nth by exact Hq. destruct (Nat.leb_spec (0 + q) L); [|lia]. f_equal; lia.
    + assert (Hcs : forall sh, fst (Nat.min (c + sh) (L + 1 + sh), L + 1 + sh) < snd (Nat.min (c + sh) (L + 1 + sh), L + 1 + sh) -> 
         ((Nat.min (c + sh) (L + 1 + sh) =? 0) && true = false) /\ Nat.min (c + sh) (L + 1 + sh) = c + sh /\ c <= L).
      { cbn [fst snd]. intros sh Hs'. split; [destruct (Nat.eqb_spec (Nat.min (c + sh) (L + 1 + sh)) 0); [lia|reflexivity]|]. lia. }
      destruct (Hcs _ Hs) as (E1 & E2 & E3). cbn [fst snd] in Hs. rewrite E1, E2. unfold slice_columns. rewrite seq_length. split; [lia|]. split; [lia|]. intros q Hq. rewrite seq_nth by exact Hq.
      match goal with |- context [?x <? ?y] => destruct (Nat.ltb_spec x y); [lia|] end. f_equal; lia.
  - destruct (Nat.leb_spec Nphi 2) as [H|H]; [lia|]. cbn [Nat.eqb] in *. rewrite andb_false_r. cbn [negb]. rewrite andb_true_r. specialize (HT HN). destruct HT as (_ & _ & HT).
    destruct (Nat.eqb_spec c 0) as [->|H0]; cbn [fst snd] in *.
    + destruct (Nat.eqb_spec (L + 1) 0); [lia|]. unfold slice_columns. rewrite seq_length. unfold top_order in *. destruct d.
      * split; [lia|]. split; [lia|]. intros q Hq. rewrite seq_nth by exact Hq. destruct (Nat.leb_spec (L + 1 + q) L); [lia|]. f_equal; lia.
      * split; [lia|]. split; [lia|]. intros q Hq. rewrite seq_nth by exact Hq. destruct (Nat.leb_spec (L + 1 + q) L); [lia|]. f_equal; lia.
    + cbn [Nat.eqb]. unfold slice_columns. rewrite rev_length, seq_length. assert (Hx : exact_fold d Nphi Ntheta) by (destruct Hcase as [?|[?|?]]; [lia|lia|assumption]). unfold exact_fold in Hx. fold L in Hx. clear Hcase.
      specialize (HF ltac:(lia)). destruct HF as (_ & _ & Hf1 & _). unfold folded in *. destruct (good_big _ _ Hg H) as (h & EN & Hh & E & _). destruct d; cbn [parts] in *; rewrite E in *; (destruct Hx as [Hx|Hx]; [lia|]).
      * split; [lia|]. split; [lia|]. intros q Hq. rewrite rev_nth by (rewrite seq_length; exact Hq). rewrite seq_length, seq_nth by lia. match goal with |- context [?x <? ?y] => destruct (Nat.ltb_spec x y); [|lia] end. f_equal; lia.
      * assert (Hc4 : c < h) by (rewrite EN in Hcp; replace (2 * 2 * h / 4) with h in Hcp by (symmetry; replace (2 * 2 * h) with (h * 4) by lia; apply Nat.div_mul; lia); exact Hcp).
        split; [lia|]. split; [lia|]. intros q Hq. rewrite rev_nth by (rewrite seq_length; exact Hq). rewrite seq_length, seq_nth by lia. match goal with |- context [?x <? ?y] => destruct (Nat.ltb_spec x y); [|lia] end. f_equal; lia.
Qed.
Lemma slice_in d Nphi Ntheta c0 c u b : In b (slice_columns (snd (entry_at d Nphi Ntheta c0 c u))) <-> fst (span d Nphi Ntheta c u) <= b < snd (span d Nphi Ntheta c u).
Proof.
  unfold entry_at. cbn [snd]. destruct (span d Nphi Ntheta c u) as [lo hi]. cbn [fst snd]. unfold slice_columns. destruct (Nat.eqb_spec lo 0) as [->|]; cbn [andb]; [destruct (half_order d Nphi c u =? 0)%Z; cbn [negb]|].
  - rewrite in_seq. lia.
  - rewrite <- in_rev, in_seq. lia.
  - rewrite in_seq. lia.
Qed.
Lemma index_of_nth b l : In b l -> exists q, index_of b l = Some q /\ q < length l /\ nth q l 0 = b.
Proof.
  induction l as [|x l IH]; intros H; [destruct H|]. cbn [index_of]. destruct (Nat.eqb_spec x b) as [->|Hn]; [exists 0; cbn; split; [reflexivity|split; [lia|reflexivity]]|].
  destruct H as [->|H]; [contradiction|]. destruct (IH H) as (q & E & Hq & Hb). exists (S q). rewrite E. cbn. split; [reflexivity|]. split; [lia|exact Hb].
Qed.
Lemma index_of_none b l : ~ In b l -> index_of b l = None.
Proof. induction l as [|x l IH]; intros H; [reflexivity|]. cbn [index_of]. destruct (Nat.eqb_spec x b) as [->|Hn]; [destruct H; left; reflexivity|]. rewrite IH; [reflexivity|]. intros Hb. apply H. right. exact Hb. Qed.
Lemma inside_iff a s : inside a s = true <-> fst s <= a < snd s.
Proof. unfold inside. rewrite andb_true_iff, Nat.leb_le, Nat.ltb_lt. reflexivity. Qed.
Lemma local_row P c0 a : 0 < P -> (P * c0 + a) / P = c0 + a / P.
Proof. intros H. replace (P * c0 + a) with (a + c0 * P) by lia. rewrite Nat.div_add by lia. lia. Qed.
(** The rows of an entry. *)
Lemma entry_rows d Nphi Ntheta c0 c u a : c0 <= c -> inside a (snd (fst (entry_at d Nphi Ntheta c0 c u))) = true <-> a / parts d = c - c0.
Proof.
  intros Hc. unfold entry_at. cbn [fst snd]. rewrite inside_iff. cbn [fst snd]. pose proof (parts_pos d) as HP. pose proof (Nat.div_mod a (parts d) ltac:(lia)). pose proof (Nat.mod_upper_bound a (parts d) ltac:(lia)).
  set (P := parts d) in *. clearbody P. split; [|nia]. intros Ha. symmetry. apply (Nat.div_unique _ _ _ (a - P * (c - c0))); lia.
Qed.

Definition half_row (d : dtype) (Nphi c0 x : nat) : nat * nat := (c0 + x / half_chunk d Nphi, (x mod half_chunk d Nphi) / parts d).
Lemma half_row_iff d Nphi c0 k u x : c0 <= k -> half_ok Nphi u -> (inside x (half_chunk d Nphi * (k - c0) + parts d * u, half_chunk d Nphi * (k - c0) + parts d * u + parts d) = true <-> half_row d Nphi c0 x = (k, u)).
Proof.
  intros Hk Hu. rewrite inside_iff. cbn [fst snd]. unfold half_row. rewrite half_chunk_parts. pose proof (parts_pos d) as HP. set (H := if Nphi <=? 2 then parts d else 2 * parts d).
  assert (HH : exists r, H = parts d * r /\ u < r) by (unfold H; destruct (Nat.leb_spec Nphi 2), Hu as [->|[-> ?]]; [exists 1|lia|exists 2|exists 2]; lia).
  destruct HH as (r & -> & Hur). set (y := k - c0). assert (Ek : k = c0 + y) by lia. clearbody y. subst k. pose proof (Nat.div_mod x (parts d * r) ltac:(nia)) as E1. pose proof (Nat.mod_upper_bound x (parts d * r) ltac:(nia)) as B1.
  pose proof (Nat.div_mod (x mod (parts d * r)) (parts d) ltac:(lia)) as E2. pose proof (Nat.mod_upper_bound (x mod (parts d * r)) (parts d) ltac:(lia)) as B2. split.
  - intros Hxx. assert (Ex : x / (parts d * r) = y) by (symmetry; apply (Nat.div_unique _ _ _ (x - parts d * r * y)); nia). rewrite Ex in *. f_equal. symmetry. apply (Nat.div_unique _ _ _ (x mod (parts d * r) - parts d * u)); lia.
  - intros E. injection E as Ea Eu. assert (Ey : x / (parts d * r) = y) by lia. rewrite Ey, Eu in *. lia.
Qed.

(** ** Transforms *)
Section Transform.
Context {K : Type} (k0 k1 : K) (kadd kmul ksub kdiv : K -> K -> K) (kopp kinv : K -> K).
Context (Hf : field_theory k0 k1 kadd kmul ksub kopp kdiv kinv eq).
Variables (Y : Z -> Z -> Z -> nat -> K) (w : nat -> K).
Notation total := (CSR_Spec.total k0 kadd).
Definition coef (fwd : bool) (Ng : nat) (s m ell : Z) (t : nat) : K :=
  if (Z.abs s <=? ell)%Z && (ell <? Z.of_nat Ng)%Z then if fwd then kmul (Y m s ell t) (w t) else Y m s ell t else k0.
Lemma swsh_value fwd L Ng s m : (Z.abs m <= Z.of_nat L)%Z -> (Z.abs m <= Z.of_nat Ng)%Z ->
  exists M, swsh_matrix k0 kmul Y w fwd L Ng s m = Some (Some (Z.to_nat (Z.of_nat L + 1 - Z.abs m), M))
  /\ forall q t, M q t = coef fwd Ng s m (Z.abs m + Z.of_nat q) t.
Proof.
  intros HL HN. unfold swsh_matrix. destruct (Z.gtb_spec m (Z.of_nat L)); [lia|]. destruct (Z.ltb_spec (Z.of_nat L + 1 - Z.abs m) 0); [lia|]. eexists. split; [reflexivity|].
  intros q t. unfold begin_of, coef. destruct (Z.ltb_spec (Z.of_nat Ng - Z.abs m) 0); [lia|].
  destruct (Nat.leb_spec (Z.to_nat (Z.of_nat Ng - Z.abs m)) q) as [HA|HA].
  - destruct (Z.ltb_spec (Z.abs m + Z.of_nat q) (Z.of_nat Ng)); [lia|]. rewrite andb_false_r. reflexivity.
  - destruct (Z.ltb_spec (Z.abs m + Z.of_nat q) (Z.of_nat Ng)); [|lia]. rewrite andb_true_r.
    destruct (Nat.leb_spec (Z.to_nat (Z.max (Z.abs m) (Z.abs s) - Z.abs m)) q), (Z.leb_spec (Z.abs s) (Z.abs m + Z.of_nat q)); try lia; [|reflexivity].
    replace (Z.max (Z.abs m) (Z.abs s) + Z.of_nat (q - Z.to_nat (Z.max (Z.abs m) (Z.abs s) - Z.abs m)))%Z with (Z.abs m + Z.of_nat q)%Z by lia. reflexivity.
Qed.
Variables (d : dtype) (Nphi Ntheta Ng c0 n : nat).
Hypothesis (Hg : good_resolution d Nphi) (Hn : c0 + n <= pieces d Nphi) (Hx : exact_fold d Nphi Ntheta) (HNg : Nphi <= 2 * Ng).
Lemma order_bound c u : c < pieces d Nphi -> half_ok Nphi u -> (Z.abs (half_order d Nphi c u) <= Z.of_nat Ng)%Z.
Proof.
  intros Hc Hu. assert (Hs : stored_order d Nphi (half_order d Nphi c u)).
  { unfold half_order. destruct Hu as [->|[-> HN]]; cbn [Nat.eqb]; [apply positive_range; assumption|]. destruct (Nat.eqb_spec c 0) as [->|H0]; [apply top_range; assumption|]. apply folded_range; [exact Hg|lia]. }
  unfold stored_order in Hs. destruct d; lia.
Qed.
Notation P := (parts d).
Notation hc := (half_chunk d Nphi).
Definition row_of (a b : nat) : nat := hc * (a / P) + P * half_at d Nphi Ntheta (c0 + a / P) b + a mod P.
Definition written (s : Z) (g : nat -> nat -> K) (a b : nat) : K :=
  let (m, ell) := canon d Nphi Ntheta (c0 + a / P) b in total Ng (fun t => kmul (coef true Ng s m ell t) (g (row_of a b) t)).
Definition covers (e : m_map) (a b : nat) : bool := inside a (snd (fst e)) && existsb (Nat.eqb b) (slice_columns (snd e)).
Definition listed (maps : list m_map) : Prop := forall e, In e maps -> exists c u, here d Nphi Ntheta c0 n c u /\ e = entry_at d Nphi Ntheta c0 c u.
Lemma mem_iff b l : existsb (Nat.eqb b) l = true <-> In b l.
Proof. rewrite existsb_exists. split; [intros (x & Hx' & E); apply Nat.eqb_eq in E; subst; exact Hx'|intros H; exists b; split; [exact H|apply Nat.eqb_refl]]. Qed.
Lemma forward_step_value s g e c : (exists k u, here d Nphi Ntheta c0 n k u /\ e = entry_at d Nphi Ntheta c0 k u) ->
  exists c', forward_step k0 kadd kmul Y w (Lmax d Ntheta) Ng s g e c = Some c' /\ forall a b, c' a b = if covers e a b then written s g a b else c a b.
Proof.
  intros (k & u & Hh & ->). destruct (entry_columns d Nphi Ntheta c0 n k u Hg Hn Hh (or_intror (or_intror Hx))) as (Hlen & Hm & Hnth). pose proof Hh as (Hk & Hu & Hs).
  assert (Hrows : forall a, inside a (snd (fst (entry_at d Nphi Ntheta c0 k u))) = true <-> a / P = k - c0) by (intros a; apply entry_rows; lia).
  assert (Hcols : forall b, In b (slice_columns (snd (entry_at d Nphi Ntheta c0 k u))) <-> fst (span d Nphi Ntheta k u) <= b < snd (span d Nphi Ntheta k u)) by (intros b; apply slice_in).
  unfold covers. unfold forward_step, entry_at in *. cbn [fst snd] in *. set (es := (fst (span d Nphi Ntheta k u), snd (span d Nphi Ntheta k u), (fst (span d Nphi Ntheta k u) =? 0) && negb (half_order d Nphi k u =? 0)%Z)) in *.
  set (m := half_order d Nphi k u) in *. destruct (Z.leb_spec (Z.abs m) (Z.of_nat (Lmax d Ntheta))); [|lia].
  destruct (swsh_value true (Lmax d Ntheta) Ng s m Hm (order_bound k u ltac:(lia) Hu)) as (M & -> & HM). rewrite <- Hlen.
  replace (hc * (k - c0) + P * u + P - (hc * (k - c0) + P * u)) with P by lia. replace (P * (k - c0) + P - P * (k - c0)) with P by lia. rewrite !Nat.eqb_refl. cbn [andb orb].
  eexists. split; [reflexivity|]. intros a b. cbv beta. destruct (inside a (P * (k - c0), P * (k - c0) + P)) eqn:Ei; [|reflexivity]. cbn [andb]. apply Hrows in Ei.
  destruct (existsb (Nat.eqb b) (slice_columns es)) eqn:Eb.
  - apply mem_iff in Eb. destruct (index_of_nth _ _ Eb) as (q & -> & Hq & Hqb). unfold written. rewrite Ei. replace (c0 + (k - c0)) with k by lia. specialize (Hnth q Hq). rewrite Hqb in Hnth. rewrite Hnth.
    apply (MatSolvers_Proofs.total_ext k0 k1 kadd kmul ksub kdiv kopp kinv Hf). intros t Ht. f_equal.
    + destruct (Nat.eqb_spec (length (slice_columns es)) 1) as [E1|E1]; [rewrite HM; do 2 f_equal; lia|apply HM].
    + f_equal. unfold row_of. rewrite Ei. replace (c0 + (k - c0)) with k by lia. apply Hcols in Eb. pose proof (span_columns d Nphi Ntheta k u). rewrite (proj2 (half_at_span d Nphi Ntheta k b u ltac:(lia) Hu) Eb).
      pose proof (parts_pos d). pose proof (Nat.div_mod a P ltac:(lia)) as Ed. rewrite Ei in Ed. lia.
  - rewrite index_of_none; [reflexivity|]. intros Hb. apply mem_iff in Hb. rewrite Hb in Eb. discriminate.
Qed.
Lemma forward_loop_value s g maps c : listed maps ->
  exists c', forward_loop k0 kadd kmul Y w (Lmax d Ntheta) Ng s g maps c = Some c' /\ forall a b, c' a b = if existsb (fun e => covers e a b) maps then written s g a b else c a b.
Proof.
  revert c. induction maps as [|e maps IH]; intros c Hl; [exists c; split; reflexivity|]. cbn [forward_loop existsb].
  destruct (forward_step_value s g e c (Hl e (or_introl eq_refl))) as (c' & -> & Hc'). destruct (IH c' (fun e' He => Hl e' (or_intror He))) as (c'' & -> & Hc''). exists c''. split; [reflexivity|].
  intros a b. rewrite Hc'', Hc'. destruct (covers e a b), (existsb (fun e0 => covers e0 a b) maps); reflexivity.
Qed.
(** Backward: the values of the grid row of a half of a chunk. *)
Definition summed (s : Z) (c : nat -> nat -> K) (x t : nat) : K :=
  let (k, u) := half_row d Nphi c0 x in let m := half_order d Nphi k u in let cols := slice_columns (snd (entry_at d Nphi Ntheta c0 k u)) in
  total (length cols) (fun q => kmul (coef false Ng s m (Z.abs m + Z.of_nat q) t) (c (P * (k - c0) + x mod P) (nth q cols 0))).
Lemma backward_step_value s c e g : (exists k u, here d Nphi Ntheta c0 n k u /\ e = entry_at d Nphi Ntheta c0 k u) ->
  exists g', backward_step k0 kadd kmul Y w (Lmax d Ntheta) Ng s c e g = Some g' /\ forall x t, g' x t = if inside x (snd (fst (fst e))) then summed s c x t else g x t.
Proof.
  intros (k & u & Hh & ->). destruct (entry_columns d Nphi Ntheta c0 n k u Hg Hn Hh (or_intror (or_intror Hx))) as (Hlen & Hm & Hnth). pose proof Hh as (Hk & Hu & Hs).
  unfold backward_step. unfold entry_at at 1 2. cbn [fst snd].
  set (m := half_order d Nphi k u) in *. destruct (Z.gtb_spec (Z.abs m) (Z.of_nat (Lmax d Ntheta))); [lia|].
  destruct (swsh_value false (Lmax d Ntheta) Ng s m Hm (order_bound k u ltac:(lia) Hu)) as (M & -> & HM).
  replace (hc * (k - c0) + P * u + P - (hc * (k - c0) + P * u)) with P by lia. replace (P * (k - c0) + P - P * (k - c0)) with P by lia. rewrite <- Hlen. unfold entry_at in *. cbn [snd] in *. fold m in Hlen, Hnth. fold m. rewrite !Nat.eqb_refl. cbn [andb].
  eexists. split; [reflexivity|]. intros x t. cbv beta. destruct (inside x (hc * (k - c0) + P * u, hc * (k - c0) + P * u + P)) eqn:Ei; [|reflexivity]. pose proof Ei as Ei'. apply half_row_iff in Ei; [|lia|exact Hu].
  unfold summed. rewrite Ei. unfold entry_at. cbn [snd]. fold m. apply (MatSolvers_Proofs.total_ext k0 k1 kadd kmul ksub kdiv kopp kinv Hf). intros q Hq. rewrite HM. do 2 f_equal.
  apply inside_iff in Ei'. cbn [fst snd] in Ei'. f_equal. rewrite half_chunk_parts in *. pose proof (parts_pos d). set (y := k - c0) in *.
  assert (HH : exists r, (if Nphi <=? 2 then P else 2 * P) = P * r) by (destruct (Nphi <=? 2); [exists 1|exists 2]; lia). destruct HH as (r & EH). rewrite EH in *. apply (Nat.mod_unique _ _ (r * y + u)); nia.
Qed.
Lemma backward_loop_value s c maps g : listed maps ->
  exists g', backward_loop k0 kadd kmul Y w (Lmax d Ntheta) Ng s c maps g = Some g' /\ forall x t, g' x t = if existsb (fun e : m_map => inside x (snd (fst (fst e)))) maps then summed s c x t else g x t.
Proof.
  revert g. induction maps as [|e maps IH]; intros g Hl; [exists g; split; reflexivity|]. cbn [backward_loop existsb].
  destruct (backward_step_value s c e g (Hl e (or_introl eq_refl))) as (g' & -> & Hg'). destruct (IH g' (fun e' He => Hl e' (or_intror He))) as (g'' & -> & Hg''). exists g''. split; [reflexivity|].
  intros x t. rewrite Hg'', Hg'. destruct (inside x (snd (fst (fst e)))); [rewrite orb_true_l|rewrite orb_false_l]; destruct (existsb _ maps); reflexivity.
Qed.
Lemma matrices_ok fwd s maps : listed maps -> swsh_matrices k0 kmul Y w fwd (Lmax d Ntheta) Ng s maps = true.
Proof.
  intros Hl. unfold swsh_matrices. apply forallb_forall. intros e He. destruct (Hl e He) as (k & u & Hh & ->). destruct (entry_columns d Nphi Ntheta c0 n k u Hg Hn Hh (or_intror (or_intror Hx))) as (_ & Hm & _).
  unfold entry_at. cbn [fst]. destruct Hh as (Hk & Hu & _). destruct (swsh_value fwd (Lmax d Ntheta) Ng s _ Hm (order_bound k u ltac:(lia) Hu)) as (M & -> & _). reflexivity.
Qed.
End Transform.
