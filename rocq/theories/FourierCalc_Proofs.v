(** Proofs about Fourier operators. *)
From Coq Require Import List ZArith Reals Bool Lia Lra Field.
Import ListNotations.
From Coquelicot Require Import Coquelicot.
From Verif Require Blocks_Model Blocks_Proofs MatSolvers_Proofs.
From Verif Require Import MatSolvers_Model CSR_Spec AffineCOV_Model AffineCOV_Props FourierCalc_Model FourierCalc_Spec.

(** ** Lists *)
Lemma take_all_map {A} (l : list A) d idx : (forall i, In i idx -> (i < length l)%nat) -> take_all l idx = Some (map (fun i => nth i l d) idx).
Proof.
  induction idx as [|i idx IH]; intros H; [reflexivity|]. cbn [take_all map]. rewrite (nth_error_nth' l d) by (apply H; left; reflexivity).
  rewrite IH by (intros; apply H; right; assumption). reflexivity.
Qed.
Lemma ordered_set_id l : NoDup l -> ordered_set l = l.
Proof. intros H. unfold ordered_set. rewrite nodup_fixed_point by (apply NoDup_rev; exact H). apply rev_involutive. Qed.
Lemma repeat2_app {A} (l l' : list A) : repeat2 (l ++ l') = repeat2 l ++ repeat2 l'.
Proof. unfold repeat2. rewrite map_app, concat_app. reflexivity. Qed.
Lemma repeat2_rev {A} (l : list A) : rev (repeat2 l) = repeat2 (rev l).
Proof. induction l as [|k l IH]; [reflexivity|]. cbn [rev]. rewrite repeat2_app, <- IH. change (repeat2 (k :: l)) with ([k; k] ++ repeat2 l). rewrite rev_app_distr. reflexivity. Qed.
Lemma repeat2_in {A} (l : list A) k : In k (repeat2 l) <-> In k l.
Proof.
  induction l as [|k' l IH]; [reflexivity|]. change (repeat2 (k' :: l)) with (k' :: k' :: repeat2 l). cbn [In]. rewrite IH. tauto.
Qed.
Lemma nodup_repeat2 l : NoDup l -> nodup Z.eq_dec (repeat2 l) = l.
Proof.
  intros H. induction H as [|k l Hk H IH]; [reflexivity|]. change (repeat2 (k :: l)) with (k :: k :: repeat2 l).
  cbn [nodup]. destruct (in_dec Z.eq_dec k (k :: repeat2 l)) as [_|n]; [|exfalso; apply n; left; reflexivity].
  destruct (in_dec Z.eq_dec k (repeat2 l)) as [i|_]; [exfalso; apply Hk; apply repeat2_in; exact i|]. rewrite IH. reflexivity.
Qed.
Lemma ordered_set_repeat2 l : NoDup l -> ordered_set (repeat2 l) = l.
Proof. intros H. unfold ordered_set. rewrite repeat2_rev, nodup_repeat2 by (apply NoDup_rev; exact H). apply rev_involutive. Qed.
Lemma repeat2_length {A} (l : list A) : length (repeat2 l) = (2 * length l)%nat.
Proof. induction l as [|k l IH]; [reflexivity|]. change (repeat2 (k :: l)) with (k :: k :: repeat2 l). cbn [length]. rewrite IH. lia. Qed.
Lemma repeat2_nth {A} (l : list A) d i : nth i (repeat2 l) d = nth (i / 2) l d.
Proof.
  revert i. induction l as [|k l IH]; intros i; [unfold repeat2; cbn [map concat]; generalize (i / 2)%nat; intros m; destruct i, m; reflexivity|]. change (repeat2 (k :: l)) with (k :: k :: repeat2 l).
  destruct i as [|[|i]]; [reflexivity|reflexivity|]. cbn [nth]. rewrite IH. replace (S (S i)) with (i + 1 * 2)%nat by lia. rewrite Nat.div_add by lia. rewrite Nat.add_1_r. reflexivity.
Qed.
Lemma repeat2_map {A B} (f : A -> B) l : repeat2 (map f l) = map f (repeat2 l).
Proof. induction l as [|k l IH]; [reflexivity|]. change (repeat2 (k :: l)) with (k :: k :: repeat2 l). cbn [map]. rewrite <- IH. reflexivity. Qed.
Lemma repeat2_seq a n : map (fun i => (i / 2)%nat) (seq (2 * a) (2 * n)) = repeat2 (seq a n).
Proof.
  revert a. induction n as [|n IH]; intros a; [reflexivity|]. replace (2 * S n)%nat with (S (S (2 * n))) by lia. cbn [seq map].
  change (repeat2 (a :: seq (S a) n)) with (a :: a :: repeat2 (seq (S a) n)). rewrite <- IH. replace (2 * S a)%nat with (S (S (2 * a))) by lia.
  f_equal; [rewrite Nat.mul_comm; apply Nat.div_mul; lia|]. f_equal. replace (S (2 * a)) with (1 + a * 2)%nat by lia. rewrite Nat.div_add by lia. reflexivity.
Qed.
Lemma map_nth_nodup (l : list Z) a n : NoDup l -> (a + n <= length l)%nat -> NoDup (map (fun i => nth i l 0%Z) (seq a n)).
Proof.
  intros H. revert a. induction n as [|n IH]; intros a Ha; [constructor|]. cbn [seq map]. constructor; [|apply IH; lia].
  rewrite in_map_iff. intros (i & E & Hi). apply in_seq in Hi. apply (proj1 (NoDup_nth l 0%Z) H) in E; lia.
Qed.

(** ** Sums and blocks *)
Section Field.
Context {K : Type} (k0 k1 : K) (kadd kmul ksub kdiv : K -> K -> K) (kopp kinv : K -> K).
Context (Hf : field_theory k0 k1 kadd kmul ksub kopp kdiv kinv eq).
Add Field Kf : Hf.
Notation total := (CSR_Spec.total k0 kadd).
Notation total_S := (MatSolvers_Proofs.total_S k0 k1 kadd kmul ksub kdiv kopp kinv Hf).
Notation total_ext := (MatSolvers_Proofs.total_ext k0 k1 kadd kmul ksub kdiv kopp kinv Hf).
Notation total_zero := (MatSolvers_Proofs.total_zero k0 k1 kadd kmul ksub kdiv kopp kinv Hf).
Notation total_single := (MatSolvers_Proofs.total_single k0 k1 kadd kmul ksub kdiv kopp kinv Hf).
Notation matvec := (matvec k0 kadd kmul).
Lemma total_app n m f : total (n + m) f = kadd (total n f) (total m (fun j => f (n + j)%nat)).
Proof. induction m as [|m IH]; [rewrite Nat.add_0_r; cbn [CSR_Spec.total]; change (total 0 (fun j => f (n + j)%nat)) with k0; ring|]. rewrite Nat.add_succ_r, !total_S, IH. ring. Qed.
Lemma total_blocks b n f : total (b * n) f = total n (fun p => total b (fun r => f (b * p + r)%nat)).
Proof. induction n as [|n IH]; [rewrite Nat.mul_0_r; reflexivity|]. rewrite Nat.mul_succ_r, total_app, IH, total_S. reflexivity. Qed.

Lemma diagonal_uniform b blocks B i j : (0 < b)%nat -> (forall M, In M blocks -> nr M = b /\ nc M = b) -> (i < b * length blocks)%nat ->
  diagonal_entry k0 blocks i j = if (i / b =? j / b)%nat then at_ (nth (i / b) blocks B) (i mod b) (j mod b) else k0.
Proof.
  intros Hb. revert i j. induction blocks as [|M blocks IH]; intros i j HM Hi; [cbn in Hi; lia|]. cbn [diagonal_entry].
  destruct (HM M (or_introl eq_refl)) as [-> ->]. destruct (Nat.ltb_spec i b) as [Hib|Hib]; destruct (Nat.ltb_spec j b) as [Hjb|Hjb].
  - rewrite !(Nat.div_small i), !(Nat.div_small j), !Nat.mod_small by assumption. reflexivity.
  - rewrite !(Nat.div_small i) by assumption. assert (1 <= j / b)%nat by (apply Nat.div_le_lower_bound; lia). destruct (Nat.eqb_spec 0 (j / b)); [lia|reflexivity].
  - rewrite !(Nat.div_small j) by assumption. assert (1 <= i / b)%nat by (apply Nat.div_le_lower_bound; lia). destruct (Nat.eqb_spec (i / b) 0); [lia|reflexivity].
  - assert (E : forall n, (b <= n)%nat -> (n / b = S ((n - b) / b) /\ n mod b = (n - b) mod b)%nat).
    { intros n Hn. replace n with (n - b + 1 * b)%nat at 1 3 by lia. rewrite Nat.div_add, Nat.mod_add by lia. lia. }
    destruct (E i Hib) as [-> ->], (E j Hjb) as [-> ->]. cbn [nth Nat.eqb]. apply IH; [intros; apply HM; right; assumption|cbn [length] in Hi; lia].
Qed.
Lemma all_blocks_map (f : Z -> option (mat K)) (F : Z -> mat K) gs : (forall g, In g gs -> f g = Some (F g)) -> all_blocks f gs = Some (map F gs).
Proof. induction gs as [|g gs IH]; intros H; [reflexivity|]. cbn [all_blocks map]. rewrite H by (left; reflexivity). rewrite IH by (intros; apply H; right; assumption). reflexivity. Qed.
Lemma filter_self (gs : list Z) : filter (fun g => existsb (Z.eqb g) gs) gs = gs.
Proof.
  assert (H : forall l, (forall g, In g l -> In g gs) -> filter (fun g => existsb (Z.eqb g) gs) l = l).
  { induction l as [|g l IH]; intros H; [reflexivity|]. cbn [filter]. replace (existsb (Z.eqb g) gs) with true.
    - rewrite IH by (intros; apply H; right; assumption). reflexivity.
    - symmetry. apply existsb_exists. exists g. split; [apply H; left; reflexivity|apply Z.eqb_refl]. }
  apply H. auto.
Qed.
Lemma sum_uniform b (blocks : list (mat K)) f : (forall M, In M blocks -> f M = b) -> sum_of (map f blocks) = (b * length blocks)%nat.
Proof. induction blocks as [|M blocks IH]; intros H; cbn [map sum_of fold_right length]; [lia|]. fold (sum_of (map f blocks)). rewrite IH by (intros; apply H; right; assumption). rewrite H by (left; reflexivity). lia. Qed.

(** The modes of a basis: [b] elements for each wavenumber of [ps]. *)
Definition modes (b : nat) (ps ks : list Z) (N : nat) : Prop :=
  (b = 1 /\ ks = ps \/ b = 2 /\ ks = repeat2 ps)%nat /\ NoDup ps /\ length ps = Blocks_Model.cdiv N b.
Lemma modes_nth b ps ks N i : modes b ps ks N -> nth i ks 0%Z = nth (i / b) ps 0%Z.
Proof. intros [[[-> ->]|[-> ->]] _]; [rewrite Nat.div_1_r; reflexivity|apply repeat2_nth]. Qed.
Lemma modes_length b ps ks N : modes b ps ks N -> length ks = (b * length ps)%nat.
Proof. intros [[[-> ->]|[-> ->]] _]; [lia|apply repeat2_length]. Qed.
Definition lo N b loc P q := Blocks_Proofs.ax_lo N b loc P q.
Definition cnt N b loc P q := (Blocks_Proofs.ax_hi N b loc P q - Blocks_Proofs.ax_lo N b loc P q)%nat.
Lemma within N b loc P q : (lo N b loc P q + cnt N b loc P q <= Blocks_Model.cdiv N b)%nat.
Proof. unfold lo, cnt, Blocks_Proofs.ax_lo, Blocks_Proofs.ax_hi. destruct loc; lia. Qed.
Lemma modes_groups b ps ks N loc P q : modes b ps ks N ->
  local_groups (Modes ks N b) loc P q = Some (map (fun p => nth p ps 0%Z) (seq (lo N b loc P q) (cnt N b loc P q))).
Proof.
  intros H. pose proof (modes_length _ _ _ _ H) as HL. pose proof (within N b loc P q) as Hw. unfold local_groups.
  rewrite Blocks_Proofs.axis_elements_seq. fold (cnt N b loc P q). fold (lo N b loc P q). pose proof H as [Hk [Hn Hp]].
  rewrite (take_all_map ks 0%Z).
  - f_equal. rewrite (map_ext (fun i => nth i ks 0%Z) (fun i => nth (i / b) ps 0%Z)) by (intros; apply (modes_nth b ps ks N); exact H).
    assert (Hd : NoDup (map (fun p => nth p ps 0%Z) (seq (lo N b loc P q) (cnt N b loc P q)))) by (apply map_nth_nodup; [exact Hn|rewrite Hp; exact Hw]).
    destruct Hk as [[-> _]|[-> _]].
    + rewrite !Nat.mul_1_l. rewrite (map_ext _ (fun p => nth p ps 0%Z)) by (intros; rewrite Nat.div_1_r; reflexivity). apply ordered_set_id. exact Hd.
    + rewrite <- (map_map (fun i => (i / 2)%nat) (fun p => nth p ps 0%Z)), repeat2_seq, <- repeat2_map. apply ordered_set_repeat2. exact Hd.
  - intros i Hi. apply in_seq in Hi. rewrite HL, Hp. assert (0 < b)%nat by (destruct Hk as [[-> _]|[-> _]]; lia). nia.
Qed.
Lemma modes_pos b ps ks N : modes b ps ks N -> (0 < b)%nat.
Proof. intros [[[-> _]|[-> _]] _]; lia. Qed.

Definition elements N b loc P q := Blocks_Model.axis_elements N b loc P q.
Lemma elements_nth N b loc P q i : (i < length (elements N b loc P q))%nat -> nth i (elements N b loc P q) 0%nat = (b * lo N b loc P q + i)%nat.
Proof. unfold elements. rewrite Blocks_Proofs.axis_elements_seq, seq_length. intros Hi. rewrite seq_nth by exact Hi. reflexivity. Qed.
Lemma elements_length N b loc P q : length (elements N b loc P q) = (b * cnt N b loc P q)%nat.
Proof. unfold elements. rewrite Blocks_Proofs.axis_elements_seq, seq_length. reflexivity. Qed.

(** Operators without coupling, from a basis to itself. *)
Lemma uncoupled b ps ks N loc P q (f : Z -> option (mat K)) (F : Z -> mat K) : modes b ps ks N -> (forall g, f g = Some (F g)) -> (forall g, nr (F g) = b /\ nc (F g) = b) ->
  exists M, subspace_matrix k0 f (Modes ks N b) (Modes ks N b) loc P q = Some M /\ nr M = length (elements N b loc P q) /\ nc M = length (elements N b loc P q)
    /\ forall c i, (i < length (elements N b loc P q))%nat -> let e := nth i (elements N b loc P q) 0%nat in
       matvec M (fun j => c (nth j (elements N b loc P q) 0%nat)) i = total b (fun r => kmul (at_ (F (nth (e / b) ps 0%Z)) (e mod b) r) (c (b * (e / b) + r)%nat)).
Proof.
  intros H Hf1 Hs. pose proof (modes_pos _ _ _ _ H) as Hb. unfold subspace_matrix. rewrite (modes_groups b ps ks N loc P q H), filter_self.
  set (gs := map (fun p => nth p ps 0%Z) (seq (lo N b loc P q) (cnt N b loc P q))).
  rewrite (all_blocks_map f F gs) by (intros; apply Hf1). cbn [local_elements]. fold (elements N b loc P q).
  assert (Hl : length (map F gs) = cnt N b loc P q) by (unfold gs; rewrite !map_length, seq_length; reflexivity).
  assert (Hu : forall M, In M (map F gs) -> nr M = b /\ nc M = b) by (intros M HM; apply in_map_iff in HM; destruct HM as (g & <- & _); apply Hs).
  unfold sparse_block_diag. rewrite (sum_uniform b (map F gs) nr), (sum_uniform b (map F gs) nc) by (intros M HM; apply Hu; exact HM).
  rewrite Hl. cbn [fst snd]. rewrite elements_length, Nat.leb_refl. cbn [andb]. eexists. split; [reflexivity|]. split; [reflexivity|]. split; [reflexivity|].
  intros c i Hi. set (e := nth i (elements N b loc P q) 0%nat). unfold MatSolvers_Model.matvec. cbn [nc at_]. change (msum k0 kadd (b * cnt N b loc P q)) with (total (b * cnt N b loc P q)).
  rewrite total_blocks. rewrite (total_single (cnt N b loc P q) (i / b)).
  - assert (Ee : e = (b * lo N b loc P q + i)%nat) by (apply elements_nth; rewrite elements_length; exact Hi).
    assert (Ed : (e / b = lo N b loc P q + i / b)%nat) by (rewrite Ee, Nat.mul_comm, Nat.div_add_l by lia; reflexivity).
    assert (Em : (e mod b = i mod b)%nat) by (rewrite Ee, Nat.add_comm, Nat.mul_comm, Nat.mod_add by lia; reflexivity).
    apply total_ext. intros r Hr. rewrite (diagonal_uniform b (map F gs) (F 0%Z)) by (assumption || rewrite Hl; exact Hi).
    replace ((b * (i / b) + r) / b)%nat with (i / b)%nat by (rewrite Nat.mul_comm, Nat.div_add_l, (Nat.div_small r b) by lia; lia).
    replace ((b * (i / b) + r) mod b)%nat with r by (rewrite Nat.add_comm, Nat.mul_comm, Nat.mod_add, (Nat.mod_small r b) by lia; reflexivity).
    rewrite Nat.eqb_refl, (map_nth F). assert (Hq : (i / b < cnt N b loc P q)%nat) by (apply Nat.div_lt_upper_bound; lia).
    assert (Eg : nth (i / b) gs 0%Z = nth (e / b) ps 0%Z).
    { unfold gs. rewrite (nth_indep _ 0%Z (nth (length ps) ps 0%Z)) by (rewrite map_length, seq_length; exact Hq).
      rewrite (map_nth (fun p => nth p ps 0%Z)). rewrite seq_nth by exact Hq. rewrite Ed. reflexivity. }
    rewrite Eg, Em. f_equal. f_equal. assert (b * (i / b) + r < b * cnt N b loc P q)%nat by nia.
    rewrite elements_nth by (rewrite elements_length; assumption). rewrite Ed. nia.
  - apply Nat.div_lt_upper_bound; lia.
  - intros p Hp Hne. apply total_zero. intros r Hr. rewrite (diagonal_uniform b (map F gs) (F 0%Z)) by (assumption || rewrite Hl; exact Hi).
    replace ((b * p + r) / b)%nat with p by (rewrite Nat.mul_comm, Nat.div_add_l, (Nat.div_small r b) by lia; lia).
    destruct (Nat.eqb_spec (i / b) p); [congruence|]. ring.
Qed.

(** ** Constants *)
Lemma constant_groups loc P q : (0 < P)%nat -> local_groups Constant loc P q = Some (0%Z :: nil).
Proof.
  intros HP. unfold local_groups. rewrite Blocks_Proofs.axis_elements_seq. unfold Blocks_Proofs.ax_lo, Blocks_Proofs.ax_hi. destruct loc; [reflexivity|].
  change (Blocks_Model.cdiv 1 1) with 1%nat. rewrite Nat.mul_0_r. replace (Blocks_Model.cdiv 1 P) with 1%nat; [reflexivity|].
  unfold Blocks_Model.cdiv. replace (1 + P - 1)%nat with (1 * P)%nat by lia. rewrite Nat.div_mul by lia. reflexivity.
Qed.
Definition owner (loc : bool) (q : nat) : bool := loc || (q =? 0)%nat.
Lemma constant_elements loc P q : (0 < P)%nat -> Blocks_Model.axis_elements 1 1 loc P q = if owner loc q then (0%nat :: nil) else [].
Proof.
  intros HP. rewrite Blocks_Proofs.axis_elements_seq. unfold Blocks_Proofs.ax_lo, Blocks_Proofs.ax_hi, owner. destruct loc; [reflexivity|].
  change (Blocks_Model.cdiv 1 1) with 1%nat. replace (Blocks_Model.cdiv 1 P) with 1%nat.
  - destruct q as [|q]; [reflexivity|]. cbn [orb Nat.eqb]. rewrite !Nat.mul_1_l, !(Nat.min_l 1) by lia. reflexivity.
  - unfold Blocks_Model.cdiv. replace (1 + P - 1)%nat with (1 * P)%nat by lia. rewrite Nat.div_mul by lia. reflexivity.
Qed.
Lemma owner_range N b loc P q : (0 < N)%nat -> (0 < b)%nat -> (0 < P)%nat ->
  if owner loc q then lo N b loc P q = 0%nat /\ (0 < cnt N b loc P q)%nat else (0 < lo N b loc P q)%nat.
Proof.
  intros HN Hb HP. pose proof (Blocks_Proofs.cdiv_pos N b Hb HN) as H1. pose proof (Blocks_Proofs.cdiv_pos _ P HP H1) as H2.
  unfold owner, lo, cnt, Blocks_Proofs.ax_lo, Blocks_Proofs.ax_hi. destruct loc; cbn [orb]; [lia|]. destruct (Nat.eqb_spec q 0) as [->|Hq]; [lia|]. nia.
Qed.
Lemma filter_zero ps a n : NoDup ps -> nth 0 ps 0%Z = 0%Z -> (a + n <= length ps)%nat ->
  filter (fun g => existsb (Z.eqb g) (0%Z :: nil)) (map (fun p => nth p ps 0%Z) (seq a n)) = if (a =? 0)%nat && (0 <? n)%nat then (0%Z :: nil) else [].
Proof.
  intros Hn H0. assert (E : forall n a, (0 < a)%nat -> (a + n <= length ps)%nat -> filter (fun g => existsb (Z.eqb g) (0%Z :: nil)) (map (fun p => nth p ps 0%Z) (seq a n)) = []).
  { clear a n. intros n. induction n as [|n IH]; intros a Ha Hl; [reflexivity|]. cbn [seq map filter existsb]. rewrite IH by lia.
    destruct (Z.eqb_spec (nth a ps 0%Z) 0) as [E|E]; [|reflexivity]. exfalso. rewrite <- H0 in E at 2. apply (proj1 (NoDup_nth ps 0%Z) Hn) in E; lia. }
  intros Hl. destruct a as [|a]; [|cbn [Nat.eqb andb]; apply E; lia]. destruct n as [|n]; [reflexivity|]. cbn [seq map Nat.eqb andb]. cbn [filter]. rewrite H0. cbn. f_equal. apply E; lia.
Qed.
(** From a basis to constants. *)
Lemma reduction b ps ks N loc P q (f : Z -> option (mat K)) (F : mat K) : modes b ps ks N -> (0 < N)%nat -> (0 < P)%nat -> nth 0 ps 0%Z = 0%Z ->
  f 0%Z = Some F -> nr F = 1%nat -> nc F = b -> (forall j, (0 < j)%nat -> (j < b)%nat -> at_ F 0 j = k0) ->
  exists M, subspace_matrix k0 f (Modes ks N b) Constant loc P q = Some M /\ nr M = (if owner loc q then 1 else 0)%nat /\ nc M = length (elements N b loc P q)
    /\ forall c, owner loc q = true -> matvec M (fun j => c (nth j (elements N b loc P q) 0%nat)) 0%nat = kmul (at_ F 0 0) (c 0%nat).
Proof.
  intros H HN HP H0 Hf1 Hr Hc Hz. pose proof (modes_pos _ _ _ _ H) as Hb. pose proof (within N b loc P q) as Hw. pose proof H as (_ & Hn & Hp).
  unfold subspace_matrix. rewrite (modes_groups b ps ks N loc P q H), constant_groups by exact HP. rewrite filter_zero by (assumption || rewrite Hp; exact Hw).
  pose proof (owner_range N b loc P q HN Hb HP) as Ho. cbn [local_elements]. fold (elements N b loc P q). rewrite constant_elements by exact HP.
  destruct (owner loc q).
  - destruct Ho as [Ho Hcnt]. rewrite Ho. destruct (Nat.ltb_spec 0 (cnt N b loc P q)); [|lia]. cbn [Nat.eqb andb all_blocks]. rewrite Hf1.
    unfold sparse_block_diag. cbn [map sum_of fold_right fst snd length]. rewrite Hr, Hc, !Nat.add_0_r. rewrite elements_length.
    destruct (Nat.leb_spec b (b * cnt N b loc P q)); [|nia]. cbn [Nat.leb andb]. eexists. split; [reflexivity|]. split; [reflexivity|]. split; [reflexivity|].
    intros c _. unfold MatSolvers_Model.matvec. cbn [nc at_]. change (msum k0 kadd (b * cnt N b loc P q)) with (total (b * cnt N b loc P q)). rewrite (total_single _ 0%nat).
    + cbn [diagonal_entry]. rewrite Hr, Hc. destruct (Nat.ltb_spec 0 b); [|lia]. change (0 <? 1)%nat with true; cbv iota. rewrite elements_nth by (rewrite elements_length; nia). rewrite Ho, Nat.mul_0_r. reflexivity.
    + nia.
    + intros j Hj Hne. cbn [diagonal_entry]. rewrite Hr, Hc. change (0 <? 1)%nat with true; cbv iota. destruct (Nat.ltb_spec j b); [rewrite Hz by lia|]; ring.
  - destruct (Nat.eqb_spec (lo N b loc P q) 0); [lia|]. cbn [andb all_blocks]. unfold sparse_block_diag. cbn [map sum_of fold_right fst snd Nat.leb andb length].
    eexists. split; [reflexivity|]. split; [reflexivity|]. split; [reflexivity|]. discriminate.
Qed.
(** From constants to a basis. *)
Lemma extension b ps ks N loc P q (f : Z -> option (mat K)) (F : mat K) : modes b ps ks N -> (0 < N)%nat -> (0 < P)%nat -> nth 0 ps 0%Z = 0%Z ->
  f 0%Z = Some F -> nr F = b -> nc F = 1%nat -> (forall i, (0 < i)%nat -> (i < b)%nat -> at_ F i 0 = k0) ->
  exists M, subspace_matrix k0 f Constant (Modes ks N b) loc P q = Some M /\ nr M = length (elements N b loc P q) /\ nc M = (if owner loc q then 1 else 0)%nat
    /\ forall v i, (i < length (elements N b loc P q))%nat -> matvec M (fun _ => v) i = if (nth i (elements N b loc P q) 0%nat =? 0)%nat then kmul (at_ F 0 0) v else k0.
Proof.
  intros H HN HP H0 Hf1 Hr Hc Hz. pose proof (modes_pos _ _ _ _ H) as Hb. pose proof (within N b loc P q) as Hw. pose proof H as (_ & Hn & Hp).
  unfold subspace_matrix. rewrite (modes_groups b ps ks N loc P q H), constant_groups by exact HP. cbn [filter].
  pose proof (owner_range N b loc P q HN Hb HP) as Ho. cbn [local_elements]. fold (elements N b loc P q). rewrite constant_elements by exact HP.
  set (gs := map (fun p => nth p ps 0%Z) (seq (lo N b loc P q) (cnt N b loc P q))). assert (E : existsb (Z.eqb 0) gs = owner loc q).
  { destruct (owner loc q).
    - apply existsb_exists. exists 0%Z. split; [|reflexivity]. unfold gs. apply in_map_iff. exists 0%nat. split; [exact H0|]. apply in_seq. lia.
    - destruct (existsb (Z.eqb 0) gs) eqn:E; [|reflexivity]. exfalso. apply existsb_exists in E. destruct E as (g & Hg & Eg). apply Z.eqb_eq in Eg. subst g.
      unfold gs in Hg. apply in_map_iff in Hg. destruct Hg as (p & E & Hi). apply in_seq in Hi. rewrite <- H0 in E at 2. apply (proj1 (NoDup_nth ps 0%Z) Hn) in E; lia. }
  rewrite E. destruct (owner loc q).
  - destruct Ho as [Ho Hcnt]. cbn [all_blocks]. rewrite Hf1.
    unfold sparse_block_diag. cbn [map sum_of fold_right fst snd length]. rewrite Hr, Hc, !Nat.add_0_r. rewrite elements_length.
    destruct (Nat.leb_spec b (b * cnt N b loc P q)); [|nia]. cbn [Nat.leb andb]. eexists. split; [reflexivity|]. split; [reflexivity|]. split; [reflexivity|].
    intros v i Hi. unfold MatSolvers_Model.matvec. cbn [nc at_]. change (msum k0 kadd 1) with (total 1). rewrite (total_single 1 0%nat) by lia.
    cbn [diagonal_entry]. rewrite Hr, Hc. change (0 <? 1)%nat with true; cbv iota. rewrite elements_nth by (rewrite elements_length; exact Hi). rewrite Ho, Nat.mul_0_r, Nat.add_0_l.
    destruct (Nat.eqb_spec i 0) as [->|Hi0]; [destruct (Nat.ltb_spec 0 b); [reflexivity|lia]|]. destruct (Nat.ltb_spec i b); [rewrite Hz by lia|]; ring.
  - cbn [all_blocks]. unfold sparse_block_diag. cbn [map sum_of fold_right fst snd Nat.leb andb length].
    eexists. split; [reflexivity|]. split; [reflexivity|]. split; [reflexivity|]. intros v i Hi. rewrite elements_nth by exact Hi.
    destruct (Nat.eqb_spec (b * lo N b loc P q + i) 0); [nia|]. reflexivity.
Qed.
End Field.
