(** Proofs about sparse and dense application along an axis. *)
From Coq Require Import List Arith Lia Ring_theory Field_theory Ring Field.
Import ListNotations.
From Verif Require Import CSR_Model CSR_Spec.

Ltac lebs := repeat match goal with |- context [?a <=? ?b] => destruct (Nat.leb_spec a b) | |- context [?a <? ?b] => destruct (Nat.ltb_spec a b) end; cbn [andb]; try lia.
(** ** Interleavings *)
Lemma interleaves_single {A} (l order : list A) : interleaves [l] order -> order = l.
Proof.
  revert l. induction order as [|a order IH]; intros l H; inversion H as [ls Hn|l1 b l' l2 o Hi E]; subst.
  - inversion Hn; subst. congruence.
  - destruct l1 as [|? [|? ?]]; cbn in *; [|discriminate|discriminate]. injection E as E1 E2. subst. f_equal. now apply IH.
Qed.

Section Writes.
  Context {K : Type}.
  Notation write := (@write K).
  Notation buffer := (@buffer K).
  Lemma upd_eq (b : buffer) p v : upd b p v p = v.
  Proof. unfold upd. now rewrite Nat.eqb_refl. Qed.
  Lemma upd_ne (b : buffer) p q v : q <> p -> upd b p v q = b q.
  Proof. intros H. unfold upd. apply Nat.eqb_neq in H. now rewrite H. Qed.
  Lemma run_app (l l' : list write) b : run (l ++ l') b = run l' (run l b).
  Proof. unfold run. apply fold_left_app. Qed.

  Definition agree (P : nat -> Prop) (b b' : buffer) : Prop := forall p, P p -> b p = b' p.
  Definition confined (P : nat -> Prop) (w : write) : Prop := P (fst w) /\ forall b b', agree P b b' -> snd w b = snd w b'.
  Lemma interleave_region (P : nat -> Prop) ls order : interleaves ls order -> forall h l b b', nth_error ls h = Some l -> Forall (confined P) l ->
    (forall h' l', h' <> h -> nth_error ls h' = Some l' -> Forall (fun w => ~ P (fst w)) l') -> agree P b b' -> agree P (run order b) (run l b').
  Proof.
    intros Hi. induction Hi as [ls Hn|l1 w l0 l2 order Hi IH]; intros h l b b' Hh Hc Ho Ha.
    - assert (l = []) as ->. { rewrite Forall_forall in Hn. apply Hn. eapply nth_error_In; eauto. } exact Ha.
    - destruct (Nat.eq_dec h (length l1)) as [->|Hne].
      + rewrite nth_error_app2, Nat.sub_diag in Hh by lia. cbn in Hh. injection Hh as <-. inversion Hc as [|? ? Hw Hc']; subst. cbn.
        apply (IH (length l1)); [rewrite nth_error_app2, Nat.sub_diag by lia; reflexivity|assumption| |].
        * intros h' l' Hn Hl. apply (Ho h' l' Hn). destruct (Nat.lt_ge_cases h' (length l1)).
          -- rewrite nth_error_app1 in * by lia. assumption.
          -- rewrite nth_error_app2 in * by lia. destruct (h' - length l1) eqn:E; [lia|]. exact Hl.
        * intros p Hp. destruct Hw as [_ Hw]. unfold upd. destruct (p =? fst w); [now apply Hw|now apply Ha].
      + assert (Hw : ~ P (fst w)).
        { specialize (Ho (length l1) (w :: l0) (not_eq_sym Hne)). rewrite nth_error_app2, Nat.sub_diag in Ho by lia. specialize (Ho eq_refl). now inversion Ho. }
        cbn. apply (IH h); [|assumption| |].
        * destruct (Nat.lt_ge_cases h (length l1)); [rewrite nth_error_app1 in * by lia; assumption|]. rewrite nth_error_app2 in * by lia. destruct (h - length l1) eqn:E; [lia|]. exact Hh.
        * intros h' l' Hn Hl. destruct (Nat.eq_dec h' (length l1)) as [->|Hne'].
          -- rewrite nth_error_app2, Nat.sub_diag in Hl by lia. cbn in Hl. injection Hl as <-. specialize (Ho (length l1) (w :: l0) Hn).
             rewrite nth_error_app2, Nat.sub_diag in Ho by lia. specialize (Ho eq_refl). now inversion Ho.
          -- apply (Ho h' l' Hn). destruct (Nat.lt_ge_cases h' (length l1)); [rewrite nth_error_app1 in * by lia; assumption|]. rewrite nth_error_app2 in * by lia. destruct (h' - length l1) eqn:E; [lia|]. exact Hl.
        * intros p Hp. rewrite upd_ne; [now apply Ha|]. intros ->. contradiction.
  Qed.

  (** One write to each position of a block, each reading its own position and positions out of the block. *)
  Lemma run_block base N (f : nat -> buffer -> K) n b : n <= N ->
    (forall k b b', k < N -> b (base + k) = b' (base + k) -> (forall q, ~ (base <= q < base + N) -> b q = b' q) -> f k b = f k b') ->
    forall p, run (map (fun k => (base + k, f k)) (seq 0 n)) b p = if andb (base <=? p) (p <? base + n) then f (p - base) b else b p.
  Proof.
    intros Hn Hf. induction n as [|n IH]; intros p.
    - cbn [seq map run fold_left]. lebs; reflexivity.
    - rewrite seq_S, map_app, run_app. cbn [map run fold_left fst snd plus]. unfold upd. destruct (Nat.eqb_spec p (base + n)) as [->|Hne].
      + lebs. replace (base + n - base) with n by lia.
        apply Hf; [lia| |].
        * rewrite IH by lia. lebs; reflexivity.
        * intros q Hq. rewrite IH by lia. lebs; reflexivity.
      + rewrite IH by lia. lebs; reflexivity.
  Qed.
  (** Rounds of such writes, each adding to the block a combination of itself and of another row. *)
  Lemma run_rounds base N (op : K -> K -> K) (g : nat -> nat -> buffer -> K) js b :
    (forall jj k b b', In jj js -> k < N -> (forall q, ~ (base <= q < base + N) -> b q = b' q) -> g jj k b = g jj k b') ->
    (forall k, k < N -> run (flat_map (fun jj => map (fun k => (base + k, fun y => op (y (base + k)) (g jj k y))) (seq 0 N)) js) b (base + k)
                        = fold_left (fun s jj => op s (g jj k b)) js (b (base + k)))
    /\ (forall q, ~ (base <= q < base + N) -> run (flat_map (fun jj => map (fun k => (base + k, fun y => op (y (base + k)) (g jj k y))) (seq 0 N)) js) b q = b q).
  Proof.
    revert b. induction js as [|jj js IH]; intros b Hg; [split; reflexivity|]. cbn [flat_map fold_left].
    set (b1 := run (map (fun k => (base + k, fun y => op (y (base + k)) (g jj k y))) (seq 0 N)) b).
    assert (H1 : forall p, b1 p = if andb (base <=? p) (p <? base + N) then op (b (base + (p - base))) (g jj (p - base) b) else b p).
    { intros p. unfold b1. rewrite (run_block base N (fun k y => op (y (base + k)) (g jj k y))); [reflexivity|lia|].
      intros k c c' Hk Hc Hq. rewrite Hc. f_equal. apply Hg; [now left|assumption|assumption]. }
    assert (Hout : forall q, ~ (base <= q < base + N) -> b1 q = b q).
    { intros q Hq. rewrite H1. lebs; reflexivity. }
    destruct (IH b1) as [I1 I2]; [intros jj' k c c' Hin; apply Hg; now right|]. split.
    - intros k Hk. rewrite run_app. fold b1. rewrite I1 by lia. rewrite H1. lebs.
      replace (base + k - base) with k by lia. assert (E : forall l s, incl l js -> fold_left (fun s jj => op s (g jj k b1)) l s = fold_left (fun s jj => op s (g jj k b)) l s).
      { induction l as [|j l IHl]; intros s Hl; [reflexivity|]. cbn. rewrite (Hg j k b1 b); [apply IHl; intros y Hy; apply Hl; now right|right; apply Hl; now left|lia|assumption]. }
      apply E, incl_refl.
    - intros q Hq. rewrite run_app. fold b1. rewrite I2 by assumption. now apply Hout.
  Qed.
End Writes.

Lemma Forall2_length {A B} (P : A -> B -> Prop) l l' : Forall2 P l l' -> length l = length l'.
Proof. induction 1; cbn; congruence. Qed.
Lemma nth_error_seq n h q : nth_error (seq 0 n) h = Some q -> q = h /\ h < n.
Proof.
  intros E. assert (H : h < n). { destruct (Nat.lt_ge_cases h n); [assumption|]. rewrite (proj2 (nth_error_None _ _)) in E by (rewrite seq_length; lia). discriminate. }
  split; [|assumption]. apply (nth_error_nth _ _ 0) in E. rewrite seq_nth in E by lia. lia.
Qed.
(** ** Positions *)
Lemma prod_size l : prod l = size l.
Proof.
  unfold prod. assert (E : forall l a, fold_left Nat.mul l a = a * size l). { clear. induction l as [|n l IH]; intros a; cbn; [lia|]. rewrite IH. lia. }
  rewrite E. lia.
Qed.
Lemma flat_split pre preidx shape idx : length pre = length preidx -> flat (pre ++ shape) (preidx ++ idx) = flat pre preidx * size shape + flat shape idx.
Proof.
  revert preidx. induction pre as [|n pre IH]; intros [|i preidx] Hl; cbn in *; try lia. rewrite IH by lia.
  assert (E : size (pre ++ shape) = size pre * size shape). { clear. induction pre as [|m pre IH]; cbn; [lia|]. rewrite IH. lia. }
  rewrite E. lia.
Qed.
Lemma flat_lt shape idx : in_shape shape idx -> flat shape idx < size shape.
Proof.
  induction 1 as [|n i shape idx Hi _ IH]; cbn; [lia|]. destruct n as [|n]; [lia|].
  assert (i * size shape <= n * size shape) by (apply Nat.mul_le_mono_r; lia). cbn. lia.
Qed.
(** The position of an index is given by a block before, the index on the axis, and a position after. *)
Lemma flat_axis shape axis n idx j : axis < length shape -> length idx = length shape ->
  flat (replace axis shape n) (replace axis idx j) = (flat (firstn axis shape) (firstn axis idx) * n + j) * size (skipn (S axis) shape) + flat (skipn (S axis) shape) (skipn (S axis) idx).
Proof.
  intros Ha Hl. unfold replace. rewrite flat_split by (rewrite !firstn_length; lia). cbn [flat size]. lia.
Qed.
Lemma replace_same axis l : axis < length l -> replace axis l (nth axis l 0) = l.
Proof. intros H. unfold replace. revert l H. induction axis as [|axis IH]; intros [|x l] H; cbn in *; try lia; [reflexivity|]. f_equal. apply IH. lia. Qed.
Lemma replace_length axis l j : axis < length l -> length (replace axis l j) = length l.
Proof. intros H. unfold replace. rewrite app_length, firstn_length. cbn [length]. rewrite skipn_length. lia. Qed.
Lemma replace_replace axis l j k : axis < length l -> replace axis (replace axis l j) k = replace axis l k.
Proof.
  intros H. unfold replace. rewrite firstn_app, firstn_firstn, Nat.min_id, firstn_length, Nat.min_l, Nat.sub_diag by lia. cbn [firstn]. rewrite app_nil_r. f_equal. f_equal.
  rewrite skipn_app, firstn_length, Nat.min_l by lia. replace (S axis - axis) with 1 by lia.
  rewrite (skipn_all2 (firstn axis l)) by (rewrite firstn_length; lia). reflexivity.
Qed.
Lemma nth_replace axis l j : axis < length l -> nth axis (replace axis l j) 0 = j.
Proof. intros H. unfold replace. rewrite app_nth2; rewrite firstn_length, Nat.min_l by lia; [|lia]. now rewrite Nat.sub_diag. Qed.
Lemma in_shape_axis shape axis n idx : axis < length shape -> in_shape (replace axis shape n) idx ->
  length idx = length shape /\ in_shape (firstn axis shape) (firstn axis idx) /\ nth axis idx 0 < n /\ in_shape (skipn (S axis) shape) (skipn (S axis) idx).
Proof.
  intros Ha H. unfold replace in H. pose proof (Forall2_length _ _ _ H) as Hl. rewrite app_length, firstn_length in Hl. cbn [length] in Hl. rewrite skipn_length in Hl.
  apply Forall2_app_inv_l in H as (l1 & l2 & H1 & H2 & ->). pose proof (Forall2_length _ _ _ H1) as L1. rewrite firstn_length, Nat.min_l in L1 by lia.
  inversion H2 as [|? i ? l3 Hi H3]; subst l2 x l. rewrite app_length in *. cbn [length] in *. split; [lia|].
  assert (E1 : firstn axis (l1 ++ i :: l3) = l1) by (rewrite firstn_app, firstn_all2 by lia; replace (axis - length l1) with 0 by lia; apply app_nil_r).
  assert (E2 : nth axis (l1 ++ i :: l3) 0 = i) by (rewrite app_nth2 by lia; replace (axis - length l1) with 0 by lia; reflexivity).
  assert (E3 : skipn (S axis) (l1 ++ i :: l3) = l3) by (rewrite skipn_app, (skipn_all2 l1) by lia; replace (S axis - length l1) with 1 by lia; reflexivity).
  rewrite E1, E2, E3. repeat split; assumption.
Qed.

Section Field.
  Context {K : Type} (k0 k1 : K) (kadd kmul ksub : K -> K -> K) (kopp : K -> K) (kdiv : K -> K -> K) (kinv : K -> K).
  Context (Hf : field_theory k0 k1 kadd kmul ksub kopp kdiv kinv (@eq K)).
  Add Field KField : Hf.
  Notation "a +k b" := (kadd a b) (at level 50, left associativity).
  Notation "a *k b" := (kmul a b) (at level 40, left associativity).
  Notation entry := (entry k0 kadd).
  Notation total := (total k0 kadd).
  Implicit Types m : csr K.

  Lemma total_ext n f g : (forall j, j < n -> f j = g j) -> total n f = total n g.
  Proof.
    intros H. unfold CSR_Spec.total. assert (E : forall l, (forall j, In j l -> f j = g j) -> fold_right (fun j s => f j +k s) k0 l = fold_right (fun j s => g j +k s) k0 l).
    { induction l as [|j l IH]; intros Hl; [reflexivity|]. cbn. rewrite Hl by (now left). f_equal. apply IH. intros. apply Hl. now right. }
    apply E. intros j Hj. apply in_seq in Hj. apply H. lia.
  Qed.
  (** The loop over a row, as a sum over its entries. *)
  Definition row_total (l : list nat) m (x : nat -> K) : K := fold_right (fun jj s => (Ax m jj *k x (Aj m jj)) +k s) k0 l.
  Lemma row_dense m cols x l : (forall jj, In jj l -> Aj m jj < cols) ->
    total cols (fun j => fold_right (fun jj s => (if Aj m jj =? j then Ax m jj else k0) +k s) k0 l *k x j) = row_total l m x.
  Proof.
    induction l as [|jj l IH]; intros Hl.
    - cbn. unfold CSR_Spec.total. induction (seq 0 cols) as [|j js IHj]; cbn; [reflexivity|]. rewrite IHj. ring.
    - cbn [row_total fold_right]. fold (row_total l m x). rewrite <- IH by (intros; apply Hl; now right). specialize (Hl jj (or_introl eq_refl)). unfold CSR_Spec.total.
      set (r := fun j => fold_right (fun jj s => (if Aj m jj =? j then Ax m jj else k0) +k s) k0 l).
      assert (E : forall js, NoDup js -> fold_right (fun j s => ((if Aj m jj =? j then Ax m jj else k0) +k r j) *k x j +k s) k0 js
                   = (if in_dec Nat.eq_dec (Aj m jj) js then Ax m jj *k x (Aj m jj) else k0) +k fold_right (fun j s => r j *k x j +k s) k0 js).
      { induction js as [|j js IHj]; intros Hd; [cbn; ring|]. inversion Hd as [|? ? Hn Hd']; subst. cbn [fold_right]. rewrite IHj by assumption.
        destruct (Nat.eqb_spec (Aj m jj) j) as [E|E].
        - destruct (in_dec Nat.eq_dec (Aj m jj) js) as [Hi|Hi]; [rewrite E in Hi; contradiction|]. destruct (in_dec Nat.eq_dec (Aj m jj) (j :: js)) as [Hi'|Hi']; [|exfalso; apply Hi'; now left].
          rewrite E. ring.
        - destruct (in_dec Nat.eq_dec (Aj m jj) js) as [Hi|Hi], (in_dec Nat.eq_dec (Aj m jj) (j :: js)) as [Hi'|Hi']; try ring.
          + exfalso. apply Hi'. now right.
          + destruct Hi' as [Hi'|Hi']; congruence. }
      rewrite E by apply seq_NoDup. destruct (in_dec Nat.eq_dec (Aj m jj) (seq 0 cols)) as [Hi|Hi]; [reflexivity|]. exfalso. apply Hi, in_seq. lia.
  Qed.
  Lemma loop_total m x l a : fold_left (fun s jj => s +k (Ax m jj *k x (Aj m jj))) l a = a +k row_total l m x.
  Proof. revert a. induction l as [|jj l IH]; intros a; cbn; [ring|]. rewrite IH. unfold row_total. ring. Qed.
  Lemma loop_sub m x l a : fold_left (fun s jj => ksub s (Ax m jj *k x (Aj m jj))) l a = ksub a (row_total l m x).
  Proof. revert a. induction l as [|jj l IH]; intros a; cbn; [ring|]. rewrite IH. unfold row_total. ring. Qed.
  Lemma row_total_app m x l l' : row_total (l ++ l') m x = row_total l m x +k row_total l' m x.
  Proof. unfold row_total. induction l as [|jj l IH]; cbn; [ring|]. rewrite IH. ring. Qed.
  Lemma row_total_rev m x l : row_total (rev l) m x = row_total l m x.
  Proof. induction l as [|jj l IH]; [reflexivity|]. cbn [rev]. rewrite row_total_app, IH. unfold row_total. cbn [fold_right]. ring. Qed.
  Lemma row_total_ext m x x' l : (forall jj, In jj l -> x (Aj m jj) = x' (Aj m jj)) -> row_total l m x = row_total l m x'.
  Proof. induction l as [|jj l IH]; intros H; [reflexivity|]. cbn. rewrite H by (now left). f_equal. apply IH. intros. apply H. now right. Qed.
  Lemma row_entry m rows cols i x : csr_valid m rows cols -> i < rows -> row_total (range (Ap m i) (Ap m (i + 1))) m x = total cols (fun j => entry m i j *k x j).
  Proof. intros Hv Hi. symmetry. apply row_dense. intros jj Hjj. apply in_seq in Hjj. destruct (Hv i Hi) as [Hle Hc]. apply Hc. lia. Qed.

  (** *** Products *)
  Lemma apply_last_value m nb ni nr x y order h i : interleaves (apply_csr_last k0 kadd kmul m nb ni nr x) order -> h < nb -> i < nr ->
    run order y (h * nr + i) = row_total (range (Ap m i) (Ap m (i + 1))) m (fun j => x (h * ni + j)).
  Proof.
    intros Ho Hh Hi. set (hi := h * nr + i). assert (Hlt : hi < nb * nr). { unfold hi. assert (h * nr + nr <= nb * nr) by (rewrite <- Nat.mul_succ_l; apply Nat.mul_le_mono_r; lia). lia. }
    assert (Hd : hi / nr = h) by (unfold hi; rewrite Nat.add_comm, Nat.div_add, Nat.div_small by lia; lia).
    assert (Hm : hi mod nr = i) by (unfold hi; rewrite Nat.add_comm, Nat.mod_add, Nat.mod_small by lia; lia).
    set (P := fun p => p = hi). set (l := [(hi, fun _ : buffer => row_sum k0 kadd kmul m i (fun j => x (h * ni + j)))] : list (@write K)).
    assert (Hag : agree P (run order y) (run l y)).
    { apply (interleave_region P _ _ Ho hi).
      - unfold apply_csr_last. rewrite nth_error_map, nth_error_nth' with (d := 0) by (rewrite seq_length; lia). rewrite seq_nth by lia. cbn -[Nat.div Nat.modulo]. now rewrite Hd, Hm.
      - repeat constructor.
      - intros h' l' Hne Hl. unfold apply_csr_last in Hl. rewrite nth_error_map in Hl. destruct (nth_error _ h') as [q|] eqn:E; [|discriminate]. cbn -[Nat.div Nat.modulo] in Hl. injection Hl as <-.
        apply nth_error_seq in E as [-> _].
        constructor; [|constructor]. cbn -[Nat.div Nat.modulo]. unfold P. intros E'. apply Hne. rewrite <- E'. rewrite (Nat.mul_comm (h' / nr)). apply Nat.div_mod. lia.
      - intros p _. reflexivity. }
    rewrite (Hag hi eq_refl). unfold l. cbn. rewrite upd_eq. unfold row_sum. rewrite (loop_total m (fun j => x (h * ni + j))). ring.
  Qed.
  Lemma apply_mid_value m nb ni nr na x y order h i k : interleaves (apply_csr_mid k0 kadd kmul m nb ni nr na x) order -> h < nb -> i < nr -> k < na ->
    run order y ((h * nr + i) * na + k) = row_total (range (Ap m i) (Ap m (i + 1))) m (fun j => x ((h * ni + j) * na + k)).
  Proof.
    intros Ho Hh Hi Hk. set (hi := h * nr + i). assert (Hlt : hi < nb * nr). { unfold hi. assert (h * nr + nr <= nb * nr) by (rewrite <- Nat.mul_succ_l; apply Nat.mul_le_mono_r; lia). lia. }
    assert (Hd : hi / nr = h) by (unfold hi; rewrite Nat.add_comm, Nat.div_add, Nat.div_small by lia; lia).
    assert (Hm : hi mod nr = i) by (unfold hi; rewrite Nat.add_comm, Nat.mod_add, Nat.mod_small by lia; lia).
    set (P := fun p => hi * na <= p < hi * na + na).
    set (lz := map (fun k => (hi * na + k, fun _ => k0)) (seq 0 na) : list (@write K)).
    set (la := flat_map (fun jj => map (fun k => (hi * na + k, fun y => y (hi * na + k) +k (Ax m jj *k x ((h * ni + Aj m jj) * na + k)))) (seq 0 na)) (range (Ap m i) (Ap m (i + 1))) : list (@write K)).
    set (l := lz ++ la).
    assert (Hag : agree P (run order y) (run l y)).
    { apply (interleave_region P _ _ Ho hi).
      - unfold apply_csr_mid. rewrite nth_error_map, nth_error_nth' with (d := 0) by (rewrite seq_length; lia). rewrite seq_nth by lia. cbn -[Nat.div Nat.modulo]. now rewrite Hd, Hm.
      - apply Forall_app. split.
        + apply Forall_map, Forall_forall. intros k' Hk'. apply in_seq in Hk'. split; [unfold P; cbn; lia|]. reflexivity.
        + apply Forall_flat_map, Forall_forall. intros jj _. apply Forall_map, Forall_forall. intros k' Hk'. apply in_seq in Hk'. split; [unfold P; cbn; lia|].
          intros b b' Hb. cbn. rewrite (Hb (hi * na + k')); [reflexivity|unfold P; lia].
      - intros h' l' Hne Hl. unfold apply_csr_mid in Hl. rewrite nth_error_map in Hl. destruct (nth_error _ h') as [q|] eqn:E; [|discriminate]. cbn -[Nat.div Nat.modulo] in Hl. injection Hl as <-.
        apply nth_error_seq in E as [-> _].
        assert (Eh : h' / nr * nr + h' mod nr = h') by (rewrite (Nat.mul_comm (h' / nr)); symmetry; apply Nat.div_mod; lia). rewrite Eh.
        assert (Hdis : forall k', k' < na -> ~ P (h' * na + k')).
        { intros k' Hk' [H1 H2]. apply Hne. destruct (Nat.lt_trichotomy h' hi) as [Hc|[Hc|Hc]]; [|assumption|].
          - assert (S h' * na <= hi * na) by (apply Nat.mul_le_mono_r; lia). cbn in *. lia.
          - assert (S hi * na <= h' * na) by (apply Nat.mul_le_mono_r; lia). cbn in *. lia. }
        apply Forall_app. split.
        + apply Forall_map, Forall_forall. intros k' Hk'. apply in_seq in Hk'. cbn. apply Hdis. lia.
        + apply Forall_flat_map, Forall_forall. intros jj _. apply Forall_map, Forall_forall. intros k' Hk'. apply in_seq in Hk'. cbn. apply Hdis. lia.
      - intros p _. reflexivity. }
    rewrite (Hag (hi * na + k)) by (unfold P; lia). unfold l. rewrite run_app. set (b0 := run lz y). unfold la.
    destruct (run_rounds (hi * na) na kadd (fun jj k _ => Ax m jj *k x ((h * ni + Aj m jj) * na + k)) (range (Ap m i) (Ap m (i + 1))) b0) as [R1 _]; [reflexivity|].
    rewrite R1 by assumption. rewrite (loop_total m (fun j => x ((h * ni + j) * na + k))).
    assert (E0 : b0 (hi * na + k) = k0). { unfold b0, lz. rewrite (run_block (hi * na) na (fun _ _ => k0)); [lebs; reflexivity|lia|reflexivity]. }
    rewrite E0. ring.
  Qed.
  Lemma apply_vec_last m nr x : apply_csr_vec k0 kadd kmul m nr x = apply_csr_last k0 kadd kmul m 1 0 nr x.
  Proof.
    unfold apply_csr_vec, apply_csr_last. rewrite Nat.mul_1_l. apply map_ext_in. intros i Hi. apply in_seq in Hi. rewrite Nat.div_small, Nat.mod_small by lia. reflexivity.
  Qed.
  Lemma apply_first_mid m nr na x : apply_csr_first k0 kadd kmul m nr na x = apply_csr_mid k0 kadd kmul m 1 0 nr na x.
  Proof.
    unfold apply_csr_first, apply_csr_mid. rewrite Nat.mul_1_l. apply map_ext_in. intros i Hi. apply in_seq in Hi. rewrite Nat.div_small, Nat.mod_small by lia. reflexivity.
  Qed.
  (** The kernels agree on an array seen as (N1, N2, N3). *)
  Definition middle (N1 N3 : nat) (order : list write) (y : buffer) m ni nr (x : @buffer K) : Prop :=
    forall h i k, h < N1 -> i < nr -> k < N3 -> run order y ((h * nr + i) * N3 + k) = row_total (range (Ap m i) (Ap m (i + 1))) m (fun j => x ((h * ni + j) * N3 + k)).
  Lemma middle_vec m nr ni x order y : interleaves (apply_csr_vec k0 kadd kmul m nr x) order -> middle 1 1 order y m ni nr x.
  Proof.
    rewrite apply_vec_last. intros Ho h i k Hh Hi Hk. assert (h = 0) as -> by lia. assert (k = 0) as -> by lia. rewrite Nat.mul_1_r, Nat.add_0_r.
    rewrite (apply_last_value m 1 0 nr x y order 0 i Ho) by lia. apply row_total_ext. intros. f_equal. lia.
  Qed.
  Lemma middle_first m nr ni na x order y : interleaves (apply_csr_first k0 kadd kmul m nr na x) order -> middle 1 na order y m ni nr x.
  Proof.
    rewrite apply_first_mid. intros Ho h i k Hh Hi Hk. assert (h = 0) as -> by lia. rewrite (apply_mid_value m 1 0 nr na x y order 0 i k Ho) by lia.
    apply row_total_ext. intros. reflexivity.
  Qed.
  Lemma middle_last m nb nr ni x order y : interleaves (apply_csr_last k0 kadd kmul m nb ni nr x) order -> middle nb 1 order y m ni nr x.
  Proof.
    intros Ho h i k Hh Hi Hk. assert (k = 0) as -> by lia. rewrite Nat.mul_1_r, Nat.add_0_r. rewrite (apply_last_value m nb ni nr x y order h i Ho) by lia.
    apply row_total_ext. intros. f_equal. lia.
  Qed.
  Lemma before_size shape axis : before shape axis = size (firstn axis shape).
  Proof. unfold before. destruct (Nat.eqb_spec axis 0) as [->|]; [reflexivity|]. apply prod_size. Qed.
  Lemma after_size shape axis : axis < length shape -> after shape axis = size (skipn (S axis) shape).
  Proof.
    intros H. unfold after. destruct (Nat.eqb_spec axis (length shape - 1)) as [E|]; [rewrite skipn_all2 by lia; reflexivity|]. rewrite prod_size. now replace (axis + 1) with (S axis) by lia.
  Qed.
  Lemma apply_csr_middle m shape nr x axis order y : axis < length shape -> interleaves (apply_csr k0 kadd kmul m shape nr x axis) order ->
    middle (size (firstn axis shape)) (size (skipn (S axis) shape)) order y m (nth axis shape 0) nr x.
  Proof.
    intros Ha Ho. unfold apply_csr in Ho. destruct shape as [|n0 [|n1 [|n2 shape]]]; [cbn in Ha; lia| | |].
    - cbn in Ha. assert (axis = 0) as -> by lia. cbn in *. now apply middle_vec.
    - cbn in Ha. destruct axis as [|[|axis]]; [| |lia]; cbn in Ho |- *.
      + destruct (Nat.eqb_spec n1 1) as [->|]; [now apply middle_vec|]. rewrite Nat.mul_1_r. now apply middle_first.
      + destruct (Nat.eqb_spec n0 1) as [->|]; [now apply middle_vec|]. rewrite Nat.mul_1_r. now apply middle_last.
    - set (sh := n0 :: n1 :: n2 :: shape) in *.
      assert (E : (if andb (length sh =? 3) (axis =? 1) then (dim sh 0, dim sh 1, dim sh 2) else (before sh axis, dim sh axis, after sh axis))
                  = (size (firstn axis sh), nth axis sh 0, size (skipn (S axis) sh))).
      { rewrite before_size, after_size by assumption. destruct (andb _ _) eqn:E; [|reflexivity]. apply andb_prop in E as [E1 E2]. apply Nat.eqb_eq in E1, E2. subst axis.
        unfold sh in *. cbn in E1. destruct shape; [|discriminate]. cbn. rewrite !Nat.mul_1_r. reflexivity. }
      rewrite E in Ho. destruct (Nat.eqb_spec (size (firstn axis sh)) 1) as [E1|E1], (Nat.eqb_spec (size (skipn (S axis) sh)) 1) as [E3|E3]; rewrite ?E1, ?E3.
      + now apply middle_vec. + now apply middle_first. + now apply middle_last. + intros h i k. now apply apply_mid_value.
  Qed.
  Lemma apply_csr_value m shape nr x axis order y : axis < length shape -> csr_valid m nr (nth axis shape 0) -> interleaves (apply_csr k0 kadd kmul m shape nr x axis) order ->
    forall idx, in_shape (replace axis shape nr) idx ->
      run order y (flat (replace axis shape nr) idx) = total (nth axis shape 0) (fun j => entry m (nth axis idx 0) j *k x (flat shape (replace axis idx j))).
  Proof.
    intros Ha Hv Ho idx Hidx. destruct (in_shape_axis shape axis nr idx Ha Hidx) as (Hl & H1 & H2 & H3). apply flat_lt in H1 as L1. apply flat_lt in H3 as L3.
    pose proof (apply_csr_middle m shape nr x axis order y Ha Ho _ _ _ L1 H2 L3) as E.
    rewrite <- (flat_axis shape axis nr idx (nth axis idx 0) Ha Hl), replace_same in E by lia. rewrite E, (row_entry m nr (nth axis shape 0)) by assumption.
    apply total_ext. intros j Hj. f_equal. f_equal. rewrite <- flat_axis by assumption. now rewrite replace_same.
  Qed.

  (** *** Back substitution *)
  Definition rest m i : list nat := range (Ap m i + 1) (Ap m (i + 1)).
  Definition back (m : csr K) (i : nat) (b x : nat -> K) : K := kdiv (ksub (b i) (row_total (rest m i) m x)) (Ax m (Ap m i)).
  Definition triangular m n : Prop := forall i jj, i < n -> In jj (rest m i) -> i < Aj m jj < n.
  Section Back.
    Context (m : csr K) (n na : nat) (base : nat -> nat) (ws : nat -> list (@write K)).
    Definition in_block i q := base i <= q < base i + na.
    Context (Hdis : forall i j k, i < n -> j < n -> j <> i -> k < na -> ~ in_block i (base j + k)).
    Context (Htri : triangular m n).
    Context (Hws : forall i b, i < n ->
      (forall k, k < na -> run (ws i) b (base i + k) = back m i (fun j => b (base j + k)) (fun j => b (base j + k)))
      /\ (forall q, ~ in_block i q -> run (ws i) b q = b q)).
    Lemma back_sub n' b : n' <= n ->
      (forall i k, i < n' -> k < na -> run (flat_map ws (rev (seq 0 n'))) b (base i + k)
         = back m i (fun j => b (base j + k)) (fun j => run (flat_map ws (rev (seq 0 n'))) b (base j + k)))
      /\ (forall q, (forall i, i < n' -> ~ in_block i q) -> run (flat_map ws (rev (seq 0 n'))) b q = b q).
    Proof.
      revert b. induction n' as [|n' IH]; intros b Hle; [split; [lia|reflexivity]|]. rewrite seq_S, rev_app_distr. cbn [rev app plus flat_map].
      destruct (Hws n' b) as [W1 W2]; [lia|]. destruct (IH (run (ws n') b)) as [I1 I2]; [lia|]. rewrite run_app. set (b1 := run (ws n') b) in *.
      split.
      - intros i k Hi Hk. destruct (Nat.eq_dec i n') as [->|Hne].
        + rewrite I2 by (intros j Hj; apply Hdis; lia). rewrite W1 by lia. unfold back. f_equal. f_equal. apply row_total_ext. intros jj Hjj.
          apply Htri in Hjj as Hj; [|lia]. rewrite I2 by (intros j Hj'; apply Hdis; lia). symmetry. apply W2. apply Hdis; lia.
        + rewrite I1 by lia. unfold back. f_equal. f_equal. apply W2. apply Hdis; lia.
      - intros q Hq. rewrite I2 by (intros i Hi; apply Hq; lia). apply W2. apply Hq. lia.
    Qed.
  End Back.
  Lemma blocks_disjoint h n na i j k : j <> i -> k < na -> ~ ((h * n + i) * na <= (h * n + j) * na + k < (h * n + i) * na + na).
  Proof.
    intros Hne Hk [H1 H2]. destruct (Nat.lt_ge_cases i j) as [Hc|Hc].
    - assert (S (h * n + i) * na <= (h * n + j) * na) by (apply Nat.mul_le_mono_r; lia). cbn in *. lia.
    - assert (S (h * n + j) * na <= (h * n + i) * na) by (apply Nat.mul_le_mono_r; lia). cbn in *. lia.
  Qed.
  Lemma range_down_total m x i a : fold_left (fun s jj => ksub s (Ax m jj *k x (Aj m jj))) (range_down (Ap m i) (Ap m (i + 1))) a = ksub a (row_total (rest m i) m x).
  Proof. rewrite loop_sub. unfold range_down. now rewrite row_total_rev. Qed.
  (** The rows of one iteration of the kernels. *)
  Definition mid_sub m n na h i : list (@write K) :=
    flat_map (fun jj => map (fun k => ((h * n + i) * na + k, fun x => ksub (x ((h * n + i) * na + k)) (Ax m jj *k x ((h * n + Aj m jj) * na + k)))) (seq 0 na))
             (range_down (Ap m i) (Ap m (i + 1))).
  Definition mid_div m n na h i : list (@write K) :=
    map (fun k => ((h * n + i) * na + k, fun x => kdiv (x ((h * n + i) * na + k)) (Ax m (Ap m i)))) (seq 0 na).
  Definition mid_row m n na h i : list (@write K) := mid_sub m n na h i ++ mid_div m n na h i.
  Definition last_row m n h i : list (@write K) :=
    [(h * n + i, fun x => kdiv (fold_left (fun sum jj => ksub sum (Ax m jj *k x (h * n + Aj m jj))) (range_down (Ap m i) (Ap m (i + 1))) (x (h * n + i))) (Ax m (Ap m i)))].
  Lemma mid_row_spec m n na h i b : triangular m n -> i < n ->
    (forall k, k < na -> run (mid_row m n na h i) b ((h * n + i) * na + k) = back m i (fun j => b ((h * n + j) * na + k)) (fun j => b ((h * n + j) * na + k)))
    /\ (forall q, ~ ((h * n + i) * na <= q < (h * n + i) * na + na) -> run (mid_row m n na h i) b q = b q).
  Proof.
    intros Ht Hi. unfold mid_row. rewrite run_app. set (base := (h * n + i) * na).
    destruct (run_rounds base na ksub (fun jj k y => Ax m jj *k y ((h * n + Aj m jj) * na + k)) (range_down (Ap m i) (Ap m (i + 1))) b) as [R1 R2].
    { intros jj k c c' Hjj Hk Hq. f_equal. apply Hq. apply blocks_disjoint; [|lia]. unfold range_down in Hjj. apply in_rev in Hjj. apply Ht in Hjj; lia. }
    change (forall k, k < na -> run (mid_sub m n na h i) b (base + k) = fold_left (fun s jj => ksub s (Ax m jj *k b ((h * n + Aj m jj) * na + k))) (range_down (Ap m i) (Ap m (i + 1))) (b (base + k))) in R1.
    change (forall q, ~ base <= q < base + na -> run (mid_sub m n na h i) b q = b q) in R2.
    set (b1 := run (mid_sub m n na h i) b) in *. assert (D : forall p, run (mid_div m n na h i) b1 p
      = if andb (base <=? p) (p <? base + na) then kdiv (b1 (base + (p - base))) (Ax m (Ap m i)) else b1 p).
    { intros p. unfold mid_div. fold base. rewrite (run_block base na (fun k x => kdiv (x (base + k)) (Ax m (Ap m i)))); [reflexivity|lia|]. intros k c c' Hk Hc _. now rewrite Hc. }
    split.
    - intros k Hk. rewrite D. lebs. replace (base + k - base) with k by lia. rewrite R1 by lia. unfold back. f_equal. apply (range_down_total m (fun j => b ((h * n + j) * na + k))).
    - intros q Hq. rewrite D. lebs; now apply R2.
  Qed.
  Lemma last_row_spec m n h i b : triangular m n -> i < n ->
    (forall k, k < 1 -> run (last_row m n h i) b (h * n + i + k) = back m i (fun j => b (h * n + j + k)) (fun j => b (h * n + j + k)))
    /\ (forall q, ~ (h * n + i <= q < h * n + i + 1) -> run (last_row m n h i) b q = b q).
  Proof.
    intros Ht Hi. unfold last_row. cbn. split.
    - intros k Hk. assert (k = 0) as -> by lia. rewrite Nat.add_0_r, upd_eq. unfold back. rewrite Nat.add_0_r. f_equal. rewrite (range_down_total m (fun j => b (h * n + j))).
      f_equal. apply row_total_ext. intros. now rewrite Nat.add_0_r.
    - intros q Hq. apply upd_ne. lia.
  Qed.

  Definition solves m n N1 N3 (order : list (@write K)) (b : @buffer K) : Prop :=
    forall h k i, h < N1 -> k < N3 -> i < n -> run order b ((h * n + i) * N3 + k) = back m i (fun j => b ((h * n + j) * N3 + k)) (fun j => run order b ((h * n + j) * N3 + k)).
  Lemma parallel_solves m n na N1 (rows : nat -> nat -> list (@write K)) order b : triangular m n ->
    (forall h i b, i < n -> (forall k, k < na -> run (rows h i) b ((h * n + i) * na + k) = back m i (fun j => b ((h * n + j) * na + k)) (fun j => b ((h * n + j) * na + k)))
      /\ (forall q, ~ ((h * n + i) * na <= q < (h * n + i) * na + na) -> run (rows h i) b q = b q)) ->
    (forall h i, i < n -> Forall (confined (fun p => h * n * na <= p < h * n * na + n * na)) (rows h i)) ->
    interleaves (map (fun h => flat_map (rows h) (rev (seq 0 n))) (seq 0 N1)) order -> solves m n N1 na order b.
  Proof.
    intros Ht Hrow Hconf Ho h k i Hh Hk Hi. set (P := fun p => h * n * na <= p < h * n * na + n * na).
    assert (Hag : agree P (run order b) (run (flat_map (rows h) (rev (seq 0 n))) b)).
    { apply (interleave_region P _ _ Ho h).
      - rewrite nth_error_map, nth_error_nth' with (d := 0) by (rewrite seq_length; lia). rewrite seq_nth by lia. reflexivity.
      - apply Forall_flat_map, Forall_forall. intros i' Hi'. apply in_rev, in_seq in Hi'. apply Hconf. lia.
      - intros h' l' Hne Hl. rewrite nth_error_map in Hl. destruct (nth_error _ h') as [q|] eqn:E; [|discriminate]. cbn in Hl. injection Hl as <-. apply nth_error_seq in E as [-> _].
        apply Forall_flat_map, Forall_forall. intros i' Hi'. apply in_rev, in_seq in Hi'. specialize (Hconf h' i'). eapply Forall_impl; [|apply Hconf; lia].
        intros w [Hp _]. cbn in Hp. unfold P. intros HP. destruct (Nat.lt_ge_cases h h').
        + assert (S h * n * na <= h' * n * na) by (apply Nat.mul_le_mono_r, Nat.mul_le_mono_r; lia). cbn in *. rewrite Nat.mul_add_distr_r in *. lia.
        + assert (S h' * n * na <= h * n * na) by (apply Nat.mul_le_mono_r, Nat.mul_le_mono_r; lia). cbn in *. rewrite Nat.mul_add_distr_r in *. lia.
      - intros p _. reflexivity. }
    assert (HP : forall j, j < n -> P ((h * n + j) * na + k)).
    { intros j Hj. unfold P. assert (S j * na <= n * na) by (apply Nat.mul_le_mono_r; lia). rewrite Nat.mul_add_distr_r. cbn in *. lia. }
    destruct (back_sub m n na (fun i => (h * n + i) * na) (rows h)) with (n' := n) (b := b) as [B1 _].
    - intros i' j k' _ _ Hne Hk'. now apply blocks_disjoint.
    - assumption.
    - intros i' b' Hi'. now apply Hrow.
    - lia.
    - rewrite (Hag _ (HP i Hi)), B1 by assumption. unfold back. f_equal. f_equal. apply row_total_ext. intros jj Hjj. apply Ht in Hjj; [|assumption]. symmetry. apply Hag, HP. lia.
  Qed.
  Lemma in_region h n na i k : i < n -> k < na -> h * n * na <= (h * n + i) * na + k < h * n * na + n * na.
  Proof. intros Hi Hk. assert (S i * na <= n * na) by (apply Nat.mul_le_mono_r; lia). rewrite Nat.mul_add_distr_r. cbn in *. lia. Qed.
  Lemma mid_solves m n N1 na order b : triangular m n -> interleaves (solve_upper_csr_mid kmul ksub kdiv m N1 n na) order -> solves m n N1 na order b.
  Proof.
    intros Ht Ho. apply (parallel_solves m n na N1 (mid_row m n na)); [assumption| | |exact Ho].
    - intros h i b' Hi. now apply mid_row_spec.
    - intros h i Hi. apply Forall_app. split.
      + apply Forall_flat_map, Forall_forall. intros jj Hjj. apply in_rev in Hjj. apply Ht in Hjj; [|assumption]. apply Forall_map, Forall_forall. intros k Hk. apply in_seq in Hk. split; [apply in_region; lia|].
        intros c c' Hc. cbn. rewrite !Hc by (apply in_region; lia). reflexivity.
      + apply Forall_map, Forall_forall. intros k Hk. apply in_seq in Hk. split; [apply in_region; lia|]. intros c c' Hc. cbn. rewrite Hc by (apply in_region; lia). reflexivity.
  Qed.
  Lemma flat_map_single {A B} (f : A -> B) l : flat_map (fun x => [f x]) l = map f l.
  Proof. induction l; cbn; congruence. Qed.
  Lemma last_solves m n N1 order b : triangular m n -> interleaves (solve_upper_csr_last kmul ksub kdiv m N1 n) order -> solves m n N1 1 order b.
  Proof.
    intros Ht Ho. apply (parallel_solves m n 1 N1 (last_row m n)); [assumption| | |].
    - intros h i b' Hi. destruct (last_row_spec m n h i b' Ht Hi) as [L1 L2]. split.
      + intros k Hk. rewrite Nat.mul_1_r. rewrite L1 by assumption. unfold back. rewrite Nat.mul_1_r. f_equal. f_equal. apply row_total_ext. intros. now rewrite Nat.mul_1_r.
      + intros q Hq. apply L2. lia.
    - intros h i Hi. constructor; [|constructor]. split; [cbn; lia|]. intros c c' Hc. cbn. f_equal. rewrite (Hc (h * n + i)) by lia.
      assert (E : forall l a, incl l (range_down (Ap m i) (Ap m (i + 1))) -> fold_left (fun sum jj => ksub sum (Ax m jj *k c (h * n + Aj m jj))) l a = fold_left (fun sum jj => ksub sum (Ax m jj *k c' (h * n + Aj m jj))) l a).
      { induction l as [|jj l IH]; intros a Hl; [reflexivity|]. cbn. rewrite (Hc (h * n + Aj m jj)); [apply IH; intros y Hy; apply Hl; now right|].
        assert (Hjj : In jj (range_down (Ap m i) (Ap m (i + 1)))) by (apply Hl; now left). apply in_rev in Hjj. apply Ht in Hjj; [|assumption]. lia. }
      apply E, incl_refl.
    - unfold solve_upper_csr_last in Ho. erewrite map_ext; [exact Ho|]. intros h. cbn. apply flat_map_single.
  Qed.
  Lemma vec_solves m n order b : triangular m n -> interleaves (solve_upper_csr_vec kmul ksub kdiv m n) order -> solves m n 1 1 order b.
  Proof. intros Ht Ho. apply last_solves; assumption. Qed.
  Lemma first_solves m n na order b : triangular m n -> interleaves (solve_upper_csr_first kmul ksub kdiv m n na) order -> solves m n 1 na order b.
  Proof. intros Ht Ho. apply mid_solves; assumption. Qed.
  Lemma solve_csr_solves m shape axis order b : axis < length shape -> triangular m (nth axis shape 0) -> interleaves (solve_upper_csr kmul ksub kdiv m shape axis) order ->
    solves m (nth axis shape 0) (size (firstn axis shape)) (size (skipn (S axis) shape)) order b.
  Proof.
    intros Ha Ht Ho. unfold solve_upper_csr in Ho. destruct shape as [|n0 [|n1 [|n2 shape]]]; [cbn in Ha; lia| | |].
    - cbn in Ha. assert (axis = 0) as -> by lia. cbn in *. now apply vec_solves.
    - cbn in Ha. destruct axis as [|[|axis]]; [| |lia]; cbn in Ho, Ht |- *.
      + destruct (Nat.eqb_spec n1 1) as [->|]; [now apply vec_solves|]. rewrite Nat.mul_1_r. now apply first_solves.
      + destruct (Nat.eqb_spec n0 1) as [->|]; [now apply vec_solves|]. rewrite Nat.mul_1_r. now apply last_solves.
    - set (sh := n0 :: n1 :: n2 :: shape) in *.
      assert (E : (if andb (length sh =? 3) (axis =? 1) then (dim sh 0, dim sh 1, dim sh 2) else (before sh axis, dim sh axis, after sh axis))
                  = (size (firstn axis sh), nth axis sh 0, size (skipn (S axis) sh))).
      { rewrite before_size, after_size by assumption. destruct (andb _ _) eqn:E; [|reflexivity]. apply andb_prop in E as [E1 E2]. apply Nat.eqb_eq in E1, E2. subst axis.
        unfold sh in *. cbn in E1. destruct shape; [|discriminate]. cbn. rewrite !Nat.mul_1_r. reflexivity. }
      rewrite E in Ho. destruct (Nat.eqb_spec (size (firstn axis sh)) 1) as [E1|E1], (Nat.eqb_spec (size (skipn (S axis) sh)) 1) as [E3|E3]; rewrite ?E1, ?E3.
      + now apply vec_solves. + now apply first_solves. + now apply last_solves. + now apply mid_solves.
  Qed.

  (** Canonical rows of an upper triangular matrix start with the diagonal entry. *)
  Lemma upper_rows m n : csr_valid m n n -> canonical m n -> stored_upper m n -> (forall i, i < n -> entry m i i <> k0) ->
    triangular m n /\ forall i, i < n -> Ap m i < Ap m (i + 1) /\ Aj m (Ap m i) = i /\ Ax m (Ap m i) <> k0.
  Proof.
    intros Hv Hc Hu Hd.
    assert (Hfirst : forall i, i < n -> Ap m i < Ap m (i + 1) /\ Aj m (Ap m i) = i /\ Ax m (Ap m i) <> k0).
    { intros i Hi. specialize (Hd i Hi). destruct (Hv i Hi) as [Hle Hcol].
      assert (Hex : exists jj, Ap m i <= jj < Ap m (i + 1) /\ Aj m jj = i).
      { destruct (Exists_dec (fun jj => Aj m jj = i) (seq (Ap m i) (Ap m (i + 1) - Ap m i)) (fun jj => Nat.eq_dec (Aj m jj) i)) as [He|He].
        - apply Exists_exists in He as (jj & Hin & E). apply in_seq in Hin. exists jj. split; [lia|assumption].
        - exfalso. apply Hd. unfold CSR_Spec.entry. rewrite <- Forall_Exists_neg in He. induction He as [|jj l Hne _ IH]; [reflexivity|]. cbn. rewrite IH.
          destruct (Nat.eqb_spec (Aj m jj) i); [contradiction|]. ring. }
      destruct Hex as (jj & Hjj & Ej). assert (jj = Ap m i) as ->.
      { destruct (Nat.eq_dec jj (Ap m i)) as [|Hne]; [assumption|]. exfalso. pose proof (Hc i (Ap m i) jj Hi). pose proof (Hu i (Ap m i) Hi). lia. }
      split; [lia|]. split; [assumption|]. intros E0. apply Hd. unfold CSR_Spec.entry.
      replace (Ap m (i + 1) - Ap m i) with (S (Ap m (i + 1) - Ap m i - 1)) by lia. cbn [seq fold_right]. rewrite Ej, Nat.eqb_refl, E0.
      assert (Z : forall l, (forall jj, In jj l -> Aj m jj <> i) -> fold_right (fun jj s => (if Aj m jj =? i then Ax m jj else k0) +k s) k0 l = k0).
      { induction l as [|j l IH]; intros Hl; [reflexivity|]. cbn. rewrite IH by (intros; apply Hl; now right). destruct (Nat.eqb_spec (Aj m j) i) as [E|]; [exfalso; now apply (Hl j (or_introl eq_refl))|ring]. }
      rewrite Z; [ring|]. intros j Hj. apply in_seq in Hj. specialize (Hc i (Ap m i) j Hi). lia. }
    split; [|assumption]. intros i jj Hi Hjj. apply in_seq in Hjj. destruct (Hfirst i Hi) as (H1 & H2 & _). specialize (Hc i (Ap m i) jj Hi). destruct (Hv i Hi) as [_ Hcol]. specialize (Hcol jj). lia.
  Qed.
  Lemma row_first m n i x : i < n -> Ap m i < Ap m (i + 1) -> Aj m (Ap m i) = i -> row_total (range (Ap m i) (Ap m (i + 1))) m x = (Ax m (Ap m i) *k x i) +k row_total (rest m i) m x.
  Proof.
    intros Hi Hlt Ej. unfold rest, range. replace (Ap m (i + 1) - Ap m i) with (S (Ap m (i + 1) - (Ap m i + 1))) by lia. cbn [seq row_total fold_right].
    rewrite Ej. replace (Ap m i + 1) with (S (Ap m i)) by lia. reflexivity.
  Qed.
  Lemma div_eq a d y : d <> k0 -> y = kdiv a d <-> d *k y = a.
  Proof. intros Hd. split; [intros ->; field; assumption|]. intros <-. field. assumption. Qed.
  Lemma sub_eq a b c : c = ksub a b <-> c +k b = a.
  Proof. split; [intros ->; ring|]. intros <-. ring. Qed.
  Lemma back_equation m n i (b x : nat -> K) : csr_valid m n n -> i < n -> Ap m i < Ap m (i + 1) /\ Aj m (Ap m i) = i /\ Ax m (Ap m i) <> k0 ->
    x i = back m i b x <-> total n (fun j => entry m i j *k x j) = b i.
  Proof.
    intros Hv Hi (H1 & H2 & H3). rewrite <- (row_entry m n n i x Hv Hi), (row_first m n i x Hi H1 H2). unfold back. rewrite div_eq by assumption. apply sub_eq.
  Qed.
  Lemma back_unique m n (b x x' : nat -> K) : triangular m n -> (forall i, i < n -> x i = back m i b x) -> (forall i, i < n -> x' i = back m i b x') -> forall i, i < n -> x i = x' i.
  Proof.
    intros Ht Hx Hx'. assert (H : forall d i, i < n -> n - i <= d -> x i = x' i).
    { induction d as [|d IH]; intros i Hi Hd; [lia|]. rewrite Hx, Hx' by assumption. unfold back. f_equal. f_equal. apply row_total_ext. intros jj Hjj. apply Ht in Hjj; [|assumption]. apply IH; lia. }
    intros i Hi. apply (H (n - i)); lia.
  Qed.
End Field.
