(** Proofs about dense application along an axis. *)
From Coq Require Import List Arith Lia Field_theory Ring Field.
Import ListNotations.
From Verif Require Import CSR_Model CSR_Spec CSR_Proofs.

Lemma ravel_flat shape idx : length shape = length idx -> ravel shape idx = flat shape idx.
Proof.
  unfold ravel. assert (E : forall shape idx a, length shape = length idx -> fold_left (fun acc p => acc * fst p + snd p) (combine shape idx) a = a * size shape + flat shape idx).
  { clear. induction shape as [|n shape IH]; intros [|i idx] a Hl; cbn in *; try lia. rewrite IH by lia. lia. }
  intros Hl. rewrite E by assumption. lia.
Qed.
Lemma size_pos shape idx : in_shape shape idx -> 0 < size shape.
Proof. intros H. apply flat_lt in H. lia. Qed.
Lemma unravel_add shape k q : unravel shape (k * size shape + q) = unravel shape q.
Proof.
  revert k q. induction shape as [|n shape IH]; intros k q; cbn [unravel size]; [reflexivity|]. rewrite prod_size. f_equal.
  - destruct (Nat.eq_dec (size shape) 0) as [->|Hs]; [now rewrite Nat.mul_0_r, Nat.mul_0_r|]. rewrite Nat.mul_assoc, Nat.add_comm, Nat.div_add by assumption.
    destruct (Nat.eq_dec n 0) as [->|Hn]; [now rewrite Nat.mul_0_r, Nat.add_0_r|]. now rewrite Nat.mod_add.
  - rewrite Nat.mul_assoc. apply IH.
Qed.
Lemma unravel_flat shape idx : in_shape shape idx -> unravel shape (flat shape idx) = idx.
Proof.
  induction 1 as [|n i shape idx Hi Hs IH]; [reflexivity|]. cbn [unravel flat]. rewrite prod_size. pose proof (flat_lt _ _ Hs) as Hlt. f_equal.
  - rewrite Nat.add_comm, Nat.div_add by lia. rewrite Nat.div_small by lia. cbn. apply Nat.mod_small. lia.
  - rewrite unravel_add. apply IH.
Qed.

(** Moving an axis to the front and back. *)
Definition insert (axis : nat) (l : list nat) (i : nat) : list nat := firstn axis l ++ i :: skipn axis l.
Lemma filter_seq_ne n s source : filter (fun a => negb (a =? source)) (seq s n) = if andb (s <=? source) (source <? s + n) then seq s (source - s) ++ seq (S source) (s + n - S source) else seq s n.
Proof.
  revert s. induction n as [|n IH]; intros s; cbn [seq filter]; [lebs; reflexivity|]. rewrite IH. destruct (Nat.eqb_spec s source) as [->|Hne]; cbn [negb].
  - lebs. replace (source - source) with 0 by lia. cbn [seq app]. f_equal. lia.
  - lebs; try reflexivity. replace (source - s) with (S (source - S s)) by lia. cbn [seq app]. f_equal. f_equal. f_equal. lia.
Qed.
Lemma order_front n axis : axis < n -> moved_order n axis 0 = axis :: seq 0 axis ++ seq (S axis) (n - S axis).
Proof. intros H. unfold moved_order. cbn [firstn skipn app]. f_equal. rewrite filter_seq_ne. lebs. now rewrite Nat.sub_0_r. Qed.
Lemma order_back n axis : axis < n -> moved_order n 0 axis = seq 1 axis ++ 0 :: seq (S axis) (n - S axis).
Proof.
  intros H. unfold moved_order. rewrite filter_seq_ne. lebs. cbn [seq app plus Nat.sub].
  replace (n - 1) with (axis + (n - S axis)) by lia. rewrite seq_app, firstn_app, skipn_app, seq_length, Nat.sub_diag. cbn [firstn skipn].
  rewrite firstn_all2, skipn_all2 by (rewrite seq_length; lia). now rewrite app_nil_r.
Qed.
Lemma position_app_l a l l' : In a l -> position a (l ++ l') = position a l.
Proof. induction l as [|b l IH]; intros H; [contradiction|]. cbn. destruct (Nat.eqb_spec b a); [reflexivity|]. destruct H as [?|H]; [contradiction|]. now rewrite IH. Qed.
Lemma position_app_r a l l' : ~ In a l -> position a (l ++ l') = length l + position a l'.
Proof. induction l as [|b l IH]; intros H; [reflexivity|]. cbn. destruct (Nat.eqb_spec b a) as [->|]; [exfalso; apply H; now left|]. rewrite IH; [reflexivity|]. intros Hi. apply H. now right. Qed.
Lemma position_seq a s n : s <= a < s + n -> position a (seq s n) = a - s.
Proof. revert s. induction n as [|n IH]; intros s H; [lia|]. cbn. destruct (Nat.eqb_spec s a); [lia|]. rewrite IH; lia. Qed.
Lemma nth_map_seq {A} (f : nat -> A) n d x : x < n -> nth x (map f (seq 0 n)) d = f x.
Proof. intros H. rewrite nth_indep with (d' := f 0) by (rewrite map_length, seq_length; lia). rewrite map_nth, seq_nth by lia. reflexivity. Qed.
Lemma list_ext (l l' : list nat) : length l = length l' -> (forall x, x < length l -> nth x l 0 = nth x l' 0) -> l = l'.
Proof. intros H1 H2. now apply (nth_ext l l' 0 0). Qed.
Lemma nth_insert axis l i x : axis <= length l -> nth x (insert axis l i) 0 = if x <? axis then nth x l 0 else if x =? axis then i else nth (x - 1) l 0.
Proof.
  intros H. unfold insert. destruct (Nat.ltb_spec x axis).
  - rewrite app_nth1 by (rewrite firstn_length; lia). rewrite <- (firstn_skipn axis l) at 2. now rewrite app_nth1 by (rewrite firstn_length; lia).
  - rewrite app_nth2; rewrite firstn_length, Nat.min_l by lia; [|lia]. destruct (Nat.eqb_spec x axis) as [->|]; [now rewrite Nat.sub_diag|].
    replace (x - axis) with (S (x - 1 - axis)) by lia. cbn [nth]. rewrite <- (firstn_skipn axis l) at 2. rewrite app_nth2; rewrite firstn_length, Nat.min_l by lia; [reflexivity|lia].
Qed.
Lemma front_index n axis i l : axis < n -> length l = n - 1 ->
  map (fun ax => nth (position ax (moved_order n axis 0)) (i :: l) 0) (seq 0 (length (moved_order n axis 0))) = insert axis l i.
Proof.
  intros Ha Hl. assert (El : length (moved_order n axis 0) = n). { rewrite order_front by assumption. cbn. rewrite app_length, !seq_length. lia. }
  assert (Ei : length (insert axis l i) = n). { unfold insert. rewrite app_length, firstn_length. cbn [length]. rewrite skipn_length. lia. }
  apply list_ext; [rewrite map_length, seq_length; lia|]. rewrite map_length, seq_length, El. intros x Hx. rewrite nth_map_seq by assumption. rewrite nth_insert by lia.
  rewrite order_front by assumption. cbn [position]. destruct (Nat.eqb_spec axis x) as [->|Hne].
  - rewrite Nat.ltb_irrefl, Nat.eqb_refl. reflexivity.
  - destruct (Nat.ltb_spec x axis).
    + rewrite position_app_l, position_seq by (first [lia|apply in_seq; lia]). cbn [nth]. f_equal. lia.
    + destruct (Nat.eqb_spec x axis); [lia|]. rewrite position_app_r by (rewrite in_seq; lia). rewrite seq_length, position_seq by lia. cbn [nth]. f_equal. lia.
Qed.
Lemma back_index n axis idx : axis < n -> length idx = n ->
  map (fun ax => nth (position ax (moved_order n 0 axis)) idx 0) (seq 0 (length (moved_order n 0 axis))) = nth axis idx 0 :: firstn axis idx ++ skipn (S axis) idx.
Proof.
  intros Ha Hl. assert (El : length (moved_order n 0 axis) = n). { rewrite order_back by assumption. rewrite app_length. cbn [length]. rewrite !seq_length. lia. }
  apply list_ext; [rewrite map_length, seq_length; cbn [length]; rewrite app_length, firstn_length, skipn_length; lia|]. rewrite map_length, seq_length, El. intros x Hx. rewrite nth_map_seq by assumption.
  rewrite order_back by assumption. destruct x as [|x].
  - rewrite position_app_r by (rewrite in_seq; lia). rewrite seq_length. cbn [position Nat.eqb nth]. f_equal. lia.
  - cbn [nth]. destruct (Nat.ltb_spec x axis) as [H|H].
    + rewrite position_app_l, position_seq by (first [lia|apply in_seq; lia]). rewrite app_nth1 by (rewrite firstn_length; lia).
      rewrite <- (firstn_skipn axis idx) at 1. rewrite app_nth1 by (rewrite firstn_length; lia). f_equal. lia.
    + rewrite position_app_r by (rewrite in_seq; lia). rewrite seq_length. cbn [position Nat.eqb]. rewrite position_seq by lia.
      rewrite app_nth2; rewrite firstn_length, Nat.min_l by lia; [|lia]. rewrite <- (firstn_skipn (S axis) idx) at 1. rewrite app_nth2; rewrite firstn_length, Nat.min_l by lia; [|lia]. f_equal. lia.
Qed.
Lemma insert_rest axis l i : axis < length l -> insert axis (firstn axis l ++ skipn (S axis) l) i = replace axis l i.
Proof.
  intros H. unfold insert, replace. rewrite firstn_app, skipn_app, firstn_firstn, Nat.min_id, firstn_length, Nat.min_l, Nat.sub_diag by lia. cbn [firstn skipn]. rewrite app_nil_r.
  now rewrite skipn_all2 by (rewrite firstn_length; lia).
Qed.
Lemma front_shape n axis sh : axis < n -> length sh = n -> map (fun o => nth o sh 0) (moved_order n axis 0) = nth axis sh 0 :: firstn axis sh ++ skipn (S axis) sh.
Proof.
  intros Ha Hl. rewrite order_front by assumption. cbn [map]. f_equal. rewrite map_app. f_equal.
  - apply list_ext; [rewrite map_length, seq_length, firstn_length; lia|]. rewrite map_length, seq_length. intros x Hx. rewrite nth_map_seq by assumption.
    rewrite <- (firstn_skipn axis sh) at 1. now rewrite app_nth1 by (rewrite firstn_length; lia).
  - apply list_ext; [rewrite map_length, seq_length, skipn_length; lia|]. rewrite map_length, seq_length. intros x Hx.
    rewrite nth_indep with (d' := nth 0 sh 0) by (rewrite map_length, seq_length; lia). rewrite (map_nth (fun o => nth o sh 0)), seq_nth by lia.
    rewrite <- (firstn_skipn (S axis) sh) at 1. rewrite app_nth2; rewrite firstn_length, Nat.min_l by lia; [|lia]. f_equal. lia.
Qed.
Lemma back_shape n axis r l : axis < n -> length l = n - 1 -> map (fun o => nth o (r :: l) 0) (moved_order n 0 axis) = insert axis l r.
Proof.
  intros Ha Hl. rewrite order_back by assumption. rewrite map_app. cbn [map nth]. unfold insert. f_equal; [|f_equal].
  - apply list_ext; [rewrite map_length, seq_length, firstn_length; lia|]. rewrite map_length, seq_length. intros x Hx.
    rewrite nth_indep with (d' := nth 0 (r :: l) 0) by (rewrite map_length, seq_length; lia). rewrite (map_nth (fun o => nth o (r :: l) 0)), seq_nth by lia. cbn [plus nth].
    rewrite <- (firstn_skipn axis l) at 1. now rewrite app_nth1 by (rewrite firstn_length; lia).
  - apply list_ext; [rewrite map_length, seq_length, skipn_length; lia|]. rewrite map_length, seq_length. intros x Hx.
    rewrite nth_indep with (d' := nth 0 (r :: l) 0) by (rewrite map_length, seq_length; lia). rewrite (map_nth (fun o => nth o (r :: l) 0)), seq_nth by lia. cbn [plus nth].
    rewrite <- (firstn_skipn axis l) at 1. rewrite app_nth2; rewrite firstn_length, Nat.min_l by lia; [|lia]. f_equal. lia.
Qed.

Section Field.
  Context {K : Type} (k0 k1 : K) (kadd kmul ksub : K -> K -> K) (kopp : K -> K) (kdiv : K -> K -> K) (kinv : K -> K).
  Context (Hf : field_theory k0 k1 kadd kmul ksub kopp kdiv kinv (@eq K)).
  Add Field KField2 : Hf.
  Notation total := (total k0 kadd).
  Lemma loop_seq f n : fold_left (fun s j => kadd s (f j)) (seq 0 n) k0 = total n f.
  Proof.
    unfold CSR_Spec.total. assert (E : forall l a, fold_left (fun s j => kadd s (f j)) l a = kadd a (fold_right (fun j s => kadd (f j) s) k0 l)).
    { induction l as [|j l IH]; intros a; cbn; [ring|]. rewrite IH. ring. }
    rewrite E. ring.
  Qed.
  (** The product of the matrix with an array whose first axis is the axis, after flattening. *)
  Lemma flattened rows (m : nat -> nat -> K) n0 sr f i rest : in_shape sr rest -> i < rows ->
    snd (reshape (rows :: sr) (matmul k0 kadd kmul rows m (reshape [n0; prod sr] (n0 :: sr, f)))) (i :: rest) = total n0 (fun j => kmul (m i j) (f (j :: rest))).
  Proof.
    intros Hr Hi. pose proof (flat_lt _ _ Hr) as Hlt. pose proof (Forall2_length _ _ _ Hr) as Hl. cbn [snd reshape fst]. rewrite ravel_flat by (cbn; lia). cbn [flat matmul fst reshape unravel].
    rewrite prod_size. cbn [prod fold_left]. unfold prod. cbn [fold_left]. rewrite Nat.mul_1_l, Nat.div_1_r.
    replace ((i * size sr + flat sr rest) / size sr) with i by (rewrite Nat.add_comm, Nat.div_add, Nat.div_small by lia; lia).
    replace ((i * size sr + flat sr rest) mod size sr) with (flat sr rest) by (rewrite Nat.add_comm, Nat.mod_add, Nat.mod_small by lia; lia).
    rewrite Nat.mod_small by assumption. cbn [snd nth]. etransitivity; [apply (loop_seq (fun j => kmul (m i j) (f (unravel (n0 :: sr) (ravel [n0; size sr] [j; flat sr rest])))))|]. apply (total_ext k0 kadd). intros j Hj. f_equal. f_equal.
    rewrite ravel_flat by (cbn; lia). cbn [flat size unravel fst]. rewrite prod_size, Nat.mul_1_r, Nat.mul_1_r, Nat.add_0_r. f_equal.
    - rewrite Nat.add_comm, Nat.div_add, Nat.div_small by lia. cbn. now apply Nat.mod_small.
    - rewrite unravel_add. now apply unravel_flat.
  Qed.
  Lemma apply_front rows (m : nat -> nat -> K) n0 sr f : 
    let a := (n0 :: sr, f) in
    let a2 := if 2 <? S (length sr) then reshape [n0; prod sr] a else a in
    let t := matmul k0 kadd kmul rows m a2 in
    let t := if 2 <? S (length sr) then reshape (nth 0 (fst t) 0 :: sr) t else t in
    fst t = rows :: sr /\ forall i rest, in_shape sr rest -> i < rows -> snd t (i :: rest) = total n0 (fun j => kmul (m i j) (f (j :: rest))).
  Proof.
    cbn zeta. destruct (2 <? S (length sr)); split; try reflexivity; intros i rest Hr Hi.
    - cbn [matmul reshape fst nth]. now apply flattened.
    - cbn [matmul snd fst nth]. apply (loop_seq (fun j => kmul (m i j) (f (j :: rest)))).
  Qed.
  Lemma apply_dense_value rows (m : nat -> nat -> K) shape f axis : axis < length shape ->
    fst (apply_dense k0 kadd kmul rows m (shape, f) axis) = replace axis shape rows /\
    forall idx, in_shape (replace axis shape rows) idx ->
      snd (apply_dense k0 kadd kmul rows m (shape, f) axis) idx = total (nth axis shape 0) (fun j => kmul (m (nth axis idx 0) j) (f (replace axis idx j))).
  Proof.
    intros Ha. unfold apply_dense. cbn [fst]. destruct (Nat.eqb_spec axis 0) as [->|Hne].
    - destruct shape as [|n0 sr]; [cbn in Ha; lia|]. cbn [fst nth skipn]. change (length (n0 :: sr)) with (S (length sr)).
      destruct (apply_front rows m n0 sr f) as [E1 E2]. cbn zeta in E1, E2. split; [exact E1|]. intros idx Hidx. unfold replace in Hidx. cbn [firstn skipn app] in Hidx.
      inversion Hidx as [|? i ? rest Hi Hr]; subst. rewrite E2 by assumption. reflexivity.
    - unfold move_single_axis, transpose. cbn [fst snd]. set (n := length shape) in *. rewrite front_shape by (unfold n; auto; lia).
      set (sr := firstn axis shape ++ skipn (S axis) shape). assert (Lsr : length sr = n - 1) by (unfold sr, n in *; rewrite app_length, firstn_length, skipn_length; lia).
      cbn [nth skipn]. set (g := fun idx => f (map (fun ax => nth (position ax (moved_order n axis 0)) idx 0) (seq 0 (length (moved_order n axis 0))))).
      destruct (apply_front rows m (nth axis shape 0) sr g) as [E1 E2]. cbn zeta in E1, E2. replace (S (length sr)) with n in E1, E2 by lia.
      set (t := if 2 <? n then reshape _ _ else _) in *. rewrite E1. change (length (rows :: sr)) with (S (length sr)). rewrite Lsr. replace (S (n - 1)) with n by lia. split.
      + rewrite back_shape by (auto; lia). unfold sr. apply insert_rest. exact Ha.
      + intros idx Hidx. destruct (in_shape_axis shape axis rows idx Ha Hidx) as (Hl & H1 & H2 & H3). rewrite back_index by (auto; lia).
        rewrite E2; [|unfold sr; apply Forall2_app; assumption|assumption]. apply (total_ext k0 kadd). intros j Hj. f_equal. unfold g. f_equal. rewrite front_index; [|lia|].
        * apply insert_rest. rewrite Hl. exact Ha.
        * rewrite app_length, firstn_length, skipn_length. unfold n in *. lia.
  Qed.
End Field.
