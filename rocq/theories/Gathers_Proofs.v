From Coq Require Import Reals Lia Lra.
From stdpp Require Import list list_numbers sorting.
From Verif Require Import Numpy_Model Numpy_Proofs Permutations_Model Permutations_Spec Permutations_Proofs
  Subproblems_Model Subproblems_Spec Subproblems_Proofs.
Local Open Scope nat_scope.

Lemma np_get_length (pos : list nat) (f : list R) : Forall (fun p => p < length f) pos -> length (np_get pos f) = length pos.
Proof.
  unfold np_get. induction 1 as [|p pos Hp Hf IH]; [done|]. cbn [omap list_omap].
  destruct (lookup_lt_is_Some_2 f p Hp) as [x ->]. simpl. by rewrite IH.
Qed.

Lemma np_get_lookup (pos : list nat) (f : list R) t p :
  Forall (fun p => p < length f) pos -> pos !! t = Some p -> np_get pos f !! t = f !! p.
Proof.
  intros Hf. revert t. unfold np_get. induction Hf as [|q pos Hq Hf IH]; intros t Ht; [done|].
  cbn [omap list_omap]. destruct (lookup_lt_is_Some_2 f q Hq) as [x Hx]. rewrite Hx.
  destruct t as [|t]; simpl in *; [by injection Ht as ->|by apply IH].
Qed.

Lemma np_get_ext (pos : list nat) (f : list R) (l : list R) :
  length l = length pos -> (forall t p, pos !! t = Some p -> f !! p = l !! t) -> np_get pos f = l.
Proof.
  revert l. unfold np_get. induction pos as [|q pos IH]; intros l Hl H.
  - destruct l; done.
  - destruct l as [|x l]; [done|]. cbn [omap list_omap]. rewrite (H 0 q) by done. simpl. f_equal.
    apply IH; [by injection Hl|]. intros t p Ht. by apply (H (S t) p).
Qed.

(** ** Writing one field *)
Definition write1 (i0 : nat) (f : list R) (pc : list nat * list R) : list R :=
  write_all pc.1 (take (length pc.1) (drop i0 pc.2)) f.

Lemma scatter_field_fold i0 v cols f : scatter_field i0 v cols f = foldl (write1 i0) f (zip v cols).
Proof.
  unfold scatter_field. generalize (zip v cols). intros l. revert f.
  induction l as [|[pos col] l IH]; intros f; [done|]. simpl. apply IH.
Qed.

Lemma writes_length i0 l f : length (foldl (write1 i0) f l) = length f.
Proof. revert f. induction l as [|pc l IH]; intros f; [done|]. simpl. rewrite IH. apply write_all_length. Qed.

Lemma writes_out i0 l f p : p ∉ concat (map fst l) -> foldl (write1 i0) f l !! p = f !! p.
Proof.
  revert f. induction l as [|[pos col] l IH]; intros f Hp; [done|]. simpl in *.
  rewrite not_elem_of_app in Hp. destruct Hp as [Hp1 Hp2]. rewrite IH by done.
  by apply write_all_out.
Qed.

Lemma writes_in i0 l f j pos col t p x :
  NoDup (concat (map fst l)) -> Forall (fun p => p < length f) (concat (map fst l)) ->
  l !! j = Some (pos, col) -> pos !! t = Some p -> col !! (i0 + t) = Some x ->
  foldl (write1 i0) f l !! p = Some x.
Proof.
  revert f j. induction l as [|[pos' col'] l IH]; intros f j Hn Hf Hj Ht Hx; [done|].
  simpl in *. apply NoDup_app in Hn as (Hn1 & Hn2 & Hn3). apply Forall_app in Hf as [Hf1 Hf2].
  destruct j as [|j]; simpl in Hj.
  - injection Hj as -> ->. rewrite writes_out.
    + unfold write1. simpl. eapply write_all_in; [done|done| |].
      * rewrite lookup_take by (by eapply lookup_lt_Some). by rewrite lookup_drop.
      * rewrite Forall_forall in Hf1. apply Hf1. by eapply elem_of_list_lookup_2.
    + apply Hn2. by eapply elem_of_list_lookup_2.
  - eapply IH; [done| |done|done|done].
    unfold write1. rewrite write_all_length. done.
Qed.

Lemma map_fst_zip {A B} (v : list A) (c : list B) : length c = length v -> map fst (zip v c) = v.
Proof. revert c. induction v as [|a v IH]; intros [|b c] H; simpl in *; try done. f_equal. apply IH. lia. Qed.

Lemma scatter_field_length i0 v cols f : length (scatter_field i0 v cols f) = length f.
Proof. rewrite scatter_field_fold. apply writes_length. Qed.

Lemma scatter_field_in i0 nsub v cols f j pos t p col x :
  field_views_ok nsub v f -> length cols = nsub ->
  v !! j = Some pos -> pos !! t = Some p -> cols !! j = Some col -> col !! (i0 + t) = Some x ->
  scatter_field i0 v cols f !! p = Some x.
Proof.
  intros (Hl & _ & Hn & Hf) Hc Hj Ht Hcol Hx. rewrite scatter_field_fold.
  eapply (writes_in i0 (zip v cols) f j pos col); [| | |done|done].
  - rewrite map_fst_zip by lia. done.
  - rewrite map_fst_zip by lia. done.
  - rewrite lookup_zip_with, Hj. simpl. by rewrite Hcol.
Qed.

Lemma scatter_field_out i0 nsub v cols f p :
  field_views_ok nsub v f -> length cols = nsub -> p ∉ concat v ->
  scatter_field i0 v cols f !! p = f !! p.
Proof.
  intros (Hl & _ & Hn & Hf) Hc Hp. rewrite scatter_field_fold. apply writes_out.
  rewrite map_fst_zip by lia. done.
Qed.

Lemma view_in_range nsub v f j pos : field_views_ok nsub v f -> v !! j = Some pos ->
  length pos = length (nth 0 v []) /\ Forall (fun p => p < length f) pos.
Proof.
  intros (Hl & He & Hn & Hf) Hj. split.
  - rewrite Forall_forall in He. apply He. by eapply elem_of_list_lookup_2.
  - rewrite Forall_forall in *. intros p Hp. apply Hf. apply elem_of_list_In, in_concat.
    exists pos. split; apply elem_of_list_In; [by eapply elem_of_list_lookup_2|done].
Qed.

(** ** All the fields *)
Lemma buffer_scatter nsub vs fs cols i0 j col :
  Forall2 (field_views_ok nsub) vs fs -> length cols = nsub -> cols !! j = Some col ->
  i0 + vtotal vs <= length col ->
  buffer_column vs (scatter_buffer i0 vs cols fs) j = take (vtotal vs) (drop i0 col).
Proof.
  intros Hf Hc Hj. revert i0. induction Hf as [|v f vs fs Hv Hf IH]; intros i0 Hl.
  - unfold buffer_column. simpl. by rewrite take_0.
  - change (vtotal (v :: vs)) with (length (nth 0 v []) + vtotal vs) in *.
    cbn [scatter_buffer]. unfold buffer_column. cbn [zip_with concat].
    fold (buffer_column vs (scatter_buffer (i0 + length (nth 0 v [])) vs cols fs) j).
    rewrite IH by lia.
    assert (j < nsub) as Hjn by (subst nsub; by eapply lookup_lt_Some).
    assert (exists pos, v !! j = Some pos) as [pos Hpos].
    { apply lookup_lt_is_Some_2. destruct Hv as [-> _]. done. }
    assert (nth j v [] = pos) as -> by (by rewrite nth_lookup, Hpos).
    destruct (view_in_range _ _ _ _ _ Hv Hpos) as [Hlen Hr].
    rewrite (np_get_ext pos (scatter_field i0 v cols f) (take (length (nth 0 v [])) (drop i0 col))).
    + rewrite <-drop_drop, take_take_drop. done.
    + rewrite take_length, drop_length. lia.
    + intros t p Ht. assert (t < length pos) by (by eapply lookup_lt_Some).
      rewrite lookup_take by lia. rewrite lookup_drop.
      destruct (lookup_lt_is_Some_2 col (i0 + t)) as [x Hx]; [lia|]. rewrite Hx.
      by eapply scatter_field_in.
Qed.

Lemma buffer_column_length nsub vs fs j :
  Forall2 (field_views_ok nsub) vs fs -> j < nsub -> length (buffer_column vs fs j) = vtotal vs.
Proof.
  intros Hf Hj. induction Hf as [|v f vs fs Hv Hf IH]; [done|].
  unfold buffer_column. cbn [zip_with concat]. rewrite app_length. fold (buffer_column vs fs j).
  rewrite IH. change (vtotal (v :: vs)) with (length (nth 0 v []) + vtotal vs). f_equal.
  destruct (lookup_lt_is_Some_2 v j) as [pos Hpos]; [destruct Hv as [-> _]; done|].
  rewrite (nth_lookup v), Hpos. simpl. destruct (view_in_range _ _ _ _ _ Hv Hpos) as [Hlen Hr].
  by rewrite np_get_length.
Qed.

Lemma buffer_column_lookup nsub vs fs j k v f pos t p :
  Forall2 (field_views_ok nsub) vs fs -> vs !! k = Some v -> fs !! k = Some f ->
  v !! j = Some pos -> pos !! t = Some p ->
  buffer_column vs fs j !! (vtotal (take k vs) + t) = f !! p.
Proof.
  intros Hf. revert k. induction Hf as [|v' f' vs fs Hv Hf IH]; intros k Hk Hfk Hpos Ht; [done|].
  unfold buffer_column. cbn [zip_with concat]. fold (buffer_column vs fs j).
  assert (exists pos', v' !! j = Some pos') as [pos' Hpos'].
  { apply lookup_lt_is_Some_2. destruct Hv as [Hvl _].
    destruct k as [|k]; simpl in *.
    - injection Hk as ->. by eapply lookup_lt_Some.
    - rewrite Hvl. clear Hvl.
      destruct (Forall2_lookup_lr _ _ _ _ _ _ Hf Hk Hfk) as [<- _]. by eapply lookup_lt_Some. }
  destruct (view_in_range _ _ _ _ _ Hv Hpos') as [Hlen Hr].
  assert (nth j v' [] = pos') as -> by (by rewrite nth_lookup, Hpos').
  destruct k as [|k]; simpl in Hk, Hfk.
  - injection Hk as ->. injection Hfk as ->. rewrite Hpos in Hpos'. injection Hpos' as <-.
    cbn [take]. change (vtotal []) with 0. rewrite Nat.add_0_l.
    rewrite lookup_app_l by (rewrite np_get_length by done; by eapply lookup_lt_Some).
    by apply np_get_lookup.
  - cbn [take]. change (vtotal (v' :: take k vs)) with (length (nth 0 v' []) + vtotal (take k vs)).
    rewrite lookup_app_r; rewrite np_get_length by done; [|lia].
    replace (_ + _ + t - _) with (vtotal (take k vs) + t) by lia. by apply IH.
Qed.

Lemma scatter_buffer_lookup i0 nsub vs fs cols k f v :
  Forall2 (field_views_ok nsub) vs fs -> vs !! k = Some v -> fs !! k = Some f ->
  scatter_buffer i0 vs cols fs !! k = Some (scatter_field (i0 + vtotal (take k vs)) v cols f).
Proof.
  intros Hf. revert i0 k. induction Hf as [|v' f' vs fs Hv Hf IH]; intros i0 k Hk Hfk; [done|].
  destruct k as [|k]; simpl in *.
  - injection Hk as ->. injection Hfk as ->. change (vtotal []) with 0. by rewrite Nat.add_0_r.
  - change (vtotal (v' :: take k vs)) with (length (nth 0 v' []) + vtotal (take k vs)).
    rewrite (IH _ k) by done. f_equal. f_equal. lia.
Qed.

Lemma vtotal_take_le vs k v : vs !! k = Some v -> vtotal (take k vs) + length (nth 0 v []) <= vtotal vs.
Proof.
  revert k. induction vs as [|v' vs IH]; intros k Hk; [done|].
  change (vtotal (v' :: vs)) with (length (nth 0 v' []) + vtotal vs).
  destruct k as [|k]; simpl in Hk; cbn [take].
  - injection Hk as ->. change (vtotal []) with 0. lia.
  - specialize (IH k Hk). change (vtotal (v' :: take k vs)) with (length (nth 0 v' []) + vtotal (take k vs)). lia.
Qed.

Lemma gather_scatter s n nsub vs fs data :
  NoDup s -> Forall (fun j => j < n) s -> vtotal vs = n ->
  Forall2 (field_views_ok nsub) vs fs -> length data = nsub ->
  Forall (fun y => length y = length s) data ->
  gather (sel_matrix s) vs nsub (scatter (transpose_csr n (sel_matrix s)) vs data fs) = data.
Proof.
  intros Hs Hsn Hn Hf Hd Hy. unfold gather. apply list_eq. intros j. rewrite list_lookup_fmap.
  destruct (decide (j < nsub)) as [Hj|Hj].
  - rewrite lookup_seq_lt by done. simpl.
    destruct (lookup_lt_is_Some_2 data j) as [y Hyj]; [lia|]. rewrite Hyj. f_equal.
    unfold scatter. erewrite (buffer_scatter nsub vs fs _ 0 j (mv (transpose_csr n (sel_matrix s)) y));
      [|done|by rewrite map_length|rewrite list_lookup_fmap, Hyj; done|rewrite mv_length, transpose_length; lia].
    rewrite drop_0, take_ge by (rewrite mv_length, transpose_length; lia).
    apply compress_expand; [done|done|]. rewrite Forall_forall in Hy. apply Hy. by eapply elem_of_list_lookup_2.
  - rewrite lookup_seq_ge by lia. simpl. symmetry. apply lookup_ge_None_2. lia.
Qed.

Lemma scatter_gather_in s n nsub vs fs k v f j pos t p :
  NoDup s -> vtotal vs = n -> Forall2 (field_views_ok nsub) vs fs ->
  vs !! k = Some v -> fs !! k = Some f -> v !! j = Some pos -> pos !! t = Some p ->
  exists f' x, scatter (transpose_csr n (sel_matrix s)) vs (gather (sel_matrix s) vs nsub fs) fs !! k = Some f' /\
    f !! p = Some x /\
    f' !! p = Some (if decide (vtotal (take k vs) + t ∈ s) then x else 0%R).
Proof.
  intros Hs Hn Hf Hk Hfk Hpos Ht.
  pose proof (Forall2_lookup_lr _ _ _ _ _ _ Hf Hk Hfk) as Hv.
  destruct (view_in_range _ _ _ _ _ Hv Hpos) as [Hlen Hr].
  assert (p < length f) as Hp by (rewrite Forall_forall in Hr; apply Hr; by eapply elem_of_list_lookup_2).
  destruct (lookup_lt_is_Some_2 f p Hp) as [x Hx].
  unfold scatter. set (cols := map (mv (transpose_csr n (sel_matrix s))) (gather (sel_matrix s) vs nsub fs)).
  assert (length cols = nsub) as Hc by (unfold cols, gather; by rewrite !map_length, seq_length).
  assert (j < nsub) as Hj by (destruct Hv as [<- _]; by eapply lookup_lt_Some).
  eexists _, x. split; [by apply scatter_buffer_lookup with (nsub := nsub)|]. split; [done|].
  pose proof (vtotal_take_le _ _ _ Hk) as Hle. assert (t < length pos) as Htl by (by eapply lookup_lt_Some).
  assert (cols !! j = Some (mv (transpose_csr n (sel_matrix s)) (mv (sel_matrix s) (buffer_column vs fs j)))) as Hcol.
  { unfold cols, gather. rewrite !list_lookup_fmap, lookup_seq_lt by done. done. }
  eapply scatter_field_in; [done|done|done|done|done|]. rewrite Nat.add_0_l.
  set (q := vtotal (take k vs) + t).
  assert (q < n) as Hq by (unfold q; lia).
  pose proof (expand_compress s n (buffer_column vs fs j) q Hs Hq) as He.
  rewrite nth_lookup in He.
  destruct (lookup_lt_is_Some_2 (mv (transpose_csr n (sel_matrix s)) (mv (sel_matrix s) (buffer_column vs fs j))) q) as [z Hz].
  { rewrite mv_length, transpose_length. done. }
  rewrite Hz in He |- *. simpl in He. f_equal. rewrite He. destruct (decide _); [|done].
  rewrite nth_lookup. unfold q. erewrite buffer_column_lookup by done. by rewrite Hx.
Qed.

Lemma scatter_out pre nsub vs fs data k v f p :
  Forall2 (field_views_ok nsub) vs fs -> length data = nsub ->
  vs !! k = Some v -> fs !! k = Some f -> p ∉ concat v ->
  exists f', scatter pre vs data fs !! k = Some f' /\ f' !! p = f !! p.
Proof.
  intros Hf Hd Hk Hfk Hp. eexists. split; [by apply scatter_buffer_lookup with (nsub := nsub)|].
  pose proof (Forall2_lookup_lr _ _ _ _ _ _ Hf Hk Hfk) as Hv.
  eapply scatter_field_out; [done| |done]. by rewrite map_length.
Qed.

Lemma scatter_lengths pre vs data fs k f f' :
  fs !! k = Some f -> scatter pre vs data fs !! k = Some f' -> length f' = length f.
Proof.
  unfold scatter. generalize 0. generalize (map (mv pre) data). intros cols i0.
  revert k fs i0. induction vs as [|v vs IH]; intros k fs i0 Hf Hf'; simpl in Hf'; [congruence|].
  destruct fs as [|g fs]; [done|]. destruct k as [|k]; simpl in *.
  - injection Hf as ->. injection Hf' as <-. apply scatter_field_length.
  - by eapply IH.
Qed.

(** ** Which modes belong to a subsystem *)
Lemma elem_of_product {A} (ls : list (list A)) xs : xs ∈ product ls <-> Forall2 (fun l x => x ∈ l) ls xs.
Proof.
  revert xs. induction ls as [|l ls IH]; intros xs; simpl.
  - rewrite elem_of_list_singleton. split; [intros ->; constructor|by inversion 1].
  - rewrite elem_of_list_bind. split.
    + intros (x & Hx & Hl). apply elem_of_list_fmap in Hx as (ys & -> & Hys). constructor; [done|by apply IH].
    + inversion 1 as [|? x ? ys Hx Hys]; subst. exists x. split; [|done].
      apply elem_of_list_fmap. exists ys. split; [done|by apply IH].
Qed.

Lemma NoDup_product {A} (ls : list (list A)) : Forall NoDup ls -> NoDup (product ls).
Proof.
  induction 1 as [|l ls Hl Hf IH]; simpl; [apply NoDup_singleton|].
  induction Hl as [|x l Hx Hl IHl]; simpl; [constructor|]. apply NoDup_app. split; [|split; [|done]].
  - apply NoDup_fmap_2; [by intros ? ? [= ->]|done].
  - intros y Hy Hy'. apply elem_of_list_fmap in Hy as (ys & -> & _).
    apply elem_of_list_bind in Hy' as (x' & Hx' & Hin).
    apply elem_of_list_fmap in Hx' as (zs & [= -> ->] & _). done.
Qed.

Lemma omap_unique {A B} (f : A -> option B) (l : list A) :
  NoDup l -> (forall x y, x ∈ l -> y ∈ l -> is_Some (f x) -> is_Some (f y) -> x = y) ->
  (omap f l = [] /\ forall x, x ∈ l -> f x = None) \/ (exists x y, x ∈ l /\ f x = Some y /\ omap f l = [y]).
Proof.
  induction 1 as [|a l Ha Hl IH]; intros Hu.
  - left. split; [done|]. intros x Hx. by apply elem_of_nil in Hx.
  - cbn [omap list_omap]. destruct (f a) as [b|] eqn:E.
    + right. exists a, b. split; [left|]. split; [done|].
      destruct IH as [[-> _]|(x & y & Hx & Hy & _)]; [|done|].
      * intros x y Hx Hy. apply Hu; by right.
      * assert (a = x) as ->; [|done]. apply Hu; [left|by right|by eexists..].
    + destruct IH as [[IH1 IH2]|(x & y & Hx & Hy & Ho)].
      * intros x y Hx Hy. apply Hu; by right.
      * left. split; [done|]. intros x Hx. apply elem_of_cons in Hx as [->|Hx]; [done|by apply IH2].
      * right. exists x, y. split; [by right|done].
Qed.

Lemma list_min_le l x : x ∈ l -> list_min l <= x.
Proof.
  induction l as [|y l IH]; intros Hx; [by apply elem_of_nil in Hx|].
  destruct l as [|z l]; [apply elem_of_list_singleton in Hx as ->; done|].
  change (list_min (y :: z :: l)) with (y `min` list_min (z :: l)).
  apply elem_of_cons in Hx as [->|Hx]; [lia|]. specialize (IH Hx). lia.
Qed.
Lemma list_min_in l : l <> [] -> list_min l ∈ l.
Proof.
  induction l as [|y l IH]; intros Hl; [done|]. destruct l as [|z l]; [left|].
  change (list_min (y :: z :: l)) with (y `min` list_min (z :: l)).
  destruct (Nat.min_spec y (list_min (z :: l))) as [[_ ->]|[_ ->]]; [left|right; by apply IH].
Qed.

Lemma selectedb_iff groups gset idx : selectedb groups gset idx = true <-> selected groups gset idx.
Proof.
  unfold selectedb, selected. rewrite forallb_forall. split.
  - intros H i g Hi. specialize (H (i, Some g)). simpl in H.
    rewrite bool_decide_eq_true in H. apply H. apply elem_of_list_In.
    apply elem_of_lookup_imap. exists i, (Some g). done.
  - intros H [i o] Hin. apply elem_of_list_In, elem_of_lookup_imap in Hin as (i' & o' & [= -> ->] & Hi).
    simpl. destruct o' as [g|]; [|done]. rewrite bool_decide_eq_true. by apply H.
Qed.

Lemma elem_in_shape shape idx : idx ∈ product (map (seq 0) shape) <-> in_shape shape idx.
Proof.
  rewrite elem_of_product. unfold in_shape. rewrite Forall2_fmap_l.
  split; intros H; eapply Forall2_impl; try exact H; intros n i Hni; simpl in *;
    [apply elem_of_list_In, in_seq in Hni|apply elem_of_list_In, in_seq]; lia.
Qed.

Section cartesian.
  Context (shape gshape : list nat) (h : nat -> nat -> nat) (groups : nat -> list nat -> option nat).
  Hypothesis Hdim : shape <> [].
  Hypothesis Hgl : length gshape = length shape.
  Hypothesis Haxes : forall a n g, shape !! a = Some n -> gshape !! a = Some g ->
    0 < g /\ (exists q, n = g * q) /\ forall i j, i < n -> j < n -> (h a i = h a j <-> i / g = j / g).
  Hypothesis Hgroups : forall a idx i, idx !! a = Some i -> groups a idx = Some (h a i).

  Notation in_shape := (in_shape shape) (only parsing).

  Definition block_of (gset : list (option nat)) (idx : list nat) : list (option (nat * nat)) :=
    imap (fun a (o : option nat) => match o with
              | None => None
              | Some _ => let g := nth a gshape 1 in let k := nth a idx 0 / g in Some (g * k, g * k + g)
              end) gset.

  Lemma block_of_unique gset idx s :
    length gset = length shape -> in_shape idx ->
    s ∈ product (imap (subslices shape gshape) gset) -> in_box (clip shape s) idx ->
    s = block_of gset idx.
  Proof.
    intros Hgs Hi Hs Hb. apply elem_of_product in Hs. apply list_eq. intros a.
    unfold block_of. rewrite list_lookup_imap.
    destruct (gset !! a) as [o|] eqn:Ha; simpl.
    - assert (exists so, s !! a = Some so /\ so ∈ subslices shape gshape a o) as (so & Hso & Hin).
      { destruct (Forall2_lookup_l _ _ _ a (subslices shape gshape a o) Hs) as (so & H1 & H2).
        - by rewrite list_lookup_imap, Ha.
        - by exists so. }
      rewrite Hso. f_equal. destruct o as [g0|]; simpl in Hin.
      + apply elem_of_list_fmap in Hin as (k & -> & Hk).
        assert (a < length shape) as Hal by (rewrite <-Hgs; by eapply lookup_lt_Some).
        destruct (lookup_lt_is_Some_2 shape a Hal) as [n Hn].
        destruct (lookup_lt_is_Some_2 gshape a) as [g Hg]; [lia|].
        destruct (Forall2_lookup_l _ _ _ _ _ Hi Hn) as (i & Hia & Hin').
        rewrite !(nth_lookup gshape), !(nth_lookup idx), Hg, Hia in *. simpl.
        unfold in_box in Hb.
        assert (clip shape s !! a = Some (Nat.min (g * k) n, Nat.min (g * k + g) n)) as Hcl.
        { unfold clip. rewrite lookup_zip_with, Hso. simpl. by rewrite Hn. }
        destruct (Forall2_lookup_lr _ _ _ _ _ _ Hb Hcl Hia) as [H1 H2].
        assert (i / g = k) as ->; [|done].
        destruct (Haxes a n g Hn Hg) as (Hg0 & _). symmetry.
        apply (Nat.div_unique _ _ _ (i - g * k)); lia.
      + apply elem_of_list_singleton in Hin as ->. done.
    - apply Forall2_length in Hs. rewrite imap_length in Hs.
      apply lookup_ge_None_2. rewrite <-Hs. by apply lookup_ge_None.
  Qed.

  Lemma block_of_in gset idx :
    length gset = length shape -> in_shape idx ->
    block_of gset idx ∈ product (imap (subslices shape gshape) gset) /\ in_box (clip shape (block_of gset idx)) idx.
  Proof.
    intros Hgs Hi. pose proof (Forall2_length _ _ _ Hi) as Hil. split.
    - apply elem_of_product. apply Forall2_same_length_lookup_2.
      + unfold block_of. by rewrite !imap_length.
      + intros a l x. unfold block_of. rewrite !list_lookup_imap.
        destruct (gset !! a) as [o|] eqn:Ha; simpl; [|done]. intros [= <-] [= <-].
        destruct o as [g0|]; simpl; [|by left].
        assert (a < length shape) as Hal by (rewrite <-Hgs; by eapply lookup_lt_Some).
        destruct (lookup_lt_is_Some_2 shape a Hal) as [n Hn].
        destruct (lookup_lt_is_Some_2 gshape a) as [g Hg]; [lia|].
        destruct (Forall2_lookup_l _ _ _ _ _ Hi Hn) as (i & Hia & Hin').
        rewrite !(nth_lookup gshape), !(nth_lookup idx), !(nth_lookup shape), Hg, Hia, Hn. simpl.
        apply elem_of_list_fmap. exists (i / g). split; [done|].
        destruct (Haxes a n g Hn Hg) as (Hg0 & [q ->] & _).
        apply elem_of_list_In, in_seq. split; [apply Nat.le_0_l|]. simpl.
        assert (i / g < q) by (apply Nat.div_lt_upper_bound; lia).
        assert (q <= (g * q + g - 1) / g) by (apply Nat.div_le_lower_bound; nia). lia.
    - unfold in_box. apply Forall2_same_length_lookup_2.
      + unfold clip, block_of. rewrite zip_with_length, imap_length. lia.
      + intros a [b1 b2] i. unfold clip, block_of. rewrite lookup_zip_with, list_lookup_imap.
        destruct (gset !! a) as [o|] eqn:Ha; simpl; [|done].
        destruct (shape !! a) as [n|] eqn:Hn; simpl; [|done]. intros Hb Hia.
        pose proof (Forall2_lookup_lr _ _ _ _ _ _ Hi Hn Hia) as Hlt; simpl in Hlt.
        assert (a < length shape) as Hal by (by eapply lookup_lt_Some).
        destruct (lookup_lt_is_Some_2 gshape a) as [g Hg]; [lia|].
        destruct (Haxes a n g Hn Hg) as (Hg0 & [q ->] & _).
        destruct o as [g0|]; [|injection Hb as <- <-; lia].
        rewrite !(nth_lookup gshape), !(nth_lookup idx), Hg, Hia in Hb. simpl in Hb. injection Hb as <- <-.
        pose proof (Nat.div_mod i g). pose proof (Nat.mod_upper_bound i g). lia.
  Qed.

  Definition sel_in (gset : list (option nat)) (s : list (option (nat * nat))) : list (list nat) :=
    filter (fun idx => in_box (clip shape s) idx /\ selectedb groups gset idx = true) (product (map (seq 0) shape)).

  Lemma elem_of_sel gset s idx :
    idx ∈ sel_in gset s <-> in_shape idx /\ in_box (clip shape s) idx /\ selected groups gset idx.
  Proof. unfold sel_in. rewrite elem_of_list_filter, elem_in_shape, selectedb_iff. tauto. Qed.

  Definition slice_of (sel : list (list nat)) (s : list (option (nat * nat))) : list (nat * nat) :=
    imap (fun i o => match o with
                     | Some ab => ab
                     | None => let xs := map (fun idx => nth i idx 0) sel in (list_min xs, S (max_list xs))
                     end) s.

  Lemma slices_unfold gset :
    local_groupset_slices shape gshape groups gset =
    omap (fun s => match sel_in gset s with [] => None | _ => Some (slice_of (sel_in gset s) s) end)
         (product (imap (subslices shape gshape) gset)).
  Proof. reflexivity. Qed.

  (** Two elements selected for the same groupset sit in the same blocks. *)
  Lemma selected_same_block gset idx idx' :
    length gset = length shape -> in_shape idx -> in_shape idx' ->
    selected groups gset idx -> selected groups gset idx' -> block_of gset idx = block_of gset idx'.
  Proof.
    intros Hgs Hi Hi' Hs Hs'. unfold block_of. apply imap_ext. intros a [g0|] Ha; [|done].
    assert (a < length shape) as Hal by (rewrite <-Hgs; by eapply lookup_lt_Some).
    destruct (lookup_lt_is_Some_2 shape a Hal) as [n Hn].
    destruct (lookup_lt_is_Some_2 gshape a) as [g Hg]; [lia|].
    destruct (Forall2_lookup_l _ _ _ _ _ Hi Hn) as (i & Hia & Hin).
    destruct (Forall2_lookup_l _ _ _ _ _ Hi' Hn) as (i' & Hia' & Hin').
    specialize (Hs a g0 Ha). specialize (Hs' a g0 Ha).
    rewrite (Hgroups a idx i Hia) in Hs. rewrite (Hgroups a idx' i' Hia') in Hs'.
    destruct (Haxes a n g Hn Hg) as (Hg0 & _ & Hh).
    rewrite !(nth_lookup gshape), !(nth_lookup idx), !(nth_lookup idx'), Hg, Hia, Hia'. simpl.
    assert (i / g = i' / g) as ->; [|done]. apply Hh; [done|done|congruence].
  Qed.

  Lemma coeff_slices_spec gset :
    length gset = length shape ->
    exists box, coeff_slices shape gshape groups gset = Some box /\ length box = length shape /\
      forall idx, in_shape idx -> (in_box box idx <-> selected groups gset idx).
  Proof.
    intros Hgs. unfold coeff_slices. rewrite slices_unfold.
    set (F := fun s => match sel_in gset s with [] => None | _ => Some (slice_of (sel_in gset s) s) end).
    assert (HF : forall s, is_Some (F s) -> exists idx, idx ∈ sel_in gset s).
    { intros s [y Hy]. unfold F in Hy. destruct (sel_in gset s) as [|idx l]; [done|]. exists idx. left. }
    destruct (omap_unique F (product (imap (subslices shape gshape) gset))) as [[Ho Hnone]|(s & y & Hs & Hy & Ho)].
    - apply NoDup_product. apply Forall_forall. intros l Hl.
      apply elem_of_lookup_imap in Hl as (a & o & -> & _). destruct o; simpl; [|apply NoDup_singleton].
      assert (forall m (f : nat -> option (nat * nat)), (forall x y, f x = f y -> x = y) -> NoDup (map f (seq 0 m))) as Hnd.
      { intros m f Hf. apply (NoDup_fmap_2_strong f).
        - intros x y _ _. apply Hf.
        - apply NoDup_ListNoDup, seq_NoDup. }
      destruct (decide (nth a gshape 1 = 0)) as [Hz|Hz].
      + exfalso. destruct (decide (a < length shape)) as [Hal|Hal].
        * destruct (lookup_lt_is_Some_2 shape a Hal) as [m Hm].
          destruct (lookup_lt_is_Some_2 gshape a) as [g Hg]; [lia|].
          destruct (Haxes a m g Hm Hg) as (? & _). rewrite nth_lookup, Hg in Hz. simpl in Hz. lia.
        * rewrite nth_overflow in Hz by lia. done.
      + apply Hnd. intros x x' [= Hx _]. nia.
    - intros s s' Hs Hs' H1 H2. destruct (HF s H1) as [idx Hidx]. destruct (HF s' H2) as [idx' Hidx'].
      apply elem_of_sel in Hidx as (Hi & Hb & Hsel). apply elem_of_sel in Hidx' as (Hi' & Hb' & Hsel').
      rewrite (block_of_unique gset idx s) by done. rewrite (block_of_unique gset idx' s') by done.
      by apply selected_same_block.
    - rewrite Ho. eexists. split; [done|]. split; [by rewrite map_length|]. intros idx Hi. split.
      + intros Hb. exfalso. destruct shape as [|n sh]; [done|]. inversion Hb as [|? ? ? ? Hlt]; subst. lia.
      + intros Hsel. exfalso. destruct (block_of_in gset idx Hgs Hi) as [H1 H2].
        specialize (Hnone _ H1). unfold F in Hnone.
        assert (idx ∈ sel_in gset (block_of gset idx)) as Hin by (by apply elem_of_sel).
        destruct (sel_in gset (block_of gset idx)); [by apply elem_of_nil in Hin|done].
    - rewrite Ho. exists y. split; [done|].
      destruct (HF s ltac:(by eexists)) as [w Hw]. pose proof Hw as Hw'.
      apply elem_of_sel in Hw' as (Hwi & Hwb & Hwsel).
      unfold F in Hy. assert (y = slice_of (sel_in gset s) s) as ->.
      { destruct (sel_in gset s); [done|]. congruence. }
      assert (length s = length gset) as Hsl.
      { apply elem_of_product, Forall2_length in Hs. rewrite imap_length in Hs. done. }
      pose proof (block_of_unique gset w s Hgs Hwi Hs Hwb) as Hsb.
      split; [unfold slice_of; rewrite imap_length; lia|].
      intros idx Hi. split.
      + intros Hb a g0 Ha.
        assert (a < length shape) as Hal by (rewrite <-Hgs; by eapply lookup_lt_Some).
        destruct (lookup_lt_is_Some_2 shape a Hal) as [n Hn].
        destruct (lookup_lt_is_Some_2 gshape a) as [g Hg]; [lia|].
        destruct (Forall2_lookup_l _ _ _ _ _ Hi Hn) as (i & Hia & Hin).
        destruct (Forall2_lookup_l _ _ _ _ _ Hwi Hn) as (j & Hja & Hjn).
        specialize (Hwsel a g0 Ha). rewrite (Hgroups a w j Hja) in Hwsel. injection Hwsel as <-.
        rewrite (Hgroups a idx i Hia). f_equal.
        destruct (Haxes a n g Hn Hg) as (Hg0 & _ & Hh). apply Hh; [done|done|].
        assert (slice_of (sel_in gset s) s !! a = Some (g * (j / g), g * (j / g) + g)) as Hsa.
        { unfold slice_of. rewrite list_lookup_imap, Hsb. unfold block_of. rewrite list_lookup_imap, Ha. simpl.
          rewrite (nth_lookup gshape), (nth_lookup w), Hg, Hja. done. }
        destruct (Forall2_lookup_lr _ _ _ _ _ _ Hb Hsa Hia) as [H1 H2].
        symmetry. apply (Nat.div_unique _ _ _ (i - g * (j / g))); lia.
      + intros Hsel. pose proof (selected_same_block gset idx w Hgs Hi Hwi Hsel Hwsel) as Hbb.
        destruct (block_of_in gset idx Hgs Hi) as [_ Hib]. rewrite Hbb, <-Hsb in Hib.
        assert (idx ∈ sel_in gset s) as Hsin by (by apply elem_of_sel).
        unfold in_box. apply Forall2_same_length_lookup_2.
        * unfold slice_of. rewrite imap_length, Hsl, Hgs. by apply Forall2_length in Hi.
        * intros a [b1 b2] i Hba Hia. unfold slice_of in Hba. rewrite list_lookup_imap in Hba.
          destruct (s !! a) as [[ab|]|] eqn:Hsa; simpl in Hba; [| |done].
          -- injection Hba as ->.
             assert (a < length shape) as Hal by (rewrite <-Hgs, <-Hsl; by eapply lookup_lt_Some).
             destruct (lookup_lt_is_Some_2 shape a Hal) as [n Hn].
             assert (clip shape s !! a = Some (Nat.min b1 n, Nat.min b2 n)) as Hcl.
             { unfold clip. rewrite lookup_zip_with, Hsa. simpl. by rewrite Hn. }
             destruct (Forall2_lookup_lr _ _ _ _ _ _ Hib Hcl Hia) as [H1 H2].
             pose proof (Forall2_lookup_lr _ _ _ _ _ _ Hi Hn Hia) as Hlt; simpl in Hlt. lia.
          -- injection Hba as <- <-.
             assert (i ∈ map (fun idx => nth a idx 0) (sel_in gset s)) as Hin.
             { apply elem_of_list_fmap. exists idx. split; [|done]. by rewrite nth_lookup, Hia. }
             split; [by apply list_min_le|]. apply max_list_elem_of_le in Hin. lia.
  Qed.

  (** Every local mode belongs to exactly one of the local groupsets. *)
  Lemma groupset_of_spec coupling idx : length coupling = length shape -> in_shape idx ->
    exists gset, groupset_of groups coupling idx = Some gset /\ length gset = length shape /\
      selected groups gset idx /\
      forall gset', gset' ∈ local_groupsets shape groups coupling -> selected groups gset' idx -> gset' = gset.
  Proof.
    intros Hc Hi.
    assert (Hform : forall idx, in_shape idx -> groupset_of groups coupling idx =
        Some (imap (fun a (c : bool) => if c then None else Some (h a (nth a idx 0))) coupling)).
    { intros ix Hix. unfold groupset_of. apply mapM_Some_2. apply Forall2_same_length_lookup_2.
      - by rewrite !imap_length.
      - intros a [a' c] o H1 H2. rewrite list_lookup_imap in H1; rewrite list_lookup_imap in H2.
        destruct (coupling !! a) as [c'|] eqn:Hca; simpl in *; [|done].
        injection H1 as <- <-. injection H2 as <-. destruct c'; [done|].
        assert (a < length shape) as Hal by (rewrite <-Hc; by eapply lookup_lt_Some).
        destruct (lookup_lt_is_Some_2 shape a Hal) as [n Hn].
        destruct (Forall2_lookup_l _ _ _ _ _ Hix Hn) as (i & Hia & _).
        rewrite (Hgroups a ix i Hia), nth_lookup, Hia. done. }
    eexists. split; [by apply Hform|]. split; [by rewrite imap_length|].
    assert (Hsel : forall idx, in_shape idx -> selected groups
       (imap (fun a (c : bool) => if c then None else Some (h a (nth a idx 0))) coupling) idx).
    { intros ix Hix a g Ha. rewrite list_lookup_imap in Ha.
      destruct (coupling !! a) as [[]|] eqn:Hca; simpl in Ha; [done| |done]. injection Ha as <-.
      assert (a < length shape) as Hal by (rewrite <-Hc; by eapply lookup_lt_Some).
      destruct (lookup_lt_is_Some_2 shape a Hal) as [n Hn].
      destruct (Forall2_lookup_l _ _ _ _ _ Hix Hn) as (i & Hia & _).
      rewrite (Hgroups a ix i Hia), nth_lookup, Hia. done. }
    split; [by apply Hsel|].
    intros gset' Hg' Hs'. unfold local_groupsets in Hg'. apply elem_of_remove_dups, elem_of_list_omap in Hg' as (ix & Hix & Hf).
    apply elem_in_shape in Hix. rewrite (Hform ix Hix) in Hf. injection Hf as <-.
    apply imap_ext. intros a [] Ha; [done|].
    specialize (Hs' a (h a (nth a ix 0))). rewrite list_lookup_imap, Ha in Hs'. specialize (Hs' eq_refl).
    assert (a < length shape) as Hal by (rewrite <-Hc; by eapply lookup_lt_Some).
    destruct (lookup_lt_is_Some_2 shape a Hal) as [n Hn].
    destruct (Forall2_lookup_l _ _ _ _ _ Hi Hn) as (i & Hia & _).
    rewrite (Hgroups a idx i Hia) in Hs'. rewrite (nth_lookup idx), Hia. simpl. f_equal. congruence.
  Qed.
End cartesian.

(** ** Positions of a view *)
Definition psize (shape : list nat) : nat := foldr Nat.mul 1 shape.
Lemma flat_lt shape idx : in_shape shape idx -> flat shape idx < psize shape.
Proof.
  induction 1 as [|n i shape idx Hi H IH]; simpl; [lia|].
  fold (psize shape). nia.
Qed.
Lemma flat_inj shape idx idx' : in_shape shape idx -> in_shape shape idx' ->
  flat shape idx = flat shape idx' -> idx = idx'.
Proof.
  intros H. revert idx'. induction H as [|n i shape idx Hi H IH]; intros idx' H' He.
  - by inversion H'.
  - inversion H' as [|? i' ? idx'' Hi' H'']; subst. simpl in He. fold (psize shape) in He.
    pose proof (flat_lt _ _ H). pose proof (flat_lt _ _ H'').
    assert (i = i') as <- by nia. f_equal. apply IH; [done|lia].
Qed.

Lemma elem_of_view shape sl p : length sl = length shape ->
  p ∈ view_positions shape sl <-> exists idx, in_shape shape idx /\ in_box sl idx /\ p = flat shape idx.
Proof.
  revert sl p. induction shape as [|n shape IH]; intros [|[a b] sl] p Hl; try done.
  - simpl. rewrite elem_of_list_singleton. split.
    + intros ->. exists []. split; [constructor|]. split; [constructor|done].
    + intros (idx & H & _ & ->). by inversion H.
  - simpl. rewrite elem_of_list_bind. split.
    + intros (i & Hp & Hi). apply elem_of_list_fmap in Hp as (q & -> & Hq).
      apply IH in Hq as (idx & H1 & H2 & ->); [|simpl in Hl; lia].
      apply elem_of_list_In, in_seq in Hi.
      exists (i :: idx). split; [constructor; [lia|done]|]. split; [constructor; [lia|done]|done].
    + intros (idx & H1 & H2 & ->). inversion H1 as [|? i ? idx' Hi H1']; subst.
      inversion H2 as [|? ? ? ? Hab H2']; subst. exists i. split.
      * apply elem_of_list_fmap. exists (flat shape idx'). split; [done|]. apply IH; [simpl in Hl; lia|]. eauto.
      * apply elem_of_list_In, in_seq. lia.
Qed.

Lemma view_NoDup shape sl : length sl = length shape -> NoDup (view_positions shape sl).
Proof.
  revert sl. induction shape as [|n shape IH]; intros [|[a b] sl] Hl; try done; simpl.
  - apply NoDup_singleton.
  - assert (Hnd : NoDup (view_positions shape sl)) by (apply IH; simpl in Hl; lia).
    assert (Hlt : forall p, p ∈ view_positions shape sl -> p < psize shape).
    { intros p Hp. apply elem_of_view in Hp as (idx & H1 & _ & ->); [|simpl in Hl; lia]. by apply flat_lt. }
    fold (psize shape). generalize (Nat.min b n - a). intros m. clear Hl. revert a.
    induction m as [|m IHm]; intros a; simpl; [constructor|].
    apply NoDup_app. split; [|split; [|apply IHm]].
    + apply NoDup_fmap_2; [intros x y ?; lia|done].
    + intros x Hx Hx'. apply elem_of_list_fmap in Hx as (q & -> & Hq).
      apply elem_of_list_bind in Hx' as (i & Hx' & Hi). apply elem_of_list_fmap in Hx' as (q' & He & Hq').
      apply elem_of_list_In, in_seq in Hi. specialize (Hlt q Hq) as H1. specialize (Hlt q' Hq') as H2. nia.
Qed.
