From Coq Require Import Reals Lia Lra.
From stdpp Require Import list list_numbers sorting.
From Verif Require Import Numpy_Model Permutations_Model Permutations_Spec Permutations_Proofs
  Subproblems_Model Subproblems_Spec.
Local Open Scope R_scope.

(** ** Sparse algebra *)
Lemma row_dot_nil x : row_dot [] x = 0. Proof. done. Qed.
Lemma row_dot_cons c v row x : row_dot ((c, v) :: row) x = v * nth c x 0 + row_dot row x.
Proof. done. Qed.
Lemma row_dot_app r1 r2 x : row_dot (r1 ++ r2) x = row_dot r1 x + row_dot r2 x.
Proof.
  induction r1 as [|[c v] r1 IH]; cbn [app]; [rewrite row_dot_nil; lra|].
  rewrite !row_dot_cons, IH. lra.
Qed.

Lemma mv_length A x : length (mv A x) = length A.
Proof. apply map_length. Qed.

Lemma nth_mv A x k : nth k (mv A x) 0 = row_dot (nth k A []) x.
Proof.
  unfold mv. revert k. induction A as [|row A IH]; intros [|k]; simpl; try done.
Qed.

Lemma mv_mm A B x : mv (mm A B) x = mv A (mv B x).
Proof.
  unfold mv at 1 2, mm. rewrite map_map. apply map_ext. intros row.
  induction row as [|[k v] row IH]; [done|].
  cbn [mbind list_bind]. rewrite row_dot_app, IH, row_dot_cons. f_equal.
  rewrite nth_mv. generalize (nth k B []). clear.
  induction l as [|[c w] l IH]; [rewrite !row_dot_nil; lra|].
  cbn [map]. rewrite !row_dot_cons, IH. lra.
Qed.

(** ** Selections *)
Definition sel_matrix (s : list nat) : list (list (nat * R)) := map (fun j => [(j, 1)]) s.

Lemma mv_sel s x : mv (sel_matrix s) x = map (fun j => nth j x 0) s.
Proof.
  unfold mv, sel_matrix. rewrite map_map. apply map_ext. intros j. rewrite row_dot_cons, row_dot_nil. lra.
Qed.

Lemma nth_diags valid j : nth j (diags_csr valid) [] = if nth j valid false then [(j, 1)] else [].
Proof.
  unfold diags_csr. rewrite !nth_lookup, list_lookup_imap.
  destruct (valid !! j) as [[]|]; done.
Qed.

Lemma pre_form p valid :
  drop_empty_rows (mm (perm_matrix p) (diags_csr valid)) =
  sel_matrix (filter (fun j => nth j valid false = true) p).
Proof.
  unfold drop_empty_rows, mm, perm_matrix, sel_matrix. rewrite map_map.
  induction p as [|j p IH]; [done|]. cbn [map]. rewrite !filter_cons.
  cbn [mbind list_bind]. rewrite nth_diags, app_nil_r.
  destruct (nth j valid false) eqn:E; cbn [map].
  - rewrite decide_True by done. rewrite (decide_True (P := true = true)) by done. cbn [map].
    rewrite Rmult_1_l. f_equal. apply IH.
  - rewrite decide_False by tauto. rewrite (decide_False (P := false = true)) by done. apply IH.
Qed.

Lemma nnz_diags valid : nnz (diags_csr valid) = length (filter (fun b : bool => b = true) valid).
Proof.
  unfold nnz, diags_csr.
  assert (forall f : nat -> nat, sum_list_with length
     (imap (fun i (b : bool) => if b then [(f i, 1)] else []) valid) = length (filter (fun b : bool => b = true) valid)) as H.
  { induction valid as [|b valid IH]; intros f; [done|]. rewrite imap_cons. simpl.
    rewrite filter_cons. destruct b; simpl.
    - f_equal. apply (IH (fun i => f (S i))).
    - apply (IH (fun i => f (S i))). }
  apply (H (fun i => i)).
Qed.

Lemma row_dot_transposed s n j y : (forall i, s !! i = Some j -> i = n) ->
  forall k, row_dot (concat (imap (fun i row => map (fun '(_, v) => ((k + i)%nat, v))
      (filter (fun cv : nat * R => cv.1 = j) row)) (sel_matrix s))) y =
  if decide (s !! n = Some j) then nth (k + n) y 0 else 0.
Proof.
  revert n. induction s as [|a s IH]; intros n Hu k.
  - destruct (decide _); done.
  - change (sel_matrix (a :: s)) with ([(a, 1)] :: sel_matrix s).
    rewrite imap_cons. cbn [concat]. rewrite row_dot_app.
    rewrite (imap_ext _ (fun i row => map (fun '(_, v) => ((S k + i)%nat, v))
      (filter (fun cv : nat * R => cv.1 = j) row)) (sel_matrix s))
      by (intros i row _; simpl; replace (k + S i)%nat with (S (k + i)) by lia; done).
    rewrite filter_cons. cbn [fst]. change (filter (fun cv : nat * R => cv.1 = j) []) with (@nil (nat * R)).
    destruct (decide (a = j)) as [->|Hne].
    + assert (n = 0)%nat as -> by (symmetry; by apply (Hu 0%nat)).
      cbn [map]. rewrite row_dot_cons, row_dot_nil.
      rewrite (decide_True (P := (j :: s) !! 0%nat = Some j)) by done.
      rewrite (IH (length s)).
      * rewrite decide_False by (rewrite lookup_ge_None_2 by lia; done). lra.
      * intros i Hi. specialize (Hu (S i) Hi). lia.
    + cbn [map]. rewrite row_dot_nil.
      destruct n as [|n].
      * rewrite (decide_False (P := (a :: s) !! 0%nat = Some j)) by (simpl; congruence).
        rewrite (IH (length s)).
        -- rewrite decide_False by (rewrite lookup_ge_None_2 by lia; done). lra.
        -- intros i Hi. specialize (Hu (S i) Hi). lia.
      * rewrite (IH n).
        -- change ((a :: s) !! S n) with (s !! n). replace (S k + n)%nat with (k + S n)%nat by lia. lra.
        -- intros i Hi. specialize (Hu (S i) Hi). lia.
Qed.

Lemma transpose_length n A : length (transpose_csr n A) = n.
Proof. unfold transpose_csr. by rewrite map_length, seq_length. Qed.

Lemma nth_map_seq (A : Type) (f : nat -> A) n j d : (j < n)%nat -> nth j (map f (seq 0 n)) d = f j.
Proof.
  intros Hj. rewrite (nth_indep _ d (f 0%nat)) by (rewrite map_length, seq_length; done).
  rewrite map_nth, seq_nth by done. done.
Qed.

Lemma expand_hit s n y i j : NoDup s -> (j < n)%nat -> s !! i = Some j ->
  nth j (mv (transpose_csr n (sel_matrix s)) y) 0 = nth i y 0.
Proof.
  intros Hn Hj Hi. rewrite nth_mv. unfold transpose_csr. rewrite nth_map_seq by done.
  transitivity (if decide (s !! i = Some j) then nth (0 + i) y 0 else 0).
  - apply (row_dot_transposed s i j y) with (k := 0%nat). intros i' Hi'. eapply NoDup_lookup; done.
  - rewrite decide_True by done. done.
Qed.

Lemma expand_miss s n y j : j ∉ s -> nth j (mv (transpose_csr n (sel_matrix s)) y) 0 = 0.
Proof.
  intros Hn. destruct (decide (j < n)%nat) as [Hj|Hj].
  - rewrite nth_mv. unfold transpose_csr. rewrite nth_map_seq by done.
    transitivity (if decide (s !! length s = Some j) then nth (0 + length s) y 0 else 0).
    + apply (row_dot_transposed s (length s) j y) with (k := 0%nat).
      intros i Hi. exfalso. apply Hn. by eapply elem_of_list_lookup_2.
    + rewrite decide_False by (rewrite lookup_ge_None_2 by lia; done). done.
  - apply nth_overflow. rewrite mv_length, transpose_length. lia.
Qed.

Lemma compress_expand s n y : NoDup s -> Forall (fun j => (j < n)%nat) s -> length y = length s ->
  mv (sel_matrix s) (mv (transpose_csr n (sel_matrix s)) y) = y.
Proof.
  intros Hn Hf Hl. rewrite mv_sel. apply (nth_ext _ _ 0 0); [by rewrite map_length|].
  intros i Hi. rewrite map_length in Hi.
  destruct (lookup_lt_is_Some_2 s i Hi) as [j Hj].
  rewrite (nth_indep _ 0 (nth 0%nat (mv (transpose_csr n (sel_matrix s)) y) 0)) by (rewrite map_length; done).
  rewrite (map_nth (fun j => nth j _ 0)). rewrite (nth_lookup s), Hj. simpl.
  apply expand_hit; [done| |done]. rewrite Forall_forall in Hf. apply Hf. by eapply elem_of_list_lookup_2.
Qed.

Lemma expand_compress s n x j : NoDup s -> (j < n)%nat -> 
  nth j (mv (transpose_csr n (sel_matrix s)) (mv (sel_matrix s) x)) 0 = if decide (j ∈ s) then nth j x 0 else 0.
Proof.
  intros Hn Hj. destruct (decide (j ∈ s)) as [Hin|Hin]; [|by apply expand_miss].
  apply elem_of_list_lookup in Hin as [i Hi]. erewrite expand_hit by done.
  rewrite mv_sel. rewrite nth_lookup, list_lookup_fmap, Hi. done.
Qed.

(** ** Flattening *)
Lemma flatten_length bs X : length (flatten bs X) = total bs.
Proof.
  revert X. induction bs as [|b bs IH]; intros X; [done|]. simpl.
  rewrite app_length, map_length, seq_length, IH. done.
Qed.

Lemma flatten_nth bs X k b c : bs !! k = Some b -> (c < bcomps b * bmodes b)%nat ->
  nth (total (take k bs) + c) (flatten bs X) 0 = X k c.
Proof.
  revert X k. induction bs as [|b' bs IH]; intros X k Hk Hc; [done|].
  destruct k as [|k]; simpl in Hk.
  - injection Hk as ->. simpl. rewrite app_nth1 by (rewrite map_length, seq_length; done).
    by rewrite nth_map_seq.
  - cbn [take flatten]. change (total (b' :: take k bs)) with (bsize b' + total (take k bs))%nat.
    rewrite app_nth2; rewrite map_length, seq_length; unfold bsize; [|lia].
    replace (_ + _ + c - _)%nat with (total (take k bs) + c)%nat by lia. by apply (IH (fun k => X (S k))).
Qed.

Lemma flatten_ext bs X Y :
  (forall k b c, bs !! k = Some b -> (c < bcomps b * bmodes b)%nat -> X k c = Y k c) ->
  flatten bs X = flatten bs Y.
Proof.
  revert X Y. induction bs as [|b bs IH]; intros X Y H; [done|]. simpl. f_equal.
  - apply map_ext_in. intros c Hc. apply in_seq in Hc. apply (H 0%nat b); [done|lia].
  - apply IH. intros k b' c Hk Hc. by apply (H (S k) b').
Qed.

Lemma flatten_onto bs x : length x = total bs -> exists X, flatten bs X = x.
Proof.
  revert x. induction bs as [|b bs IH]; intros x Hx.
  - exists (fun _ _ => 0). destruct x; [done|]. done.
  - change (total (b :: bs)) with (bsize b + total bs)%nat in Hx.
    destruct (IH (drop (bsize b) x)) as [Y HY]; [rewrite drop_length; lia|].
    exists (fun k => match k with O => fun c => nth c x 0 | S k => Y k end).
    transitivity (take (bsize b) x ++ drop (bsize b) x); [|apply take_drop].
    cbn [flatten]. f_equal; [|by rewrite <-HY].
    apply (nth_ext _ _ 0 0); [rewrite map_length, seq_length, take_length; unfold bsize in *; lia|].
    intros c Hc. rewrite map_length, seq_length in Hc. rewrite nth_map_seq by done.
    rewrite !nth_lookup. rewrite lookup_take by done. done.
Qed.

(** Positions of a concatenation, by part. *)
Lemma total_split bs n : (n < total bs)%nat ->
  exists k b c, bs !! k = Some b /\ (c < bcomps b * bmodes b)%nat /\ n = (total (take k bs) + c)%nat.
Proof.
  revert n. induction bs as [|b bs IH]; intros n Hn; [unfold total in Hn; simpl in Hn; lia|].
  change (total (b :: bs)) with (bsize b + total bs)%nat in Hn.
  destruct (decide (n < bsize b)%nat).
  - exists 0%nat, b, n. done.
  - destruct (IH (n - bsize b)%nat) as (k & b' & c & Hk & Hc & He); [lia|].
    exists (S k), b', c. split; [done|]. split; [done|]. cbn [take].
    change (total (b :: take k bs)) with (bsize b + total (take k bs))%nat. lia.
Qed.

Lemma bind_valid_nth {A} (f : A -> list bool) (g : A -> block) l k a c :
  Forall (fun a => length (f a) = (bcomps (g a) * bmodes (g a))%nat) l ->
  l !! k = Some a -> (c < length (f a))%nat ->
  nth (total (take k (map g l)) + c) (l ≫= f) false = nth c (f a) false.
Proof.
  revert k. induction l as [|a' l IH]; intros k Hf Hk Hc; [done|]. inversion Hf as [|? ? Ha Hl]; subst.
  destruct k as [|k]; simpl in Hk.
  - injection Hk as ->. simpl. by rewrite app_nth1.
  - cbn [map take mbind list_bind]. change (total (g a' :: ?l)) with (bsize (g a') + total l)%nat.
    rewrite app_nth2; rewrite Ha; unfold bsize; [|lia].
    replace (_ + _ + c - _)%nat with (total (take k (map g l)) + c)%nat by lia. by apply IH.
Qed.

(** ** The unfiltered matrix *)
Definition action (es : list (nat * nat * R)) (x : list R) (i : nat) : R :=
  foldr (fun '(r, c, v) acc => (if decide (r = i) then v * nth c x 0 else 0) + acc) 0 es.

Lemma action_app e1 e2 x i : action (e1 ++ e2) x i = action e1 x i + action e2 x i.
Proof.
  induction e1 as [|[[r c] v] e1 IH]; simpl; [lra|].
  unfold action in *. simpl. rewrite IH. lra.
Qed.

Lemma mv_coo n es x : mv (coo_tocsr n es) x = map (action es x) (seq 0 n).
Proof.
  unfold mv, coo_tocsr. rewrite map_map. apply map_ext. intros i.
  induction es as [|[[r c] v] es IH]; [done|]. rewrite filter_cons. cbn [fst].
  unfold action. cbn [foldr]. fold (action es x i). rewrite <-IH.
  destruct (decide (r = i)); cbn [map]; [rewrite row_dot_cons|]; lra.
Qed.

Lemma total_map {A} (g : A -> block) l : total (map g l) = sum_list_with (fun a => bcomps (g a) * bmodes (g a))%nat l.
Proof. induction l as [|a l IH]; [done|]. simpl. change (total (g a :: ?l)) with (bsize (g a) + total l)%nat. rewrite IH. done. Qed.

Section raw.
  Context (cutoff : R).

  Definition cutes (es : list (nat * nat * R)) := map (fun '(r, c, v) => (r, c, cut cutoff v)) es.

  Lemma action_shift es i0 j0 x r (y : nat -> R) n :
    Forall (fun e => (e.1.2 < n)%nat) es ->
    (forall c, (c < n)%nat -> nth (j0 + c) x 0 = y c) ->
    action (cutes (map (fun '(r, c, x) => ((i0 + r)%nat, (j0 + c)%nat, x)) es)) x (i0 + r) = coo_row cutoff es y r.
  Proof.
    intros Hf Hy. induction Hf as [|[[a c] v] es Hc Hf IH]; [done|].
    unfold cutes, action in *. simpl in *. rewrite IH. f_equal.
    destruct (decide (a = r)) as [->|]; [rewrite decide_True by done|rewrite decide_False by lia; done].
    unfold cut. rewrite Hy by done. done.
  Qed.

  Lemma action_miss es i0 j0 x i m :
    Forall (fun e => (e.1.1 < m)%nat) es -> (i < i0 \/ i0 + m <= i)%nat ->
    action (cutes (map (fun '(r, c, x) => ((i0 + r)%nat, (j0 + c)%nat, x)) es)) x i = 0.
  Proof.
    intros Hf Hi. induction Hf as [|[[a c] v] es Hc Hf IH]; [done|].
    unfold cutes, action in *. simpl in *. rewrite IH. rewrite decide_False by lia. lra.
  Qed.

  Lemma cutes_app a b : cutes (a ++ b) = cutes a ++ cutes b.
  Proof. apply map_app. Qed.

  Lemma eqn_entries_hit m i0 j0 vars blocks x (X : nat -> nat -> R) r :
    Forall2 (fun v b => match b with
       | Some es => Forall (fun e => (e.1.1 < m)%nat /\ (e.1.2 < bcomps (v_block v) * bmodes (v_block v))%nat) es
       | None => True end) vars blocks ->
    drop j0 x = flatten (map v_block vars) X ->
    action (cutes (eqn_entries i0 j0 vars blocks)) x (i0 + r) = blocks_row cutoff blocks X r.
  Proof.
    intros Hf. revert j0 X. induction Hf as [|v b vars blocks Hvb Hf IH]; intros j0 X Hx; [done|].
    cbn [eqn_entries blocks_row]. rewrite cutes_app, action_app.
    rewrite (IH (j0 + block_size (v_block v))%nat (fun k => X (S k))).
    - f_equal. destruct b as [es|]; [|by destruct (decide _)].
      destruct (decide (block_size (v_block v) <> 0)%nat) as [Hz|Hz].
      + apply action_shift with (n := block_size (v_block v)).
        * eapply Forall_impl; [done|]. intros e [_ He]. done.
        * intros c Hc. transitivity (nth c (drop j0 x) 0).
          -- rewrite !nth_lookup, lookup_drop. done.
          -- rewrite Hx. simpl. rewrite app_nth1 by (rewrite map_length, seq_length; done).
             by rewrite nth_map_seq.
      + assert (es = []) as ->; [|done]. destruct es as [|e es]; [done|].
        inversion Hvb as [|? ? [_ He] _]; subst. unfold block_size in Hz. lia.
    - rewrite <-drop_drop, Hx. simpl. rewrite drop_app_alt; [done|].
      rewrite map_length, seq_length. done.
  Qed.

  Lemma eqn_entries_miss m i0 j0 vars blocks x i :
    Forall2 (fun v b => match b with
       | Some es => Forall (fun e => (e.1.1 < m)%nat /\ (e.1.2 < bcomps (v_block v) * bmodes (v_block v))%nat) es
       | None => True end) vars blocks ->
    (i < i0 \/ i0 + m <= i)%nat ->
    action (cutes (eqn_entries i0 j0 vars blocks)) x i = 0.
  Proof.
    intros Hf Hi. revert j0. induction Hf as [|v b vars blocks Hvb Hf IH]; intros j0; [done|].
    cbn [eqn_entries]. rewrite cutes_app, action_app, IH.
    destruct (decide _); [|unfold action; simpl; lra]. destruct b as [es|]; [|unfold action; simpl; lra].
    rewrite (action_miss es _ _ _ _ m); [lra| |done].
    eapply Forall_impl; [done|]. intros e [He _]. done.
  Qed.

  Lemma entries_below i0 eqns vars name x i :
    Forall (fun q => blocks_ok q vars) eqns -> (i < i0)%nat ->
    action (cutes (entries i0 eqns vars name)) x i = 0.
  Proof.
    revert i0. induction eqns as [|q eqns IH]; intros i0 Hf Hi; [done|]. inversion Hf as [|? ? Hq Hf']; subst.
    cbn [entries]. rewrite cutes_app, action_app, IH; [|done|lia].
    destruct (decide _); [|unfold action; simpl; lra].
    destruct (nth name (q_mats q) None) as [blocks|] eqn:E; [|unfold action; simpl; lra].
    rewrite (eqn_entries_miss (block_size (q_block q))); [lra|by eapply Hq|lia].
  Qed.

  Lemma entries_action i0 eqns vars name X e q r :
    Forall (fun q => blocks_ok q vars) eqns ->
    eqns !! e = Some q -> (r < bcomps (q_block q) * bmodes (q_block q))%nat ->
    action (cutes (entries i0 eqns vars name)) (flatten (map v_block vars) X)
      (i0 + (total (take e (map q_block eqns)) + r)) =
    if q_cond q then lhs cutoff eqns name X e r else 0.
  Proof.
    revert i0 e. induction eqns as [|q' eqns IH]; intros i0 e Hf He Hr; [done|].
    inversion Hf as [|? ? Hq Hf']; subst. cbn [entries]. rewrite cutes_app, action_app.
    destruct e as [|e]; simpl in He.
    - injection He as ->. cbn [map take]. change (total []) with 0%nat. rewrite Nat.add_0_l.
      rewrite (entries_below (i0 + _)); [|done|unfold block_size; lia].
      unfold lhs. cbn [lookup list_lookup].
      destruct (q_cond q) eqn:Ec.
      + rewrite decide_True by (unfold block_size; split; [lia|done]).
        destruct (nth name (q_mats q) None) as [blocks|] eqn:E; [|unfold action; simpl; lra].
        rewrite (eqn_entries_hit (block_size (q_block q)) _ _ _ _ _ X); [lra|by eapply Hq|done].
      + rewrite decide_False by (intros [_ ?]; done). unfold action. simpl. lra.
    - cbn [map take]. change (total (q_block q' :: ?l)) with (bsize (q_block q') + total l)%nat.
      assert (action (cutes (if decide (block_size (q_block q') <> 0%nat /\ q_cond q' = true)
         then match nth name (q_mats q') None with Some blocks => eqn_entries i0 0 vars blocks | None => [] end
         else [])) (flatten (map v_block vars) X)
           (i0 + (bsize (q_block q') + total (take e (map q_block eqns)) + r)) = 0) as ->.
      { destruct (decide _); [|done]. destruct (nth name (q_mats q') None) as [blocks|] eqn:E; [|done].
        apply (eqn_entries_miss (block_size (q_block q'))); [by eapply Hq|].
        unfold bsize, block_size. lia. }
      replace (i0 + (bsize (q_block q') + total (take e (map q_block eqns)) + r))%nat with (i0 + block_size (q_block q') + (total (take e (map q_block eqns)) + r))%nat
        by (unfold bsize, block_size; lia).
      rewrite IH by done. unfold lhs. simpl. lra.
  Qed.

  Lemma raw_matrix_apply eqns vars name X :
    Forall (fun q => blocks_ok q vars) eqns ->
    mv (raw_matrix cutoff eqns vars name) (flatten (map v_block vars) X) =
    flatten (map q_block eqns)
      (fun e r => match eqns !! e with Some q => if q_cond q then lhs cutoff eqns name X e r else 0 | None => 0 end).
  Proof.
    intros Hf. unfold raw_matrix. fold (cutes (entries 0 eqns vars name)). rewrite mv_coo.
    assert (sum_list_with (fun q => block_size (q_block q)) eqns = total (map q_block eqns)) as -> by (by rewrite total_map).
    apply (nth_ext _ _ 0 0).
    - rewrite map_length, seq_length, flatten_length. done.
    - intros n Hn. rewrite map_length, seq_length in Hn. rewrite nth_map_seq by done.
      destruct (total_split _ _ Hn) as (e & b & r & He & Hr & ->).
      erewrite flatten_nth by done.
      pose proof He as He'. rewrite list_lookup_fmap in He'.
      destruct (eqns !! e) as [q|] eqn:Eq; [|done]. simpl in He'. injection He' as <-.
      apply (entries_action 0 eqns vars name X e q r); done.
  Qed.
End raw.

(** ** The whole construction *)
Definition kept (perm : list nat) (valid : list bool) : list nat :=
  filter (fun j => nth j valid false = true) perm.

Lemma kept_NoDup p n valid : p ≡ₚ seq 0 n -> NoDup (kept p valid).
Proof.
  intros Hp. apply NoDup_filter. rewrite Hp. apply NoDup_ListNoDup, seq_NoDup.
Qed.
Lemma elem_of_kept p n valid j : p ≡ₚ seq 0 n -> j ∈ kept p valid <-> (j < n)%nat /\ nth j valid false = true.
Proof.
  intros Hp. unfold kept. rewrite elem_of_list_filter, Hp, elem_of_list_In, in_seq.
  split; [intros [? ?]|intros [? ?]]; split; try done; lia.
Qed.
Lemma kept_lt p n valid : p ≡ₚ seq 0 n -> Forall (fun j => (j < n)%nat) (kept p valid).
Proof. intros Hp. apply Forall_forall. intros j Hj. by eapply elem_of_kept in Hj as [? _]. Qed.

Lemma list_filter_iff_in {A} (P Q : A -> Prop) `{!forall x, Decision (P x), !forall x, Decision (Q x)} (l : list A) :
  (forall x, x ∈ l -> P x <-> Q x) -> filter P l = filter Q l.
Proof.
  induction l as [|a l IH]; intros Hpq; [done|]. rewrite !filter_cons.
  assert (filter P l = filter Q l) as -> by (apply IH; intros x Hx; apply Hpq; by right).
  destruct (decide (P a)) as [Hp|Hp], (decide (Q a)) as [Hq|Hq]; try done;
    exfalso; [apply Hq|apply Hp]; by apply (Hpq a); [left|].
Qed.

Lemma filter_seq_length (valid : list bool) :
  length (filter (fun j => nth j valid false = true) (seq 0 (length valid))) =
  length (filter (fun b : bool => b = true) valid).
Proof.
  induction valid as [|b valid IH] using rev_ind; [done|].
  rewrite app_length. simpl. rewrite Nat.add_1_r, seq_S, !filter_app, !app_length. f_equal.
  - rewrite <-IH. f_equal. apply list_filter_iff_in. 
    intros j Hj. apply elem_of_list_In, in_seq in Hj. rewrite app_nth1 by lia. done.
  - rewrite !filter_cons. rewrite app_nth2, Nat.add_0_l, Nat.sub_diag by lia. by destruct b.
Qed.

Lemma kept_length p valid : p ≡ₚ seq 0 (length valid) -> length (kept p valid) = nnz (diags_csr valid).
Proof.
  intros Hp. rewrite nnz_diags, <-filter_seq_length. unfold kept. by rewrite Hp.
Qed.

Lemma valid_eqn_length eqns vars : problem_ok eqns vars -> length (valid_eqn eqns) = total (map q_block eqns).
Proof.
  intros [Hf _]. unfold valid_eqn. induction Hf as [|q eqns [Hq _] Hf IH]; [done|].
  cbn [map mbind list_bind]. rewrite app_length. change (total (q_block q :: ?l)) with (bsize (q_block q) + total l)%nat.
  rewrite IH. unfold bsize. rewrite <-Hq. destruct (q_cond q); rewrite ?map_length; done.
Qed.
Lemma valid_var_length eqns vars : problem_ok eqns vars -> length (valid_var vars) = total (map v_block vars).
Proof.
  intros [_ Hf]. unfold valid_var. induction Hf as [|v vars Hv Hf IH]; [done|].
  cbn [map mbind list_bind]. rewrite app_length. change (total (v_block v :: ?l)) with (bsize (v_block v) + total l)%nat.
  rewrite IH. unfold bsize. rewrite <-Hv. done.
Qed.

(** Where a mode of a variable, and a row of an equation, sit in the unfiltered vectors. *)
Lemma valid_var_nth eqns vars k v c : problem_ok eqns vars -> vars !! k = Some v ->
  (c < bcomps (v_block v) * bmodes (v_block v))%nat ->
  nth (total (take k (map v_block vars)) + c) (valid_var vars) false = nth c (v_valid v) false.
Proof.
  intros [_ Hf] Hk Hc. apply (bind_valid_nth v_valid v_block); [done|done|].
  rewrite Forall_forall in Hf. rewrite Hf; [done|by eapply elem_of_list_lookup_2].
Qed.
Lemma valid_eqn_nth eqns vars k q c : problem_ok eqns vars -> eqns !! k = Some q ->
  (c < bcomps (q_block q) * bmodes (q_block q))%nat ->
  nth (total (take k (map q_block eqns)) + c) (valid_eqn eqns) false = (q_cond q && nth c (q_valid q) false).
Proof.
  intros [Hf _] Hk Hc. unfold valid_eqn.
  assert (length (q_valid q) = (bcomps (q_block q) * bmodes (q_block q))%nat) as Hl.
  { rewrite Forall_forall in Hf. apply Hf. by eapply elem_of_list_lookup_2. }
  rewrite (bind_valid_nth (fun q => if q_cond q then q_valid q else map (fun _ => false) (q_valid q)) q_block) with (a := q).
  - destruct (q_cond q); [done|]. simpl. rewrite nth_lookup, list_lookup_fmap.
    by destruct (q_valid q !! c).
  - eapply Forall_impl; [done|]. intros q' [Hq' _]. destruct (q_cond q'); by rewrite ?map_length.
  - done.
  - destruct (q_cond q); rewrite ?map_length; lia.
Qed.

Lemma nth_true l i : nth i l false = true <-> l !! i = Some true.
Proof. rewrite nth_lookup. destruct (l !! i) as [[]|]; simpl; split; congruence. Qed.

(** What a successful build consists of. *)
Lemma build_form cutoff eqns vars nn bt tl il B :
  problem_ok eqns vars -> build_matrices cutoff eqns vars nn bt tl il = Some B ->
  exists sl sr,
    NoDup sl /\ NoDup sr /\
    (forall j, j ∈ sl <-> (j < total (map q_block eqns))%nat /\ nth j (valid_eqn eqns) false = true) /\
    (forall j, j ∈ sr <-> (j < total (map v_block vars))%nat /\ nth j (valid_var vars) false = true) /\
    length sl = length sr /\
    pre_left B = sel_matrix sl /\ pre_left_pinv B = transpose_csr (total (map q_block eqns)) (sel_matrix sl) /\
    pre_right_pinv B = sel_matrix sr /\ pre_right B = transpose_csr (total (map v_block vars)) (sel_matrix sr) /\
    length (min_matrices B) = nn /\
    forall name, (name < nn)%nat ->
      nth name (min_matrices B) [] = mm (mm (pre_left B) (raw_matrix cutoff eqns vars name)) (pre_right B).
Proof.
  intros Hok. unfold build_matrices. destruct (decide _) as [|Hsq]; [done|].
  destruct (left_permutation _ _ _) as [pl|] eqn:El; [|done].
  destruct (right_permutation _ _ _) as [pr|] eqn:Er; [|done].
  cbn [mbind option_bind]. destruct (decide _) as [|Hc]; [done|]. intros [= <-].
  apply permutation_perm in El, Er. cbn [pre_left pre_right pre_left_pinv pre_right_pinv min_matrices].
  rewrite !pre_form.
  exists (kept pl (valid_eqn eqns)), (kept pr (valid_var vars)).
  split; [by eapply kept_NoDup|]. split; [by eapply kept_NoDup|].
  split; [intros j; by apply elem_of_kept|]. split; [intros j; by apply elem_of_kept|].
  split.
  { rewrite !kept_length.
    - apply dec_stable. done.
    - by erewrite valid_var_length.
    - by erewrite valid_eqn_length. }
  rewrite !total_map. repeat (split; [done|]).
  split; [by rewrite map_length, seq_length|].
  intros name Hn. by rewrite nth_map_seq.
Qed.
