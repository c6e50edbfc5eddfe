(** Proofs about operators on tensor indices. *)
From Coq Require Import List Arith Bool ZArith Lia Field.
Import ListNotations.
From Verif Require Import CSR_Model CSR_Spec CSR_Proofs CSRDense_Proofs MatSolvers_Model MatSolvers_Proofs Clenshaw_Model Clenshaw_Proofs TensorArith_Model TensorArith_Spec TensorArith_Proofs TensorOps_Model TensorOps_Spec.
Local Open Scope nat_scope.

Lemma place_nat n i : i < n -> place n (Z.of_nat i) = Some i.
Proof.
  intros H. unfold place. replace (Z.of_nat i <? - Z.of_nat n)%Z with false by (symmetry; apply Z.ltb_ge; lia). replace (Z.of_nat n <=? Z.of_nat i)%Z with false by (symmetry; apply Z.leb_gt; lia).
  replace (Z.of_nat i <? 0)%Z with false by (symmetry; apply Z.ltb_ge; lia). cbn. rewrite Nat2Z.id. reflexivity.
Qed.
Lemma place_neg n i : 1 <= i <= n -> place n (- Z.of_nat i) = Some (n - i).
Proof.
  intros H. unfold place. replace (- Z.of_nat i <? - Z.of_nat n)%Z with false by (symmetry; apply Z.ltb_ge; lia). replace (Z.of_nat n <=? - Z.of_nat i)%Z with false by (symmetry; apply Z.leb_gt; lia).
  replace (- Z.of_nat i <? 0)%Z with true by (symmetry; apply Z.ltb_lt; lia). cbn. f_equal. lia.
Qed.
Lemma set_item_app {A} (u w : list A) x y : set_item (u ++ x :: w) (Z.of_nat (length u)) y = Some (u ++ y :: w).
Proof.
  unfold set_item. rewrite place_nat by (rewrite app_length; cbn; lia). rewrite firstn_app, Nat.sub_diag, firstn_all. cbn [firstn]. rewrite app_nil_r. f_equal. f_equal. f_equal.
  rewrite skipn_app, skipn_all2 by lia. replace (S (length u) - length u) with 1 by lia. reflexivity.
Qed.
Lemma get_item_app {A} (u w : list A) x : get_item (u ++ x :: w) (Z.of_nat (length u)) = Some x.
Proof. unfold get_item. rewrite place_nat by (rewrite app_length; cbn; lia). rewrite nth_error_app2 by lia. rewrite Nat.sub_diag. reflexivity. Qed.
Lemma replace_app x r y c : replace (length x) (x ++ r :: y) c = x ++ c :: y.
Proof. unfold replace. rewrite firstn_app, Nat.sub_diag, firstn_all. cbn [firstn]. rewrite app_nil_r. f_equal. f_equal. rewrite skipn_app, skipn_all2 by lia. replace (S (length x) - length x) with 1 by lia. reflexivity. Qed.
Lemma nth_mid {A} (x y : list A) r d : nth (length x) (x ++ r :: y) d = r.
Proof. rewrite app_nth2 by lia. rewrite Nat.sub_diag. reflexivity. Qed.
Lemma split_shape u n w idx : in_shape (u ++ n :: w) idx -> exists x r y, idx = x ++ r :: y /\ length x = length u /\ in_shape u x /\ r < n /\ in_shape w y.
Proof.
  intros H. apply Forall2_app_inv_l in H. destruct H as (x & y & Hx & Hy & ->). inversion Hy as [|? r ? y' Hr Hy']; subst. exists x, r, y'. split; [reflexivity|]. split; [symmetry; eapply Forall2_length; exact Hx|]. auto.
Qed.
Lemma replace_length axis idx c : axis < length idx -> length (replace axis idx c) = length idx.
Proof. intros H. unfold replace. rewrite app_length, firstn_length. cbn [length]. rewrite skipn_length. lia. Qed.

Section Field_.
Context {K : Type} (k0 k1 : K) (kadd kmul ksub kdiv : K -> K -> K) (kopp kinv : K -> K).
Context (Hf : field_theory k0 k1 kadd kmul ksub kopp kdiv kinv eq).
Add Field Kf : Hf.
Notation total := (CSR_Spec.total k0 kadd).
Notation mat := (MatSolvers_Model.mat K).
Infix "+k" := kadd (at level 50, left associativity). Infix "*k" := kmul (at level 40, left associativity).
Local Notation T_ext := (total_ext k0 k1 kadd kmul ksub kdiv kopp kinv Hf).
Local Notation T_zero := (total_zero k0 k1 kadd kmul ksub kdiv kopp kinv Hf).
Local Notation T_single := (total_single k0 k1 kadd kmul ksub kdiv kopp kinv Hf).
Local Notation T_mul_l := (total_mul_l k0 k1 kadd kmul ksub kdiv kopp kinv Hf).
Local Notation T_prod := (total_product k0 k1 kadd kmul ksub kdiv kopp kinv Hf).
Notation identity := (MatSolvers_Model.identity k0 k1).
Notation kron_all := (kron_all k1 kmul).
Notation represents := (represents k0 kadd kmul).

(** ** Kronecker products applied to tensors *)
Fixpoint sum_cols (Ms : list mat) (rs : list nat) (f : list nat -> K) : K :=
  match Ms, rs with
  | M :: Ms, r :: rs => total (nc M) (fun c => at_ M r c *k sum_cols Ms rs (fun cs => f (c :: cs)))
  | _, _ => f []
  end.
Lemma sum_cols_ext Ms : forall rs f g, (forall cs, in_shape (map (@nc K) Ms) cs -> f cs = g cs) -> length Ms = length rs -> sum_cols Ms rs f = sum_cols Ms rs g.
Proof.
  induction Ms as [|M Ms IH]; intros [|r rs] f g H L; cbn in *; try discriminate; [apply H; constructor|].
  apply T_ext. intros c Hc. f_equal. apply IH; [|lia]. intros cs Hcs. apply H. constructor; assumption.
Qed.
Lemma kron_apply Ms rs f : in_shape (map (@nr K) Ms) rs ->
  total (size (map (@nc K) Ms)) (fun j => at_ (kron_all Ms) (flat (map (@nr K) Ms) rs) j *k f (unravel (map (@nc K) Ms) j)) = sum_cols Ms rs f.
Proof.
  intros Hr. rewrite (T_ext _ _ (fun j => times_all k1 kmul (map (fun p => at_ (fst (fst p)) (snd (fst p)) (snd p)) (combine (combine Ms rs) (unravel (map (@nc K) Ms) j))) *k f (unravel (map (@nc K) Ms) j))).
  2:{ intros j Hj. f_equal. pose proof (unravel_in _ _ Hj) as Hc.
      destruct (skron_fold k0 k1 kadd kmul ksub kdiv kopp kinv Hf Ms (Mat 1 1 (fun _ _ => k1)) 0 0 rs (unravel (map (@nc K) Ms) j) Hr Hc) as (_ & _ & E).
      rewrite flat_unravel in E by exact Hj. cbn [Nat.mul Nat.add] in E. unfold TensorOps_Model.kron_all. rewrite E. cbn [at_]. ring. }
  revert rs f Hr. induction Ms as [|M Ms IH]; intros rs f Hr; inversion Hr; subst; cbn [map].
  - cbn. ring.
  - cbn [size sum_cols]. rewrite T_prod. apply T_ext. intros c Hc. rewrite <- (IH l') by assumption. rewrite <- T_mul_l. apply T_ext. intros q Hq.
    assert (E : unravel (nc M :: map (@nc K) Ms) (c * size (map (@nc K) Ms) + q) = c :: unravel (map (@nc K) Ms) q).
    { cbn [unravel]. rewrite prod_size, unravel_add. f_equal. rewrite Nat.add_comm, Nat.div_add by lia. rewrite Nat.div_small by lia. cbn. apply Nat.mod_small. exact Hc. }
    rewrite E. cbn [combine map times_all fold_right fst snd]. fold (times_all k1 kmul (map (fun p => at_ (fst (fst p)) (snd (fst p)) (snd p)) (combine (combine Ms l') (unravel (map (@nc K) Ms) q)))). ring.
Qed.
Lemma kron_shape Ms : nr (kron_all Ms) = size (map (@nr K) Ms) /\ nc (kron_all Ms) = size (map (@nc K) Ms).
Proof.
  unfold TensorOps_Model.kron_all. assert (X : forall Ms M, nr (fold_left (skron kmul) Ms M) = nr M * size (map (@nr K) Ms) /\ nc (fold_left (skron kmul) Ms M) = nc M * size (map (@nc K) Ms)).
  { clear. induction Ms as [|P Ms IH]; intros M; cbn [fold_left map size]; [split; lia|]. destruct (IH (skron kmul M P)) as [E1 E2]. rewrite E1, E2. cbn [skron nr nc]. split; lia. }
  destruct (X Ms (Mat 1 1 (fun _ _ => k1))) as [E1 E2]. rewrite E1, E2. cbn [nr nc]. split; lia.
Qed.
Lemma sum_id n Ms r rs f : r < n -> sum_cols (identity n :: Ms) (r :: rs) f = sum_cols Ms rs (fun cs => f (r :: cs)).
Proof.
  intros H. cbn [sum_cols identity nc at_]. rewrite (T_single _ r) by (try exact H; intros j _ Hj; replace (r =? j) with false by (symmetry; apply Nat.eqb_neq; lia); ring). rewrite Nat.eqb_refl. ring.
Qed.
Lemma sum_ids u x : in_shape u x -> forall Ms rs f, sum_cols (map identity u ++ Ms) (x ++ rs) f = sum_cols Ms rs (fun cs => f (x ++ cs)).
Proof. induction 1 as [|n r u x Hr H IH]; intros Ms rs f; [reflexivity|]. cbn [map app]. rewrite sum_id by exact Hr. apply IH. Qed.
Lemma map_nr_id u : map (@nr K) (map identity u) = u. Proof. rewrite map_map. cbn. apply map_id. Qed.
Lemma map_nc_id u : map (@nc K) (map identity u) = u. Proof. rewrite map_map. cbn. apply map_id. Qed.
Lemma kron_factors Ms sin sout F : map (@nc K) Ms = sin -> map (@nr K) Ms = sout -> (forall a idx, in_shape sout idx -> sum_cols Ms idx a = F a idx) -> represents (kron_all Ms) sin sout F.
Proof.
  intros E1 E2 H. destruct (kron_shape Ms) as [N1 N2]. rewrite E1 in N2. rewrite E2 in N1. split; [exact N1|]. split; [exact N2|]. intros a idx Hi. rewrite <- H by exact Hi. rewrite <- E1, <- E2. apply kron_apply. rewrite E2. exact Hi.
Qed.
(** One factor among identities. *)
Lemma kron_axis u n m w (B : mat) : nr B = m -> nc B = n ->
  represents (kron_all (map identity u ++ B :: map identity w)) (u ++ n :: w) (u ++ m :: w)
    (fun a idx => total n (fun c => at_ B (nth (length u) idx 0) c *k a (replace (length u) idx c))).
Proof.
  intros Er Ec. apply kron_factors.
  - rewrite map_app. cbn [map]. rewrite !map_nc_id, Ec. reflexivity.
  - rewrite map_app. cbn [map]. rewrite !map_nr_id, Er. reflexivity.
  - intros a idx Hi. destruct (split_shape _ _ _ _ Hi) as (x & r & y & -> & L & Hx & Hr & Hy). rewrite (sum_ids u x Hx). cbn [sum_cols]. rewrite Ec. rewrite <- L, nth_mid. apply T_ext. intros c _. f_equal. rewrite replace_app.
    rewrite <- (app_nil_r (map identity w)), <- (app_nil_r y), (sum_ids w y Hy). cbn [sum_cols]. rewrite !app_nil_r. reflexivity.
Qed.

(** ** Factors at an index *)
Lemma dims_app a b : dims (a ++ b) = dims a ++ dims b. Proof. apply map_app. Qed.
Lemma dims_length s : length (dims s) = length s. Proof. apply map_length. Qed.
Lemma set_factor u d w n (B : mat) : set_item (map identity (u ++ d :: w) ++ [identity n]) (Z.of_nat (length u)) B = Some (map identity u ++ B :: map identity (w ++ [n])).
Proof.
  rewrite map_app. cbn [map]. rewrite <- app_assoc. cbn [app]. rewrite <- (map_length identity u). rewrite set_item_app. rewrite map_app. reflexivity.
Qed.
Lemma selector d k r (g : nat -> K) m : r < m -> k + r < d -> total d (fun c => (if c =? k + r then k1 else k0) *k g c) = g (k + r).
Proof.
  intros Hr H. rewrite (T_single _ (k + r)) by (try exact H; intros j _ Hj; replace (j =? k + r) with false by (symmetry; apply Nat.eqb_neq; lia); ring). rewrite Nat.eqb_refl. ring.
Qed.
Lemma sizes_one u w : size (u ++ 1 :: w) = size (u ++ w).
Proof. rewrite !size_app_. cbn [size]. lia. Qed.
Lemma flat_one u w x y : in_shape u x -> flat (u ++ 1 :: w) (x ++ 0 :: y) = flat (u ++ w) (x ++ y).
Proof. induction 1 as [|n r u x Hr H IH]; cbn [app flat]; [lia|]. rewrite IH, sizes_one. reflexivity. Qed.
Lemma put_split u x y k : in_shape u x -> put (length u) k (x ++ y) = x ++ k :: y.
Proof. intros H. replace (length u) with (length x) by (symmetry; eapply Forall2_length; exact H). apply put_app. Qed.

Lemma component_right u cs w k n : k < cs_dim cs ->
  exists M, component_matrix k0 k1 kmul (u ++ cs :: w) (Z.of_nat (length u)) k n = Some M /\
    represents M (dims (u ++ cs :: w) ++ [n]) (dims (u ++ w) ++ [n]) (selected (length u) k).
Proof.
  intros Hk. unfold component_matrix. rewrite get_item_app. cbn [option_bind]. rewrite (proj2 (Nat.ltb_lt _ _) Hk). cbv zeta.
  rewrite dims_app. change (dims (cs :: w)) with (cs_dim cs :: dims w). rewrite <- (dims_length u), set_factor. cbn [option_map]. eexists. split; [reflexivity|].
  destruct (kron_axis (dims u) (cs_dim cs) 1 (dims w ++ [n]) (Mat 1 (cs_dim cs) (fun _ j => if j =? k then k1 else k0)) eq_refl eq_refl) as (N1 & N2 & E).
  rewrite dims_app, <- !app_assoc. cbn [app]. rewrite sizes_one in N1. split; [exact N1|]. split; [exact N2|]. intros a idx Hi.
  apply Forall2_app_inv_l in Hi. destruct Hi as (x & y & Hx & Hy & ->). rewrite <- (flat_one _ _ _ _ Hx). rewrite E.
  2:{ apply Forall2_app; [exact Hx|]. constructor; [lia|exact Hy]. }
  unfold selected. rewrite (put_split _ _ _ _ Hx). assert (L : length (dims u) = length x) by (eapply Forall2_length; exact Hx). rewrite L. cbn [at_]. 
  rewrite (T_ext _ _ (fun c => (if c =? k + 0 then k1 else k0) *k a (x ++ c :: y))) by (intros; rewrite replace_app, Nat.add_0_r; reflexivity).
  rewrite (selector _ k 0 (fun c => a (x ++ c :: y)) 1) by lia. rewrite Nat.add_0_r. reflexivity.
Qed.
Lemma direct_right u cs w comp start n : start + cs_dim comp <= cs_dim cs ->
  exists M, direct_matrix k0 k1 kmul (u ++ cs :: w) (Z.of_nat (length u)) comp start n = Some M /\
    represents M (dims (u ++ cs :: w) ++ [n]) (dims (u ++ comp :: w) ++ [n]) (part (length u) start).
Proof.
  intros Hk. unfold direct_matrix. rewrite get_item_app. cbn [option_bind]. rewrite (proj2 (Nat.leb_le _ _) Hk). cbv zeta.
  rewrite dims_app. change (dims (cs :: w)) with (cs_dim cs :: dims w). rewrite <- (dims_length u), set_factor. cbn [option_map]. eexists. split; [reflexivity|].
  destruct (kron_axis (dims u) (cs_dim cs) (cs_dim comp) (dims w ++ [n]) (Mat (cs_dim comp) (cs_dim cs) (fun i j => if j =? start + i then k1 else k0)) eq_refl eq_refl) as (N1 & N2 & E).
  rewrite dims_app. change (dims (comp :: w)) with (cs_dim comp :: dims w). rewrite <- !app_assoc. cbn [app]. split; [exact N1|]. split; [exact N2|]. intros a idx Hi. rewrite E by exact Hi.
  destruct (split_shape _ _ _ _ Hi) as (x & r & y & -> & L & Hx & Hr & Hy). unfold part. rewrite <- L, nth_mid. cbn [at_].
  rewrite (selector _ start r (fun c => a (replace (length x) (x ++ r :: y) c)) (cs_dim comp)) by lia. reflexivity.
Qed.
Lemma skew_right u cs w n : cs_dim cs = 2 ->
  exists M, skew_matrix k0 k1 kmul kopp (u ++ cs :: w) (Z.of_nat (length u)) n = Some M /\
    represents M (dims (u ++ cs :: w) ++ [n]) (dims (u ++ cs :: w) ++ [n]) (turned kopp (length u)).
Proof.
  intros Hk. unfold skew_matrix.
  rewrite dims_app. change (dims (cs :: w)) with (cs_dim cs :: dims w). rewrite <- (dims_length u), set_factor. cbn [option_map]. eexists. split; [reflexivity|].
  destruct (kron_axis (dims u) 2 2 (dims w ++ [n]) (skew_factor k0 k1 kopp) eq_refl eq_refl) as (N1 & N2 & E).
  rewrite Hk. rewrite <- !app_assoc. cbn [app]. split; [exact N1|]. split; [exact N2|]. intros a idx Hi. rewrite E by exact Hi.
  destruct (split_shape _ _ _ _ Hi) as (x & r & y & -> & L & Hx & Hr & Hy). unfold turned. rewrite <- L, nth_mid. cbn [at_ skew_factor CSR_Spec.total].
  unfold CSR_Spec.total. destruct r as [|[|r]]; [| |lia]; cbn; ring.
Qed.

(** ** Assignment *)
Lemma map_clip shape : forall idx, in_shape shape idx -> map (fun p => if fst p =? 1 then 0 else snd p) (combine shape idx) = idx.
Proof. induction 1 as [|n r u x Hr H IH]; [reflexivity|]. cbn [combine map fst snd]. rewrite IH. destruct (Nat.eqb_spec n 1); [|reflexivity]. f_equal. lia. Qed.
Lemma forallb_same l : forallb (fun p : nat * nat => (fst p =? snd p) || (snd p =? 1)) (combine l l) = true.
Proof. induction l as [|x l IH]; [reflexivity|]. cbn. rewrite Nat.eqb_refl. exact IH. Qed.
Lemma assign_same out (v : list nat -> K) : evaluates (assign_all out (out, v)) out v.
Proof.
  unfold assign_all. cbn [fst snd]. rewrite Nat.sub_diag. cbn [skipn firstn forallb andb repeat app]. rewrite Nat.sub_diag. cbn [skipn]. rewrite forallb_same. eexists. split; [reflexivity|]. intros idx Hi. cbn. rewrite map_clip by exact Hi. reflexivity.
Qed.
Lemma clip_nat n i : clip n (Z.of_nat i) = Nat.min n i.
Proof. unfold clip. replace (Z.of_nat i <? 0)%Z with false by (symmetry; apply Z.ltb_ge; lia). cbn zeta. rewrite Nat2Z.id. reflexivity. Qed.
Lemma component_sig_app u cs w : component_sig (u ++ cs :: w) (Z.of_nat (length u)) = u ++ w.
Proof.
  unfold component_sig, upto, from. replace (Z.of_nat (length u) + 1)%Z with (Z.of_nat (S (length u))) by lia. rewrite !clip_nat, app_length. cbn [length]. rewrite !Nat.min_r by lia.
  rewrite firstn_app, Nat.sub_diag, firstn_all. cbn [firstn]. rewrite app_nil_r. f_equal. rewrite skipn_app, skipn_all2 by lia. replace (S (length u) - length u) with 1 by lia. reflexivity.
Qed.
Lemma component_first cs w k spatial (v : list nat -> K) : k < cs_dim cs ->
  evaluates (component_operate (cs :: w) 0 k spatial (dims (cs :: w) ++ spatial, v)) (dims w ++ spatial) (selected 0 k v).
Proof.
  intros Hk. unfold component_operate, take. cbn [fst dims map app]. rewrite (proj2 (Nat.ltb_lt _ _) Hk). cbn [Z.to_nat repeat app option_bind skipn snd].
  rewrite (component_sig_app [] cs w : component_sig (cs :: w) 0 = w). exact (assign_same (dims w ++ spatial) (fun idx => v (k :: idx))).
Qed.

Lemma ones n l : forallb (Nat.eqb 1) (firstn n (repeat 1 n ++ l)) = true.
Proof. induction n as [|n IH]; [reflexivity|exact IH]. Qed.
Lemma skip_ones n (l : list nat) : skipn n (repeat 1 n ++ l) = l.
Proof. induction n as [|n IH]; [reflexivity|exact IH]. Qed.
Lemma skip_zeros n (l : list nat) : skipn n (repeat 0 n ++ l) = l.
Proof. induction n as [|n IH]; [reflexivity|exact IH]. Qed.
Lemma assign_extra out news s (v : list nat -> K) : length out = length s ->
  assign_all out (repeat 1 news ++ s, v) = if forallb (fun p => (fst p =? snd p) || (snd p =? 1)) (combine out s) then Some (fun idx => v (repeat 0 news ++ map (fun p => if fst p =? 1 then 0 else snd p) (combine s idx))) else None.
Proof.
  intros L. unfold assign_all. cbn [fst snd]. rewrite app_length, repeat_length. replace (news + length s - length out) with news by lia. rewrite ones, skip_ones. rewrite L, Nat.sub_diag. reflexivity.
Qed.
Lemma component_later u cs w c0 rest k spatial (v : list nat -> K) : u ++ cs :: w = c0 :: rest -> dims (u ++ w) = dims rest -> k < cs_dim c0 ->
  evaluates (component_operate (u ++ cs :: w) (Z.of_nat (length u)) k spatial (dims (u ++ cs :: w) ++ spatial, v)) (dims (u ++ w) ++ spatial) (selected 0 k v).
Proof.
  intros E D Hk. unfold component_operate, take. rewrite component_sig_app, E. cbn [fst snd dims map app]. rewrite (proj2 (Nat.ltb_lt _ _) Hk). cbn [option_bind]. rewrite Nat2Z.id.
  fold (dims rest). rewrite <- D. rewrite assign_extra by reflexivity. rewrite forallb_same. eexists. split; [reflexivity|]. intros idx Hi. cbn beta. rewrite skip_zeros, map_clip by exact Hi. reflexivity.
Qed.
Lemma forallb_at (f : nat * nat -> bool) a : forall b j, length a = length b -> j < length a -> f (nth j a 0, nth j b 0) = false -> forallb f (combine a b) = false.
Proof.
  induction a as [|x a IH]; intros [|y b] j L Hj Hf0; cbn in *; try lia; try discriminate. destruct j as [|j]; [rewrite Hf0; reflexivity|]. rewrite (IH b j) by (try exact Hf0; lia). apply andb_false_r.
Qed.
Lemma component_raises u cs w j k spatial (v : list nat -> K) : j < length u -> nth j (dims (u ++ cs :: w)) 0 <> nth (S j) (dims (u ++ cs :: w)) 0 -> nth (S j) (dims (u ++ cs :: w)) 0 <> 1 ->
  component_operate (K := K) (u ++ cs :: w) (Z.of_nat (length u)) k spatial (dims (u ++ cs :: w) ++ spatial, v) = None.
Proof.
  intros Hj N1 N2. unfold component_operate, take. rewrite component_sig_app. destruct (u ++ cs :: w) as [|c0 rest] eqn:E; [destruct u; discriminate|]. cbn [fst snd dims map app]. destruct (k <? cs_dim c0); [|reflexivity]. cbn [option_bind]. rewrite Nat2Z.id.
  assert (L : length (u ++ w) = length rest). { assert (X := f_equal (@length _) E). rewrite app_length in *. cbn in X. lia. }
  fold (dims rest). fold (dims (u ++ w)). rewrite assign_extra by (rewrite !app_length, !dims_length, L; reflexivity).
  rewrite (forallb_at _ _ _ j); [reflexivity|rewrite !app_length, !dims_length, L; reflexivity|rewrite app_length, dims_length, app_length; lia|]. cbn [fst snd].
  assert (LL : j < length rest) by (rewrite <- L, app_length; lia).
  rewrite !app_nth1 by (rewrite dims_length, ?app_length; lia). cbn [dims map nth] in N1, N2. fold (dims rest) in N1, N2.
  assert (X : nth j (dims (u ++ w)) 0 = nth j (dims (c0 :: rest)) 0). { rewrite <- E, !dims_app, !app_nth1 by (rewrite dims_length; lia). reflexivity. }
  rewrite X. cbn [dims map]. fold (dims rest). replace (nth j (cs_dim c0 :: dims rest) 0 =? nth j (dims rest) 0) with false by (symmetry; apply Nat.eqb_neq; exact N1). apply Nat.eqb_neq. exact N2.
Qed.
Lemma direct_sig_app u cs w comp : direct_sig (u ++ cs :: w) (Z.of_nat (length u)) comp = Some (u ++ comp :: w).
Proof. apply set_item_app. Qed.
Lemma direct_first cs w comp start spatial (v : list nat -> K) : start + cs_dim comp <= cs_dim cs ->
  evaluates (direct_operate k0 (cs :: w) 0 comp start spatial (dims (cs :: w) ++ spatial, v)) (dims (comp :: w) ++ spatial) (part 0 start v).
Proof.
  intros Hk. unfold direct_operate. rewrite (direct_sig_app [] cs w comp : direct_sig (cs :: w) 0 comp = Some (comp :: w)). cbn [option_bind]. unfold take_slice. cbn [fst snd dims map app]. cbn [option_bind Z.to_nat repeat app].
  replace (Nat.min (start + cs_dim comp) (cs_dim cs) - start) with (cs_dim comp) by lia.
  edestruct (assign_same (cs_dim comp :: dims w ++ spatial)) as (b & -> & E). exists b. split; [reflexivity|]. intros idx Hi. rewrite E by exact Hi. destruct idx as [|i r]; [inversion Hi|]. reflexivity.
Qed.
Lemma direct_raises c0 u cs w comp start spatial (v : list nat -> K) : cs_dim comp <> cs_dim cs -> cs_dim cs <> 1 ->
  direct_operate k0 (c0 :: u ++ cs :: w) (Z.of_nat (S (length u))) comp start spatial (dims (c0 :: u ++ cs :: w) ++ spatial, v) = None.
Proof.
  intros N1 N2. unfold direct_operate. rewrite (direct_sig_app (c0 :: u) cs w comp : direct_sig (c0 :: u ++ cs :: w) (Z.of_nat (S (length u))) comp = Some (c0 :: u ++ comp :: w)). cbn [option_bind]. unfold take_slice. cbn [fst dims map app]. cbn [option_bind]. rewrite Nat2Z.id.
  fold (dims (u ++ cs :: w)). fold (dims (u ++ comp :: w)). rewrite assign_extra by (cbn [length]; rewrite !app_length, !dims_length, !app_length; reflexivity).
  rewrite (forallb_at _ _ _ (S (length u))); [reflexivity|cbn [length]; rewrite !app_length, !dims_length, !app_length; reflexivity|cbn [length]; rewrite app_length, dims_length, app_length; cbn [length]; lia|].
  cbn [nth fst snd]. rewrite !dims_app, <- !app_assoc. cbn [dims map app]. rewrite <- (dims_length u), !nth_mid. rewrite (proj2 (Nat.eqb_neq _ _) N1), (proj2 (Nat.eqb_neq _ _) N2). reflexivity.
Qed.

(** ** Skews *)
Lemma skew_value u n w (old v : list nat -> K) : nth (length u) (u ++ n :: w) 0 = 2 -> evaluates (skew_operate kopp (Z.of_nat (length u)) old v) (u ++ n :: w) (turned kopp (length u) v).
Proof.
  rewrite nth_mid. intros ->. unfold skew_operate, axis_ok. replace (Z.of_nat (length u) <? 0)%Z with false by (symmetry; apply Z.ltb_ge; lia). cbn [option_bind]. rewrite Nat2Z.id. eexists. split; [reflexivity|]. intros idx Hi.
  destruct (split_shape _ _ _ _ Hi) as (x & r & y & -> & L & Hx & Hr & Hy). unfold write, read_at, turned. rewrite <- L, !nth_mid. destruct r as [|[|r]]; [reflexivity|reflexivity|lia].
Qed.
Lemma skew_negative index (old v : list nat -> K) : (index < 0)%Z -> skew_operate (K := K) kopp index old v = None.
Proof. intros H. unfold skew_operate, axis_ok. rewrite (proj2 (Z.ltb_lt _ _) H). reflexivity. Qed.
Lemma turned_twice i idx (a : list nat -> K) : i < length idx -> nth i idx 0 < 2 -> turned kopp i (turned kopp i a) idx = kopp (a idx).
Proof.
  intros Hi H. unfold turned. rewrite <- (firstn_skipn i idx) in *. assert (L : length (firstn i idx) = i) by (rewrite firstn_length; rewrite app_length, firstn_length, skipn_length in Hi; lia).
  destruct (skipn i idx) as [|r y]; [rewrite app_nil_r in Hi; lia|]. set (x := firstn i idx) in *. rewrite <- L in *. rewrite nth_mid in *. rewrite !replace_app. rewrite !nth_mid. destruct r as [|[|r]]; [reflexivity|reflexivity|lia].
Qed.

(** ** Traces *)
Lemma skron_apply (A : mat) n r f (g : nat -> K) : f < n ->
  total (nc A * n) (fun j => at_ (skron kmul A (identity n)) (r * n + f) j *k g j) = total (nc A) (fun c => at_ A r c *k g (c * n + f)).
Proof.
  intros F. rewrite T_prod. apply T_ext. intros c Hc. cbn [skron at_ identity nr nc].
  rewrite (T_single _ f); [|exact F|].
  - rewrite !Nat.div_add_l by lia. rewrite !Nat.div_small by exact F. rewrite !Nat.add_0_r. rewrite !(Nat.add_comm (_ * _)), !Nat.mod_add by lia. rewrite Nat.mod_small by exact F. rewrite Nat.eqb_refl. ring.
  - intros q Hq N. rewrite !(Nat.add_comm (_ * _)), !Nat.mod_add by lia. rewrite !Nat.mod_small by lia. replace (f =? q) with false by (symmetry; apply Nat.eqb_neq; lia). ring.
Qed.

Lemma trace_right cs rest n :
  exists M, trace_matrix k0 k1 kmul (cs :: cs :: rest) n = Some M /\
    represents M (dims (cs :: cs :: rest) ++ [n]) (dims rest ++ [n]) (traced k0 kadd (cs_dim cs)).
Proof.
  cbn [trace_matrix]. set (d := cs_dim cs). assert (X : forall l, fold_right Nat.mul 1 l = size l) by (clear; induction l as [|x l IH]; cbn; congruence). rewrite X. clear X.
  assert (N : size (dims rest) * n = size (dims rest ++ [n])) by (rewrite size_app_; cbn [size]; lia). rewrite N. set (sh := dims rest ++ [n]) in *.
  eexists. split; [reflexivity|]. change (dims (cs :: cs :: rest) ++ [n]) with (d :: d :: sh). split; [cbn [skron nr identity]; lia|]. split; [cbn [skron nc identity size]; lia|].
  intros a idx Hi. pose proof (flat_lt sh idx Hi) as F. set (A := Mat 1 (d * d) (fun _ j => if j / d =? j mod d then k1 else k0)).
  replace (size (d :: d :: sh)) with (nc A * size sh) by (cbn [A nc size]; lia). pose proof (skron_apply A (size sh) 0 (flat sh idx) (fun j => a (unravel (d :: d :: sh) j)) F) as E. cbn [Nat.mul Nat.add] in E. rewrite E. clear E.
  cbn [A nc at_]. rewrite T_prod. unfold traced. apply T_ext. intros i Hi0. rewrite (T_single _ i); [|exact Hi0|].
  - rewrite Nat.div_add_l, Nat.div_small, Nat.add_0_r by lia. rewrite (Nat.add_comm (i * d)), Nat.mod_add, Nat.mod_small, Nat.eqb_refl by lia.
    replace ((i + i * d) * size sh + flat sh idx) with (flat (d :: d :: sh) (i :: i :: idx)) by (cbn [flat size]; lia). rewrite unravel_flat by (constructor; [exact Hi0|constructor; [exact Hi0|exact Hi]]). ring.
  - intros j Hj Nj. rewrite Nat.div_add_l, Nat.div_small, Nat.add_0_r by lia. rewrite (Nat.add_comm (i * d)), Nat.mod_add, Nat.mod_small by lia. replace (i =? j) with false by (symmetry; apply Nat.eqb_neq; lia). ring.
Qed.
Lemma trace_value d sh (v : list nat -> K) : evaluates (trace_operate k0 kadd (d :: d :: sh) v) sh (traced k0 kadd d v).
Proof. unfold trace_operate. rewrite Nat.eqb_refl. eexists. split; [reflexivity|]. reflexivity. Qed.

(** ** Transposition *)
Definition swap (i j k : nat) : nat := if k =? i then j else if k =? j then i else k.
Definition arrange (s : nat -> nat) (idx : list nat) : list nat := map (fun ax => nth (s ax) idx 0) (seq 0 (length idx)).
Definition symmetric (m : nat) (s : nat -> nat) : Prop := forall k, k < m -> s k < m /\ s (s k) = k.
Lemma swap_symmetric m i j : i < m -> j < m -> symmetric m (swap i j).
Proof. intros Hi Hj k Hk. unfold swap. repeat (match goal with |- context [?x =? ?y] => destruct (Nat.eqb_spec x y); subst end; cbn iota); lia. Qed.
Lemma nth_arrange s idx k : k < length idx -> nth k (arrange s idx) 0 = nth (s k) idx 0.
Proof. intros H. unfold arrange. rewrite (nth_indep _ 0 (nth (s 0) idx 0)) by (rewrite map_length, seq_length; exact H). rewrite (map_nth (fun ax => nth (s ax) idx 0)), seq_nth by exact H. reflexivity. Qed.
Lemma arrange_length s idx : length (arrange s idx) = length idx.
Proof. unfold arrange. rewrite map_length, seq_length. reflexivity. Qed.
Lemma nth_replace idx : forall axis k c, axis < length idx -> nth k (replace axis idx c) 0 = if k =? axis then c else nth k idx 0.
Proof.
  unfold replace. induction idx as [|x idx IH]; intros axis k c H; [cbn in H; lia|]. destruct axis as [|axis]; [destruct k; reflexivity|]. destruct k as [|k]; [reflexivity|]. cbn [length] in H. assert (H' : axis < length idx) by lia. exact (IH axis k c H').
Qed.
Lemma exchange_arrange i j idx : i < length idx -> j < length idx -> exchange i j idx = arrange (swap i j) idx.
Proof.
  intros Hi Hj. assert (L1 : length (replace i idx (nth j idx 0)) = length idx) by (apply replace_length; exact Hi).
  assert (L2 : length (exchange i j idx) = length idx) by (unfold exchange; rewrite replace_length; rewrite L1; [reflexivity|exact Hj]).
  apply (nth_ext _ _ 0 0); [rewrite arrange_length; exact L2|]. intros k Hk. rewrite L2 in Hk. rewrite nth_arrange by exact Hk. unfold exchange. rewrite nth_replace by (rewrite L1; exact Hj). rewrite nth_replace by exact Hi.
  unfold swap. destruct (Nat.eqb_spec k j), (Nat.eqb_spec k i); subst; reflexivity.
Qed.
Lemma arrange_in s sh idx : in_shape sh idx -> symmetric (length sh) s -> in_shape (arrange s sh) (arrange s idx).
Proof.
  intros H Hs. assert (L : length sh = length idx) by (eapply Forall2_length; exact H). 
  assert (X : forall k, k < length sh -> nth k idx 0 < nth k sh 0). { clear Hs L. induction H; intros k Hk; [cbn in Hk; lia|]. destruct k; [assumption|]. cbn in *. apply IHForall2. lia. }
  unfold arrange. rewrite <- L. assert (Y : forall k, In k (seq 0 (length sh)) -> k < length sh) by (intros k Hk; apply in_seq in Hk; lia). revert Y. generalize (seq 0 (length sh)). induction l as [|k l IH]; intros Y; cbn; constructor.
  - apply X. apply Hs. apply Y. left. reflexivity.
  - apply IH. intros q Hq. apply Y. right. exact Hq.
Qed.
Lemma all_places_nat n l : (forall k, In k l -> k < n) -> all_places n (map Z.of_nat l) = Some l.
Proof. induction l as [|k l IH]; intros H; [reflexivity|]. cbn [map all_places]. rewrite place_nat by (apply H; left; reflexivity). rewrite IH by (intros q Hq; apply H; right; exact Hq). reflexivity. Qed.
Lemma distinct_true l : NoDup l -> distinct l = true.
Proof.
  induction 1 as [|k l Hk H IH]; [reflexivity|]. cbn [distinct]. rewrite IH, andb_true_r. apply negb_true_iff. apply not_true_is_false. intros E. apply existsb_exists in E. destruct E as (q & Hq & Eq). apply Nat.eqb_eq in Eq. subst. exact (Hk Hq).
Qed.
Lemma symmetric_nodup m s : symmetric m s -> NoDup (map s (seq 0 m)).
Proof.
  intros H. assert (Y : forall k, In k (seq 0 m) -> k < m) by (intros k Hk; apply in_seq in Hk; lia). assert (D : NoDup (seq 0 m)) by apply seq_NoDup. revert Y D. generalize (seq 0 m). induction l as [|k l IH]; intros Y D; [constructor|]. inversion D; subst. cbn [map]. constructor.
  - intros E. apply in_map_iff in E. destruct E as (q & Eq & Hq). assert (k = q). { destruct (H k (Y k (or_introl eq_refl))) as [_ E1]. destruct (H q (Y q (or_intror Hq))) as [_ E2]. rewrite <- E1, <- E2, Eq. reflexivity. } subst. contradiction.
  - apply IH; [intros q Hq; apply Y; right; exact Hq|assumption].
Qed.
Lemma position_nth l : NoDup l -> forall p, p < length l -> CSR_Model.position (nth p l 0) l = p.
Proof.
  induction 1 as [|k l Hk H IH]; intros p Hp; [cbn in Hp; lia|]. cbn [CSR_Model.position]. destruct p as [|p]; cbn [nth].
  - rewrite Nat.eqb_refl. reflexivity.
  - cbn [length] in Hp. destruct (Nat.eqb_spec k (nth p l 0)) as [E|E]; [exfalso; apply Hk; rewrite E; apply nth_In; lia|]. f_equal. apply IH. lia.
Qed.
Lemma symmetric_position m s k : symmetric m s -> k < m -> CSR_Model.position k (map s (seq 0 m)) = s k.
Proof.
  intros H Hk. destruct (H k Hk) as [B E]. assert (L : s k < length (map s (seq 0 m))) by (rewrite map_length, seq_length; exact B).
  pose proof (position_nth (map s (seq 0 m)) (symmetric_nodup m s H) (s k) L) as P. rewrite nth_map_seq, E in P by exact B. exact P.
Qed.
Lemma np_arrange {B} m s (sh : list nat) (v : list nat -> B) : length sh = m -> symmetric m s ->
  exists b, np_transpose (map Z.of_nat (map s (seq 0 m))) (sh, v) = Some (arrange s sh, b) /\ forall idx, length idx = m -> b idx = v (arrange s idx).
Proof.
  intros L Hs. unfold np_transpose. cbn [fst]. rewrite L, !map_length, seq_length, Nat.eqb_refl. cbn [negb].
  rewrite all_places_nat. 2:{ intros k Hk. apply in_map_iff in Hk. destruct Hk as (q & <- & Hq). apply in_seq in Hq. apply Hs. lia. }
  cbn [option_bind]. rewrite distinct_true by (apply symmetric_nodup; exact Hs). unfold CSR_Model.transpose. cbn [fst snd].
  assert (Q : map (fun o => nth o sh 0) (map s (seq 0 m)) = arrange s sh) by (rewrite map_map; unfold arrange; rewrite L; reflexivity). rewrite Q. eexists. split; [reflexivity|].
  intros idx Li. cbn beta. f_equal. rewrite map_length, seq_length. unfold arrange. rewrite Li. apply map_ext_in. intros k Hk. apply in_seq in Hk. rewrite (symmetric_position m s) by (try exact Hs; lia). reflexivity.
Qed.
Lemma arrange_app s x y : symmetric (length x) s -> (forall k, length x <= k -> s k = k) -> arrange s (x ++ y) = arrange s x ++ y.
Proof.
  intros Hs Hk. apply (nth_ext _ _ 0 0); [rewrite !app_length, !arrange_length, app_length; reflexivity|]. intros k H. rewrite arrange_length in H. rewrite nth_arrange by exact H. destruct (Nat.lt_ge_cases k (length x)) as [C|C].
  - rewrite !app_nth1 by (try rewrite arrange_length; try apply Hs; exact C). rewrite nth_arrange by exact C. reflexivity.
  - rewrite Hk by exact C. rewrite !app_nth2 by (try rewrite arrange_length; exact C). rewrite arrange_length. reflexivity.
Qed.
Lemma unravel_snoc sh n c q : c < size sh -> q < n -> unravel (sh ++ [n]) (c * n + q) = unravel sh c ++ [q].
Proof.
  intros Hc Hq. pose proof (unravel_in sh c Hc) as Hu. rewrite <- (unravel_flat (sh ++ [n]) (unravel sh c ++ [q])) by (apply Forall2_app; [exact Hu|constructor; [exact Hq|constructor]]). f_equal.
  rewrite flat_app_ by (eapply Forall2_length; exact Hu). cbn [flat size]. rewrite flat_unravel by exact Hc. lia.
Qed.
Lemma arrange_matrix (sig : tensorsig) s order n : symmetric (length sig) s -> (forall k, length sig <= k -> s k = k) -> arrange s (dims sig) = dims sig ->
  firstn (length sig) order = map Z.of_nat (map s (seq 0 (length sig))) ->
  exists M, transpose_matrix k0 k1 kmul sig order n = Some M /\ represents M (dims sig ++ [n]) (dims sig ++ [n]) (fun a idx => a (arrange s idx)).
Proof.
  intros Hs Hk Hd Ho. unfold transpose_matrix, index_transpose. rewrite Ho. destruct (np_arrange (length sig) s (dims sig) (flat (dims sig)) (dims_length sig) Hs) as (b & -> & E). cbn [option_map fst snd]. rewrite Hd.
  eexists. split; [reflexivity|]. set (sh := dims sig) in *. assert (L : length sh = length sig) by apply dims_length. assert (N : size (sh ++ [n]) = size sh * n) by (rewrite size_app_; cbn [size]; lia).
  split; [cbn [skron nr identity]; lia|]. split; [cbn [skron nc identity]; lia|]. intros a idx Hi. apply Forall2_app_inv_l in Hi. destruct Hi as (x & y & Hx & Hy & ->). inversion Hy as [|? q ? y' Hq Hy']; subst. inversion Hy'; subst.
  set (P := Mat (size sh) (size sh) _). rewrite N. change (size sh) with (nc P) at 1. rewrite flat_app_ by (eapply Forall2_length; exact Hx). cbn [size flat]. rewrite Nat.mul_1_r, Nat.add_0_r, Nat.mul_1_r.
  rewrite (skron_apply P n (flat sh x) q) by exact Hq. cbn [P nc at_]. rewrite unravel_flat by exact Hx. assert (Lx : length x = length sig) by (rewrite <- L; symmetry; eapply Forall2_length; exact Hx). rewrite E by exact Lx.
  pose proof (arrange_in s sh x Hx) as Ha. rewrite L in Ha. specialize (Ha Hs). rewrite Hd in Ha. rewrite (T_single _ (flat sh (arrange s x))).
  - rewrite Nat.eqb_refl. rewrite unravel_snoc by (try exact Hq; apply flat_lt; exact Ha). rewrite unravel_flat by exact Ha. rewrite arrange_app by (rewrite Lx; assumption). ring.
  - apply flat_lt. exact Ha.
  - intros c _ Nc. replace (c =? flat sh (arrange s x)) with false by (symmetry; apply Nat.eqb_neq; lia). ring.
Qed.
Lemma arrange_operate sh s order (v : list nat -> K) : symmetric (length sh) s -> arrange s sh = sh -> order = map Z.of_nat (map s (seq 0 (length sh))) ->
  evaluates (transpose_operate sh order (sh, v)) sh (fun idx => v (arrange s idx)).
Proof.
  intros Hs Hd ->. unfold transpose_operate. destruct (np_arrange (length sh) s sh v eq_refl Hs) as (b & -> & E). cbn [option_bind]. rewrite Hd. destruct (assign_same sh b) as (c & -> & Ec). exists c. split; [reflexivity|]. intros idx Hi. rewrite Ec by exact Hi. apply E. symmetry. eapply Forall2_length. exact Hi.
Qed.

Lemma set_item_nat l i x : i < length l -> set_item (map Z.of_nat l) (Z.of_nat i) (Z.of_nat x) = Some (map Z.of_nat (replace i l x)).
Proof. intros H. unfold set_item. rewrite place_nat by (rewrite map_length; exact H). unfold replace. rewrite map_app, firstn_map. cbn [map]. rewrite skipn_map. reflexivity. Qed.
Lemma wrap_nat rank i : wrap rank (Z.of_nat i) = Z.of_nat i.
Proof. unfold wrap. replace (Z.of_nat i <? 0)%Z with false by (symmetry; apply Z.ltb_ge; lia). reflexivity. Qed.
Lemma get_item_nat {A} (l : list A) i : i < length l -> get_item l (Z.of_nat i) = nth_error l i.
Proof. intros H. unfold get_item. rewrite place_nat by exact H. reflexivity. Qed.
Lemma transpose_order sig dim i j cs : nth_error sig i = Some cs -> nth_error sig j = Some cs -> i <> j ->
  TransposeComponents sig dim (Z.of_nat i, Z.of_nat j) = Some (map Z.of_nat (map (swap i j) (seq 0 (length sig + dim)))).
Proof.
  intros Hi Hj N. assert (Li : i < length sig) by (apply nth_error_Some; congruence). assert (Lj : j < length sig) by (apply nth_error_Some; congruence). unfold TransposeComponents. cbn [fst snd]. rewrite !wrap_nat.
  replace (Z.of_nat (length sig) <=? Z.max (Z.of_nat i) (Z.of_nat j))%Z with false by (symmetry; apply Z.leb_gt; lia). replace (Z.of_nat i =? Z.of_nat j)%Z with false by (symmetry; apply Z.eqb_neq; lia).
  rewrite !get_item_nat by assumption. rewrite Hi, Hj. cbn [option_bind]. rewrite Nat.eqb_refl. cbn [negb]. rewrite set_item_nat by (rewrite seq_length; lia). cbn [option_bind]. rewrite set_item_nat by (rewrite replace_length; rewrite seq_length; lia). f_equal. f_equal.
  pose proof (exchange_arrange i j (seq 0 (length sig + dim))) as E. unfold exchange in E. rewrite !seq_nth in E by lia. cbn [Nat.add] in E. rewrite E by (rewrite seq_length; lia). unfold arrange. rewrite seq_length. apply map_ext_in. intros k Hk. apply in_seq in Hk.
  destruct (swap_symmetric (length sig + dim) i j ltac:(lia) ltac:(lia) k ltac:(lia)) as [B _]. rewrite seq_nth by exact B. reflexivity.
Qed.
Lemma swap_above m i j k : i < m -> j < m -> m <= k -> swap i j k = k.
Proof. intros Hi Hj Hk. unfold swap. destruct (Nat.eqb_spec k i), (Nat.eqb_spec k j); lia. Qed.
Lemma firstn_seq a b : firstn a (seq 0 (a + b)) = seq 0 a.
Proof. rewrite seq_app. rewrite firstn_app, seq_length, Nat.sub_diag. cbn [firstn]. rewrite app_nil_r. apply firstn_all2. rewrite seq_length. lia. Qed.
Lemma arrange_same i j l : i < length l -> j < length l -> nth i l 0 = nth j l 0 -> arrange (swap i j) l = l.
Proof.
  intros Hi Hj E. apply (nth_ext _ _ 0 0); [apply arrange_length|]. intros k Hk. rewrite arrange_length in Hk. rewrite nth_arrange by exact Hk. unfold swap. destruct (Nat.eqb_spec k i), (Nat.eqb_spec k j); subst; auto.
Qed.
Lemma nth_dims sig i cs : nth_error sig i = Some cs -> nth i (dims sig) 0 = cs_dim cs.
Proof. intros H. unfold dims. apply nth_error_nth. rewrite nth_error_map, H. reflexivity. Qed.
Lemma transpose_right sig dim i j cs n spatial (v : list nat -> K) : nth_error sig i = Some cs -> nth_error sig j = Some cs -> i <> j -> length spatial = dim ->
  exists order, TransposeComponents sig dim (Z.of_nat i, Z.of_nat j) = Some order /\
    (exists M, transpose_matrix k0 k1 kmul sig order n = Some M /\ represents M (dims sig ++ [n]) (dims sig ++ [n]) (exchanged i j)) /\
    evaluates (transpose_operate (dims sig ++ spatial) order (dims sig ++ spatial, v)) (dims sig ++ spatial) (exchanged i j v).
Proof.
  intros Hi Hj N L. assert (Li : i < length sig) by (apply nth_error_Some; congruence). assert (Lj : j < length sig) by (apply nth_error_Some; congruence). eexists. split; [apply (transpose_order sig dim i j cs Hi Hj N)|]. 
  assert (D : nth i (dims sig) 0 = nth j (dims sig) 0) by (rewrite (nth_dims _ _ _ Hi), (nth_dims _ _ _ Hj); reflexivity). split.
  - destruct (arrange_matrix sig (swap i j) (map Z.of_nat (map (swap i j) (seq 0 (length sig + dim)))) n) as (M & E & R1 & R2 & R3).
    + apply swap_symmetric; assumption.
    + intros k Hk. apply (swap_above (length sig)); assumption.
    + apply arrange_same; rewrite ?dims_length; assumption.
    + rewrite !firstn_map, firstn_seq. reflexivity.
    + exists M. split; [exact E|]. split; [exact R1|]. split; [exact R2|]. intros a idx Hx. rewrite R3 by exact Hx. unfold exchanged. assert (Lx : length (dims sig ++ [n]) = length idx) by (eapply Forall2_length; exact Hx). rewrite app_length, dims_length in Lx. cbn in Lx. rewrite exchange_arrange by lia. reflexivity.
  - destruct (arrange_operate (dims sig ++ spatial) (swap i j) (map Z.of_nat (map (swap i j) (seq 0 (length sig + dim)))) v) as (b & -> & Eb).
    + rewrite app_length, dims_length. apply swap_symmetric; lia.
    + apply arrange_same; rewrite ?app_length, ?dims_length; try lia. rewrite !app_nth1 by (rewrite dims_length; assumption). exact D.
    + rewrite app_length, dims_length, L. reflexivity.
    + exists b. split; [reflexivity|]. intros idx Hx. rewrite Eb by exact Hx. unfold exchanged. assert (Lx : length (dims sig ++ spatial) = length idx) by (eapply Forall2_length; exact Hx). rewrite app_length, dims_length in Lx. rewrite exchange_arrange by lia. reflexivity.
Qed.
Lemma transpose_high sig dim i j : length sig <= i \/ length sig <= j -> TransposeComponents sig dim (Z.of_nat i, Z.of_nat j) = None.
Proof. intros H. unfold TransposeComponents. cbn [fst snd]. rewrite !wrap_nat. replace (Z.of_nat (length sig) <=? Z.max (Z.of_nat i) (Z.of_nat j))%Z with true by (symmetry; apply Z.leb_le; lia). reflexivity. Qed.
Lemma transpose_same sig dim i : TransposeComponents sig dim (Z.of_nat i, Z.of_nat i) = None.
Proof. unfold TransposeComponents. cbn [fst snd]. rewrite Z.eqb_refl. destruct (_ <=? _)%Z; reflexivity. Qed.
Lemma transpose_different sig dim i j c d : nth_error sig i = Some c -> nth_error sig j = Some d -> cs_id c <> cs_id d -> TransposeComponents sig dim (Z.of_nat i, Z.of_nat j) = None.
Proof.
  intros Hi Hj N. assert (Li : i < length sig) by (apply nth_error_Some; congruence). assert (Lj : j < length sig) by (apply nth_error_Some; congruence). unfold TransposeComponents. cbn [fst snd]. rewrite !wrap_nat.
  destruct (_ <=? _)%Z; [reflexivity|]. destruct (_ =? _)%Z; [reflexivity|]. rewrite !get_item_nat by assumption. rewrite Hi, Hj. cbn [option_bind]. rewrite (proj2 (Nat.eqb_neq _ _) N). reflexivity.
Qed.

(** Negative indices. *)
Lemma wrap_neg rank i : 1 <= i <= rank -> wrap rank (- Z.of_nat i) = Z.of_nat (rank - i).
Proof. intros H. unfold wrap. replace (- Z.of_nat i <? 0)%Z with true by (symmetry; apply Z.ltb_lt; lia). symmetry. apply (Z.mod_unique_pos _ _ (-1)); lia. Qed.
Lemma set_item_at {A} (l : list A) i k x : place (length l) i = Some k -> set_item l i x = Some (firstn k l ++ x :: skipn (S k) l).
Proof. intros E. unfold set_item. rewrite E. reflexivity. Qed.
Lemma negative_order u cs dim : TransposeComponents (u ++ [cs; cs]) (S (S dim)) (-2, -1)%Z = Some (map Z.of_nat (seq 0 (length u + 2 + dim)) ++ [-1; -2]%Z).
Proof.
  unfold TransposeComponents. cbn [fst snd]. set (sig := u ++ [cs; cs]). assert (Ls : length sig = length u + 2) by (unfold sig; rewrite app_length; reflexivity).
  change (-2)%Z with (- Z.of_nat 2)%Z. change (-1)%Z with (- Z.of_nat 1)%Z. rewrite !wrap_neg by lia. rewrite Ls. replace (length u + 2 - 2) with (length u) by lia. replace (length u + 2 - 1) with (S (length u)) by lia.
  replace (Z.of_nat (length u + 2) <=? Z.max (Z.of_nat (length u)) (Z.of_nat (S (length u))))%Z with false by (symmetry; apply Z.leb_gt; lia). replace (Z.of_nat (length u) =? Z.of_nat (S (length u)))%Z with false by (symmetry; apply Z.eqb_neq; lia).
  rewrite !get_item_nat by lia. unfold sig. rewrite !nth_error_app2 by lia. rewrite Nat.sub_diag. replace (S (length u) - length u) with 1 by lia. cbn [nth_error option_bind]. rewrite Nat.eqb_refl. cbn [negb].
  replace (length u + 2 + S (S dim)) with (length u + 2 + dim + 2) by lia. set (m := length u + 2 + dim). set (l := map Z.of_nat (seq 0 (m + 2))).
  assert (E : l = map Z.of_nat (seq 0 m) ++ [Z.of_nat m; Z.of_nat (S m)]) by (unfold l; rewrite seq_app, map_app; reflexivity).
  assert (L0 : length (map Z.of_nat (seq 0 m)) = m) by (rewrite map_length, seq_length; reflexivity).
  rewrite (set_item_at l _ m). 2:{ rewrite place_neg by (rewrite E, app_length, L0; cbn; lia). rewrite E, app_length, L0. cbn [length]. f_equal. lia. }
  rewrite E. rewrite firstn_app, L0, Nat.sub_diag. cbn [firstn]. rewrite app_nil_r, firstn_all2 by lia. rewrite skipn_app, L0, skipn_all2 by lia. replace (S m - m) with 1 by lia. cbn [skipn app option_bind].
  rewrite (set_item_at _ _ (S m)). 2:{ rewrite place_neg by (rewrite app_length, L0; cbn; lia). rewrite app_length, L0. cbn [length]. f_equal. lia. }
  rewrite firstn_app, L0. replace (S m - m) with 1 by lia. rewrite firstn_all2 by lia. cbn [firstn]. rewrite skipn_app, L0, skipn_all2 by lia. replace (S (S m) - m) with 2 by lia. cbn [skipn app]. rewrite <- app_assoc. reflexivity.
Qed.
Lemma arrange_id l : arrange (fun k => k) l = l.
Proof. apply (nth_ext _ _ 0 0); [apply arrange_length|]. intros k Hk. rewrite arrange_length in Hk. apply nth_arrange. exact Hk. Qed.
Lemma negative_matrix u cs dim n order : TransposeComponents (u ++ [cs; cs]) (S (S dim)) (-2, -1)%Z = Some order ->
  exists M, transpose_matrix k0 k1 kmul (u ++ [cs; cs]) order n = Some M /\ represents M (dims (u ++ [cs; cs]) ++ [n]) (dims (u ++ [cs; cs]) ++ [n]) (fun a => a).
Proof.
  rewrite negative_order. intros E. injection E as <-. destruct (arrange_matrix (u ++ [cs; cs]) (fun k => k) (map Z.of_nat (seq 0 (length u + 2 + dim)) ++ [-1; -2]%Z) n) as (M & E & R1 & R2 & R3).
  - intros k Hk. split; [exact Hk|reflexivity].
  - reflexivity.
  - apply arrange_id.
  - rewrite map_id. rewrite app_length. cbn [length]. rewrite firstn_app. rewrite firstn_map, firstn_seq, map_length, seq_length. replace (length u + 2 - (length u + 2 + dim)) with 0 by lia. cbn [firstn]. apply app_nil_r.
  - exists M. split; [exact E|]. split; [exact R1|]. split; [exact R2|]. intros a idx Hx. rewrite R3 by exact Hx. rewrite arrange_id. reflexivity.
Qed.
Lemma negative_operate sh n1 n2 (v : list nat -> K) : 
  (n1 = n2 -> evaluates (transpose_operate (sh ++ [n1; n2]) (map Z.of_nat (seq 0 (length sh)) ++ [-1; -2]%Z) (sh ++ [n1; n2], v)) (sh ++ [n1; n2]) (exchanged (length sh) (S (length sh)) v)) /\
  (n1 <> n2 -> transpose_operate (sh ++ [n1; n2]) (map Z.of_nat (seq 0 (length sh)) ++ [-1; -2]%Z) (sh ++ [n1; n2], v) = None).
Proof.
  set (m := length sh). set (s := swap m (S m)). assert (Ls : length (sh ++ [n1; n2]) = m + 2) by (rewrite app_length; reflexivity). assert (Hs : symmetric (m + 2) s) by (apply swap_symmetric; lia).
  assert (P : np_transpose (map Z.of_nat (seq 0 m) ++ [-1; -2]%Z) (sh ++ [n1; n2], v) = np_transpose (map Z.of_nat (map s (seq 0 (m + 2)))) (sh ++ [n1; n2], v)).
  { assert (Q : map s (seq 0 (m + 2)) = seq 0 m ++ [S m; m]).
    { rewrite seq_app, map_app. cbn [seq map]. f_equal.
      - rewrite (map_ext_in s (fun k => k)); [apply map_id|]. intros k Hk. apply in_seq in Hk. unfold s, swap. destruct (Nat.eqb_spec k m), (Nat.eqb_spec k (S m)); lia.
      - unfold s, swap. cbn [Nat.add]. rewrite !Nat.eqb_refl. destruct (Nat.eqb_spec (S m) m); [lia|]. reflexivity. }
    unfold np_transpose. cbn [fst]. rewrite Ls. rewrite Q, map_app. rewrite !app_length, !map_length, seq_length. cbn [length map].
    assert (AP : forall l1 l2 n p1 p2, all_places n l1 = Some p1 -> all_places n l2 = Some p2 -> all_places n (l1 ++ l2) = Some (p1 ++ p2)).
    { clear. induction l1 as [|o l1 IH]; intros l2 n p1 p2 H1 H2; cbn in H1 |- *; [injection H1 as <-; exact H2|]. destruct (place n o); [|discriminate]. destruct (all_places n l1) eqn:E; [|discriminate]. injection H1 as <-. rewrite (IH l2 n l p2 E H2). reflexivity. }
    assert (A1 : all_places (m + 2) (map Z.of_nat (seq 0 m)) = Some (seq 0 m)) by (apply all_places_nat; intros k Hk; apply in_seq in Hk; lia).
    rewrite (AP _ _ _ _ [S m; m] A1). rewrite (AP _ _ _ _ [S m; m] A1). reflexivity.
    - change [Z.of_nat (S m); Z.of_nat m] with (map Z.of_nat [S m; m]). apply all_places_nat. intros k [<-|[<-|[]]]; lia.
    - cbn [all_places]. change (-1)%Z with (- Z.of_nat 1)%Z. change (-2)%Z with (- Z.of_nat 2)%Z. rewrite !place_neg by lia. f_equal. f_equal; [lia|]. f_equal. lia. }
  destruct (np_arrange (m + 2) s (sh ++ [n1; n2]) v Ls Hs) as (b & E & Eb). rewrite E in P. unfold transpose_operate. rewrite P. cbn [option_bind].
  assert (A : arrange s (sh ++ [n1; n2]) = sh ++ [n2; n1]).
  { apply (nth_ext _ _ 0 0); [rewrite arrange_length, !app_length; reflexivity|]. intros k Hk. rewrite arrange_length in Hk. rewrite nth_arrange by exact Hk. rewrite Ls in Hk. unfold s, swap. destruct (Nat.eqb_spec k m) as [->|N1].
    - rewrite !app_nth2 by (fold m; lia). fold m. rewrite Nat.sub_diag. replace (S m - m) with 1 by lia. reflexivity.
    - destruct (Nat.eqb_spec k (S m)) as [->|N2].
      + rewrite !app_nth2 by (fold m; lia). fold m. rewrite Nat.sub_diag. replace (S m - m) with 1 by lia. reflexivity.
      + rewrite !app_nth1 by (fold m; lia). reflexivity. }
  rewrite A. split.
  - intros <-. destruct (assign_same (sh ++ [n1; n1]) b) as (c & -> & Ec). exists c. split; [reflexivity|]. intros idx Hi. rewrite Ec by exact Hi. assert (Li : length (sh ++ [n1; n1]) = length idx) by (eapply Forall2_length; exact Hi). rewrite Ls in Li. rewrite Eb by lia. unfold exchanged. rewrite exchange_arrange by lia. reflexivity.
  - intros N. pose proof (assign_extra (sh ++ [n1; n2]) 0 (sh ++ [n2; n1]) b) as X. cbn [repeat app] in X. rewrite X by (rewrite !app_length; reflexivity). destruct (Nat.eq_dec n2 1) as [C|C].
    + rewrite (forallb_at _ _ _ (S m)); [reflexivity|rewrite !app_length; reflexivity|rewrite Ls; lia|]. rewrite !app_nth2 by (fold m; lia). fold m. replace (S m - m) with 1 by lia. cbn [nth fst snd]. apply orb_false_intro; apply Nat.eqb_neq; lia.
    + rewrite (forallb_at _ _ _ m); [reflexivity|rewrite !app_length; reflexivity|rewrite Ls; lia|]. rewrite !app_nth2 by (fold m; lia). fold m. rewrite Nat.sub_diag. cbn [nth fst snd]. apply orb_false_intro; apply Nat.eqb_neq; lia.
Qed.

(** ** Spins *)
Context (ki : K).
Lemma set_shape u n w (B : mat) : set_item (map identity (u ++ n :: w)) (Z.of_nat (length u)) B = Some (map identity u ++ B :: map identity w).
Proof. rewrite map_app. cbn [map]. rewrite <- (map_length identity u). apply set_item_app. Qed.
Lemma spin_complex_matrix rank azimuth u w :
  exists M, spin_matrix k0 k1 ki kmul kopp true rank azimuth (Z.of_nat (length u)) (u ++ 2 :: w) = Some M /\
    represents M (u ++ 2 :: w) (u ++ 2 :: w) (spun_complex ki kmul kopp (length u)).
Proof.
  unfold spin_matrix. rewrite set_shape. cbn [option_map]. set (B := mscale kmul ki _). eexists. split; [reflexivity|]. destruct (kron_axis u 2 2 w B eq_refl eq_refl) as (N1 & N2 & E). split; [exact N1|]. split; [exact N2|]. intros a idx Hi. rewrite E by exact Hi.
  destruct (split_shape _ _ _ _ Hi) as (x & r & y & -> & L & Hx & Hr & Hy). unfold spun_complex, spin. rewrite <- L, nth_mid. unfold CSR_Spec.total, B. destruct r as [|[|r]]; [| |lia]; cbn [seq fold_right mscale at_]; rewrite !replace_app; ring.
Qed.
Lemma spin_complex_value rank azimuth u w (old v : list nat -> K) :
  evaluates (spin_operate ki kmul kopp true rank azimuth (Z.of_nat (length u)) (u ++ 2 :: w) old v) (u ++ 2 :: w) (spun_complex ki kmul kopp (length u) v).
Proof.
  unfold spin_operate, axis_ok. replace (Z.of_nat (length u) <? 0)%Z with false by (symmetry; apply Z.ltb_ge; lia). cbn [option_bind]. rewrite Nat2Z.id. eexists. split; [reflexivity|]. intros idx Hi.
  destruct (split_shape _ _ _ _ Hi) as (x & r & y & -> & L & Hx & Hr & Hy). unfold spun_complex, spin, write, read_at. rewrite <- L, !nth_mid. destruct r as [|[|r]]; [| |lia]; cbn [Nat.eqb]; rewrite replace_app; ring.
Qed.
Lemma pairs h m (g : nat -> K) : m < 2 * h ->
  total (2 * h) (fun c => at_ (skron kmul (identity h) (skew_factor k0 k1 kopp)) m c *k g c) = if Nat.even m then kopp (g (m + 1)) else g (m - 1).
Proof.
  intros Hm. replace (2 * h) with (h * 2) by lia. rewrite T_prod. assert (Hp : m / 2 < h) by (apply Nat.div_lt_upper_bound; lia). rewrite (T_single _ (m / 2)); [|exact Hp|].
  - pose proof (Nat.div_mod m 2 ltac:(lia)) as D. pose proof (Nat.mod_upper_bound m 2 ltac:(lia)) as B. unfold CSR_Spec.total. cbn [seq fold_right skron at_ identity skew_factor nr nc].
    rewrite !Nat.div_add_l by lia. rewrite !(Nat.add_comm (m / 2 * 2)), !Nat.mod_add by lia. change (0 / 2) with 0. change (1 / 2) with 0. change (0 mod 2) with 0. change (1 mod 2) with 1. rewrite !Nat.add_0_r, !Nat.eqb_refl.
    destruct (Nat.even m) eqn:E.
    + apply Nat.even_spec in E. destruct E as [q ->]. rewrite (Nat.mul_comm 2 q), Nat.div_mul, Nat.mod_mul by lia. rewrite (Nat.add_comm 1 (q * 2)). ring.
    + assert (O : Nat.odd m = true) by (unfold Nat.odd; rewrite E; reflexivity). apply Nat.odd_spec in O. destruct O as [q ->]. rewrite (Nat.mul_comm 2 q), Nat.div_add_l, Nat.add_comm, Nat.mod_add by lia. change (1 / 2) with 0. change (1 mod 2) with 1. replace (1 + q * 2 - 1) with (0 + (q + 0) * 2) by lia. ring.
  - intros p Hp0 N. rewrite (T_zero _); [ring|]. intros t Ht. cbn [skron at_ identity skew_factor nr nc]. rewrite (Nat.div_add_l p 2 t), (Nat.div_small t 2), Nat.add_0_r by lia. replace (m / 2 =? p) with false by (symmetry; apply Nat.eqb_neq; lia). ring.
Qed.
Lemma split_shape2 u v n m w idx : in_shape (u ++ n :: v ++ m :: w) idx ->
  exists x r y s z, idx = x ++ r :: y ++ s :: z /\ length x = length u /\ length y = length v /\ in_shape u x /\ r < n /\ in_shape v y /\ s < m /\ in_shape w z.
Proof.
  intros H. destruct (split_shape _ _ _ _ H) as (x & r & q & -> & L & Hx & Hr & Hq). destruct (split_shape _ _ _ _ Hq) as (y & s & z & -> & L' & Hy & Hs & Hz). exists x, r, y, s, z. repeat (split; [solve [reflexivity|assumption]|]). assumption.
Qed.
Lemma far_app (x y z : list nat) r s c : replace (length x + S (length y)) (x ++ r :: y ++ s :: z) c = x ++ r :: y ++ c :: z.
Proof. replace (x ++ r :: y ++ s :: z) with ((x ++ r :: y) ++ s :: z) by (rewrite <- app_assoc; reflexivity). replace (length x + S (length y)) with (length (x ++ r :: y)) by (rewrite app_length; reflexivity). rewrite replace_app, <- app_assoc. reflexivity. Qed.
Lemma far_nth (x y z : list nat) r s : nth (length x + S (length y)) (x ++ r :: y ++ s :: z) 0 = s.
Proof. replace (x ++ r :: y ++ s :: z) with ((x ++ r :: y) ++ s :: z) by (rewrite <- app_assoc; reflexivity). replace (length x + S (length y)) with (length (x ++ r :: y)) by (rewrite app_length; reflexivity). apply nth_mid. Qed.
Definition spin_factor : mat := Mat 2 2 (fun i j => match i, j with 0, 0 => kopp k1 | 1, 1 => k1 | _, _ => k0 end).
Lemma spin_real_factors rank azimuth u v h w shape : shape = u ++ 2 :: v ++ 2 * h :: w -> rank + azimuth = length u + S (length v) ->
  spin_matrix k0 k1 ki kmul kopp false rank azimuth (Z.of_nat (length u)) shape = Some (kron_all (map identity u ++ spin_factor :: map identity v ++ skron kmul (identity (nth azimuth shape 0 / 2)) (skew_factor k0 k1 kopp) :: map identity w)).
Proof.
  intros -> Ha. unfold spin_matrix. rewrite set_shape. cbn [option_bind]. set (B := skron _ _ _). rewrite map_app. cbn [map]. fold spin_factor.
  replace (map identity u ++ spin_factor :: map identity v ++ identity (2 * h) :: map identity w) with ((map identity u ++ spin_factor :: map identity v) ++ identity (2 * h) :: map identity w) by (rewrite <- app_assoc; reflexivity).
  replace (rank + azimuth) with (length (map identity u ++ spin_factor :: map identity v)) by (rewrite app_length; cbn [length]; rewrite !map_length; lia). rewrite set_item_app. cbn [option_map]. rewrite <- app_assoc. reflexivity.
Qed.
Lemma spin_real_matrix rank azimuth u v h w shape : shape = u ++ 2 :: v ++ 2 * h :: w -> rank + azimuth = length u + S (length v) -> nth azimuth shape 0 / 2 = h ->
  exists M, spin_matrix k0 k1 ki kmul kopp false rank azimuth (Z.of_nat (length u)) shape = Some M /\ represents M shape shape (spun_real kopp (length u) (rank + azimuth)).
Proof.
  intros E Ha Hh. eexists. split; [apply (spin_real_factors rank azimuth u v h w shape E Ha)|]. rewrite Hh. set (B := skron kmul (identity h) (skew_factor k0 k1 kopp)). assert (NB : nr B = 2 * h /\ nc B = 2 * h) by (cbn [B skron nr nc identity skew_factor]; lia). destruct NB as [NB1 NB2].
  apply kron_factors.
  - rewrite E. rewrite map_app. cbn [map]. rewrite map_app. cbn [map]. rewrite !map_nc_id, NB2. reflexivity.
  - rewrite E. rewrite map_app. cbn [map]. rewrite map_app. cbn [map]. rewrite !map_nr_id, NB1. reflexivity.
  - rewrite E. intros a idx Hi. destruct (split_shape2 _ _ _ _ _ _ Hi) as (x & r & y & m & z & -> & Lx & Ly & Hx & Hr & Hy & Hm & Hz). rewrite (sum_ids u x Hx). cbn [sum_cols].
    assert (X : forall c, sum_cols (map identity v ++ B :: map identity w) (y ++ m :: z) (fun cs => a (x ++ c :: cs)) = if Nat.even m then kopp (a (x ++ c :: y ++ (m + 1) :: z)) else a (x ++ c :: y ++ (m - 1) :: z)).
    { intros c. rewrite (sum_ids v y Hy). cbn [sum_cols]. rewrite NB2. rewrite <- (pairs h m (fun d => a (x ++ c :: y ++ d :: z)) Hm). fold B. apply T_ext. intros d _. f_equal. rewrite <- (app_nil_r (map identity w)), <- (app_nil_r z), (sum_ids w z Hz). cbn [sum_cols]. rewrite !app_nil_r. reflexivity. }
    rewrite (T_ext _ _ (fun c => at_ spin_factor r c *k (if Nat.even m then kopp (a (x ++ c :: y ++ (m + 1) :: z)) else a (x ++ c :: y ++ (m - 1) :: z)))) by (intros c _; rewrite X; reflexivity).
    unfold spun_real, spin. rewrite Ha, <- Lx, <- Ly, far_nth, !far_app, nth_mid. unfold CSR_Spec.total, spin_factor. destruct r as [|[|r]]; [| |lia]; cbn [seq fold_right at_ nc]; destruct (Nat.even m); ring.
Qed.
Lemma spin_real_value rank azimuth u v h w shape (old a : list nat -> K) : shape = u ++ 2 :: v ++ 2 * h :: w -> rank + azimuth = length u + S (length v) ->
  evaluates (spin_operate ki kmul kopp false rank azimuth (Z.of_nat (length u)) shape old a) shape (spun_real kopp (length u) (rank + azimuth) a).
Proof.
  intros -> Ha. unfold spin_operate, axis_ok. replace (Z.of_nat (length u) <? 0)%Z with false by (symmetry; apply Z.ltb_ge; lia). cbn [option_bind]. rewrite Nat2Z.id, Ha. cbv zeta. rewrite far_nth. rewrite Nat.even_mul. cbn [Nat.even orb]. eexists. split; [reflexivity|]. intros idx Hi.
  destruct (split_shape2 _ _ _ _ _ _ Hi) as (x & r & y & m & z & -> & Lx & Ly & Hx & Hr & Hy & Hm & Hz). unfold spun_real, spin, write, read_at. rewrite <- Lx, <- Ly, !far_nth, !far_app, !nth_mid. unfold Nat.odd. 
  destruct r as [|[|r]]; [| |lia]; cbn [Nat.eqb]; destruct (Nat.even m); cbn [negb Bool.eqb]; rewrite !replace_app; reflexivity || ring.
Qed.
Lemma spin_real_size rank azimuth u v h w shape : shape = u ++ 2 :: v ++ 2 * h :: w -> rank + azimuth = length u + S (length v) -> nth azimuth shape 0 / 2 <> h -> size (u ++ v ++ w) <> 0 ->
  exists M, spin_matrix k0 k1 ki kmul kopp false rank azimuth (Z.of_nat (length u)) shape = Some M /\ nr M <> size shape /\ nc M <> size shape.
Proof.
  intros E Ha Hh Hz. eexists. split; [apply (spin_real_factors rank azimuth u v h w shape E Ha)|]. set (q := nth azimuth shape 0 / 2) in *. set (B := skron kmul (identity q) (skew_factor k0 k1 kopp)). assert (NB : nr B = q * 2 /\ nc B = q * 2) by (cbn [B skron nr nc identity skew_factor]; lia). destruct NB as [NB1 NB2].
  destruct (kron_shape (map identity u ++ spin_factor :: map identity v ++ B :: map identity w)) as [S1 S2]. rewrite S1, S2. rewrite !map_app. cbn [map]. rewrite !map_app. cbn [map]. rewrite !map_nr_id, !map_nc_id, NB1, NB2. cbn [spin_factor nr nc]. rewrite E. rewrite !size_app_ in *. cbn [size]. rewrite !size_app_. cbn [size].
  assert (X : size u * (size v * size w) * q <> size u * (size v * size w) * h) by (intros X; apply Nat.mul_cancel_l in X; [exact (Hh X)|exact Hz]). split; intros Y; apply X; apply (Nat.mul_cancel_l _ _ 4); [lia| |lia|]; (etransitivity; [|etransitivity; [exact Y|]]; ring).
Qed.
End Field_.
