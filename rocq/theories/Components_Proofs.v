(** Proofs about components of tensors on spheres and circles. *)
From Coq Require Import List Arith Bool ZArith Lia Field Reals.
From Coquelicot Require Import Complex.
Import ListNotations.
From Verif Require Import CSR_Model CSR_Spec CSR_Proofs CSRDense_Proofs MatSolvers_Model MatSolvers_Proofs Clenshaw_Model Clenshaw_Proofs TensorArith_Model TensorArith_Spec TensorArith_Proofs TensorOps_Model TensorOps_Spec TensorOps_Proofs Spin_Spec Components_Model Components_Spec.
Local Open Scope nat_scope.

(** ** Indices *)
Lemma equal_true l m : equal l m = true <-> l = m. Proof. unfold equal. destruct (list_eq_dec _ _ _); split; congruence. Qed.
Lemma equal_false l m : l <> m -> equal l m = false. Proof. unfold equal. destruct (list_eq_dec _ _ _); congruence. Qed.
Lemma clip_neg n i : (- Z.of_nat n <= i < 0)%Z -> clip n i = Z.to_nat (i + Z.of_nat n).
Proof. intros H. unfold clip. replace (i <? 0)%Z with true by (symmetry; apply Z.ltb_lt; lia). lia. Qed.
Lemma clip_named n index i : names index n i -> clip n index = i /\ clip n (index + 1) = S i.
Proof.
  intros [[Hi [<-|E]] N].
  - replace (Z.of_nat i + 1)%Z with (Z.of_nat (S i)) by lia. rewrite !clip_nat. lia.
  - rewrite !clip_neg by lia. lia.
Qed.
Lemma resolved_position n index i : position index n i -> resolved n index = Some (Z.of_nat i).
Proof.
  intros [Hi [<-|E]]; unfold resolved.
  - replace (Z.of_nat i <? 0)%Z with false by (symmetry; apply Z.ltb_ge; lia). replace (Z.of_nat n <=? Z.of_nat i)%Z with false by (symmetry; apply Z.leb_gt; lia). reflexivity.
  - replace (index <? 0)%Z with true by (symmetry; apply Z.ltb_lt; lia). replace (Z.of_nat n <=? index + Z.of_nat n)%Z with false by (symmetry; apply Z.leb_gt; lia). f_equal. lia.
Qed.
Lemma first_mid {A} (u w : list A) c : firstn (length u) (u ++ c :: w) = u.
Proof. rewrite firstn_app, Nat.sub_diag, firstn_all. apply app_nil_r. Qed.
Lemma rest_mid {A} (u w : list A) c : skipn (S (length u)) (u ++ c :: w) = w.
Proof. rewrite skipn_app, skipn_all2 by lia. replace (S (length u) - length u) with 1 by lia. reflexivity. Qed.
Lemma self_mid (u w : tensorsig) cs index : position index (length (u ++ cs :: w)) (length u) -> self_index (u ++ cs :: w) index = Some (Z.of_nat (length u)).
Proof. intros H. unfold self_index. rewrite (resolved_position _ _ _ H). cbn [option_bind]. rewrite get_item_app. reflexivity. Qed.
Lemma scalar_mid (u w : tensorsig) cs index : names index (length (u ++ cs :: w)) (length u) -> scalar_sig (u ++ cs :: w) index = u ++ w.
Proof. intros H. destruct (clip_named _ _ _ H) as [E1 E2]. unfold scalar_sig, upto, from. rewrite E1, E2, first_mid, rest_mid. reflexivity. Qed.
Lemma angular_mid S2 (u w : tensorsig) cs index : names index (length (u ++ cs :: w)) (length u) -> angular_sig S2 (u ++ cs :: w) index = u ++ S2 :: w.
Proof. intros H. destruct (clip_named _ _ _ H) as [E1 E2]. unfold angular_sig, upto, from. rewrite E1, E2, first_mid, rest_mid. reflexivity. Qed.
Lemma popped_mid (x y : list nat) c : popped (x ++ c :: y) (Z.of_nat (length x)) = x ++ y.
Proof. unfold popped. rewrite place_nat by (rewrite app_length; cbn; lia). rewrite first_mid, rest_mid. reflexivity. Qed.
Lemma sliced_mid (x y : list nat) c : upto (Z.of_nat (length x)) (x ++ c :: y) ++ from (Z.of_nat (length x) + 1) (x ++ c :: y) = x ++ y.
Proof. unfold upto, from. replace (Z.of_nat (length x) + 1)%Z with (Z.of_nat (S (length x))) by lia. rewrite !clip_nat. rewrite !Nat.min_r by (rewrite app_length; cbn; lia). rewrite first_mid, rest_mid. reflexivity. Qed.
Lemma nth_error_mid {A} (u w : list A) c : nth_error (u ++ c :: w) (length u) = Some c.
Proof. rewrite nth_error_app2 by lia. rewrite Nat.sub_diag. reflexivity. Qed.
Lemma indices_length sh : length (indices sh) = size sh. Proof. unfold indices. rewrite map_length, seq_length. reflexivity. Qed.
Lemma indices_nth sh p : p < size sh -> nth p (indices sh) [] = unravel sh p.
Proof. intros H. unfold indices. rewrite (nth_indep _ [] (unravel sh 0)) by (rewrite map_length, seq_length; exact H). rewrite map_nth, seq_nth by exact H. reflexivity. Qed.

Section Field_.
Context {K : Type} (k0 k1 : K) (kadd kmul ksub kdiv : K -> K -> K) (kopp kinv : K -> K).
Context (Hf : field_theory k0 k1 kadd kmul ksub kopp kdiv kinv eq).
Add Field Kf : Hf.
Notation total := (CSR_Spec.total k0 kadd).
Notation mat := (MatSolvers_Model.mat K).
Infix "+k" := kadd (at level 50, left associativity). Infix "*k" := kmul (at level 40, left associativity).
Local Notation T_ext := (total_ext k0 k1 kadd kmul ksub kdiv kopp kinv Hf).
Local Notation T_zero := (total_zero k0 k1 kadd kmul ksub kdiv kopp kinv Hf).
Local Notation T_single := (total_single k0 k1 kadd kmul ksub kdiv kopp kinv Hf).
Notation identity := (MatSolvers_Model.identity k0 k1).
Notation represents := (represents k0 kadd kmul).

(** ** Matrices of tests *)
Lemma table_at test sout sin i j : i < size sout -> j < size sin -> at_ (np_array k0 (rows k0 k1 test (indices sout) (indices sin))) i j = if test (unravel sout i) (unravel sin j) then k1 else k0.
Proof.
  intros Hi Hj. unfold np_array, rows. cbn [at_]. rewrite (nth_indep _ [] (map (fun i => if test [] i then k1 else k0) (indices sin))) by (rewrite map_length, indices_length; exact Hi).
  rewrite (map_nth (fun o => map (fun i => if test o i then k1 else k0) (indices sin))). rewrite (nth_indep _ k0 (if test (nth i (indices sout) []) [] then k1 else k0)) by (rewrite map_length, indices_length; exact Hj).
  rewrite (map_nth (fun a => if test _ a then k1 else k0)), !indices_nth by assumption. reflexivity.
Qed.
Lemma table_shape test sout sin : 0 < size sout -> nr (np_array k0 (rows k0 k1 test (indices sout) (indices sin))) = size sout /\ nc (np_array k0 (rows k0 k1 test (indices sout) (indices sin))) = size sin.
Proof.
  intros H. unfold np_array, rows. cbn [nr nc]. rewrite map_length, indices_length. split; [reflexivity|].
  rewrite (nth_indep _ [] (map (fun i => if test [] i then k1 else k0) (indices sin))) by (rewrite map_length, indices_length; exact H). rewrite (map_nth (fun o => map (fun i => if test o i then k1 else k0) (indices sin))). rewrite map_length. apply indices_length.
Qed.
Lemma table_represents test sout sin (g : list nat -> list nat) : 0 < size sout ->
  (forall o, in_shape sout o -> in_shape sin (g o)) -> (forall o i, in_shape sout o -> in_shape sin i -> (test o i = true <-> i = g o)) ->
  represents (np_array k0 (rows k0 k1 test (indices sout) (indices sin))) sin sout (fun a idx => a (g idx)).
Proof.
  intros H0 Hg Ht. destruct (table_shape test sout sin H0) as [E1 E2]. split; [exact E1|]. split; [exact E2|]. intros a o Ho. pose proof (flat_lt _ _ Ho) as Lo. pose proof (Hg _ Ho) as Hi. pose proof (flat_lt _ _ Hi) as Li.
  rewrite (T_single _ (flat sin (g o))); [|exact Li|].
  - rewrite table_at by assumption. rewrite !unravel_flat by assumption. rewrite (proj2 (Ht o (g o) Ho Hi) eq_refl). ring.
  - intros j Hj N. rewrite table_at by assumption. rewrite (unravel_flat _ _ Ho). destruct (test o (unravel sin j)) eqn:E; [|ring]. apply Ht in E; [|exact Ho|apply unravel_in; exact Hj]. exfalso. apply N. rewrite <- E. symmetry. apply flat_unravel. exact Hj.
Qed.
Lemma table_zero test sout sin : (forall o i, in_shape sout o -> in_shape sin i -> test o i = false) -> forall i j, i < size sout -> j < size sin -> at_ (np_array k0 (rows k0 k1 test (indices sout) (indices sin))) i j = k0.
Proof. intros H i j Hi Hj. rewrite table_at by assumption. rewrite H by (apply unravel_in; assumption). reflexivity. Qed.
Lemma represents_kron M sin sout (g : list nat -> list nat) n : represents M sin sout (fun a idx => a (g idx)) -> (forall o q, in_shape sout o -> g (o ++ [q]) = g o ++ [q]) ->
  represents (skron kmul M (identity n)) (sin ++ [n]) (sout ++ [n]) (fun a idx => a (g idx)).
Proof.
  intros (E1 & E2 & E3) Hg. split; [cbn [skron nr identity]; rewrite size_app_, E1; cbn; lia|]. split; [cbn [skron nc identity]; rewrite size_app_, E2; cbn; lia|].
  intros a idx Hi. apply Forall2_app_inv_l in Hi. destruct Hi as (o & y & Ho & Hy & ->). inversion Hy as [|? q ? y' Hq Hy']; subst. inversion Hy'; subst.
  rewrite flat_app_ by (eapply Forall2_length; exact Ho). cbn [size flat]. rewrite size_app_. cbn [size]. rewrite !Nat.mul_1_r, Nat.add_0_r. rewrite <- E2.
  rewrite (skron_apply k0 k1 kadd kmul ksub kdiv kopp kinv Hf M n (flat sout o) q (fun j => a (unravel (sin ++ [n]) j)) Hq). rewrite Hg by exact Ho. rewrite <- (E3 (fun x => a (x ++ [q])) o Ho). rewrite E2.
  apply T_ext. intros c Hc. rewrite unravel_snoc by assumption. reflexivity.
Qed.
Lemma blocks_represent real ell m Lmax M sin sout (g : list nat -> list nat) : represents M sin sout (fun a idx => a (g idx)) -> (forall o q, length sout <= length o -> g (o ++ q) = g o ++ q) ->
  represents (blocks k0 k1 kmul real ell m Lmax M) (sin ++ axes real ell m Lmax) (sout ++ axes real ell m Lmax) (fun a idx => a (g idx)).
Proof.
  intros H Hg. unfold blocks, axes. cbv zeta.
  assert (H1 : represents (if real then skron kmul M (identity 2) else M) (sin ++ if real then [2] else []) (sout ++ if real then [2] else []) (fun a idx => a (g idx))).
  { destruct real; [|rewrite !app_nil_r; exact H]. apply represents_kron; [exact H|]. intros o q Ho. apply Hg. rewrite (in_shape_length _ _ Ho). lia. }
  destruct ell as [ell|]; [rewrite app_nil_r; exact H1|]. rewrite !app_assoc. apply represents_kron; [exact H1|]. intros o q Ho. apply Hg. rewrite <- (in_shape_length _ _ Ho), app_length. lia.
Qed.
Lemma positive_size sig : positive sig -> 0 < size (dims sig).
Proof. induction 1 as [|cs sig H _ IH]; [cbn; lia|]. change (dims (cs :: sig)) with (cs_dim cs :: dims sig). cbn [size]. nia. Qed.
Lemma put_more i k (o q : list nat) : i <= length o -> put i k (o ++ q) = put i k o ++ q.
Proof. intros H. unfold put. rewrite firstn_app, skipn_app. replace (i - length o) with 0 by lia. cbn [firstn skipn]. rewrite app_nil_r, <- app_assoc. reflexivity. Qed.

(** ** Radial and azimuthal components *)
Lemma mid_in (u w : list nat) n x c y : length x = length u -> (in_shape (u ++ n :: w) (x ++ c :: y) <-> in_shape u x /\ c < n /\ in_shape w y).
Proof.
  intros L. rewrite in_shape_app by (symmetry; exact L). split; [intros [H1 H2]; inversion H2; auto|]. intros (H1 & H2 & H3). split; [exact H1|]. constructor; assumption.
Qed.
Lemma selecting (u w : list nat) n k test : k < n -> 0 < size (u ++ w) ->
  (forall x c y o, in_shape u x -> test o (x ++ c :: y) = true <-> c = k /\ x ++ y = o) ->
  represents (np_array k0 (rows k0 k1 test (indices (u ++ w)) (indices (u ++ n :: w)))) (u ++ n :: w) (u ++ w) (selected (length u) k).
Proof.
  intros Hk H0 Ht. apply (table_represents _ _ _ (put (length u) k)); [exact H0| |].
  - intros o Ho. apply Forall2_app_inv_l in Ho. destruct Ho as (x & y & Hx & Hy & ->). rewrite (put_split _ _ _ _ Hx). apply mid_in; [symmetry; eapply Forall2_length; exact Hx|auto].
  - intros o i Ho Hi. destruct (split_shape _ _ _ _ Hi) as (x & c & y & -> & L & Hx & Hc & Hy). rewrite (Ht x c y o Hx). split.
    + intros [-> <-]. symmetry. apply put_split. exact Hx.
    + intros E. apply Forall2_app_inv_l in Ho. destruct Ho as (x' & y' & Hx' & Hy' & ->). rewrite (put_split _ _ _ _ Hx') in E.
      destruct (app_inj_len _ _ _ _ ltac:(rewrite L; eapply Forall2_length; exact Hx') E) as [-> E']. injection E' as -> ->. auto.
Qed.
Lemma S2_radial_right real ell m Lmax (u w : tensorsig) cs index : cs_dim cs = 3 -> positive (u ++ w) -> names index (length (u ++ cs :: w)) (length u) ->
  exists M, S2_radial_matrix k0 k1 kmul real ell m Lmax (u ++ cs :: w) index = Some M /\
    represents M (dims (u ++ cs :: w) ++ axes real ell m Lmax) (dims (u ++ w) ++ axes real ell m Lmax) (selected (length u) 2).
Proof.
  intros H3 Hp Hn. unfold S2_radial_matrix. rewrite (self_mid _ _ _ _ (proj1 Hn)). cbn [option_bind]. eexists. split; [reflexivity|]. rewrite (scalar_mid _ _ _ _ Hn).
  apply (blocks_represent real ell m Lmax _ _ _ (put (length u) 2)).
  - pose proof (positive_size _ Hp) as P. rewrite !dims_app in *. cbn [dims map]. rewrite H3. rewrite <- (dims_length u). apply selecting; [lia|exact P|]. intros x c y o Hx.
    rewrite (in_shape_length _ _ Hx). rewrite get_item_app, popped_mid. rewrite andb_true_iff, Nat.eqb_eq, equal_true. reflexivity.
  - intros o q Ho. apply put_more. rewrite dims_length, app_length in Ho. lia.
Qed.
Lemma repeat_dims (sig : tensorsig) d : Forall (fun cs => cs_dim cs = d) sig -> dims sig = repeat d (length sig).
Proof. induction 1 as [|cs sig H _ IH]; [reflexivity|]. cbn. rewrite H. f_equal. exact IH. Qed.
Lemma polar_right k real (u w : tensorsig) cs index : k < 2 -> Forall (fun cs => cs_dim cs = 2) (u ++ cs :: w) -> names index (length (u ++ cs :: w)) (length u) ->
  exists M, polar_matrix k0 k1 kmul k real (u ++ cs :: w) index = Some M /\
    represents M (dims (u ++ cs :: w) ++ (if real then [2] else [])) (dims (u ++ w) ++ (if real then [2] else [])) (selected (length u) k).
Proof.
  intros Hk H2 Hn. unfold polar_matrix. rewrite (self_mid _ _ _ _ (proj1 Hn)). cbn [option_bind]. eexists. split; [reflexivity|]. rewrite (scalar_mid _ _ _ _ Hn).
  assert (H2' : Forall (fun cs => cs_dim cs = 2) (u ++ w)). { apply Forall_app in H2. destruct H2 as [A B]. inversion B; subst. apply Forall_app. auto. }
  assert (Hp : positive (u ++ w)). { eapply Forall_impl; [|exact H2']. cbn. intros c ->. lia. }
  pose proof (positive_size _ Hp) as P. rewrite <- !repeat_dims by assumption.
  assert (R : represents (np_array k0 (rows k0 k1 (fun o a => equal (upto (Z.of_nat (length u)) a ++ from (Z.of_nat (length u) + 1) a) o && match get_item a (Z.of_nat (length u)) with Some c => c =? k | None => false end) (indices (dims (u ++ w))) (indices (dims (u ++ cs :: w)))))
    (dims (u ++ cs :: w)) (dims (u ++ w)) (selected (length u) k)).
  { assert (Ecs : cs_dim cs = 2). { apply Forall_app in H2. destruct H2 as [_ B]. inversion B; assumption. }
    rewrite !dims_app in *. cbn [dims map]. rewrite Ecs. rewrite <- (dims_length u). apply selecting; [exact Hk|exact P|]. intros x c y o Hx. rewrite (in_shape_length _ _ Hx). rewrite get_item_app, sliced_mid. rewrite andb_true_iff, Nat.eqb_eq, equal_true. tauto. }
  destruct real; [|rewrite !app_nil_r; exact R]. apply (represents_kron _ _ _ (put (length u) k)); [exact R|]. intros o q Ho. apply put_more. rewrite <- (in_shape_length _ _ Ho), dims_length, app_length. lia.
Qed.
Lemma scalar_value k (u w : tensorsig) cs index spatial (v : list nat -> K) : k < cs_dim cs -> names index (length (u ++ cs :: w)) (length u) ->
  evaluates (scalar_operate k (u ++ cs :: w) index spatial (dims (u ++ cs :: w) ++ spatial, v)) (dims (u ++ w) ++ spatial) (selected (length u) k v).
Proof.
  intros Hk Hn. unfold scalar_operate. rewrite (self_mid _ _ _ _ (proj1 Hn)). cbn [option_bind]. rewrite (scalar_mid _ _ _ _ Hn). unfold at_index. replace (Z.of_nat (length u) <? 0)%Z with false by (symmetry; apply Z.ltb_ge; lia). cbn [fst snd]. rewrite Nat2Z.id.
  rewrite !dims_app. cbn [dims map]. rewrite <- !app_assoc. cbn [app]. rewrite <- (dims_length u), nth_error_mid. rewrite (proj2 (Nat.ltb_lt _ _) Hk). cbn [option_bind]. rewrite first_mid, rest_mid. apply assign_same.
Qed.

(** ** Angular components *)
Lemma part_zero i idx : i < length idx -> replace i idx (0 + nth i idx 0) = idx.
Proof. intros H. destruct (split_at idx i H) as (x & c & y & -> & <-). rewrite nth_mid, replace_app. reflexivity. Qed.
Lemma in_narrow (u w : list nat) o : in_shape (u ++ 2 :: w) o -> in_shape (u ++ 3 :: w) o.
Proof. intros H. destruct (split_shape _ _ _ _ H) as (x & c & y & -> & L & Hx & Hc & Hy). apply mid_in; [exact L|]. split; [exact Hx|]. split; [lia|exact Hy]. Qed.
Lemma S2_angular_right S2 real ell m Lmax (u w : tensorsig) cs index : cs_dim cs = 3 -> cs_dim S2 = 2 -> positive (u ++ w) -> names index (length (u ++ cs :: w)) (length u) ->
  exists M, S2_angular_matrix k0 k1 kmul S2 real ell m Lmax (u ++ cs :: w) index = Some M /\
    represents M (dims (u ++ cs :: w) ++ axes real ell m Lmax) (dims (u ++ S2 :: w) ++ axes real ell m Lmax) (part (length u) 0).
Proof.
  intros H3 H2 Hp Hn. unfold S2_angular_matrix. rewrite (self_mid _ _ _ _ (proj1 Hn)). cbn [option_bind]. eexists. split; [reflexivity|]. rewrite (angular_mid _ _ _ _ _ Hn).
  assert (R : represents (blocks k0 k1 kmul real ell m Lmax (np_array k0 (rows k0 k1 (fun o a => equal a o) (indices (dims (u ++ S2 :: w))) (indices (dims (u ++ cs :: w))))))
    (dims (u ++ cs :: w) ++ axes real ell m Lmax) (dims (u ++ S2 :: w) ++ axes real ell m Lmax) (fun a idx => a idx)).
  { apply (blocks_represent real ell m Lmax _ _ _ (fun o => o)); [|reflexivity]. assert (P : 0 < size (dims (u ++ S2 :: w))).
    { pose proof (positive_size _ Hp) as P. rewrite !dims_app, size_app_ in *. cbn [dims map size]. rewrite H2. fold (dims w). nia. }
    apply (table_represents _ _ _ (fun o => o)); [exact P| |].
    - intros o. rewrite !dims_app. cbn [dims map]. rewrite H2, H3. apply in_narrow.
    - intros o i _ _. apply equal_true. }
  destruct R as (E1 & E2 & E3). split; [exact E1|]. split; [exact E2|]. intros a idx Hi. rewrite E3 by exact Hi. unfold part. rewrite part_zero; [reflexivity|]. rewrite <- (in_shape_length _ _ Hi), app_length, dims_length, app_length. cbn. lia.
Qed.
Lemma angular_value S2 (u w : tensorsig) cs index spatial (v : list nat -> K) : cs_dim cs = 3 -> cs_dim S2 = 2 -> names index (length (u ++ cs :: w)) (length u) ->
  evaluates (angular_operate S2 (u ++ cs :: w) index spatial (dims (u ++ cs :: w) ++ spatial, v)) (dims (u ++ S2 :: w) ++ spatial) (part (length u) 0 v).
Proof.
  intros H3 H2 Hn. unfold angular_operate. rewrite (self_mid _ _ _ _ (proj1 Hn)). cbn [option_bind]. rewrite (angular_mid _ _ _ _ _ Hn). unfold at_slice. replace (Z.of_nat (length u) <? 0)%Z with false by (symmetry; apply Z.ltb_ge; lia). cbn [fst snd]. rewrite Nat2Z.id.
  rewrite !dims_app. cbn [dims map]. rewrite <- !app_assoc. cbn [app]. rewrite <- (dims_length u), nth_error_mid, H3, H2. cbn [option_bind Nat.min]. rewrite replace_app.
  destruct (assign_same (dims u ++ 2 :: map cs_dim w ++ spatial) v) as (b & -> & E). exists b. split; [reflexivity|]. intros idx Hi. rewrite E by exact Hi. unfold part. rewrite part_zero; [reflexivity|]. rewrite <- (in_shape_length _ _ Hi), app_length. cbn. lia.
Qed.

(** ** Index -1 *)
Lemma last_sig (u : tensorsig) cs : scalar_sig (u ++ [cs]) (-1) = u ++ u ++ [cs].
Proof. unfold scalar_sig, upto, from. rewrite clip_neg by (rewrite app_length; cbn; lia). change (-1 + 1)%Z with (Z.of_nat 0). rewrite clip_nat, Nat.min_0_r. cbn [skipn]. f_equal. rewrite app_length. cbn [length]. replace (Z.to_nat _) with (length u) by lia. apply first_mid. Qed.
Lemma blocks_zero real ell m Lmax (M : mat) : (forall i j, i < nr M -> j < nc M -> at_ M i j = k0) ->
  forall i j, i < nr (blocks k0 k1 kmul real ell m Lmax M) -> j < nc (blocks k0 k1 kmul real ell m Lmax M) -> at_ (blocks k0 k1 kmul real ell m Lmax M) i j = k0.
Proof.
  assert (X : forall (M : mat) n, (forall i j, i < nr M -> j < nc M -> at_ M i j = k0) -> forall i j, i < nr (skron kmul M (identity n)) -> j < nc (skron kmul M (identity n)) -> at_ (skron kmul M (identity n)) i j = k0).
  { clear M. intros M n H i j Hi Hj. cbn [skron nr nc at_ MatSolvers_Model.identity] in *. rewrite H; [ring|apply Nat.div_lt_upper_bound; lia|apply Nat.div_lt_upper_bound; lia]. }
  intros H. unfold blocks. cbv zeta. destruct real, ell; auto.
Qed.
Lemma blocks_rows real ell m Lmax (M : mat) n : nr M = n -> nr (blocks k0 k1 kmul real ell m Lmax M) = size ([n] ++ axes real ell m Lmax).
Proof. intros <-. unfold blocks, axes. destruct real, ell; cbn; lia. Qed.
Lemma assign_lead n spatial (v : list nat -> K) : evaluates (assign_all (n :: spatial) (spatial, v)) (n :: spatial) (fun idx => v (tl idx)).
Proof.
  unfold assign_all. cbn [fst snd]. replace (length spatial - length (n :: spatial)) with 0 by (cbn; lia). rewrite skipn_O, firstn_O. cbn [forallb andb repeat app]. replace (length (n :: spatial) - length spatial) with 1 by (cbn [length]; lia). change (skipn 1 (n :: spatial)) with spatial. rewrite forallb_same.
  eexists. split; [reflexivity|]. intros idx Hi. inversion Hi as [|? i ? r _ Hr]; subst. cbn. rewrite map_clip by exact Hr. reflexivity.
Qed.
End Field_.

(** ** Spin components *)
Lemma spin_radial us : forall du ws dw z x y, length us = length du -> in_shape du x ->
  spin_components (us ++ Some 0 :: ws) (du ++ 3 :: dw) z (x ++ 2 :: y) = spin_components (us ++ ws) (du ++ dw) (fun t => z (put (length us) 2 t)) (x ++ y).
Proof.
  unfold spin_components. induction us as [|p us IH]; intros [|d du] ws dw z x y L Hx; try discriminate; inversion Hx as [|? x0 ? x' H0 H1]; subst.
  - cbn [app transformed]. unfold CSR_Spec.total. cbn. unfold put. cbn. set (T0 := transformed _ _ _ _ _). set (T1 := transformed _ _ _ _ _). set (T2 := transformed _ _ _ _ _). ring.
  - cbn [app transformed]. apply (CSR_Proofs.total_ext (RtoC 0) Cplus). intros t0 _. f_equal. rewrite (IH du ws dw (fun t => z (t0 :: t)) x' y) by (auto; cbn in L; lia). reflexivity.
Qed.
Lemma spin_angular us : forall du ws dw z x s y, length us = length du -> in_shape du x -> s < 2 ->
  spin_components (us ++ Some 0 :: ws) (du ++ 3 :: dw) z (x ++ s :: y) = spin_components (us ++ Some 0 :: ws) (du ++ 2 :: dw) z (x ++ s :: y).
Proof.
  unfold spin_components. induction us as [|p us IH]; intros [|d du] ws dw z x s y L Hx Hs; try discriminate; inversion Hx as [|? x0 ? x' H0 H1]; subst.
  - cbn [app transformed]. unfold CSR_Spec.total. destruct s as [|[|s]]; [| |lia]; cbn; set (T0 := transformed _ _ _ _ _); set (T1 := transformed _ _ _ _ _); set (T2 := transformed _ _ _ _ _); ring.
  - cbn [app transformed]. apply (CSR_Proofs.total_ext (RtoC 0) Cplus). intros t0 _. f_equal. apply (IH du ws dw (fun t => z (t0 :: t)) x' s y); auto.
Qed.
