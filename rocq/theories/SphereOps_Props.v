(** Derivatives of tensors on the sphere: C74. *)
From Coq Require Import List Arith Bool ZArith Reals Lia Lra.
Import ListNotations.
From Verif Require Import SphereOps_Model SphereOps_Spec SphereOps_Proofs.
Local Open Scope R_scope.

Lemma mask_value s l x : mask s l x = if exists_at l s then x else 0.
Proof. unfold mask, exists_at. destruct (Z.gtb_spec (Z.abs s) l), (Z.leb_spec (Z.abs s) l); try reflexivity; lia. Qed.
(** Gradients raise and lower the spin of components of the modes that have both spins, and vanish in others. *)
Theorem sphere_gradient sig ell r x i : is_index sig i -> let s := spin i in
  gradient sig ell r x (1%nat :: i) = (if exists_at ell s && exists_at ell (s + 1) then raising ell s else 0) / r * x i
  /\ gradient sig ell r x (0%nat :: i) = (if exists_at ell s && exists_at ell (s - 1) then lowering ell s else 0) / r * x i.
Proof.
  intros Hi s. rewrite !gradient_at by (try exact Hi; lia). fold s. unfold gradient_symbol. change (spin_of 1) with 1%Z. change (spin_of 0) with (-1)%Z.
  replace (1 + s)%Z with (s + 1)%Z by ring. replace (-1 + s)%Z with (s - 1)%Z by ring. replace (s + 1 - s)%Z with 1%Z by ring. replace (s - 1 - s)%Z with (-1)%Z by ring. rewrite !mask_value.
  assert (H : exists_at ell s = true -> k ell s 1 = raising ell s /\ k ell s (-1) = lowering ell s).
  { intros E. apply Z.leb_le in E. apply in_range in E. split; [apply k_up|apply k_down]; apply E. }
  destruct (exists_at ell s); cbn [andb]; [destruct (H eq_refl) as [-> ->]; split; reflexivity|]. destruct (exists_at ell (s + 1)), (exists_at ell (s - 1)); split; reflexivity.
Qed.
(** Divergences contract the first index of a tensor with the derivative. *)
Theorem sphere_divergence n sig ell r v i : (2 <= n)%nat -> is_index sig i -> let s := spin i in
  divergence (n :: sig) ell r v i = (if exists_at ell s && exists_at ell (s - 1) then raising ell (s - 1) else 0) / r * v (0%nat :: i)
    + (if exists_at ell s && exists_at ell (s + 1) then lowering ell (s + 1) else 0) / r * v (1%nat :: i).
Proof.
  intros Hn Hi s. rewrite divergence_at by assumption. fold s. unfold divergence_symbol, gradient_symbol. change (spin_of 1) with 1%Z. change (spin_of 0) with (-1)%Z.
  replace (1 + s)%Z with (s + 1)%Z by ring. replace (-1 + s)%Z with (s - 1)%Z by ring. replace (s - (s + 1))%Z with (-1)%Z by ring. replace (s - (s - 1))%Z with 1%Z by ring. rewrite !mask_value.
  assert (H1 : exists_at ell (s - 1) = true -> k ell (s - 1) 1 = raising ell (s - 1)) by (intros E; apply Z.leb_le in E; apply in_range in E; apply k_up; apply E).
  assert (H2 : exists_at ell (s + 1) = true -> k ell (s + 1) (-1) = lowering ell (s + 1)) by (intros E; apply Z.leb_le in E; apply in_range in E; apply k_down; apply E).
  destruct (exists_at ell s), (exists_at ell (s + 1)), (exists_at ell (s - 1)); cbn [andb]; rewrite ?H1, ?H2 by reflexivity; reflexivity.
Qed.
(** Laplacians multiply the modes of a component by the eigenvalue for its spin. *)
Theorem sphere_laplacian sig ell r x i : r <> 0 -> is_index sig i -> let s := spin i in
  laplacian sig ell r x i = (if exists_at ell s then - IZR (ell * (ell + 1) - s * s) / (r * r) else 0) * x i.
Proof.
  intros Hr Hi s. unfold laplacian. rewrite same_at by exact Hi. fold s. f_equal. unfold laplacian_symbol. rewrite !mask_value. destruct (exists_at ell s) eqn:E; [|field; exact Hr].
  apply Z.leb_le in E. destruct (in_range _ _ E) as [H1 H2]. rewrite (k_up ell s H1), (k_down ell s H2).
  rewrite (k_down ell (s + 1)) by (replace ((ell + (s + 1)) * (ell - (s + 1) + 1))%Z with ((ell - s) * (ell + s + 1))%Z by ring; exact H1).
  assert (H3 : (0 <= (ell - (s - 1)) * (ell + (s - 1) + 1))%Z) by (replace ((ell - (s - 1)) * (ell + (s - 1) + 1))%Z with ((ell + s) * (ell - s + 1))%Z by ring; exact H2). rewrite (k_up ell (s - 1) H3).
  rewrite (proj1 (raising_lowering ell s H1)). destruct (raising_lowering ell (s - 1) H3) as [_ Q]. replace (s - 1 + 1)%Z with s in Q by ring. rewrite Q. f_equal. rewrite <- !opp_IZR. unfold Rdiv. rewrite <- Rmult_plus_distr_r, <- plus_IZR.
  replace (- ((ell - s) * (ell + s + 1)) + - ((ell - (s - 1)) * (ell + (s - 1) + 1)))%Z with (- (ell * (ell + 1) - s * s) * 2)%Z by ring. rewrite mult_IZR. lra.
Qed.
Corollary sphere_laplacian_scalar ell r x : r <> 0 -> (0 <= ell)%Z -> laplacian [] ell r x [] = - IZR (ell * (ell + 1)) / (r * r) * x [].
Proof. intros Hr Hl. rewrite sphere_laplacian by (try exact Hr; constructor). change (spin []) with 0%Z. unfold exists_at. destruct (Z.leb_spec (Z.abs 0) ell); [|lia]. replace (ell * (ell + 1) - 0 * 0)%Z with (ell * (ell + 1))%Z by ring. reflexivity. Qed.
Lemma ends l s : exists_at l s = true -> (exists_at l (s + 1) = true \/ IZR ((l - s) * (l + s + 1)) = 0) /\ (exists_at l (s - 1) = true \/ IZR ((l + s) * (l - s + 1)) = 0).
Proof.
  unfold exists_at. intros H. apply Z.leb_le in H. rewrite !Z.leb_le. split.
  - destruct (Z.eq_dec s l) as [->|N]; [right; rewrite Z.sub_diag, Z.mul_0_l; reflexivity|left; lia].
  - destruct (Z.eq_dec s (-l)) as [->|N]; [right; rewrite Z.add_opp_diag_r, Z.mul_0_l; reflexivity|left; lia].
Qed.
Lemma second l s : exists_at l s = true ->
  (if exists_at l s && exists_at l (s + 1) then lowering l (s + 1) else 0) * (if exists_at l s && exists_at l (s + 1) then raising l s else 0) = - IZR ((l - s) * (l + s + 1)) / 2
  /\ (if exists_at l s && exists_at l (s - 1) then raising l (s - 1) else 0) * (if exists_at l s && exists_at l (s - 1) then lowering l s else 0) = - IZR ((l + s) * (l - s + 1)) / 2.
Proof.
  intros H. destruct (ends l s H) as [H1 H2]. rewrite H. cbn [andb]. apply Z.leb_le in H. destruct (in_range _ _ H) as [Q1 Q2]. split.
  - destruct (exists_at l (s + 1)); [apply raising_lowering; exact Q1|]. destruct H1 as [H1|H1]; [discriminate|]. rewrite H1. lra.
  - destruct (exists_at l (s - 1)).
    + replace ((l + s) * (l - s + 1))%Z with ((l - (s - 1)) * (l + (s - 1) + 1))%Z by ring. assert (Q3 : (0 <= (l - (s - 1)) * (l + (s - 1) + 1))%Z) by (replace ((l - (s - 1)) * (l + (s - 1) + 1))%Z with ((l + s) * (l - s + 1))%Z by ring; exact Q2).
      destruct (raising_lowering l (s - 1) Q3) as [_ Q]. replace (s - 1 + 1)%Z with s in Q by ring. exact Q.
    + destruct H2 as [H2|H2]; [discriminate|]. rewrite H2. lra.
Qed.
(** The Laplacian is the divergence of the gradient, for tensors of any rank. *)
Theorem sphere_divergence_gradient sig ell r x i : r <> 0 -> is_index sig i -> divergence (2%nat :: sig) ell r (gradient sig ell r x) i = laplacian sig ell r x i.
Proof.
  intros Hr Hi. rewrite sphere_divergence, sphere_laplacian by (try assumption; lia). destruct (sphere_gradient sig ell r x i Hi) as [G1 G0]. rewrite G1, G0. set (s := spin i). destruct (exists_at ell s) eqn:E; cbn [andb]; [|field; exact Hr].
  destruct (second ell s E) as [S1 S2]. rewrite E in S1, S2. cbn [andb] in S1, S2. set (A := if exists_at ell (s + 1) then lowering ell (s + 1) else 0) in *. set (B := if exists_at ell (s + 1) then raising ell s else 0) in *. set (C := if exists_at ell (s - 1) then raising ell (s - 1) else 0) in *. set (D := if exists_at ell (s - 1) then lowering ell s else 0) in *.
  replace (C / r * (D / r * x i) + A / r * (B / r * x i)) with ((C * D + A * B) / (r * r) * x i) by (field; exact Hr). rewrite S1, S2. f_equal. f_equal. rewrite <- !opp_IZR. unfold Rdiv. rewrite <- Rmult_plus_distr_r, <- plus_IZR.
  replace (- ((ell + s) * (ell - s + 1)) + - ((ell - s) * (ell + s + 1)))%Z with (- (ell * (ell + 1) - s * s) * 2)%Z by ring. rewrite mult_IZR. lra.
Qed.
(** The divergence is minus the adjoint of the gradient. *)
Theorem sphere_adjoint sig ell r x v :
  sum (indices (2%nat :: sig)) (fun i => gradient sig ell r x i * v i) = - sum (indices sig) (fun i => x i * divergence (2%nat :: sig) ell r v i).
Proof.
  cbn [indices]. rewrite sum_flat. unfold sum at 1. cbn [seq map fold_right]. rewrite !sum_map. rewrite Rplus_0_r, <- sum_plus. replace (- sum (indices sig) (fun i => x i * divergence (2%nat :: sig) ell r v i)) with (-1 * sum (indices sig) (fun i => x i * divergence (2%nat :: sig) ell r v i)) by lra. rewrite <- sum_scale. apply sum_ext. intros i Hi. apply indices_in in Hi.
  rewrite sphere_divergence by (try exact Hi; lia). destruct (sphere_gradient sig ell r x i Hi) as [G1 G0]. rewrite G1, G0. set (s := spin i).
  assert (R1 : raising ell s = - lowering ell (s + 1)). { unfold raising, lowering. replace ((ell + (s + 1)) * (ell - (s + 1) + 1))%Z with ((ell - s) * (ell + s + 1))%Z by ring. reflexivity. }
  assert (R2 : raising ell (s - 1) = - lowering ell s). { unfold raising, lowering. replace ((ell - (s - 1)) * (ell + (s - 1) + 1))%Z with ((ell + s) * (ell - s + 1))%Z by ring. reflexivity. }
  rewrite R1, R2. destruct (exists_at ell s), (exists_at ell (s + 1)), (exists_at ell (s - 1)); cbn [andb]; unfold Rdiv; ring.
Qed.
(** Second derivatives commute up to the curvature: the components of the second gradient differ by the spin over the square of the radius ... *)
Theorem sphere_curvature sig ell r x i : r <> 0 -> is_index sig i -> exists_at ell (spin i) = true -> let g := gradient (2%nat :: sig) ell r (gradient sig ell r x) in
  g (1%nat :: 0%nat :: i) - g (0%nat :: 1%nat :: i) = - IZR (spin i) / (r * r) * x i.
Proof.
  intros Hr Hi E g. unfold g. assert (H0 : is_index (2%nat :: sig) (0%nat :: i)) by (constructor; [lia|exact Hi]). assert (H1 : is_index (2%nat :: sig) (1%nat :: i)) by (constructor; [lia|exact Hi]).
  rewrite (proj1 (sphere_gradient (2%nat :: sig) ell r (gradient sig ell r x) _ H0)), (proj2 (sphere_gradient (2%nat :: sig) ell r (gradient sig ell r x) _ H1)). destruct (sphere_gradient sig ell r x i Hi) as [G1 G0]. rewrite G1, G0. rewrite !spin_cons. change (spin_of 0) with (-1)%Z. change (spin_of 1) with 1%Z. set (s := spin i) in *.
  replace (-1 + s + 1)%Z with s by ring. replace (1 + s - 1)%Z with s by ring. replace (-1 + s)%Z with (s - 1)%Z by ring. replace (1 + s)%Z with (s + 1)%Z by ring. destruct (second ell s E) as [S1 S2]. rewrite !(andb_comm (exists_at ell s)) in *.
  set (A := if exists_at ell (s + 1) && exists_at ell s then lowering ell (s + 1) else 0) in *. set (B := if exists_at ell (s + 1) && exists_at ell s then raising ell s else 0) in *. set (C := if exists_at ell (s - 1) && exists_at ell s then raising ell (s - 1) else 0) in *. set (D := if exists_at ell (s - 1) && exists_at ell s then lowering ell s else 0) in *.
  replace (C / r * (D / r * x i) - A / r * (B / r * x i)) with ((C * D - A * B) / (r * r) * x i) by (field; exact Hr). rewrite S1, S2. f_equal. f_equal. unfold Rminus. rewrite <- !opp_IZR. unfold Rdiv. rewrite Ropp_mult_distr_l, <- Rmult_plus_distr_r, <- opp_IZR, <- plus_IZR.
  replace (- ((ell + s) * (ell - s + 1)) + - - ((ell - s) * (ell + s + 1)))%Z with (- s * 2)%Z by ring. rewrite mult_IZR. lra.
Qed.
(** ... and those of a scalar are symmetric, so that its gradient has no curl. *)
Corollary sphere_scalar_symmetric ell r x : r <> 0 -> (0 <= ell)%Z -> let g := gradient [2%nat] ell r (gradient [] ell r x) in g [1%nat; 0%nat] = g [0%nat; 1%nat].
Proof.
  intros Hr Hl g. assert (H : exists_at ell (spin []) = true) by (change (spin []) with 0%Z; unfold exists_at; apply Z.leb_le; lia). pose proof (sphere_curvature [] ell r x [] Hr ltac:(constructor) H) as E. cbv zeta in E. fold g in E. change (IZR (spin [])) with 0 in E. unfold Rdiv in E. rewrite Ropp_0, !Rmult_0_l in E. lra.
Qed.

(** The matrix in a subproblem gives what evaluation gives, in every element of the subproblem. *)
Lemma combine_blocks {A} (f g : A -> list R) l : (forall a, In a l -> length (f a) = length (g a)) -> combine (flat_map f l) (flat_map g l) = flat_map (fun a => combine (f a) (g a)) l.
Proof.
  induction l as [|a l IH]; intros H; [reflexivity|]. cbn [flat_map]. rewrite <- IH by (intros b Hb; apply H; right; exact Hb). specialize (H a (or_introl eq_refl)). revert H. generalize (f a) (g a). induction l0 as [|u l0 IHl]; intros [|v l1] E; cbn in *; try discriminate; [reflexivity|]. f_equal. apply IHl. congruence.
Qed.
Lemma combine_map2 {A} (f g : A -> R) l : combine (map f l) (map g l) = map (fun a => (f a, g a)) l.
Proof. induction l as [|a l IH]; cbn; [reflexivity|]. rewrite IH. reflexivity. Qed.
Lemma map_blocks {A B C} (f : B -> C) (g : A -> list B) l : map f (flat_map g l) = flat_map (fun a => map f (g a)) l.
Proof. induction l as [|a l IH]; [reflexivity|]. cbn. rewrite map_app, IH. reflexivity. Qed.
Lemma flat_map_same {A B} (f g : A -> list B) l : (forall a, f a = g a) -> flat_map f l = flat_map g l.
Proof. intros H. induction l as [|a l IH]; [reflexivity|]. cbn. rewrite H, IH. reflexivity. Qed.
Theorem sphere_matrix sym outs sig_in sig_out r ells x : (forall i, NoDup (outs i)) ->
  times (subproblem_matrix sym outs sig_in sig_out r ells) (stacked sig_in (length ells) x)
  = stacked sig_out (length ells) (fun j e => operate sym outs sig_in (nth e ells 0%Z) r (fun i => x i e) j).
Proof.
  intros N. unfold times, subproblem_matrix, stacked. rewrite map_blocks. apply flat_map_same. intros j. rewrite map_map. apply map_ext_in. intros e He. rewrite operate_value by exact N.
  rewrite combine_blocks by (intros i _; rewrite !map_length; reflexivity). rewrite sum_flat. apply sum_ext. intros i _. rewrite combine_map2, sum_map. cbn [fst snd]. rewrite (sum_single _ _ e); [|apply seq_NoDup|exact He|].
  - unfold block. rewrite Nat.eqb_refl. destruct (existsb (equal_index j) (outs i)); [reflexivity|lra].
  - intros e' _ Ne. unfold block. destruct (Nat.eqb_spec e e'); [congruence|]. destruct (existsb (equal_index j) (outs i)); lra.
Qed.
Corollary sphere_matrices sig r ells x :
  times (subproblem_matrix gradient_symbol gradient_out sig (2%nat :: sig) r ells) (stacked sig (length ells) x) = stacked (2%nat :: sig) (length ells) (fun j e => gradient sig (nth e ells 0%Z) r (fun i => x i e) j)
  /\ times (subproblem_matrix laplacian_symbol same_out sig sig r ells) (stacked sig (length ells) x) = stacked sig (length ells) (fun j e => laplacian sig (nth e ells 0%Z) r (fun i => x i e) j)
  /\ forall n y, times (subproblem_matrix divergence_symbol divergence_out (n :: sig) sig r ells) (stacked (n :: sig) (length ells) y) = stacked sig (length ells) (fun j e => divergence (n :: sig) (nth e ells 0%Z) r (fun i => y i e) j).
Proof. split; [apply sphere_matrix; apply gradient_nodup|]. split; [apply sphere_matrix; apply same_nodup|]. intros n y. apply sphere_matrix. apply divergence_nodup. Qed.

(** Averages keep the coefficient of degree zero of each component; constants have their value as that coefficient, in units of the constant mode;
    products by functions of the degree multiply by them. *)
Theorem sphere_average sig ell r x i : is_index sig i -> operate average_symbol same_out sig ell r x i = (if (ell =? 0)%Z then x i else 0)
  /\ operate constant_symbol same_out sig ell r x i * / sqrt 2 = (if (ell =? 0)%Z then x i else 0) /\ forall f, operate (product_symbol f) same_out sig ell r x i = f ell r * x i.
Proof.
  intros Hi. assert (S : sqrt 2 <> 0) by (apply Rgt_not_eq, sqrt_lt_R0; lra). repeat split; intros; rewrite same_at by exact Hi; unfold average_symbol, constant_symbol, product_symbol; rewrite ?equal_index_refl, ?andb_true_r; destruct (ell =? 0)%Z; try lra; field; exact S.
Qed.
(** Averages of scalars are computed; averages of vectors raise, since the array is sliced along the components. *)
Theorem sphere_average_scalar a b c d : (1 <= c <= a)%nat -> (1 <= d <= b)%nat -> operate_raises same_out [] [] [a; b] [c; d] = false.
Proof.
  intros Hc Hd. unfold operate_raises, multiply_shapes. cbn [indices same_out existsb app length skipn combine map fst snd fits forallb Nat.leb andb sliced].
  destruct (list_eq_dec Nat.eq_dec [a; b] [c; d]) as [E|E].
  - injection E as -> ->. cbn [broadcast]. rewrite !Nat.eqb_refl. destruct (list_eq_dec Nat.eq_dec [c; d] [c; d]); [reflexivity|congruence].
  - rewrite (Nat.min_r a c), (Nat.min_r b d), (Nat.min_l c a), (Nat.min_l d b), !Nat.min_id by lia. cbn [broadcast]. rewrite !Nat.eqb_refl. destruct (list_eq_dec Nat.eq_dec [c; d] [c; d]); [reflexivity|congruence].
Qed.
Theorem sphere_average_vector_refuted a b : (1 <= a)%nat -> (2 <= b)%nat -> operate_raises same_out [2%nat] [2%nat] [a; b] [1%nat; 1%nat] = true /\ operate_raises same_out [2%nat] [2%nat] [S a; b] [2%nat; 1%nat] = true.
Proof.
  intros Ha Hb. destruct a as [|a]; [lia|]. destruct b as [|[|b]]; [lia|lia|]. split; unfold operate_raises, multiply_shapes; cbn [indices seq flat_map map app same_out existsb combine fst snd length skipn].
  - destruct (list_eq_dec Nat.eq_dec [S a; S (S b)] [1%nat; 1%nat]) as [E|E]; [discriminate|]. cbn. destruct a; cbn; rewrite ?orb_true_r; reflexivity.
  - destruct (list_eq_dec Nat.eq_dec [S (S a); S (S b)] [2%nat; 1%nat]) as [E|E]; [discriminate|]. cbn. destruct a; reflexivity.
Qed.
(** A vector field of degree 2 on a sphere of radius 3. *)
Example sphere_example : let x i := if equal_index i [1%nat] then 1 else 0 in is_index [2%nat] [1%nat] /\ spin [1%nat] = 1%Z /\ laplacian [2%nat] 2 3 x [1%nat] = - (5 / 9) /\ exists_at 2 2 = true /\ exists_at 1 2 = false.
Proof.
  intros x. split; [repeat constructor|]. split; [reflexivity|]. split; [|split; reflexivity]. rewrite sphere_laplacian by (try lra; repeat constructor). unfold x. rewrite equal_index_refl. cbn. lra.
Qed.
Print Assumptions sphere_gradient.
Print Assumptions sphere_divergence.
Print Assumptions sphere_laplacian.
Print Assumptions sphere_laplacian_scalar.
Print Assumptions sphere_divergence_gradient.
Print Assumptions sphere_adjoint.
Print Assumptions sphere_curvature.
Print Assumptions sphere_scalar_symmetric.
Print Assumptions sphere_matrix.
Print Assumptions sphere_matrices.
Print Assumptions sphere_average.
Print Assumptions sphere_average_scalar.
Print Assumptions sphere_average_vector_refuted.
