(** Theorems about components of tensors on spheres and circles (C91). *)
From Coq Require Import List Arith Bool ZArith Lia Field QArith Qcanon Reals.
From Coquelicot Require Import Complex.
Import ListNotations.
From Verif Require Import CSR_Model CSR_Spec CSR_Proofs MatSolvers_Model Clenshaw_Model TensorArith_Model TensorArith_Spec TensorArith_Proofs TensorOps_Model TensorOps_Spec TensorOps_Proofs Spin_Spec Components_Model Components_Spec Components_Proofs.
From Verif Require Spin_Proofs.
Local Open Scope nat_scope.

Section Props.
Context {K : Type} (k0 k1 : K) (kadd kmul ksub kdiv : K -> K -> K) (kopp kinv : K -> K).
Notation represents := (represents k0 kadd kmul).

(** Radial components of tensors on a sphere: the matrix and the evaluation take the third component of the index named, whichever index it is. *)
Theorem radial_on_sphere (Hf : field_theory k0 k1 kadd kmul ksub kopp kdiv kinv eq) real ell m Lmax (u w : tensorsig) cs index (spatial : list nat) (v : list nat -> K) :
  cs_dim cs = 3 -> positive (u ++ w) -> names index (length (u ++ cs :: w)) (length u) ->
  scalar_sig (u ++ cs :: w) index = u ++ w /\
  (exists M, S2_radial_matrix k0 k1 kmul real ell m Lmax (u ++ cs :: w) index = Some M /\
     represents M (dims (u ++ cs :: w) ++ axes real ell m Lmax) (dims (u ++ w) ++ axes real ell m Lmax) (selected (length u) 2)) /\
  evaluates (scalar_operate 2 (u ++ cs :: w) index spatial (dims (u ++ cs :: w) ++ spatial, v)) (dims (u ++ w) ++ spatial) (selected (length u) 2 v).
Proof.
  intros H3 Hp Hn. split; [exact (scalar_mid _ _ _ _ Hn)|]. split; [exact (S2_radial_right k0 k1 kadd kmul ksub kdiv kopp kinv Hf real ell m Lmax u w cs index H3 Hp Hn)|]. apply scalar_value; [lia|exact Hn].
Qed.
(** Angular components: the first two components of the index, which becomes one over the sphere. *)
Theorem angular_on_sphere (Hf : field_theory k0 k1 kadd kmul ksub kopp kdiv kinv eq) S2 real ell m Lmax (u w : tensorsig) cs index (spatial : list nat) (v : list nat -> K) :
  cs_dim cs = 3 -> cs_dim S2 = 2 -> positive (u ++ w) -> names index (length (u ++ cs :: w)) (length u) ->
  angular_sig S2 (u ++ cs :: w) index = u ++ S2 :: w /\
  (exists M, S2_angular_matrix k0 k1 kmul S2 real ell m Lmax (u ++ cs :: w) index = Some M /\
     represents M (dims (u ++ cs :: w) ++ axes real ell m Lmax) (dims (u ++ S2 :: w) ++ axes real ell m Lmax) (part (length u) 0)) /\
  evaluates (angular_operate S2 (u ++ cs :: w) index spatial (dims (u ++ cs :: w) ++ spatial, v)) (dims (u ++ S2 :: w) ++ spatial) (part (length u) 0 v).
Proof.
  intros H3 H2 Hp Hn. split; [exact (angular_mid _ _ _ _ _ Hn)|]. split; [exact (S2_angular_right k0 k1 kadd kmul ksub kdiv kopp kinv Hf S2 real ell m Lmax u w cs index H3 H2 Hp Hn)|]. apply angular_value; assumption.
Qed.
(** On a circle: component 0 is the azimuthal one and component 1 the radial one. *)
Theorem components_on_circle (Hf : field_theory k0 k1 kadd kmul ksub kopp kdiv kinv eq) k real (u w : tensorsig) cs index (spatial : list nat) (v : list nat -> K) :
  k < 2 -> Forall (fun c => cs_dim c = 2) (u ++ cs :: w) -> names index (length (u ++ cs :: w)) (length u) ->
  scalar_sig (u ++ cs :: w) index = u ++ w /\
  (exists M, polar_matrix k0 k1 kmul k real (u ++ cs :: w) index = Some M /\
     represents M (dims (u ++ cs :: w) ++ (if real then [2] else [])) (dims (u ++ w) ++ (if real then [2] else [])) (selected (length u) k)) /\
  evaluates (scalar_operate k (u ++ cs :: w) index spatial (dims (u ++ cs :: w) ++ spatial, v)) (dims (u ++ w) ++ spatial) (selected (length u) k v).
Proof.
  intros Hk H2 Hn. split; [exact (scalar_mid _ _ _ _ Hn)|]. split; [exact (polar_right k0 k1 kadd kmul ksub kdiv kopp kinv Hf k real u w cs index Hk H2 Hn)|]. apply scalar_value; [|exact Hn].
  apply Forall_app in H2. destruct H2 as [_ B]. inversion B; subst. lia.
Qed.
(** The angular component on a circle is the azimuthal one, for vectors. *)
Theorem angular_on_circle (Hf : field_theory k0 k1 kadd kmul ksub kopp kdiv kinv eq) real cs : cs_dim cs = 2 ->
  exists M, polar_angular_matrix k0 k1 kmul real [cs] 0 = Some M /\ polar_matrix k0 k1 kmul 0 real [cs] 0 = Some M /\
    represents M ([2] ++ (if real then [2] else [])) ([] ++ (if real then [2] else [])) (selected 0 0).
Proof.
  intros H2. destruct (polar_right k0 k1 kadd kmul ksub kdiv kopp kinv Hf 0 real [] [] cs 0 ltac:(lia)) as (M & E & R); [constructor; [exact H2|constructor]|split; [split; [cbn; lia|left; reflexivity]|discriminate]|].
  exists M. cbn [dims map app length] in R. rewrite H2 in R. split; [|split; [exact E|exact R]]. rewrite <- E. reflexivity.
Qed.
(** For tensors its matrix does not have the size of the field. *)
Theorem angular_on_circle_refuted real (c d : coordsys) sig : Forall (fun e => cs_dim e = 2) (c :: d :: sig) ->
  exists M, polar_angular_matrix k0 k1 kmul real (c :: d :: sig) 0 = Some M /\ nc M <> size (dims (c :: d :: sig) ++ (if real then [2] else [])).
Proof.
  intros H. unfold polar_angular_matrix. assert (S0 : self_index (c :: d :: sig) 0 = Some 0%Z) by (apply (self_mid [] (d :: sig) c 0); split; [cbn; lia|left; reflexivity]). rewrite S0. cbn [option_bind]. eexists. split; [reflexivity|].
  assert (P : 0 < size (dims sig)). { apply positive_size. inversion H as [|? ? ? H']; subst. inversion H' as [|? ? ? H'']; subst. eapply Forall_impl; [|exact H'']. cbn. intros e ->. lia. }
  inversion H as [|? ? Ec H']; subst. inversion H' as [|? ? Ed H'']; subst. rewrite size_app_. cbn [dims map size]. rewrite Ec, Ed. fold (dims sig). destruct real; cbn; lia.
Qed.
(** The components of the spin components are the spin components of the components: taking components in coefficient space, where spin components are
    stored, and on the grid is the same. *)
Theorem radial_spins us du ws dw (z : list nat -> C) s : length us = length du -> in_shape (du ++ dw) s ->
  selected (length us) 2 (spin_components (us ++ Some 0 :: ws) (du ++ 3 :: dw) z) s = spin_components (us ++ ws) (du ++ dw) (selected (length us) 2 z) s.
Proof.
  intros L Hs. apply Forall2_app_inv_l in Hs. destruct Hs as (x & y & Hx & Hy & ->). unfold selected at 1. rewrite L, (put_split _ _ _ _ Hx). rewrite <- L. apply (spin_radial us du ws dw z x y L Hx).
Qed.
Theorem angular_spins us du ws dw (z : list nat -> C) s : length us = length du -> length ws = length dw -> in_shape (du ++ 2 :: dw) s ->
  part (length us) 0 (spin_components (us ++ Some 0 :: ws) (du ++ 3 :: dw) z) s = spin_components (us ++ Some 0 :: ws) (du ++ 2 :: dw) (part (length us) 0 z) s.
Proof.
  intros L L' Hs. unfold part at 1. rewrite part_zero by (rewrite <- (in_shape_length _ _ Hs), app_length; cbn; lia).
  unfold spin_components. rewrite (Spin_Proofs.transformed_ext spin_entry _ _ (part (length us) 0 z) z s).
  2:{ rewrite !app_length. cbn. lia. } 2:{ exact Hs. }
  2:{ intros t Ht. unfold part. rewrite part_zero; [reflexivity|]. rewrite <- (in_shape_length _ _ Ht), app_length. cbn. lia. }
  destruct (split_shape _ _ _ _ Hs) as (x & r & y & -> & Lx & Hx & Hr & Hy). apply (spin_angular us du ws dw z x r y L Hx Hr).
Qed.

(** With index -1 the signature is not that of a component.  For a vector on a sphere the matrix is zero, and the evaluation puts the radial component in all three places. *)
Theorem last_index_refuted (Hf : field_theory k0 k1 kadd kmul ksub kopp kdiv kinv eq) real ell m Lmax (u : tensorsig) cs (spatial : list nat) (v : list nat -> K) : cs_dim cs = 3 ->
  scalar_sig (u ++ [cs]) (-1) = u ++ u ++ [cs] /\
  (exists M, S2_radial_matrix k0 k1 kmul real ell m Lmax [cs] (-1) = Some M /\ nr M = size ([3] ++ axes real ell m Lmax) /\ forall i j, i < nr M -> j < nc M -> at_ M i j = k0) /\
  evaluates (scalar_operate 2 [cs] (-1) spatial ([3] ++ spatial, v)) ([3] ++ spatial) (fun idx => v (2 :: tl idx)).
Proof.
  intros H3. split; [exact (last_sig u cs)|]. assert (S1 : self_index [cs] (-1) = Some 0%Z) by reflexivity. assert (G1 : scalar_sig [cs] (-1) = [cs]) by reflexivity. split.
  - unfold S2_radial_matrix. rewrite S1, G1. cbn [option_bind dims map]. rewrite H3. eexists. split; [reflexivity|]. split.
    + apply blocks_rows. apply table_shape. cbn. lia.
    + apply (blocks_zero k0 k1 kadd kmul ksub kdiv kopp kinv Hf). destruct (table_shape k0 k1 (fun o a => match get_item a 0 with Some c => (c =? 2) && equal (popped a 0) o | None => false end) [3] [3] ltac:(cbn; lia)) as [E1 E2]. rewrite E1, E2.
      apply table_zero. intros o i Ho Hi. inversion Ho as [|? o0 ? o' _ Ho']; subst. inversion Ho'; subst. inversion Hi as [|? i0 ? i' _ Hi']; subst. inversion Hi'; subst. cbn. apply andb_false_r.
  - unfold scalar_operate. rewrite S1, G1. cbn [option_bind dims map]. rewrite H3. cbn [at_index fst snd app Z.ltb Z.compare Z.to_nat nth_error Nat.ltb Nat.leb firstn skipn]. apply (assign_lead 3 spatial (fun idx => v (put 0 2 idx))).
Qed.
(** Indices below those of the tensor are not refused: -2 for a vector gives the signature of a vector.  Indices above are. *)
Theorem far_index_refuted cs : self_index [cs] (-2) = Some (-1)%Z /\ scalar_sig [cs] (-2) = [cs].
Proof. split; reflexivity. Qed.
Theorem high_index_raises sig index : (Z.of_nat (length sig) <= index)%Z -> self_index sig index = None.
Proof.
  intros H. unfold self_index, resolved. replace (index <? 0)%Z with false by (symmetry; apply Z.ltb_ge; lia). rewrite (proj2 (Z.leb_le _ _) H). reflexivity.
Qed.
End Props.

(** The hypotheses are met: a tensor with an index over spherical coordinates after one over a line, and one before. *)
Definition sph := Build_coordsys 7 3 true. Definition s2 := Build_coordsys 8 2 true. Definition pol := Build_coordsys 9 2 true.
Example names_second : names 1 (length [s2; sph; sph]) (length [s2]) /\ names (-2) (length [s2; sph; sph]) (length [s2]).
Proof. split; (split; [split; [cbn; lia|cbn; lia]|discriminate]). Qed.
Example second_radial : exists M, S2_radial_matrix (Q2Qc 0) (Q2Qc 1) Qcmult true None 2 4 [s2; sph; sph] (-2) = Some M /\ nr M = 36 /\ nc M = 108 /\ at_ M 7 (((0 * 3 + 2) * 3 + 1) * 6 + 1) = Q2Qc 1.
Proof. eexists. split; [reflexivity|]. split; [reflexivity|]. split; [reflexivity|]. vm_compute. reflexivity. Qed.
Example circle_met : Forall (fun c => cs_dim c = 2) ([pol] ++ pol :: []) /\ names (-2) 2 (length (@nil coordsys)).
Proof. split; [repeat constructor|]. split; [split; [cbn; lia|right; reflexivity]|discriminate]. Qed.
Example field_met : field_theory (Q2Qc 0) (Q2Qc 1) Qcplus Qcmult Qcminus Qcopp Qcdiv Qcinv eq. Proof. exact Qcft. Qed.

Print Assumptions radial_on_sphere.
Print Assumptions angular_on_sphere.
Print Assumptions components_on_circle.
Print Assumptions angular_on_circle.
Print Assumptions angular_on_circle_refuted.
Print Assumptions radial_spins.
Print Assumptions angular_spins.
Print Assumptions last_index_refuted.
Print Assumptions far_index_refuted.
Print Assumptions high_index_raises.
