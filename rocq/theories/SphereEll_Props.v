(** Coefficients of spherical harmonics by degree: C73. *)
From Coq Require Import List Arith Bool ZArith Lia Field.
Import ListNotations.
From Verif Require Import CSR_Spec Sphere_Model Sphere_Spec Sphere_Proofs SphereEll_Model SphereEll_Spec SphereEll_Proofs.
From Verif Require MatSolvers_Proofs.
Local Open Scope nat_scope.

(** On every process the table sorts the elements by degree, ... *)
Theorem ell_table d Nphi Ntheta c0 n j0 nc : good_resolution d Nphi -> 0 < Ntheta -> Nphi <= 2 * Ntheta -> c0 + n <= pieces d Nphi -> j0 + nc <= columns d Nphi Ntheta ->
  ~ straddled d Nphi Ntheta c0 n j0 nc -> sorted_by_degree d Nphi Ntheta c0 n j0 nc (ell_maps d Nphi Ntheta c0 n j0 nc).
Proof.
  intros Hg H0 HN Hc Hj NS a b Ha Hb. eexists. split; [apply covering_one; try assumption; apply (column_convex d Nphi Ntheta c0 n j0 nc); assumption|reflexivity].
Qed.
(** ... for instance if there are twice as many points in azimuth as in colatitude, or the largest degree is odd. *)
Theorem ell_table_usual d Nphi Ntheta c0 n j0 nc : Nphi = 2 * Ntheta \/ Nat.odd (top_degree d Ntheta) = true \/ 0 < c0 \/ n <= 2 -> ~ straddled d Nphi Ntheta c0 n j0 nc.
Proof.
  intros H (Hc & j & H1 & H2 & H3 & H4 & H5 & H6). destruct H as [H|[H|[H|H]]]; try lia. rewrite <- H2, Nat.odd_mul in H. discriminate.
Qed.
(** Otherwise it does not: some element is also in the entry of another degree. *)
Theorem ell_table_refuted d Nphi Ntheta c0 n j0 nc : good_resolution d Nphi -> 0 < Ntheta -> Nphi <= 2 * Ntheta -> c0 + n <= pieces d Nphi -> j0 + nc <= columns d Nphi Ntheta ->
  straddled d Nphi Ntheta c0 n j0 nc -> exists a b e, a < coeff_chunk d * n /\ b < nc /\ In e (ell_maps d Nphi Ntheta c0 n j0 nc) /\ covers e a b = true /\ fst (fst e) <> degree d Nphi Ntheta c0 j0 a b.
Proof.
  intros Hg H0 HN Hc Hj S. destruct (column_straddled d Nphi Ntheta c0 n j0 nc Hg H0 HN Hc Hj S) as (a & b & x & Ha & Hb & Hx & Hi & Hu). exists a, b, (ell_entry d Nphi Ntheta c0 n j0 x b).
  pose proof (covering_many d Nphi Ntheta c0 n j0 nc a b x Ha Hb Hi Hu) as H. apply filter_In in H. destruct H as [H1 H2]. split; [exact Ha|]. split; [exact Hb|]. split; [exact H1|]. split; [exact H2|exact Hx].
Qed.
Example straddled_example : straddled Complex128 8 5 0 4 0 6 /\ straddled Float64 16 12 0 4 0 15 /\ ~ straddled Float64 16 8 0 4 0 7.
Proof.
  split; [split; [reflexivity|]; exists 2; cbn; lia|]. split; [split; [reflexivity|]; exists 5; cbn; lia|]. apply ell_table_usual. left. reflexivity.
Qed.

Section Fields.
Context {K : Type} (k0 k1 : K) (kadd kmul ksub kdiv : K -> K -> K) (kopp kinv : K -> K).
Context (Hf : field_theory k0 k1 kadd kmul ksub kopp kdiv kinv eq).
Add Field Kellp : Hf.
Notation total := (CSR_Spec.total k0 kadd).
Notation total_ext := (MatSolvers_Proofs.total_ext k0 k1 kadd kmul ksub kdiv kopp kinv Hf).
Notation total_swap := (MatSolvers_Proofs.total_swap k0 k1 kadd kmul ksub kdiv kopp kinv Hf).
Notation total_mul_l := (MatSolvers_Proofs.total_mul_l k0 k1 kadd kmul ksub kdiv kopp kinv Hf).
Notation total_mul_r := (MatSolvers_Proofs.total_mul_r k0 k1 kadd kmul ksub kdiv kopp kinv Hf).
Notation total_single := (MatSolvers_Proofs.total_single k0 k1 kadd kmul ksub kdiv kopp kinv Hf).
(** Operators that depend on the degree: each coefficient of the result is the sum over the components that lead to its component of the
    products of their matrix for the degree of the element with the radial coefficients there. *)
Theorem ell_operator nmin Nr allowed A components outs d Nphi Ntheta c0 n j0 nc maps x r a b k : sorted_by_degree d Nphi Ntheta c0 n j0 nc maps -> (forall rin, In rin components -> NoDup (outs rin)) ->
  a < coeff_chunk d * n -> b < nc -> let ell := degree d Nphi Ntheta c0 j0 a b in
  operate k0 kadd kmul nmin Nr allowed A components outs maps x r a b k
  = fold_right kadd k0 (map (fun rin => if existsb (same r) (outs rin) && (allowed rin ell && allowed r ell) && ((nmin ell <=? k) && (k <? Nr))
      then total (Nr - nmin ell) (fun q => kmul (A rin r ell (k - nmin ell) q) (x rin a b (nmin ell + q))) else k0) components).
Proof.
  intros Hs Hn Ha Hb ell. destruct (Hs a b Ha Hb) as (e & E1 & E2). rewrite (operate_value k0 k1 kadd kmul ksub kdiv kopp kinv Hf nmin Nr allowed A x a b maps e) by assumption. rewrite E2. fold ell. f_equal. apply map_ext. intros rin.
  unfold contribution. destruct (existsb (same r) (outs rin)); reflexivity.
Qed.
(** With elements in entries of two degrees, the matrices of both degrees are applied and added. *)
Theorem ell_operator_refuted : let maps := ell_maps Complex128 8 5 0 4 0 6 in degree Complex128 8 5 0 0 1 2 = 1%Z /\ exists A x,
  operate k0 kadd kmul (fun _ => 0) 1 (fun _ _ => true) A [[]] (fun _ => [[]]) maps x [] 1 2 0 <> total 1 (fun q => kmul (A [] [] 1%Z 0 q) (x [] 1 2 q)).
Proof.
  cbv zeta. split; [vm_compute; reflexivity|]. exists (fun _ _ ell _ _ => if (ell =? 1)%Z then k0 else k1), (fun _ _ _ _ => k1).
  vm_compute. intros H. apply (F_1_neq_0 Hf). transitivity (kadd (kmul k0 k1) k0); [rewrite <- H|]; ring.
Qed.
(** Recombination of the components: by the matrix of the degree of the element, once, ... *)
Theorem regularity_forward rank q Q d Nphi Ntheta c0 n j0 nc maps (x : nat -> @data K) i a b t : sorted_by_degree d Nphi Ntheta c0 n j0 nc maps -> 0 < rank -> a < coeff_chunk d * n -> b < nc ->
  forward_regularity k0 kadd kmul rank q Q maps x i a b t = total q (fun k => kmul (Q (degree d Nphi Ntheta c0 j0 a b) k i) (x k a b t)).
Proof.
  intros Hs Hr Ha Hb. destruct (Hs a b Ha Hb) as (e & E1 & E2). unfold forward_regularity. apply Nat.ltb_lt in Hr. rewrite Hr. rewrite (recombine_value k0 k1 kadd kmul ksub kdiv kopp kinv Hf q _ a b maps e) by assumption. rewrite E2. reflexivity.
Qed.
Theorem regularity_backward rank q Q d Nphi Ntheta c0 n j0 nc maps (x : nat -> @data K) i a b t : sorted_by_degree d Nphi Ntheta c0 n j0 nc maps -> 0 < rank -> a < coeff_chunk d * n -> b < nc ->
  backward_regularity k0 kadd kmul rank q Q maps x i a b t = total q (fun k => kmul (Q (degree d Nphi Ntheta c0 j0 a b) i k) (x k a b t)).
Proof.
  intros Hs Hr Ha Hb. destruct (Hs a b Ha Hb) as (e & E1 & E2). unfold backward_regularity. apply Nat.ltb_lt in Hr. rewrite Hr. rewrite (recombine_value k0 k1 kadd kmul ksub kdiv kopp kinv Hf q _ a b maps e) by assumption. rewrite E2. reflexivity.
Qed.
Lemma contracted q (P S : nat -> nat -> K) x i : i < q -> (forall j, j < q -> total q (fun k => kmul (P i k) (S k j)) = if i =? j then k1 else k0) ->
  total q (fun k => kmul (P i k) (total q (fun j => kmul (S k j) (x j)))) = x i.
Proof.
  intros Hi H. transitivity (total q (fun j => kmul (total q (fun k => kmul (P i k) (S k j))) (x j))).
  - transitivity (total q (fun k => total q (fun j => kmul (kmul (P i k) (S k j)) (x j)))).
    + apply total_ext. intros k _. rewrite <- total_mul_l. apply total_ext. intros j _. ring.
    + rewrite total_swap. apply total_ext. intros j _. apply total_mul_r.
  - rewrite (total_single q i); [|exact Hi|].
    + rewrite H by exact Hi. rewrite Nat.eqb_refl. ring.
    + intros j Hj N. rewrite H by exact Hj. destruct (Nat.eqb_spec i j); [congruence|]. ring.
Qed.
(** ... so that going to regularity components and back changes nothing. *)
Theorem regularity_round_trips rank q Q d Nphi Ntheta c0 n j0 nc maps (x : nat -> @data K) i a b t : sorted_by_degree d Nphi Ntheta c0 n j0 nc maps -> 0 < rank -> (forall ell, orthogonal k0 k1 kadd kmul q (Q ell)) ->
  a < coeff_chunk d * n -> b < nc -> i < q ->
  backward_regularity k0 kadd kmul rank q Q maps (forward_regularity k0 kadd kmul rank q Q maps x) i a b t = x i a b t
  /\ forward_regularity k0 kadd kmul rank q Q maps (backward_regularity k0 kadd kmul rank q Q maps x) i a b t = x i a b t.
Proof.
  intros Hs Hr HQ Ha Hb Hi. set (ell := degree d Nphi Ntheta c0 j0 a b). split.
  - rewrite (regularity_backward rank q Q d Nphi Ntheta c0 n j0 nc) by assumption. fold ell. transitivity (total q (fun k => kmul (Q ell i k) (total q (fun j => kmul (Q ell j k) (x j a b t))))).
    + apply total_ext. intros k _. rewrite (regularity_forward rank q Q d Nphi Ntheta c0 n j0 nc) by assumption. reflexivity.
    + apply (contracted q (Q ell) (fun k j => Q ell j k) (fun j => x j a b t) i Hi). intros j Hj. apply HQ; assumption.
  - rewrite (regularity_forward rank q Q d Nphi Ntheta c0 n j0 nc) by assumption. fold ell. transitivity (total q (fun k => kmul (Q ell k i) (total q (fun j => kmul (Q ell k j) (x j a b t))))).
    + apply total_ext. intros k _. rewrite (regularity_backward rank q Q d Nphi Ntheta c0 n j0 nc) by assumption. reflexivity.
    + apply (contracted q (fun k j => Q ell j k) (Q ell) (fun j => x j a b t) i Hi). intros j Hj. apply HQ; assumption.
Qed.
(** With elements in entries of two degrees, the matrices of both are applied, one after the other, and the way back, which is in the same order, does not undo it. *)
Theorem regularity_refuted : let maps := ell_maps Complex128 8 5 0 4 0 6 in exists Q, (forall ell, orthogonal k0 k1 kadd kmul 3 (Q ell)) /\ exists x i t, i < 3
  /\ backward_regularity k0 kadd kmul 1 3 Q maps (forward_regularity k0 kadd kmul 1 3 Q maps x) i 1 2 t <> x i 1 2 t.
Proof.
  cbv zeta. exists (fun ell i k => if ((ell =? 1)%Z && (((i =? 0) && (k =? 1)) || ((i =? 1) && (k =? 0)) || ((i =? 2) && (k =? 2)))) || ((ell =? 2)%Z && (((i =? 0) && (k =? 0)) || ((i =? 1) && (k =? 2)) || ((i =? 2) && (k =? 1)))) || (negb ((ell =? 1)%Z || (ell =? 2)%Z) && (i =? k)) then k1 else k0).
  split.
  - intros ell i j Hi Hj. destruct (ell =? 1)%Z eqn:E1, (ell =? 2)%Z eqn:E2; [apply Z.eqb_eq in E1, E2; lia| | |]; destruct i as [|[|[|]]]; try lia; destruct j as [|[|[|]]]; try lia; split; cbn; ring.
  - exists (fun i _ _ _ => if i =? 0 then k1 else k0), 0, 0. split; [lia|]. vm_compute. intros H. apply (F_1_neq_0 Hf). rewrite <- H. ring.
Qed.
(** Radial transforms of the ball: by the matrix of the degree, from its first radial coefficient on, the ones before are left. *)
Theorem ball_radial nmin N3c N3g M d Nphi Ntheta c0 n j0 nc maps (g c : @data K) a b : sorted_by_degree d Nphi Ntheta c0 n j0 nc maps -> a < coeff_chunk d * n -> b < nc -> let ell := degree d Nphi Ntheta c0 j0 a b in
  (forall k, nmin ell <= k < N3c -> ball_forward k0 kadd kmul nmin N3c N3g M maps g c a b k = total N3g (fun t => kmul (M ell (k - nmin ell) t) (g a b t)))
  /\ (forall k, k < nmin ell -> ball_forward k0 kadd kmul nmin N3c N3g M maps g c a b k = c a b k)
  /\ (forall t, t < N3g -> ball_backward k0 kadd kmul nmin N3c N3g M maps c g a b t = total (N3c - nmin ell) (fun q => kmul (M ell t q) (c a b (nmin ell + q)))).
Proof.
  intros Hs Ha Hb ell. destruct (Hs a b Ha Hb) as (e & E1 & E2). fold ell in E2. destruct (filter_single _ _ _ E1) as (_ & _ & _ & He & _ & _). cbv beta in He. unfold ball_forward, ball_backward.
  match goal with |- (forall k, _ -> fold_left ?F _ _ _ _ _ = _) /\ _ => destruct (fold_once (fun e => covers e a b) F (fun (s : @data K) k => s a b k) maps e E1) with (s := c) as (s' & S1 & S2); [intros s e' He' k; cbv beta zeta; rewrite He'; reflexivity|] end.
  match goal with |- _ /\ _ /\ (forall t, _ -> fold_left ?F _ _ _ _ _ = _) => destruct (fold_once (fun e => covers e a b) F (fun (s : @data K) k => s a b k) maps e E1) with (s := g) as (s2 & S3 & S4); [intros s e' He' k; cbv beta zeta; rewrite He'; reflexivity|] end.
  cbv beta zeta in S2, S4. rewrite He, E2 in S2, S4. split; [|split].
  - intros k Hk. rewrite S2. destruct (Nat.leb_spec (nmin ell) k), (Nat.ltb_spec k N3c); try lia. reflexivity.
  - intros k Hk. rewrite S2. destruct (Nat.leb_spec (nmin ell) k); [lia|]. cbn [andb]. apply S1.
  - intros t Ht. rewrite S4. destruct (Nat.ltb_spec t N3g); [|lia]. reflexivity.
Qed.
End Fields.
(** Real data on 16 by 8 points, second process of two in colatitude: the table. *)
Example ell_table_example : good_resolution Float64 16 /\ 0 < 8 /\ 16 <= 2 * 8 /\ 0 + 4 <= pieces Float64 16 /\ 4 + 3 <= columns Float64 16 8
  /\ ell_maps Float64 16 8 0 4 4 3 = [(4%Z, (0, 8), (0, 1)); (5%Z, (0, 8), (1, 2)); (6%Z, (0, 8), (2, 3))] /\ ell_maps Float64 16 8 0 4 0 2 = [(0%Z, (0, 2), (0, 1)); (1%Z, (0, 4), (1, 2)); (6%Z, (2, 8), (0, 1)); (5%Z, (4, 8), (1, 2))].
Proof. split; [split; [lia|right; reflexivity]|]. split; [lia|]. split; [lia|]. split; [cbn; lia|]. split; [cbn; lia|]. split; vm_compute; reflexivity. Qed.
Print Assumptions ell_table.
Print Assumptions ell_table_usual.
Print Assumptions ell_table_refuted.
Print Assumptions ell_operator.
Print Assumptions ell_operator_refuted.
Print Assumptions regularity_forward.
Print Assumptions regularity_backward.
Print Assumptions regularity_round_trips.
Print Assumptions regularity_refuted.
Print Assumptions ball_radial.
