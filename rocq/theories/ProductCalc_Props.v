(** Vector calculus on direct products of coordinate systems is that of Euclidean space (C95). *)
From Coq Require Import List Arith Reals Bool Lia Lra FunctionalExtensionality.
From Coquelicot Require Import Coquelicot.
Import ListNotations.
From Verif Require Import ProductCalc_Model ProductCalc_Spec ProductCalc_Proofs.
Local Open Scope R_scope.

(** The components of the gradient of a scalar are those of the Euclidean gradient along the unit vectors of the coordinates, for any number of
    Cartesian and polar systems in any order. *)
Theorem product_gradient_is cs a0 F p i : differentiable F -> off_axis cs a0 p -> (i < dims cs)%nat ->
  product_gradient cs a0 (fun q => F (place cs a0 q)) i p = along cs a0 p (fun j => pd (a0 + j) F (place cs a0 p)) i.
Proof.
  intros D O I. destruct (dims_split cs i I) as (l & c & l' & k & -> & -> & K). unfold product_gradient.
  pose proof (gradient_loop_at l c l' a0 0 (fun q => F (place (l ++ c :: l') a0 q)) (fun _ _ => 0) k K) as G. rewrite Nat.add_0_l in G. rewrite G.
  rewrite (factor_gradient l c l' a0 F p k D O K). symmetry.
  apply (along_factor l c l' a0 p (fun j => pd (a0 + j) F (place (l ++ c :: l') a0 p)) k K).
Qed.

(** The divergence of a vector field is the Euclidean one: it is enough that the components given are those of the field off the axes. *)
Theorem product_divergence_is cs a0 (u U : nat -> scalar) p : (forall j, differentiable (U j)) -> off_axis cs a0 p ->
  (forall q i, off_axis cs a0 q -> (i < dims cs)%nat -> u i q = along cs a0 q (fun j => U j (place cs a0 q)) i) ->
  product_divergence cs a0 u p = total (dims cs) (fun j => pd (a0 + j) (U j) (place cs a0 p)).
Proof.
  intros D O H. pose proof (divergence_suffix cs [] a0 u U p D O H) as G. change (dims []) with 0%nat in G. rewrite Nat.add_0_r in G. exact G.
Qed.

(** The Laplacian of a scalar is the Euclidean one. *)
Theorem product_laplacian_is cs a0 F p : differentiable F -> (forall i, differentiable (pd i F)) -> off_axis cs a0 p ->
  product_laplacian cs a0 (fun q => F (place cs a0 q)) p = total (dims cs) (fun j => pd (a0 + j) (pd (a0 + j) F) (place cs a0 p)).
Proof.
  intros D D2 O. pose proof (laplacian_suffix cs [] a0 F p D D2 O) as G. change (dims []) with 0%nat in G. rewrite Nat.add_0_r in G. exact G.
Qed.

(** The divergence of the gradient is the Laplacian. *)
Theorem product_div_grad cs a0 F p : differentiable F -> (forall i, differentiable (pd i F)) -> off_axis cs a0 p ->
  product_divergence cs a0 (product_gradient cs a0 (fun q => F (place cs a0 q))) p = product_laplacian cs a0 (fun q => F (place cs a0 q)) p.
Proof.
  intros D D2 O. rewrite (product_laplacian_is cs a0 F p D D2 O).
  apply (product_divergence_is cs a0 _ (fun j => pd (a0 + j) F) p); [intros j; apply D2 | exact O |].
  intros q i Oq I. now apply product_gradient_is.
Qed.

(** The trace of the blocks of the systems is the trace. *)
Theorem product_trace_is cs T : product_trace cs 0 T = total (dims cs) (fun i => T i i).
Proof. apply (trace_suffix cs 0 T). Qed.

(** The curl is that of Euclidean space, up to the sign that makes the order of the coordinates right-handed or left-handed as declared. *)
Theorem product_curl_declared c a0 b (u U : nat -> scalar) : c = Cartesian 2 \/ c = Polar -> (forall j, differentiable (U j)) ->
  let cs := [Cartesian 1; c] in
  (forall q i, off_axis cs a0 q -> (i < 3)%nat -> u i q = along cs a0 q (fun j => U j (place cs a0 q)) i) ->
  exists w, product_curl cs a0 (Some b) u = Built w /\ forall p i, off_axis cs a0 p -> (i < 3)%nat ->
    w i p = (if b then 1 else -1) * orientation (frame cs a0 p) * along cs a0 p (curl a0 U (place cs a0 p)) i.
Proof.
  intros Hc D cs H. subst cs. eexists. split.
  - assert (N : dim c = 2%nat) by (now destruct Hc as [-> | ->]). unfold product_curl, dims. cbn [map list_sum fold_right]. rewrite N. cbn [dim Nat.add Nat.eqb negb andb]. reflexivity.
  - intros p i O I. rewrite (frame_sign c a0 Hc p). rewrite (flat_curl c a0 u U Hc D H p i _ O I).
    destruct Hc as [-> | ->]; cbn; destruct b; ring.
Qed.
(** By default it is the curl itself: cylinders are left-handed, as azimuth is before radius, and Cartesian systems right-handed. *)
Theorem product_curl_default c a0 (u U : nat -> scalar) : c = Cartesian 2 \/ c = Polar -> (forall j, differentiable (U j)) ->
  let cs := [Cartesian 1; c] in
  (forall q i, off_axis cs a0 q -> (i < 3)%nat -> u i q = along cs a0 q (fun j => U j (place cs a0 q)) i) ->
  exists w, product_curl cs a0 None u = Built w /\ forall p i, off_axis cs a0 p -> (i < 3)%nat -> w i p = along cs a0 p (curl a0 U (place cs a0 p)) i.
Proof.
  intros Hc D cs H. subst cs. eexists. split.
  - assert (N : dim c = 2%nat) by (now destruct Hc as [-> | ->]). unfold product_curl, dims. cbn [map list_sum fold_right]. rewrite N. cbn [dim Nat.add Nat.eqb negb andb]. reflexivity.
  - intros p i O I. rewrite (flat_curl c a0 u U Hc D H p i _ O I).
    destruct Hc as [-> | ->]; cbn; ring.
Qed.

(** The curl of a gradient vanishes. *)
Theorem product_curl_grad c a0 F : c = Cartesian 2 \/ c = Polar -> differentiable F -> (forall i, differentiable (pd i F)) ->
  (forall i j q, pd i (pd j F) q = pd j (pd i F) q) ->
  let cs := [Cartesian 1; c] in
  exists w, product_curl cs a0 None (product_gradient cs a0 (fun q => F (place cs a0 q))) = Built w /\ forall p i, off_axis cs a0 p -> (i < 3)%nat -> w i p = 0.
Proof.
  intros Hc D D2 S cs.
  destruct (product_curl_default c a0 (product_gradient cs a0 (fun q => F (place cs a0 q))) (fun j => pd (a0 + j) F) Hc) as (w & W & Hw).
  - intros j. apply D2.
  - intros q i Oq I. apply product_gradient_is; [exact D | exact Oq |]. destruct Hc as [-> | ->]; exact I.
  - exists w. split; [exact W |]. intros p i O I. rewrite (Hw p i O I). unfold along. fold cs.
    rewrite (total_ext _ _ (fun _ => 0)); [apply total_zero |]. intros j J. replace (curl _ _ _ j) with 0; [ring |].
    unfold curl. rewrite Nat.add_0_r. destruct j as [|[|j]].
    + rewrite (S (a0 + 2)%nat (a0 + 1)%nat). ring.
    + rewrite (S (a0 + 2)%nat a0). ring.
    + rewrite (S (a0 + 1)%nat a0). ring.
Qed.

(** With the system of two dimensions first no curl is built, though the comments and the code that follow provide for this order: the test reads
    an attribute that operands do not have.  Three systems of one dimension give the same error. *)
Theorem product_curl_order_refuted c a0 given u : dim c = 2%nat ->
  product_curl [c; Cartesian 1] a0 given u = AttributeError /\ product_curl [Cartesian 1; Cartesian 1; Cartesian 1] a0 given u = AttributeError.
Proof. intros E. unfold product_curl, dims. cbn [map list_sum fold_right]. rewrite E. split; reflexivity. Qed.
(** In other dimensions there is a [ValueError]. *)
Theorem product_curl_dimension cs a0 given u : dims cs <> 3%nat -> product_curl cs a0 given u = ValueError.
Proof. intros E. unfold product_curl. now rewrite (proj2 (Nat.eqb_neq _ _) E). Qed.

(** Coordinates are differentiable. *)
Lemma differentiable_coordinate k : differentiable (fun q => q k).
Proof.
  intros q i j x y N. exists (if Nat.eqb k i then 1 else 0), (if Nat.eqb k j then 1 else 0). intros eps.
  apply locally_2d_forall. intros u v. unfold upd.
  assert (P : 0 <= eps * Rmax (Rabs (u - x)) (Rabs (v - y))).
  { apply Rmult_le_pos; [left; apply cond_pos |]. apply Rle_trans with (Rabs (u - x)); [apply Rabs_pos | apply Rmax_l]. }
  destruct (Nat.eqb_spec k j), (Nat.eqb_spec k i); try congruence;
    match goal with |- Rabs ?A <= _ => replace A with 0 by ring end; now rewrite Rabs_R0.
Qed.

(** A cylinder, in a field that turns about the axis and is sheared along it. *)
Definition sample_field (j : nat) : scalar := match j with O => fun q => q 1%nat | 1%nat => fun q => - q 2%nat | _ => fun q => q 1%nat end.
Example sample_curl : let cs := [Cartesian 1; Polar] in let u i q := along cs 0 q (fun j => sample_field j (place cs 0 q)) i in
  (forall j, differentiable (sample_field j)) /\
  exists w, product_curl cs 0 None u = Built w /\ forall p, p 2%nat <> 0 ->
    off_axis cs 0 p /\ u 1%nat p = p 2%nat /\ w 0%nat p = 2 /\ w 1%nat p = - cos (p 1%nat) /\ w 2%nat p = - sin (p 1%nat).
Proof.
  assert (D : forall j, differentiable (sample_field j)).
  { intros [|[|j]]; cbn; [| apply differentiable_opp |]; apply differentiable_coordinate. }
  split; [exact D |].
  destruct (product_curl_default Polar 0 (fun i q => along [Cartesian 1; Polar] 0 q (fun j => sample_field j (place [Cartesian 1; Polar] 0 q)) i) sample_field (or_intror eq_refl) D) as (w & W & H).
  { reflexivity. }
  exists w. split; [exact W |]. intros p R.
  assert (O : off_axis [Cartesian 1; Polar] 0 p) by (repeat split; exact R).
  assert (P1 : forall i k q, pd i (fun q => q k) q = if Nat.eqb k i then 1 else 0).
  { intros i k q. unfold pd, upd. destruct (Nat.eqb k i); [apply Derive_id | apply Derive_const]. }
  assert (C : forall q, curl 0 sample_field q 0 = 2 /\ curl 0 sample_field q 1 = 0 /\ curl 0 sample_field q 2 = -1).
  { intros q. cbn [curl sample_field Nat.add]. rewrite !pd_opp, !P1. cbn. repeat split; ring. }
  destruct (C (place [Cartesian 1; Polar] 0 p)) as (C0 & C1 & C2).
  pose proof (sin2_cos2 (p 1%nat)) as T. unfold Rsqr in T.
  repeat split; [exact R | | rewrite H by (try exact O; lia) ..].
  - rewrite (along_rest Polar 0 (or_intror eq_refl)) by lia. cbn. unfold upd. cbn. transitivity (p 2%nat * (sin (p 1%nat) * sin (p 1%nat) + cos (p 1%nat) * cos (p 1%nat))); [ring | rewrite T; ring].
  - rewrite along_first. exact C0.
  - rewrite (along_rest Polar 0 (or_intror eq_refl)) by lia. rewrite C1, C2. cbn. ring.
  - rewrite (along_rest Polar 0 (or_intror eq_refl)) by lia. rewrite C1, C2. cbn. ring.
Qed.

Print Assumptions product_gradient_is.
Print Assumptions product_divergence_is.
Print Assumptions product_laplacian_is.
Print Assumptions product_div_grad.
Print Assumptions product_trace_is.
Print Assumptions product_curl_declared.
Print Assumptions product_curl_default.
Print Assumptions product_curl_grad.
Print Assumptions product_curl_order_refuted.
Print Assumptions product_curl_dimension.
