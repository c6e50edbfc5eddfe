(** Theorems about vector calculus on disks and annuli (C77). *)
From Coq Require Import List ZArith Reals Bool Lia Lra.
From Coquelicot Require Import Coquelicot.
Import ListNotations.
From Verif Require Import MatSolvers_Model JacobiCalc_Spec JacobiCalc_Props Radial_Spec SphericalVec_Model SphericalVec_Spec SphericalVec_Proofs PolarVec_Model PolarVec_Spec PolarVec_Proofs.
Local Open Scope R_scope.

(** What the operators do to the functions of the radius of each order, for tensors of any signature.  [l] is the order plus the spin of a component. *)
Theorem polar_gradient : forall mass, mass_rules mass -> forall g N m k sig x, (1 <= N)%nat -> fit g k ->
  let f c k l := function_of N c (flat_modes mass g k l) in
  exists u, pgradient g k N m sig x = Some u /\ forall i, component_of sig i -> let l := (m + spintotal sig i)%Z in forall r, 0 < r -> exists e, has_derivative (f (x i) k l) r e
  /\ f (u (0%nat :: i)) (S k) (l - 1)%Z r = (RtoC (1 / sqrt 2) * (e + RtoC (IZR l / r) * f (x i) k l r))%C
  /\ f (u (1%nat :: i)) (S k) (l + 1)%Z r = (RtoC (1 / sqrt 2) * (e - RtoC (IZR l / r) * f (x i) k l r))%C.
Proof. intros mass Hm g N m k sig x HN Hf. exact (pgradient_function mass Hm g N HN m k sig x Hf). Qed.
Print Assumptions polar_gradient.
Theorem polar_divergence : forall mass, mass_rules mass -> forall g N m k sig x, (1 <= N)%nat -> fit g k ->
  let f c k l := function_of N c (flat_modes mass g k l) in
  exists u, pdivergence g k N m sig x = Some u /\ forall i, component_of sig i -> let l := (m + spintotal sig i)%Z in forall r, 0 < r -> exists em ep,
  has_derivative (f (x (0%nat :: i)) k (l - 1)%Z) r em /\ has_derivative (f (x (1%nat :: i)) k (l + 1)%Z) r ep
  /\ f (u i) (S k) l r = (RtoC (1 / sqrt 2) * ((em - RtoC ((IZR l - 1) / r) * f (x (0%nat :: i)) k (l - 1)%Z r) + (ep + RtoC ((IZR l + 1) / r) * f (x (1%nat :: i)) k (l + 1)%Z r)))%C.
Proof. intros mass Hm g N m k sig x HN Hf. exact (pdivergence_function mass Hm g N HN m k sig x Hf). Qed.
Print Assumptions polar_divergence.
Theorem polar_laplacian : forall mass, mass_rules mass -> forall g N m k sig x, (1 <= N)%nat -> fit g k ->
  let f c k l := function_of N c (flat_modes mass g k l) in
  exists u, plaplacian g k N m sig x = Some u /\ forall i, component_of sig i -> let l := (m + spintotal sig i)%Z in exists f1, (forall r, 0 < r -> has_derivative (f (x i) k l) r (f1 r))
  /\ forall r, 0 < r -> exists e, has_derivative f1 r e /\ f (u i) (S (S k)) l r = (e + RtoC (1 / r) * f1 r + RtoC (- IZR l ^ 2 / r ^ 2) * f (x i) k l r)%C.
Proof. intros mass Hm g N m k sig x HN Hf. exact (plaplacian_function mass Hm g N HN m k sig x Hf). Qed.
Print Assumptions polar_laplacian.

(** Identities, exactly, coefficient by coefficient: the divergence of a gradient is the Laplacian, and that of a gradient turned by a right angle is zero. *)
Theorem polar_div_grad : forall mass, mass_rules mass -> forall g N m k sig x, (1 <= N)%nat -> fit g k ->
  exists u v w, pgradient g k N m sig x = Some u /\ pdivergence g (S k) N m sig u = Some v /\ plaplacian g k N m sig x = Some w /\ alike sig N v w.
Proof. intros mass Hm g N m k sig x HN Hf. exact (pdivergence_gradient mass Hm g N HN m k sig x Hf). Qed.
Print Assumptions polar_div_grad.
Theorem polar_div_skew_grad : forall mass, mass_rules mass -> forall g N m k sig x, (1 <= N)%nat -> fit g k ->
  exists u v, pgradient g k N m sig x = Some u /\ pdivergence g (S k) N m sig (pskew u) = Some v /\ alike sig N v (fun _ _ => RtoC 0).
Proof. intros mass Hm g N m k sig x HN Hf. exact (pdivergence_skew_gradient mass Hm g N HN m k sig x Hf). Qed.
Print Assumptions polar_div_skew_grad.

(** With pairs of real coefficients: the same as with complex numbers. *)
Theorem polar_real : forall mass, mass_rules mass -> forall g N m k sig x y, (1 <= N)%nat -> fit g k -> parts_of x y ->
  (exists u v, pgradient g k N m sig x = Some u /\ poperate_real N (pgradient_matrix g k N m sig) pgradient_out sig y = Some v /\ parts_of u v)
  /\ (exists u v, pdivergence g k N m sig x = Some u /\ poperate_real N (pdivergence_matrix g k N m (polar :: sig)) pdivergence_out (polar :: sig) y = Some v /\ parts_of u v)
  /\ (exists u v, plaplacian g k N m sig x = Some u /\ poperate_real N (plaplacian_matrix g k N m sig) same_out sig y = Some v /\ parts_of u v).
Proof.
  intros mass Hm g N m k sig x y HN Hf Hy.
  destruct (pgradient_value mass Hm g N HN m k sig x Hf) as (u1 & E1 & _). destruct (pdivergence_value mass Hm g N HN m k sig x Hf) as (u2 & E2 & _). destruct (plaplacian_value mass Hm g N HN m k sig x Hf) as (u3 & E3 & _).
  pose proof (poperate_parts N (pgradient_matrix g k N m sig) pgradient_out sig x y Hy (pgradient_real g k N m sig)) as H1. unfold pgradient in *. rewrite E1 in H1.
  pose proof (poperate_parts N (pdivergence_matrix g k N m (polar :: sig)) pdivergence_out (polar :: sig) x y Hy (pdivergence_real g k N m (polar :: sig))) as H2. unfold pdivergence in *. rewrite E2 in H2.
  pose proof (poperate_parts N (plaplacian_matrix g k N m sig) same_out sig x y Hy (plaplacian_real g k N m sig)) as H3. unfold plaplacian in *. rewrite E3 in H3.
  split; [|split].
  - destruct (poperate_real N (pgradient_matrix g k N m sig) pgradient_out sig y) as [v|]; [|destruct H1]. exists u1, v. auto.
  - destruct (poperate_real N (pdivergence_matrix g k N m (polar :: sig)) pdivergence_out (polar :: sig) y) as [v|]; [|destruct H2]. exists u2, v. auto.
  - destruct (poperate_real N (plaplacian_matrix g k N m sig) same_out sig y) as [v|]; [|destruct H3]. exists u3, v. auto.
Qed.
Print Assumptions polar_real.

Theorem polar_real_skew : forall x y, parts_of x y -> parts_of (pskew x) (pskew_real y).
Proof. intros x y H i n. destruct (H i n) as [H1 H2]. unfold pskew, pskew_real. destruct i as [|[|[|a]] i]; (split; rewrite ?H1, ?H2; try reflexivity; unfold Ci, Copp, Cmult, Re, Im; cbn [fst snd]; ring). Qed.
Print Assumptions polar_real_skew.

(** The matrices of subproblems exist and do to stacked coefficients what the operators do. *)
Theorem polar_subproblems : forall mass, mass_rules mass -> forall g N m k sig ms (x : index -> nat * nat -> C) (u : nat -> vectors), (1 <= N)%nat -> fit g k ->
  let at_each (A : vectors -> option vectors) := forall q, (q < ms)%nat -> A (fun i n => x i (q, n)) = Some (u q) in
  let result j (p : nat * nat) := u (fst p) j (snd p) in
  (at_each (pgradient g k N m sig) -> exists T, psubproblem_matrix N ms (pgradient_matrix g k N m sig) pgradient_out sig (polar :: sig) = Some T /\ ctimes T (pstacked sig ms N x) = pstacked (polar :: sig) ms N result)
  /\ (at_each (pdivergence g k N m sig) -> exists T, psubproblem_matrix N ms (pdivergence_matrix g k N m (polar :: sig)) pdivergence_out (polar :: sig) sig = Some T /\ ctimes T (pstacked (polar :: sig) ms N x) = pstacked sig ms N result)
  /\ (at_each (plaplacian g k N m sig) -> exists T, psubproblem_matrix N ms (plaplacian_matrix g k N m sig) same_out sig sig = Some T /\ ctimes T (pstacked sig ms N x) = pstacked sig ms N result).
Proof.
  intros mass Hm g N m k sig ms x u HN Hf at_each result. split; [|split]; intros Hu; (apply psubproblem_value; [lia| | |exact Hu]).
  - apply gradient_nodup.
  - intros i j _. apply (pgradient_matrices mass Hm g N HN m k sig i j Hf).
  - apply divergence_nodup.
  - intros i j. apply (pdivergence_matrices mass Hm g N HN m k sig i j Hf).
  - intros i. repeat constructor; intros [].
  - intros i j _. apply (plaplacian_matrices mass Hm g N HN m k sig i j Hf).
Qed.
Print Assumptions polar_subproblems.
(** Orders without radial modes: nothing is computed, and no matrix is asked for. *)
Theorem polar_empty : forall A outs sig x, poperate 0 A outs sig x = Some (fun _ _ => RtoC 0).
Proof.
  intros A outs sig x. unfold poperate. assert (G : forall l o, fold_left (fun out i => fold_left (pstep 0 A x i) (outs i) out) l o = o); [|apply G].
  induction l as [|i l IH]; intros o; [reflexivity|]. cbn [fold_left]. rewrite IH. generalize (outs i) as js. intros js. revert o. induction js as [|j js IHj]; intros o; [reflexivity|]. cbn [fold_left]. rewrite IHj. destruct o; reflexivity.
Qed.
Print Assumptions polar_empty.

(** ** Examples *)
Example sample_fit : fit (Disk 2 0) 0 /\ fit (Annulus 1 2 (-1 / 2) (-1 / 2)) 3.
Proof. cbn. repeat split; lra. Qed.
(** Tensors may mix polar coordinates with others: in a cylinder, the third coordinate has spin 0. *)
Example sample_spins : let sig := [polar; Slot 3 (Some 1%nat)] in component_of sig [1%nat; 2%nat] /\ spintotal sig [1%nat; 2%nat] = 2%Z /\ spintotal sig [0%nat; 0%nat] = (-1)%Z.
Proof. cbn. split; [repeat constructor; cbn; lia|]. split; reflexivity. Qed.
(** Turning twice by a right angle changes the sign. *)
Example sample_skew : forall x i n, (pskew (pskew x) (0%nat :: i) n = - x (0%nat :: i) n)%C /\ (pskew (pskew x) (1%nat :: i) n = - x (1%nat :: i) n)%C.
Proof. intros x i n. unfold pskew. cbv beta iota. pose proof Ci_square as H. split; [transitivity (Cmult (Cmult Ci Ci) (x (0%nat :: i) n)); [ring|]|transitivity (Cmult (Cmult Ci Ci) (x (1%nat :: i) n)); [ring|]]; rewrite H; change (RtoC (-1)) with (RtoC (- (1))); rewrite RtoC_opp; ring. Qed.
