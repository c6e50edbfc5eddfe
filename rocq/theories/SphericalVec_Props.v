(** Theorems about vector calculus in balls and shells (C76). *)
From Coq Require Import List ZArith Reals Bool Lia Lra.
From Coquelicot Require Import Coquelicot.
Import ListNotations.
From Verif Require Import MatSolvers_Model JacobiCalc_Spec JacobiCalc_Props Radial_Spec SphericalVec_Model SphericalVec_Spec SphericalVec_Proofs.
Local Open Scope R_scope.

(** What the operators do to the functions of the radius that multiply the harmonics of a degree, for tensors of any rank. *)
Theorem spherical_gradient : forall mass, mass_rules mass -> forall g N ell k rank x, (1 <= N)%nat -> (0 <= ell)%Z -> proper g k ->
  let f c k l := function_of N c (modes mass g k l) in
  exists u, gradient g k N rank ell x = Some u
  /\ (forall i, is_component rank i -> present ell i -> let l := degree ell i in forall r, 0 < r -> exists e, has_derivative (f (x i) k l) r e
     /\ f (u (0%nat :: i)) (S k) (l - 1)%Z r = (lower l * (e + RtoC ((IZR l + 1) / r) * f (x i) k l r))%C
     /\ f (u (1%nat :: i)) (S k) (l + 1)%Z r = (upper l * (e - RtoC (IZR l / r) * f (x i) k l r))%C
     /\ forall n, u (2%nat :: i) n = RtoC 0)
  /\ forall i a n, is_component rank i -> ~ present ell i -> (a < 3)%nat -> u (a :: i) n = RtoC 0.
Proof. intros mass Hm g N ell k rank x HN He Hp. exact (gradient_function mass Hm g N HN ell He k rank x Hp). Qed.
Print Assumptions spherical_gradient.
Theorem spherical_divergence : forall mass, mass_rules mass -> forall g N ell k rank x, (1 <= N)%nat -> (0 <= ell)%Z -> proper g k ->
  let f c k l := function_of N c (modes mass g k l) in
  exists u, divergence g k N rank ell x = Some u
  /\ (forall i, is_component rank i -> present ell i -> let l := degree ell i in forall r, 0 < r -> exists em ep,
     has_derivative (f (x (1%nat :: i)) k (l + 1)%Z) r ep /\ ((0 < l)%Z -> has_derivative (f (x (0%nat :: i)) k (l - 1)%Z) r em)
     /\ f (u i) (S k) l r = (lower l * (em - RtoC ((IZR l - 1) / r) * f (x (0%nat :: i)) k (l - 1)%Z r) + upper l * (ep + RtoC ((IZR l + 2) / r) * f (x (1%nat :: i)) k (l + 1)%Z r))%C)
  /\ forall i n, is_component rank i -> ~ present ell i -> u i n = RtoC 0.
Proof. intros mass Hm g N ell k rank x HN He Hp. exact (divergence_function mass Hm g N HN ell He k rank x Hp). Qed.
Print Assumptions spherical_divergence.
Theorem spherical_curl : forall mass, mass_rules mass -> forall g N ell k rank x, (1 <= N)%nat -> (0 <= ell)%Z -> proper g k ->
  let f c k l := function_of N c (modes mass g k l) in
  exists u, curl g k N rank ell x = Some u
  /\ (forall i, is_component rank i -> present ell i -> let l := degree ell i in (0 < l)%Z -> forall r, 0 < r -> exists em ep e0,
     has_derivative (f (x (0%nat :: i)) k (l - 1)%Z) r em /\ has_derivative (f (x (1%nat :: i)) k (l + 1)%Z) r ep /\ has_derivative (f (x (2%nat :: i)) k l) r e0
     /\ f (u (0%nat :: i)) (S k) (l - 1)%Z r = (- Ci * upper l * (e0 + RtoC ((IZR l + 1) / r) * f (x (2%nat :: i)) k l r))%C
     /\ f (u (1%nat :: i)) (S k) (l + 1)%Z r = (Ci * lower l * (e0 - RtoC (IZR l / r) * f (x (2%nat :: i)) k l r))%C
     /\ f (u (2%nat :: i)) (S k) l r = (- Ci * upper l * (em - RtoC ((IZR l - 1) / r) * f (x (0%nat :: i)) k (l - 1)%Z r) + Ci * lower l * (ep + RtoC ((IZR l + 2) / r) * f (x (1%nat :: i)) k (l + 1)%Z r))%C)
  /\ forall i a n, is_component rank i -> (a < 3)%nat -> ~ present ell i \/ degree ell i = 0%Z -> u (a :: i) n = RtoC 0.
Proof. intros mass Hm g N ell k rank x HN He Hp. exact (curl_function mass Hm g N HN ell He k rank x Hp). Qed.
Print Assumptions spherical_curl.
Theorem spherical_laplacian : forall mass, mass_rules mass -> forall g N ell k rank x, (1 <= N)%nat -> (0 <= ell)%Z -> proper g k ->
  let f c k l := function_of N c (modes mass g k l) in
  exists u, laplacian g k N rank ell x = Some u
  /\ (forall i, is_component rank i -> present ell i -> let l := degree ell i in exists f1, (forall r, 0 < r -> has_derivative (f (x i) k l) r (f1 r))
     /\ forall r, 0 < r -> exists e, has_derivative f1 r e /\ f (u i) (S (S k)) l r = (e + RtoC (2 / r) * f1 r + RtoC (- (IZR l * (IZR l + 1)) / r ^ 2) * f (x i) k l r)%C)
  /\ forall i n, is_component rank i -> ~ present ell i -> u i n = RtoC 0.
Proof. intros mass Hm g N ell k rank x HN He Hp. exact (laplacian_function mass Hm g N HN ell He k rank x Hp). Qed.
Print Assumptions spherical_laplacian.

(** The identities of vector calculus, exactly, coefficient by coefficient. *)
Theorem spherical_div_grad : forall mass, mass_rules mass -> forall g N ell k rank x, (1 <= N)%nat -> (0 <= ell)%Z -> proper g k ->
  exists u v w, gradient g k N rank ell x = Some u /\ divergence g (S k) N rank ell u = Some v /\ laplacian g k N rank ell x = Some w /\ agree rank N v w.
Proof. intros mass Hm g N ell k rank x HN He Hp. exact (divergence_gradient mass Hm g N HN ell He k rank x Hp). Qed.
Print Assumptions spherical_div_grad.
Theorem spherical_curl_grad : forall mass, mass_rules mass -> forall g N ell k rank x, (1 <= N)%nat -> (0 <= ell)%Z -> proper g k ->
  exists u v, gradient g k N rank ell x = Some u /\ curl g (S k) N rank ell u = Some v /\ agree (S rank) N v (fun _ _ => RtoC 0).
Proof. intros mass Hm g N ell k rank x HN He Hp. exact (curl_gradient mass Hm g N HN ell He k rank x Hp). Qed.
Print Assumptions spherical_curl_grad.
Theorem spherical_div_curl : forall mass, mass_rules mass -> forall g N ell k rank x, (1 <= N)%nat -> (0 <= ell)%Z -> proper g k ->
  exists u v, curl g k N rank ell x = Some u /\ divergence g (S k) N rank ell u = Some v /\ agree rank N v (fun _ _ => RtoC 0).
Proof. intros mass Hm g N ell k rank x HN He Hp. exact (divergence_curl mass Hm g N HN ell He k rank x Hp). Qed.
Print Assumptions spherical_div_curl.
Theorem spherical_curl_curl : forall mass, mass_rules mass -> forall g N ell k rank x, (1 <= N)%nat -> (0 <= ell)%Z -> proper g k ->
  exists u v d gd w, curl g k N rank ell x = Some u /\ curl g (S k) N rank ell u = Some v /\ divergence g k N rank ell x = Some d /\ gradient g (S k) N rank ell d = Some gd
  /\ laplacian g k N (S rank) ell x = Some w /\ agree (S rank) N v (fun i n => (gd i n - w i n)%C).
Proof. intros mass Hm g N ell k rank x HN He Hp. exact (curl_curl mass Hm g N HN ell He k rank x Hp). Qed.
Print Assumptions spherical_curl_curl.

(** With pairs of real coefficients: the same as with complex numbers. *)
Theorem spherical_real : forall mass, mass_rules mass -> forall g N ell k rank x y, (1 <= N)%nat -> (0 <= ell)%Z -> proper g k -> parts_of x y ->
  (exists u v, gradient g k N rank ell x = Some u /\ operate_real (gradient_matrix g k N ell) gradient_out rank ell y = Some v /\ parts_of u v)
  /\ (exists u v, divergence g k N rank ell x = Some u /\ operate_real (divergence_matrix g k N ell) divergence_out (S rank) ell y = Some v /\ parts_of u v)
  /\ (exists u v, curl g k N rank ell x = Some u /\ curl_real g k N rank ell y = Some v /\ parts_of u v)
  /\ (exists u v, laplacian g k N rank ell x = Some u /\ operate_real (laplacian_matrix g k N ell) same_out rank ell y = Some v /\ parts_of u v).
Proof.
  intros mass Hm g N ell k rank x y HN He Hp Hy.
  destruct (gradient_value mass Hm g N HN ell He k rank x Hp) as (u1 & E1 & _). destruct (divergence_value mass Hm g N HN ell He k rank x Hp) as (u2 & E2 & _). destruct (curl_value mass Hm g N HN ell He k rank x Hp) as (u3 & E3 & _). destruct (laplacian_value mass Hm g N HN ell He k rank x Hp) as (u4 & E4 & _).
  pose proof (operate_parts (gradient_matrix g k N ell) gradient_out rank ell x y Hy (gradient_real g k N ell)) as H1. fold (gradient g k N rank ell) in H1. rewrite E1 in H1.
  pose proof (operate_parts (divergence_matrix g k N ell) divergence_out (S rank) ell x y Hy (divergence_real g k N ell)) as H2. fold (divergence g k N rank ell) in H2. rewrite E2 in H2.
  pose proof (curl_parts g k N rank ell x y Hy) as H3. rewrite E3 in H3.
  pose proof (operate_parts (laplacian_matrix g k N ell) same_out rank ell x y Hy (laplacian_real g k N ell)) as H4. fold (laplacian g k N rank ell) in H4. rewrite E4 in H4.
  split; [|split; [|split]].
  - destruct (operate_real (gradient_matrix g k N ell) gradient_out rank ell y) as [v|]; [|destruct H1]. exists u1, v. auto.
  - destruct (operate_real (divergence_matrix g k N ell) divergence_out (S rank) ell y) as [v|]; [|destruct H2]. exists u2, v. auto.
  - destruct (curl_real g k N rank ell y) as [v|]; [|destruct H3]. exists u3, v. auto.
  - destruct (operate_real (laplacian_matrix g k N ell) same_out rank ell y) as [v|]; [|destruct H4]. exists u4, v. auto.
Qed.
Print Assumptions spherical_real.

(** The matrices of subproblems do to stacked coefficients, of one degree or of several coupled ones, what the operators do at each degree. *)
Theorem spherical_subproblems : forall mass, mass_rules mass -> forall g k rank ms ells size (x : index -> element -> C) (u : nat -> nat -> vectors), proper g k ->
  (forall ell, In ell ells -> (0 <= ell)%Z /\ (1 <= size ell)%nat) ->
  let at_each (A : Z -> vectors -> option vectors) := forall m e, (m < ms)%nat -> (e < length ells)%nat -> A (nth e ells 0%Z) (fun i n => x i (m, e, n)) = Some (u m e) in
  let result j (p : element) := let '(m, e, n) := p in u m e j n in
  (at_each (fun ell => gradient g k (size ell) rank ell) -> ctimes (subproblem_matrix (fun ell => gradient_matrix g k (size ell) ell) gradient_out rank (S rank) ms ells size) (stacked rank ms ells size x) = stacked (S rank) ms ells size result)
  /\ (at_each (fun ell => divergence g k (size ell) rank ell) -> ctimes (subproblem_matrix (fun ell => divergence_matrix g k (size ell) ell) divergence_out (S rank) rank ms ells size) (stacked (S rank) ms ells size x) = stacked rank ms ells size result)
  /\ (at_each (fun ell => curl g k (size ell) rank ell) -> ctimes (subproblem_matrix (fun ell => curl_matrix g k (size ell) ell) curl_out (S rank) (S rank) ms ells size) (stacked (S rank) ms ells size x) = stacked (S rank) ms ells size result)
  /\ (at_each (fun ell => laplacian g k (size ell) rank ell) -> ctimes (subproblem_matrix (fun ell => laplacian_matrix g k (size ell) ell) same_out rank rank ms ells size) (stacked rank ms ells size x) = stacked rank ms ells size result).
Proof.
  intros mass Hm g k rank ms ells size x u Hp Hs at_each result. assert (Hn : forall e, (e < length ells)%nat -> (0 <= nth e ells 0)%Z /\ (1 <= size (nth e ells 0%Z))%nat) by (intros e He; apply Hs, nth_In, He).
  split; [|split; [|split]]; intros Hu; apply subproblem_value; try exact Hu.
  - intros i. constructor; [intros [H|[]]; discriminate|repeat constructor; intros []].
  - intros e i j He ell Hi Hj H1 H2. destruct (Hn e He). eapply (gradient_matrices mass Hm); eassumption.
  - intros [|[|[|a]] i]; repeat constructor; intros [].
  - intros e i j He ell Hi Hj H1 H2. destruct (Hn e He). eapply (divergence_matrices mass Hm); eassumption.
  - intros [|[|[|a]] i]; repeat constructor; cbn; intuition congruence.
  - intros e i j He ell Hi Hj H1 H2. destruct (Hn e He). eapply (curl_matrices mass Hm); eassumption.
  - intros i. repeat constructor; intros [].
  - intros e i j He ell Hi Hj H1 H2. destruct (Hn e He). eapply (laplacian_matrices mass Hm); eassumption.
Qed.
Print Assumptions spherical_subproblems.
(** The matrix of a curl with pairs of real coefficients. *)
Theorem spherical_curl_real_subproblem : forall mass, mass_rules mass -> forall g k N rank ell x v, (1 <= N)%nat -> (0 <= ell)%Z -> proper g k ->
  curl_real g k N rank ell x = Some v -> rtimes (curl_subproblem_matrix g k rank ell N) (stacked_pairs (S rank) N x) = stacked_pairs (S rank) N v.
Proof. intros mass Hm g k N rank ell x v HN He Hp Hv. exact (curl_subproblem_value mass Hm g k N rank ell x v HN He Hp Hv). Qed.
Print Assumptions spherical_curl_real_subproblem.

(** ** Examples *)
Example sample_proper : proper (Ball 2 0) 0 /\ proper (Shell 1 2 (-1 / 2) (-1 / 2)) 3.
Proof. cbn. repeat split; lra. Qed.
Example sample_components : is_component 2 [1%nat; 0%nat] /\ degree 1 [1%nat; 0%nat] = 1%Z /\ present 1 [1%nat; 0%nat] /\ ~ present 0 [0%nat].
Proof.
  split; [split; [reflexivity|repeat constructor; lia]|]. split; [reflexivity|]. split; [apply (allowed_present 2 1 [1%nat; 0%nat]); [lia|split; [reflexivity|repeat constructor; lia]|reflexivity]|].
  intros H. apply (allowed_present 1 0 [0%nat]) in H; [discriminate|lia|split; [reflexivity|repeat constructor; lia]].
Qed.
(** A curl at degree 1 that is not zero: the upper component of a vector field whose third component is not. *)
Example sample_curl : upper 1 <> 0 /\ lower 1 <> 0.
Proof. unfold upper, lower. split; apply Rgt_not_eq, sqrt_lt_R0, Rdiv_lt_0_compat; try lra; change (1 + 1)%Z with 2%Z; lra. Qed.
