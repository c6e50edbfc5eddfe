(** Spin components: C54. *)
From Coq Require Import List Arith Bool String ZArith Reals Lia Lra.
From Coquelicot Require Import Complex.
Import ListNotations.
From Verif Require Import MatSolvers_Model CSR_Model CSR_Spec CSR_Proofs Spin_Model Spin_Spec Spin_Proofs.
Local Open Scope nat_scope.

Lemma forall2_impl {A B} (P Q : A -> B -> Prop) l l' : (forall a b, P a b -> Q a b) -> Forall2 P l l' -> Forall2 Q l l'.
Proof. intros HPQ. induction 1; constructor; auto. Qed.

Section Sphere.
(** The first two coordinates of a basis, and a tensor signature of any rank in which some indices, at [Some p], have them. *)
Context (c0 c1 : coordinate) (sig : list system) (ps : list (option nat)) (H : signature c0 c1 sig ps) (cache : option (list (option cmat))) (Hc : fresh c1 sig cache).
Let dims := map dim_of sig.
Definition complex_result (f : option (list (option cmat)) -> list system -> @array C -> result (@array C)) (c : list (option nat) -> list nat -> (list nat -> C) -> list nat -> C) : Prop :=
  forall space z, exists out, f cache sig (dims ++ space, z) = Ok (dims ++ space, out)
  /\ forall s x, in_shape dims s -> in_shape space x -> out (s ++ x) = c ps dims (fun t => z (t ++ x)) s.
Theorem complex_forward_components : complex_result (complex_forward c1) spin_components.
Proof. intros space z. exact (complex_value c0 c1 sig ps cache _ _ space z H Hc forward_factor none_forward). Qed.
Theorem complex_backward_components : complex_result (complex_backward c1) coordinate_components.
Proof. intros space z. exact (complex_value c0 c1 sig ps cache _ (fun p s t => Cconj (spin_entry p t s)) space z H Hc backward_factor none_backward). Qed.

(** For real problems the same holds of the complex numbers that pairs of coefficients stand for.  [colat] is the second axis of the basis. *)
Definition real_result (f : option (list (option cmat)) -> list system -> nat -> list nat -> @buffer R -> @buffer R -> result (@buffer R)) (c : list (option nat) -> list nat -> (list nat -> C) -> list nat -> C) : Prop :=
  forall space colat gdata out, 1 <= colat <= List.length space -> let shape := dims ++ space in let axis := colat - 1 + List.length sig in
  exists out', f cache sig colat shape gdata out = Ok out'
  /\ forall s x, in_shape dims s -> in_shape (halved (colat - 1) space) x -> paired shape axis out' (s ++ x) = c ps dims (fun t => paired shape axis gdata (t ++ x)) s.
Theorem real_forward_components : real_result (real_forward c0 c1) spin_components.
Proof. intros space colat g o Hcol. exact (real_value c0 c1 sig ps cache _ spin_entry colat space g o H Hc Hcol forward_kernel none_forward). Qed.
Theorem real_backward_components : real_result (real_backward c0 c1) coordinate_components.
Proof. intros space colat g o Hcol. exact (real_value c0 c1 sig ps cache _ (fun p s t => Cconj (spin_entry p t s)) colat space g o H Hc Hcol backward_kernel none_backward). Qed.

(** The two changes of components are inverse to each other and keep the norm at every point. *)
Lemma Lp : List.length ps = List.length dims. Proof. exact (proj1 (signature_dims _ _ _ _ H)). Qed.
Lemma both (Q : option nat -> nat -> Prop) : (forall p d, fits p d -> Q p d) -> Forall2 (fun pq d => fst pq = snd pq /\ Q (fst pq) d) (combine ps ps) dims.
Proof. intros HQ. destruct (signature_dims _ _ _ _ H) as [_ F]. fold dims in F. clear - F HQ. induction F as [|p d qs ds F1 F2 IH]; cbn; [constructor|]. constructor; [|exact IH]. split; [reflexivity|]. apply HQ. exact F1. Qed.
Lemma spin_back z s : in_shape dims s -> coordinate_components ps dims (spin_components ps dims z) s = z s.
Proof.
  intros Hs. apply transformed_inverse; [exact Lp| |exact Lp|exact Hs]. eapply forall2_impl; [|apply (both (fun p d => isometric d (spin_entry p)) spin_isometric)].
  intros [p q] d [E1 E2]. cbn in E1, E2 |- *. subst q. exact E2.
Qed.
Lemma back_spin z s : in_shape dims s -> spin_components ps dims (coordinate_components ps dims z) s = z s.
Proof.
  intros Hs. apply transformed_inverse; [exact Lp| |exact Lp|exact Hs]. eapply forall2_impl; [|apply (both (fun p d => inverse d (spin_entry p) (fun s t => Cconj (spin_entry p t s))) spin_coisometric)].
  intros [p q] d [E1 E2]. cbn in E1, E2 |- *. subst q. exact E2.
Qed.
Theorem spin_norm z : norm2 dims (spin_components ps dims z) = norm2 dims z.
Proof.
  apply transformed_norm; [exact Lp|]. destruct (signature_dims _ _ _ _ H) as [_ F]. eapply forall2_impl; [|exact F]. intros p d. apply spin_isometric.
Qed.
Theorem coordinate_norm z : norm2 dims (coordinate_components ps dims z) = norm2 dims z.
Proof.
  apply transformed_norm; [exact Lp|]. destruct (signature_dims _ _ _ _ H) as [_ F]. eapply forall2_impl; [|exact F]. intros p d Hf s t Hs Ht.
  rewrite <- (spin_coisometric p d Hf s t Hs Ht). apply Text. intros j _. rewrite conj_conj. reflexivity.
Qed.
Lemma comp_ext c z z' s : (c = spin_components \/ c = coordinate_components) -> in_shape dims s -> (forall t, in_shape dims t -> z t = z' t) -> c ps dims z s = c ps dims z' s.
Proof. intros [-> | ->] Hs Hz; apply transformed_ext; try assumption; exact Lp. Qed.
Theorem complex_round_trip space z : exists out z', complex_forward c1 cache sig (dims ++ space, z) = Ok (dims ++ space, out) /\ complex_backward c1 cache sig (dims ++ space, out) = Ok (dims ++ space, z')
  /\ forall idx, in_shape (dims ++ space) idx -> z' idx = z idx.
Proof.
  destruct (complex_forward_components space z) as (out & E1 & V1). destruct (complex_backward_components space out) as (z' & E2 & V2). exists out, z'. split; [exact E1|]. split; [exact E2|].
  intros idx Hi. destruct (in_shape_split _ _ _ Hi) as (s & x & -> & Hs & Hx). rewrite V2 by assumption. rewrite (comp_ext _ _ (spin_components ps dims (fun t => z (t ++ x)))) by (auto; intros t Ht; apply V1; assumption).
  apply (spin_back (fun t => z (t ++ x))). exact Hs.
Qed.
Theorem complex_round_trip_back space z : exists out z', complex_backward c1 cache sig (dims ++ space, z) = Ok (dims ++ space, out) /\ complex_forward c1 cache sig (dims ++ space, out) = Ok (dims ++ space, z')
  /\ forall idx, in_shape (dims ++ space) idx -> z' idx = z idx.
Proof.
  destruct (complex_backward_components space z) as (out & E1 & V1). destruct (complex_forward_components space out) as (z' & E2 & V2). exists out, z'. split; [exact E1|]. split; [exact E2|].
  intros idx Hi. destruct (in_shape_split _ _ _ Hi) as (s & x & -> & Hs & Hx). rewrite V2 by assumption. rewrite (comp_ext _ _ (coordinate_components ps dims (fun t => z (t ++ x)))) by (auto; intros t Ht; apply V1; assumption).
  apply (back_spin (fun t => z (t ++ x))). exact Hs.
Qed.
(** With an even number of azimuthal coefficients, whatever the output buffers held. *)
Theorem real_round_trip space colat gdata out out2 : 1 <= colat <= List.length space -> nth (colat - 1) space 0 mod 2 = 0 -> let shape := dims ++ space in
  exists spins back, real_forward c0 c1 cache sig colat shape gdata out = Ok spins /\ real_backward c0 c1 cache sig colat shape spins out2 = Ok back
  /\ forall idx, in_shape shape idx -> element shape back idx = element shape gdata idx.
Proof.
  intros Hcol He shape. destruct (real_forward_components space colat gdata out Hcol) as (spins & E1 & V1). destruct (real_backward_components space colat spins out2 Hcol) as (back & E2 & V2). exists spins, back. split; [exact E1|]. split; [exact E2|].
  destruct (axis_split space (colat - 1)) as (sp1 & N & sp2 & E & L & EN); [lia|]. rewrite <- EN in He.
  assert (Ll : List.length sig = List.length dims) by (unfold dims; rewrite map_length; reflexivity). rewrite Ll in V1, V2.
  apply (pairs_all dims space (colat - 1) N sp1 sp2 back gdata E L He). intros s x Hs Hx. rewrite V2 by assumption.
  rewrite (comp_ext _ _ (spin_components ps dims (fun t => paired shape (colat - 1 + List.length dims) gdata (t ++ x)))) by (auto; intros t Ht; apply V1; assumption). apply (spin_back (fun t => paired shape (colat - 1 + List.length dims) gdata (t ++ x))). exact Hs.
Qed.
Theorem real_round_trip_back space colat gdata out out2 : 1 <= colat <= List.length space -> nth (colat - 1) space 0 mod 2 = 0 -> let shape := dims ++ space in
  exists comps back, real_backward c0 c1 cache sig colat shape gdata out = Ok comps /\ real_forward c0 c1 cache sig colat shape comps out2 = Ok back
  /\ forall idx, in_shape shape idx -> element shape back idx = element shape gdata idx.
Proof.
  intros Hcol He shape. destruct (real_backward_components space colat gdata out Hcol) as (spins & E1 & V1). destruct (real_forward_components space colat spins out2 Hcol) as (back & E2 & V2). exists spins, back. split; [exact E1|]. split; [exact E2|].
  destruct (axis_split space (colat - 1)) as (sp1 & N & sp2 & E & L & EN); [lia|]. rewrite <- EN in He.
  assert (Ll : List.length sig = List.length dims) by (unfold dims; rewrite map_length; reflexivity). rewrite Ll in V1, V2.
  apply (pairs_all dims space (colat - 1) N sp1 sp2 back gdata E L He). intros s x Hs Hx. rewrite V2 by assumption.
  rewrite (comp_ext _ _ (coordinate_components ps dims (fun t => paired shape (colat - 1 + List.length dims) gdata (t ++ x)))) by (auto; intros t Ht; apply V1; assumption). apply (back_spin (fun t => paired shape (colat - 1 + List.length dims) gdata (t ++ x))). exact Hs.
Qed.

(** The matrix of the recombination, for components in row-major order followed by [n] upstream coefficients each. *)
Theorem spin_matrix_components n : 1 <= n -> exists M cache', spin_recombination_matrix c1 cache sig n = Ok (M, cache') /\ nr M = size dims * n /\ nc M = size dims * n
  /\ (forall z s a, in_shape dims s -> a < n -> total (RtoC 0) Cplus (size dims * n) (fun j => Cmult (at_ M (flat dims s * n + a) j) (z j)) = spin_components ps dims (fun t => z (flat dims t * n + a)) s)
  /\ (forall w s a, in_shape dims s -> a < n -> let i := flat dims s * n + a in
        (total 0%R Rplus (size dims * n * 2) (fun j => Rmult (at_ (expanded M) (2 * i) j) (w j)), total 0%R Rplus (size dims * n * 2) (fun j => Rmult (at_ (expanded M) (2 * i + 1) j) (w j)))
        = spin_components ps dims (fun t => (w (2 * (flat dims t * n + a)), w (2 * (flat dims t * n + a) + 1))) s).
Proof.
  intros Hn. destruct (matrix_value c0 c1 sig ps cache n H Hc Hn) as (M & cache' & E & D1 & D2 & V & _). fold dims in D1, D2, V. exists M, cache'. repeat (split; [assumption|]).
  intros w s a Hs Ha i. pose proof (expanded_value M w i) as (_ & _ & X). rewrite D2 in X. rewrite X. unfold i. apply (V (fun j => (w (2 * j), w (2 * j + 1)))); assumption.
Qed.
(** Making it keeps the cached list when every index has the coordinates. *)
Theorem spin_matrix_keeps_cache n M cache' : 1 <= n -> Forall (fun p => p <> None) ps -> spin_recombination_matrix c1 cache sig n = Ok (M, cache') -> fresh c1 sig cache'.
Proof. intros Hn Hp E. destruct (matrix_value c0 c1 sig ps cache n H Hc Hn) as (M' & cache'' & E' & _ & _ & _ & F). rewrite E in E'. injection E' as <- <-. exact (F Hp). Qed.
End Sphere.

(** [U_forward] of the polar, spherical surface and spherical coordinates, for all orders. *)
Definition ravelled (M : cmat) (d order : nat) : Prop := nr M = d ^ order /\ nc M = d ^ order /\
  forall z s, in_shape (repeat d order) s -> total (RtoC 0) Cplus (d ^ order) (fun j => Cmult (at_ M (flat (repeat d order) s) j) (z j)) = spin_components (repeat (Some 0) order) (repeat d order) (fun t => z (flat (repeat d order) t)) s.
Lemma size_repeat d n : size (repeat d n) = d ^ n. Proof. induction n as [|n IH]; cbn; [reflexivity|]. rewrite IH. reflexivity. Qed.
Lemma nkron_value f d n : nr f = d -> nc f = d -> (forall s t, s < d -> t < d -> at_ f s t = spin_entry (Some 0) s t) -> ravelled (nkron f n) d n.
Proof.
  intros H1 H2 H3. assert (L : List.length (repeat (Some 0) n) = List.length (repeat d n)) by (rewrite !repeat_length; reflexivity).
  assert (R : rep_list (repeat (Some 0) n) (repeat d n) (repeat f n)) by (unfold rep_list; clear L; induction n as [|n IH]; cbn; constructor; [cbn; repeat split; assumption|exact IH]).
  destruct (kron_dims _ _ _ L R) as [D1 D2]. rewrite size_repeat in D1, D2. split; [exact D1|]. split; [exact D2|]. intros z s Hs. destruct (kron_all_value spin_entry _ _ _ s z L R Hs) as (_ & _ & V). rewrite size_repeat in V. exact V.
Qed.
Theorem U_forward_orders order : (1 <= order -> ravelled (U2 order) 2 order) /\ ravelled (U3 order) 3 order.
Proof.
  split.
  - intros Ho. unfold U2. destruct (1 <? order) eqn:E; [apply nkron_value; try reflexivity; exact U2_value|]. apply Nat.ltb_ge in E. assert (order = 1) by lia. subst order.
    change (ravelled (nkron (U2 1) 1) 2 1). apply nkron_value; try reflexivity. exact U2_value.
  - apply nkron_value; try reflexivity. intros s t Hs Ht. exact (U3_value s t Hs Ht).
Qed.

(** A disk in a cylinder, and a tensor with an axial index: making the matrix changes the cached list so that recombining real data fails. *)
Definition disk := DirectProduct [Line (false, "z"%string); Polar "phi" "r"].
Example disk_signature : signature (true, "phi"%string) (false, "r"%string) [disk; Simple (Line (false, "z"%string)); disk] [Some 1; None; Some 1].
Proof.
  repeat constructor; cbn.
  all: try (exists [Line (false, "z"%string)], (Polar "phi" "r"), []; repeat split; repeat constructor; cbn; intuition discriminate).
  intros [E|[]]. discriminate.
Qed.
Theorem spin_matrix_cache_refuted : exists c0 c1 sig ps n M cache', signature c0 c1 sig ps /\ spin_recombination_matrix c1 None sig n = Ok (M, cache')
  /\ forall colat shape gdata out, real_forward c0 c1 cache' sig colat shape gdata out = Raises ValueError /\ real_backward c0 c1 cache' sig colat shape gdata out = Raises ValueError.
Proof.
  exists (true, "phi"%string), (false, "r"%string), [Simple (Line (false, "z"%string))], [None], 1. do 2 eexists. split; [repeat constructor; intros [E|[]]; discriminate|].
  split; [reflexivity|]. intros colat shape gdata out. split; reflexivity.
Qed.
(** In the sphere, a vector of pure azimuthal unit flow has spin components -/+ i / sqrt 2. *)
Example sphere_vector : signature (true, "phi"%string) (false, "theta"%string) [Spherical "phi" "theta" "r"] [Some 0]
  /\ (forall z : list nat -> C, z [0] = RtoC 1 -> z [1] = RtoC 0 -> z [2] = RtoC 0 ->
      spin_components [Some 0] [3] z [0] = (- Ci / RtoC (sqrt 2))%C /\ spin_components [Some 0] [3] z [1] = (Ci / RtoC (sqrt 2))%C /\ spin_components [Some 0] [3] z [2] = RtoC 0).
Proof.
  split; [repeat constructor|]. intros z E0 E1 E2. unfold spin_components. cbn [transformed]. unfold total. cbn. rewrite E0, E1, E2. repeat split; ring.
Qed.
(** A disk basis and rank three: the theorems apply. *)
Example disk_round_trip gdata out out2 : let sig := [disk; Simple (Line (false, "z"%string)); disk] in let shape := [3; 1; 3; 5; 4; 7] in
  exists spins back, real_forward (true, "phi"%string) (false, "r"%string) None sig 2 shape gdata out = Ok spins /\ real_backward (true, "phi"%string) (false, "r"%string) None sig 2 shape spins out2 = Ok back
  /\ forall idx, in_shape shape idx -> element shape back idx = element shape gdata idx.
Proof. exact (real_round_trip _ _ _ _ disk_signature None I [5; 4; 7] 2 gdata out out2 ltac:(cbn; lia) eq_refl). Qed.

Print Assumptions complex_forward_components.
Print Assumptions complex_backward_components.
Print Assumptions real_forward_components.
Print Assumptions real_backward_components.
Print Assumptions complex_round_trip.
Print Assumptions complex_round_trip_back.
Print Assumptions real_round_trip.
Print Assumptions real_round_trip_back.
Print Assumptions spin_norm.
Print Assumptions coordinate_norm.
Print Assumptions spin_matrix_components.
Print Assumptions spin_matrix_keeps_cache.
Print Assumptions U_forward_orders.
Print Assumptions spin_matrix_cache_refuted.
