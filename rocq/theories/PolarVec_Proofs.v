(** Proofs about vector calculus on disks and annuli. *)
From Coq Require Import List ZArith Reals Bool Lia Lra.
From Coquelicot Require Import Coquelicot.
Import ListNotations.
From Verif Require Import TupleTools_Model MatSolvers_Model CSR_Spec Codomain_Proofs JacobiCalc_Spec JacobiCalc_Proofs Radial_Model Radial_Spec Radial_Proofs Radial_Props SphericalVec_Model SphericalVec_Spec SphericalVec_Proofs PolarVec_Model PolarVec_Spec.
Local Open Scope R_scope.

(** ** Components *)
Lemma components_in sig i : In i (components sig) <-> component_of sig i.
Proof.
  revert i. induction sig as [|s sig IH]; intros i; cbn [components].
  - split; [intros [<-|[]]; constructor|]. intros H. inversion H. left. reflexivity.
  - rewrite in_flat_map. split.
    + intros (a & Ha & Hi). apply in_map_iff in Hi. destruct Hi as (r & <- & Hr). apply IH in Hr. apply in_seq in Ha. constructor; [lia|exact Hr].
    + intros H. inversion H as [|? a ? r Ha Hr]; subst. exists a. split; [apply in_seq; lia|]. apply in_map, IH, Hr.
Qed.
Lemma components_nodup sig : NoDup (components sig).
Proof.
  induction sig as [|s sig IH]; cbn [components]; [repeat constructor; intros []|].
  assert (G : forall l, NoDup l -> NoDup (flat_map (fun a => map (cons a) (components sig)) l)).
  { induction l as [|a l IHl]; intros Hl; [constructor|]. inversion Hl as [|? ? Ha Hl']; subst. cbn [flat_map]. assert (M : NoDup (map (cons a) (components sig))) by (apply FinFun.Injective_map_NoDup; [intros x y E; congruence|exact IH]).
    assert (D : forall x, In x (map (cons a) (components sig)) -> ~ In x (flat_map (fun a => map (cons a) (components sig)) l)).
    { intros x H1 H2. apply in_map_iff in H1. destruct H1 as (y & <- & _). apply in_flat_map in H2. destruct H2 as (b & Hb & H2). apply in_map_iff in H2. destruct H2 as (z & E & _). injection E as -> _. contradiction. }
    revert M D. generalize (map (cons a) (components sig)). intros q M D. specialize (IHl Hl'). induction M as [|x q Hx M IHq]; [exact IHl|]. cbn [app]. constructor; [rewrite in_app_iff; intros [H|H]; [contradiction|exact (D x (or_introl eq_refl) H)]|]. apply IHq. intros y Hy. apply D. right. exact Hy. }
  apply G, seq_NoDup.
Qed.
Lemma polar_component sig a i : component_of (polar :: sig) (a :: i) <-> (a < 2)%nat /\ component_of sig i.
Proof. split; [intros H; inversion H; subst; cbn in *; tauto|]. intros [H1 H2]. constructor; assumption. Qed.
Lemma polar_cases sig j : component_of (polar :: sig) j -> exists a i, j = a :: i /\ (a = 0%nat \/ a = 1%nat) /\ component_of sig i.
Proof. intros H. inversion H as [|? a ? i Ha Hi]; subst. cbn in Ha. exists a, i. split; [reflexivity|]. split; [lia|exact Hi]. Qed.

(** ** The loops *)
Definition pterm (A : index -> index -> option (mat C)) (outs : index -> list index) (x : vectors) (j : index) (n : nat) (i : index) : C :=
  if existsb (equal_index j) (outs i) then match A i j with Some M => applied M (x i) n | None => RtoC 0 end else RtoC 0.
Lemma pouts_loop size A x i outs : size <> 0%nat -> NoDup outs -> (forall j, In j outs -> A i j <> None) ->
  forall out, exists out', fold_left (pstep size A x i) outs (Some out) = Some out' /\ forall j n, out' j n = Cplus (out j n) (pterm A (fun _ => outs) x j n i).
Proof.
  intros Hs HN HA. apply Nat.eqb_neq in Hs. induction HN as [|j outs Hj HN IH]; intros out; cbn [fold_left].
  - exists out. split; [reflexivity|]. intros j n. unfold pterm. cbn. ring.
  - unfold pstep at 2. cbn [obind]. rewrite Hs. destruct (A i j) as [M|] eqn:E; [|destruct (HA j (or_introl eq_refl) E)]. cbn [obind].
    destruct (IH ltac:(intros j' Hj'; apply HA; right; exact Hj') (fun j' n => if equal_index j' j then Cplus (out j' n) (applied M (x i) n) else out j' n)) as (out' & E' & H'). exists out'. split; [exact E'|]. intros j' n. rewrite H'. unfold pterm. cbn [existsb].
    destruct (equal_index j' j) eqn:Ej; [|cbn [orb]; reflexivity]. apply equal_index_iff in Ej. subst j'. cbn [orb]. rewrite E. replace (existsb (equal_index j) outs) with false; [ring|]. symmetry. apply not_true_iff_false. intros H. apply existsb_exists in H. destruct H as (j' & Hj' & H). apply equal_index_iff in H. subst. contradiction.
Qed.
Lemma poperate_value size A outs sig x : size <> 0%nat -> (forall i, NoDup (outs i)) -> (forall i j, component_of sig i -> In j (outs i) -> A i j <> None) ->
  exists u, poperate size A outs sig x = Some u /\ forall j n, u j n = csum (components sig) (pterm A outs x j n).
Proof.
  intros Hs HN HA. unfold poperate. assert (G : forall l out, (forall i, In i l -> component_of sig i) -> exists u, fold_left (fun out i => fold_left (pstep size A x i) (outs i) out) l (Some out) = Some u /\ forall j n, u j n = Cplus (out j n) (csum l (pterm A outs x j n))).
  { induction l as [|i l IH]; intros out Hl; [exists out; split; [reflexivity|]; intros; unfold csum; cbn; ring|]. cbn [fold_left].
    destruct (pouts_loop size A x i (outs i) Hs (HN i) ltac:(intros j Hj; apply HA; [apply Hl; left; reflexivity|exact Hj]) out) as (out' & E & H). rewrite E.
    destruct (IH out' ltac:(intros k Hk; apply Hl; right; exact Hk)) as (u & Eu & Hu). exists u. split; [exact Eu|]. intros j n. rewrite Hu, H. change (csum (i :: l) (pterm A outs x j n)) with (Cplus (pterm A outs x j n i) (csum l (pterm A outs x j n))). change (pterm A (fun _ => outs i) x j n i) with (pterm A outs x j n i). ring. }
  destruct (G (components sig) (fun _ _ => RtoC 0) ltac:(intros i; apply components_in)) as (u & E & H). exists u. split; [exact E|]. intros j n. rewrite H. ring.
Qed.

(** ** Radial matrices *)
Section Radial.
Context (mass : R -> R -> R) (Hm : mass_rules mass) (g : flat) (N : nat) (HN : (1 <= N)%nat) (m : Z).
Notation modes := (flat_modes mass g).
Lemma fit_S k : fit g k -> fit g (S k). Proof. destruct g; cbn [fit]; [|tauto]. rewrite S_INR. intros [H1 H2]. split; [exact H1|lra]. Qed.
Definition sign (op : radial) : Z := match op with Dplus => 1%Z | _ => (-1)%Z end.
Lemma first_derives k op s : op <> Second -> fit g k -> derives N (flat_operator g k op m s N) (modes k (m + s)) (modes (S k) (m + s + sign op)) (fun r => - (IZR (sign op) * IZR (m + s)) / r).
Proof.
  intros Ho Hf. unfold flat_modes. destruct g as [radius alpha|inner outer a b]; cbn [fit flat_operator] in *.
  - destruct Hf as [Hr Hk]. destruct op; [apply (disk_D mass Hm radius alpha Hr k Hk N HN true m s)|apply (disk_D mass Hm radius alpha Hr k Hk N HN false m s)|congruence].
  - destruct Hf as (Hi & Ho' & Ha & Hb). destruct op; [apply (annulus_D mass Hm inner outer a b Ho' Ha Hb k N HN true m s)|apply (annulus_D mass Hm inner outer a b Ho' Ha Hb k N HN false m s)|congruence].
Qed.
Lemma twice_derives k s : fit g k -> derives_twice N (flat_operator g k Second m s N) (modes k (m + s)) (modes (S (S k)) (m + s)) (fun r => 1 / r) (fun r => - IZR (m + s) ^ 2 / r ^ 2).
Proof.
  intros Hf. unfold flat_modes. destruct g as [radius alpha|inner outer a b]; cbn [fit flat_operator] in *.
  - destruct Hf as [Hr Hk]. apply (disk_laplacian mass Hm radius alpha Hr k Hk N HN m s).
  - destruct Hf as (Hi & Ho' & Ha & Hb). apply (annulus_laplacian mass Hm inner outer a b Ho' Ha Hb k N HN m s).
Qed.
Lemma modes_independent k l : fit g k -> forall c, (forall r, 0 < r -> series N c (modes k l) r = 0) -> forall i, (i < N)%nat -> c i = 0.
Proof.
  intros Hf. unfold flat_modes. destruct g as [radius alpha|inner outer a b]; cbn [fit] in *.
  - destruct Hf as [Hr Hk]. intros c H. apply (zf_independent mass Hm 2 radius Hr 0%Z (alpha + INR k) (INR (Z.abs_nat l))); [exact Hk|apply zb_of; lia|]. intros r Hr'. rewrite series_zernike by assumption. apply H, Hr'.
  - destruct Hf as (Hi & Ho' & Ha & Hb). intros c H. apply (sf_independent mass Hm inner outer a b Hi Ho' Ha Hb 0%Z (INR k) (pos_INR _)). intros r Hr'. rewrite series_shell by assumption. apply H, Hr'.
Qed.
Definition fmatrix k op s : mat R := match flat_operator g k op m s N with Some M => M | None => Mat N N (fun _ _ => 0) end.
Lemma fmatrix_some k op s : fit g k -> flat_operator g k op m s N = Some (fmatrix k op s) /\ nc (fmatrix k op s) = N.
Proof.
  intros Hf. unfold fmatrix. destruct op; [destruct (first_derives k Dplus s ltac:(discriminate) Hf) as (A & -> & _ & X & _)|destruct (first_derives k Dminus s ltac:(discriminate) Hf) as (A & -> & _ & X & _)|destruct (twice_derives k s Hf) as (A & -> & _ & X & _)]; split; auto.
Qed.
Lemma half_some c k op s : fit g k -> exists B, times_matrix c (flat_operator g k op m s N) = Some B /\ nc B = N /\ forall x n, applied B x n = Cmult c (imgC (fmatrix k op s) x n).
Proof. intros Hf. destruct (fmatrix_some k op s Hf) as [E X]. rewrite E. eexists. split; [reflexivity|]. split; [exact X|]. intros x n. apply (applied_times c _ x n _ eq_refl). Qed.
Lemma raise_lower k s x n : fit g k -> (n < N)%nat -> imgC (fmatrix k Second s) x n = imgC (fmatrix (S k) Dminus (s + 1)) (imgC (fmatrix k Dplus s) x) n.
Proof.
  intros Hf Hn. pose proof (fit_S k Hf) as Hf'. apply imgC_factor. intros c. pose proof (first_derives k Dplus s ltac:(discriminate) Hf) as HU. pose proof (first_derives (S k) Dminus (s + 1) ltac:(discriminate) Hf') as HD. pose proof (twice_derives k s Hf) as HL.
  rewrite (proj1 (fmatrix_some k Dplus s Hf)) in HU. rewrite (proj1 (fmatrix_some (S k) Dminus (s + 1) Hf')) in HD. rewrite (proj1 (fmatrix_some k Second s Hf)) in HL. cbn [sign] in HU, HD. replace (m + (s + 1))%Z with (m + s + 1)%Z in HD by lia. replace (m + s + 1 + -1)%Z with (m + s)%Z in HD by lia.
  apply (derives_twice_both N _ _ _ _ _ _ _ _ _ _ HU HD HL); [|apply modes_independent, fit_S, Hf'|exact Hn]. intros r Hr. rewrite (plus_IZR (m + s)). split; field; lra.
Qed.
Lemma lower_raise k s x n : fit g k -> (n < N)%nat -> imgC (fmatrix k Second s) x n = imgC (fmatrix (S k) Dplus (s - 1)) (imgC (fmatrix k Dminus s) x) n.
Proof.
  intros Hf Hn. pose proof (fit_S k Hf) as Hf'. apply imgC_factor. intros c. pose proof (first_derives k Dminus s ltac:(discriminate) Hf) as HU. pose proof (first_derives (S k) Dplus (s - 1) ltac:(discriminate) Hf') as HD. pose proof (twice_derives k s Hf) as HL.
  rewrite (proj1 (fmatrix_some k Dminus s Hf)) in HU. rewrite (proj1 (fmatrix_some (S k) Dplus (s - 1) Hf')) in HD. rewrite (proj1 (fmatrix_some k Second s Hf)) in HL. cbn [sign] in HU, HD. replace (m + (s - 1))%Z with (m + s + -1)%Z in HD by lia. replace (m + s + -1 + 1)%Z with (m + s)%Z in HD by lia.
  apply (derives_twice_both N _ _ _ _ _ _ _ _ _ _ HU HD HL); [|apply modes_independent, fit_S, Hf'|exact Hn]. intros r Hr. rewrite (plus_IZR (m + s)). split; field; lra.
Qed.

(** ** Values *)
Notation h := (RtoC (1 / sqrt 2)).
Lemma pgradient_matrices k sig i j : fit g k -> In j (pgradient_out i) -> exists M, pgradient_matrix g k N m sig i j = Some M /\ nc M = N.
Proof. intros Hf [<-|[<-|[]]]; unfold pgradient_matrix, pgradient_out; cbn [existsb]; rewrite equal_index_refl, ?orb_true_r; cbn [orb]; [destruct (half_some h k Dminus (spintotal sig i) Hf) as (B & E & X & _)|destruct (half_some h k Dplus (spintotal sig i) Hf) as (B & E & X & _)]; exists B; auto. Qed.
Lemma pdivergence_matrices k sig i j : fit g k -> component_of (polar :: sig) i -> In j (pdivergence_out i) -> exists M, pdivergence_matrix g k N m (polar :: sig) i j = Some M /\ nc M = N.
Proof.
  intros Hf Hi Hj. destruct (polar_cases sig i Hi) as (a & r & -> & [->| ->] & Hr); destruct Hj as [<-|[]]; cbn [pdivergence_matrix Nat.eqb negb andb]; rewrite equal_index_refl; [destruct (half_some h k Dplus (spintotal (polar :: sig) (0%nat :: r)) Hf) as (B & E & X & _)|destruct (half_some h k Dminus (spintotal (polar :: sig) (1%nat :: r)) Hf) as (B & E & X & _)]; exists B; auto.
Qed.
Lemma plaplacian_matrices k sig i j : fit g k -> In j (same_out i) -> exists M, plaplacian_matrix g k N m sig i j = Some M /\ nc M = N.
Proof. intros Hf [<-|[]]. unfold plaplacian_matrix. rewrite equal_index_refl. destruct (half_some (RtoC 1) k Second (spintotal sig i) Hf) as (B & E & X & _). exists B; auto. Qed.
Lemma gradient_nodup i : NoDup (pgradient_out i). Proof. unfold pgradient_out. constructor; [intros [H|[]]; discriminate|repeat constructor; intros []]. Qed.
Lemma divergence_nodup i : NoDup (pdivergence_out i). Proof. destruct i as [|[|[|a]] i]; repeat constructor; intros []. Qed.
Theorem pgradient_value k sig x : fit g k -> exists u, pgradient g k N m sig x = Some u /\ forall i n, component_of sig i ->
  u (0%nat :: i) n = Cmult h (imgC (fmatrix k Dminus (spintotal sig i)) (x i) n) /\ u (1%nat :: i) n = Cmult h (imgC (fmatrix k Dplus (spintotal sig i)) (x i) n).
Proof.
  intros Hf. destruct (poperate_value N (pgradient_matrix g k N m sig) pgradient_out sig x ltac:(lia) gradient_nodup) as (u & Eu & Hu); [intros i j _ Hj; destruct (pgradient_matrices k sig i j Hf Hj) as (M & E & _); congruence|].
  exists u. split; [exact Eu|]. intros i n Hi. rewrite !Hu. assert (Z : forall a j, In j (components sig) -> j <> i -> pterm (pgradient_matrix g k N m sig) pgradient_out x (a :: i) n j = RtoC 0).
  { intros a j _ Hj. unfold pterm, pgradient_out. cbn [existsb]. rewrite !equal_index_ne by congruence. reflexivity. }
  split; (rewrite (csum_single _ _ i (components_nodup sig) (proj2 (components_in sig i) Hi) (Z _))); unfold pterm, pgradient_matrix, pgradient_out; cbn [existsb]; rewrite !equal_index_refl, ?orb_true_r; cbn [orb].
  - destruct (half_some h k Dminus (spintotal sig i) Hf) as (B & -> & _ & H). apply H.
  - destruct (half_some h k Dplus (spintotal sig i) Hf) as (B & -> & _ & H). apply H.
Qed.
Theorem pdivergence_value k sig x : fit g k -> exists u, pdivergence g k N m sig x = Some u /\ forall i n, component_of sig i ->
  u i n = Cplus (Cmult h (imgC (fmatrix k Dplus (spintotal sig i - 1)) (x (0%nat :: i)) n)) (Cmult h (imgC (fmatrix k Dminus (spintotal sig i + 1)) (x (1%nat :: i)) n)).
Proof.
  intros Hf. destruct (poperate_value N (pdivergence_matrix g k N m (polar :: sig)) pdivergence_out (polar :: sig) x ltac:(lia) divergence_nodup) as (u & Eu & Hu); [intros i j Hi Hj; destruct (pdivergence_matrices k sig i j Hf Hi Hj) as (M & E & _); congruence|].
  exists u. split; [exact Eu|]. intros i n Hi. rewrite Hu, (csum_two _ _ (0%nat :: i) (1%nat :: i) (components_nodup (polar :: sig))); [|apply components_in, polar_component; split; [lia|exact Hi]|apply components_in, polar_component; split; [lia|exact Hi]|discriminate|].
  - unfold pterm, pdivergence_out. cbn [existsb pdivergence_matrix Nat.eqb negb andb]. rewrite equal_index_refl. cbn [orb]. change (spintotal (polar :: sig) (0%nat :: i)) with (-1 + spintotal sig i)%Z. change (spintotal (polar :: sig) (1%nat :: i)) with (1 + spintotal sig i)%Z.
    replace (-1 + spintotal sig i)%Z with (spintotal sig i - 1)%Z by lia. replace (1 + spintotal sig i)%Z with (spintotal sig i + 1)%Z by lia.
    destruct (half_some h k Dplus (spintotal sig i - 1) Hf) as (B & -> & _ & ->). destruct (half_some h k Dminus (spintotal sig i + 1) Hf) as (B' & -> & _ & ->). reflexivity.
  - intros [|[|[|a]] j] _ N0 N1; try reflexivity; unfold pterm, pdivergence_out; cbn [existsb]; rewrite equal_index_ne by congruence; reflexivity.
Qed.
Theorem plaplacian_value k sig x : fit g k -> exists u, plaplacian g k N m sig x = Some u /\ forall i n, component_of sig i -> u i n = imgC (fmatrix k Second (spintotal sig i)) (x i) n.
Proof.
  intros Hf. destruct (poperate_value N (plaplacian_matrix g k N m sig) same_out sig x ltac:(lia) ltac:(intros i; repeat constructor; intros [])) as (u & Eu & Hu); [intros i j _ Hj; destruct (plaplacian_matrices k sig i j Hf Hj) as (M & E & _); congruence|].
  exists u. split; [exact Eu|]. intros i n Hi. rewrite Hu, (csum_single _ _ i (components_nodup sig) (proj2 (components_in sig i) Hi)).
  - unfold pterm, same_out, plaplacian_matrix. cbn [existsb]. rewrite equal_index_refl. cbn [orb]. destruct (half_some (RtoC 1) k Second (spintotal sig i) Hf) as (B & -> & _ & ->). ring.
  - intros j _ Hj. unfold pterm, same_out. cbn [existsb]. rewrite equal_index_ne by congruence. reflexivity.
Qed.

(** ** Identities *)
Lemma h_square : Cmult h h = RtoC (1 / 2).
Proof. rewrite <- RtoC_mult. f_equal. pose proof (sqrt_sqrt 2 ltac:(lra)) as S2. assert (P : 0 < sqrt 2) by (apply sqrt_lt_R0; lra). replace (1 / sqrt 2 * (1 / sqrt 2)) with (1 / (sqrt 2 * sqrt 2)) by (field; lra). rewrite S2. reflexivity. Qed.
Theorem pdivergence_gradient k sig x : fit g k -> exists u v w, pgradient g k N m sig x = Some u /\ pdivergence g (S k) N m sig u = Some v /\ plaplacian g k N m sig x = Some w /\ alike sig N v w.
Proof.
  intros Hf. destruct (pgradient_value k sig x Hf) as (u & Eu & Hu). destruct (pdivergence_value (S k) sig u (fit_S k Hf)) as (v & Ev & Hv). destruct (plaplacian_value k sig x Hf) as (w & Ew & Hw). exists u, v, w. do 3 (split; [assumption|]). intros i Hi n Hn. rewrite (Hv i n Hi), (Hw i n Hi).
  rewrite (imgC_ext _ (u (0%nat :: i)) (fun q => Cmult h (imgC (fmatrix k Dminus (spintotal sig i)) (x i) q))) by (intros q _; apply (Hu i q Hi)). rewrite (imgC_ext _ (u (1%nat :: i)) (fun q => Cmult h (imgC (fmatrix k Dplus (spintotal sig i)) (x i) q))) by (intros q _; apply (Hu i q Hi)).
  rewrite !imgC_scale, <- raise_lower, <- lower_raise by assumption. set (L := imgC _ _ n). transitivity (Cmult (Cplus (Cmult h h) (Cmult h h)) L); [ring|]. rewrite h_square, <- RtoC_plus. replace (1 / 2 + 1 / 2) with 1 by field. ring.
Qed.
Theorem pdivergence_skew_gradient k sig x : fit g k -> exists u v, pgradient g k N m sig x = Some u /\ pdivergence g (S k) N m sig (pskew u) = Some v /\ alike sig N v (fun _ _ => RtoC 0).
Proof.
  intros Hf. destruct (pgradient_value k sig x Hf) as (u & Eu & Hu). destruct (pdivergence_value (S k) sig (pskew u) (fit_S k Hf)) as (v & Ev & Hv). exists u, v. do 2 (split; [assumption|]). intros i Hi n Hn. rewrite (Hv i n Hi). cbn [pskew].
  rewrite (imgC_ext _ (fun q => Cmult (Copp Ci) (u (0%nat :: i) q)) (fun q => Cmult (Cmult (Copp Ci) h) (imgC (fmatrix k Dminus (spintotal sig i)) (x i) q))) by (intros q _; rewrite (proj1 (Hu i q Hi)); ring). rewrite (imgC_ext _ (fun q => Cmult Ci (u (1%nat :: i) q)) (fun q => Cmult (Cmult Ci h) (imgC (fmatrix k Dplus (spintotal sig i)) (x i) q))) by (intros q _; rewrite (proj2 (Hu i q Hi)); ring).
  rewrite !imgC_scale, <- raise_lower, <- lower_raise by assumption. ring.
Qed.

(** ** Functions *)
Notation f := (function_of N).
Lemma up_f k s x r : fit g k -> 0 < r -> exists e, has_derivative (f x (modes k (m + s))) r e /\ f (imgC (fmatrix k Dplus s) x) (modes (S k) (m + s + 1)) r = Cminus e (Cmult (RtoC (IZR (m + s) / r)) (f x (modes k (m + s)) r)).
Proof.
  intros Hf Hr. pose proof (first_derives k Dplus s ltac:(discriminate) Hf) as HD. rewrite (proj1 (fmatrix_some k Dplus s Hf)) in HD. destruct (derives_complex N _ _ _ _ x r HD Hr) as (e & De & Ee). exists e. split; [exact De|]. cbn [sign] in Ee. rewrite Ee. replace (- (1 * IZR (m + s)) / r) with (- (IZR (m + s) / r)) by (field; lra). rewrite RtoC_opp. ring.
Qed.
Lemma down_f k s x r : fit g k -> 0 < r -> exists e, has_derivative (f x (modes k (m + s))) r e /\ f (imgC (fmatrix k Dminus s) x) (modes (S k) (m + s - 1)) r = Cplus e (Cmult (RtoC (IZR (m + s) / r)) (f x (modes k (m + s)) r)).
Proof.
  intros Hf Hr. pose proof (first_derives k Dminus s ltac:(discriminate) Hf) as HD. rewrite (proj1 (fmatrix_some k Dminus s Hf)) in HD. destruct (derives_complex N _ _ _ _ x r HD Hr) as (e & De & Ee). exists e. split; [exact De|]. cbn [sign] in Ee. change (m + s + -1)%Z with (m + s - 1)%Z in Ee. rewrite Ee. replace (- (-1 * IZR (m + s)) / r) with (IZR (m + s) / r) by (field; lra). reflexivity.
Qed.
Theorem pgradient_function k sig x : fit g k -> exists u, pgradient g k N m sig x = Some u /\ forall i, component_of sig i -> let l := (m + spintotal sig i)%Z in forall r, 0 < r -> exists e, has_derivative (f (x i) (modes k l)) r e
  /\ f (u (0%nat :: i)) (modes (S k) (l - 1)) r = Cmult h (Cplus e (Cmult (RtoC (IZR l / r)) (f (x i) (modes k l) r)))
  /\ f (u (1%nat :: i)) (modes (S k) (l + 1)) r = Cmult h (Cminus e (Cmult (RtoC (IZR l / r)) (f (x i) (modes k l) r))).
Proof.
  intros Hf. destruct (pgradient_value k sig x Hf) as (u & Eu & Hu). exists u. split; [exact Eu|]. intros i Hi l r Hr. destruct (up_f k (spintotal sig i) (x i) r Hf Hr) as (e & De & Ee). destruct (down_f k (spintotal sig i) (x i) r Hf Hr) as (e' & De' & Ee'). rewrite <- (derivative_unique _ _ _ _ De De') in Ee'. fold l in De, Ee, Ee'.
  exists e. split; [exact De|]. rewrite <- Ee, <- Ee', <- !function_scale. split; apply function_ext; intros n _; apply (Hu i n Hi).
Qed.
Theorem pdivergence_function k sig x : fit g k -> exists u, pdivergence g k N m sig x = Some u /\ forall i, component_of sig i -> let l := (m + spintotal sig i)%Z in forall r, 0 < r -> exists em ep,
  has_derivative (f (x (0%nat :: i)) (modes k (l - 1))) r em /\ has_derivative (f (x (1%nat :: i)) (modes k (l + 1))) r ep
  /\ f (u i) (modes (S k) l) r = Cmult h (Cplus (Cminus em (Cmult (RtoC ((IZR l - 1) / r)) (f (x (0%nat :: i)) (modes k (l - 1)) r))) (Cplus ep (Cmult (RtoC ((IZR l + 1) / r)) (f (x (1%nat :: i)) (modes k (l + 1)) r)))).
Proof.
  intros Hf. destruct (pdivergence_value k sig x Hf) as (u & Eu & Hu). exists u. split; [exact Eu|]. intros i Hi l r Hr. destruct (up_f k (spintotal sig i - 1) (x (0%nat :: i)) r Hf Hr) as (em & Dm & Em). destruct (down_f k (spintotal sig i + 1) (x (1%nat :: i)) r Hf Hr) as (ep & Dp & Ep).
  replace (m + (spintotal sig i - 1))%Z with (l - 1)%Z in * by (unfold l; lia). replace (m + (spintotal sig i + 1))%Z with (l + 1)%Z in * by (unfold l; lia). replace (l - 1 + 1)%Z with l in * by lia. replace (l + 1 - 1)%Z with l in * by lia. rewrite minus_IZR in Em. rewrite plus_IZR in Ep.
  exists em, ep. do 2 (split; [assumption|]). rewrite <- Em, <- Ep. etransitivity; [|etransitivity; [exact (function_linear N h h (imgC (fmatrix k Dplus (spintotal sig i - 1)) (x (0%nat :: i))) (imgC (fmatrix k Dminus (spintotal sig i + 1)) (x (1%nat :: i))) (modes (S k) l) r)|ring]]. apply function_ext. intros n _. apply (Hu i n Hi).
Qed.
Theorem plaplacian_function k sig x : fit g k -> exists u, plaplacian g k N m sig x = Some u /\ forall i, component_of sig i -> let l := (m + spintotal sig i)%Z in exists f1, (forall r, 0 < r -> has_derivative (f (x i) (modes k l)) r (f1 r))
  /\ forall r, 0 < r -> exists e, has_derivative f1 r e /\ f (u i) (modes (S (S k)) l) r = Cplus (Cplus e (Cmult (RtoC (1 / r)) (f1 r))) (Cmult (RtoC (- IZR l ^ 2 / r ^ 2)) (f (x i) (modes k l) r)).
Proof.
  intros Hf. destruct (plaplacian_value k sig x Hf) as (u & Eu & Hu). exists u. split; [exact Eu|]. intros i Hi l. pose proof (twice_derives k (spintotal sig i) Hf) as HD. rewrite (proj1 (fmatrix_some k Second (spintotal sig i) Hf)) in HD. destruct (derives_twice_complex N _ _ _ _ _ (x i) HD) as (f1 & D1 & H1). fold l in D1, H1. exists f1. split; [exact D1|]. intros r Hr. destruct (H1 r Hr) as (e & De & Ee). exists e. split; [exact De|]. rewrite <- Ee. apply function_ext. intros n _. apply (Hu i n Hi).
Qed.
End Radial.

(** ** Pairs of real coefficients *)
Lemma poperate_parts size A outs sig x y : parts_of x y -> (forall i j M n q, A i j = Some M -> Im (at_ M n q) = 0) -> same_parts (poperate size A outs sig x) (poperate_real size A outs sig y).
Proof.
  intros Hy HA. unfold poperate, poperate_real. assert (G0 : same_parts (Some (fun _ _ => RtoC 0)) (Some (fun _ _ _ => 0))) by (intros i n; split; reflexivity).
  revert G0. generalize (Some (fun (_ : index) (_ : nat) => RtoC 0)) (Some (fun (_ : index) (_ : bool) (_ : nat) => 0)). induction (components sig) as [|i l IH]; intros o o' H; [exact H|]. cbn [fold_left]. apply IH. clear IH. revert o o' H. induction (outs i) as [|j js IHj]; intros o o' H; [exact H|]. cbn [fold_left]. apply IHj.
  unfold pstep, pstep_real. destruct o as [u|], o' as [v|]; cbn [same_parts obind] in *; try tauto. destruct (size =? 0)%nat; [exact H|]. destruct (A i j) as [M|] eqn:E; cbn [obind]; [|exact I].
  intros j' n. destruct (H j' n) as [H1 H2]. destruct (equal_index j' j); [|split; assumption]. rewrite H1, H2, (applied_real M) by (intros q _; apply (HA i j M n q E)). split; unfold Cplus; cbn [Re Im fst snd]; f_equal; apply Rtotal_ext; intros q _; f_equal; apply Hy.
Qed.
Lemma pgradient_real g k N m sig i j M n q : pgradient_matrix g k N m sig i j = Some M -> Im (at_ M n q) = 0.
Proof. unfold pgradient_matrix. destruct (existsb _ _); [|discriminate]. destruct j as [|[|[|a]] j]; try discriminate; apply times_real. Qed.
Lemma pdivergence_real g k N m sig i j M n q : pdivergence_matrix g k N m sig i j = Some M -> Im (at_ M n q) = 0.
Proof. unfold pdivergence_matrix. destruct i as [|[|[|a]] i]; try discriminate; destruct (_ && _); try discriminate; apply times_real. Qed.
Lemma plaplacian_real g k N m sig i j M n q : plaplacian_matrix g k N m sig i j = Some M -> Im (at_ M n q) = 0.
Proof. unfold plaplacian_matrix. destruct (equal_index i j); try discriminate; apply times_real. Qed.

(** ** Matrices over components *)
Lemma all_some_map {A B} (F : A -> option B) (G : A -> B) l : (forall a, In a l -> F a = Some (G a)) -> all_some (map F l) = Some (map G l).
Proof. induction l as [|a l IH]; intros H; [reflexivity|]. cbn [map all_some]. rewrite (H a (or_introl eq_refl)), IH by (intros b Hb; apply H; right; exact Hb). reflexivity. Qed.
Lemma pelements_sum ms N m (F : nat -> C) : (m < ms)%nat -> csum (pelements ms N) (fun q => if (m =? fst q)%nat then F (snd q) else RtoC 0) = Ctotal N F.
Proof.
  intros Hm. unfold pelements. rewrite csum_flat, (csum_single _ _ m (seq_NoDup _ _)); [|apply in_seq; lia|].
  - rewrite csum_map, csum_seq. apply Ctotal_ext. intros n _. cbn [fst snd]. rewrite Nat.eqb_refl. reflexivity.
  - intros m' _ Hm'. rewrite csum_map. apply csum_zero. intros n _. cbn [fst]. rewrite (proj2 (Nat.eqb_neq m m')) by congruence. reflexivity.
Qed.
Lemma psubproblem_value N ms A outs sin sout (x : index -> nat * nat -> C) (u : nat -> vectors) : N <> 0%nat -> (forall i, NoDup (outs i)) -> (forall i j, component_of sin i -> In j (outs i) -> exists M, A i j = Some M /\ nc M = N) ->
  (forall m, (m < ms)%nat -> poperate N A outs sin (fun i n => x i (m, n)) = Some (u m)) ->
  exists T, psubproblem_matrix N ms A outs sin sout = Some T /\ ctimes T (pstacked sin ms N x) = pstacked sout ms N (fun j p => u (fst p) j (snd p)).
Proof.
  intros HN Hd HA Hu. set (B := fun j i (p q : nat * nat) => if existsb (equal_index j) (outs i) && negb (N =? 0)%nat && negb (ms =? 0)%nat then match A i j with Some M => if (fst p =? fst q)%nat then at_ M (snd p) (snd q) else RtoC 0 | None => RtoC 0 end else RtoC 0).
  assert (EB : forall j i, In i (components sin) -> pblock N ms A outs j i = Some (B j i)).
  { intros j i Hi. apply components_in in Hi. unfold pblock, B. destruct (existsb (equal_index j) (outs i) && negb (N =? 0)%nat && negb (ms =? 0)%nat) eqn:E; [|reflexivity]. apply andb_true_iff in E. destruct E as [E _]. apply andb_true_iff in E. destruct E as [E _]. apply existsb_exists in E. destruct E as (j' & Hj & E). apply equal_index_iff in E. subst j'. destruct (HA i j Hi Hj) as (M & -> & _). reflexivity. }
  unfold psubproblem_matrix. rewrite (all_some_map _ (fun j => map (B j) (components sin))) by (intros j _; apply all_some_map, EB). cbn [obind]. eexists. split; [reflexivity|].
  replace (flat_map (fun row => map (fun p => flat_map (fun b => map (b p) (pelements ms N)) row) (pelements ms N)) (map (fun j => map (B j) (components sin)) (components sout))) with (flat_map (fun j => map (fun p => flat_map (fun i => map (B j i p) (pelements ms N)) (components sin)) (pelements ms N)) (components sout)).
  2: { rewrite (flat_map_concat_map _ (map _ (components sout))), map_map, <- flat_map_concat_map. apply flat_map_ext. intros j. apply map_ext. intros p. rewrite (flat_map_concat_map _ (map _ (components sin))), map_map, <- flat_map_concat_map. reflexivity. }
  unfold pstacked. rewrite (ctimes_flat (fun j p => flat_map (fun i => map (B j i p) (pelements ms N)) (components sin))). apply flat_map_ext. intros j. apply map_ext_in. intros [m n] Hp. assert (Hm : (m < ms)%nat) by (unfold pelements in Hp; apply in_flat_map in Hp; destruct Hp as (m' & Hm' & Hp); apply in_map_iff in Hp; destruct Hp as (n' & E & _); injection E as <- <-; apply in_seq in Hm'; lia).
  rewrite row_sum. cbn [fst snd]. destruct (poperate_value N A outs sin (fun i n => x i (m, n)) HN Hd) as (u' & Eu & Hu'); [intros i j' Hi Hj; destruct (HA i j' Hi Hj) as (M & E & _); congruence|]. rewrite (Hu m Hm) in Eu. injection Eu as ->. rewrite Hu'. apply csum_ext. intros i Hi. apply components_in in Hi.
  assert (Nz : negb (N =? 0)%nat = true) by (apply negb_true_iff, Nat.eqb_neq, HN). assert (Mz : negb (ms =? 0)%nat = true) by (apply negb_true_iff, Nat.eqb_neq; lia).
  unfold B, pterm. rewrite Nz, Mz, !andb_true_r. destruct (existsb (equal_index j) (outs i)) eqn:E; [|apply csum_zero; intros; ring]. apply existsb_exists in E. destruct E as (j' & Hj & E). apply equal_index_iff in E. subst j'. destruct (HA i j Hi Hj) as (M & -> & EN).
  rewrite (csum_ext _ _ (fun q => if (m =? fst q)%nat then Cmult (at_ M n (snd q)) (x i (m, snd q)) else RtoC 0)).
  - rewrite (pelements_sum ms N m (fun n' => Cmult (at_ M n n') (x i (m, n'))) Hm). unfold applied. rewrite EN. reflexivity.
  - intros [m' n'] _. cbn [fst snd]. destruct (Nat.eqb_spec m m') as [<-|]; ring.
Qed.
