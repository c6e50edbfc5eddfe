(** Lemmas on coordinates of products, and the chain rule through them. *)
From Coq Require Import List Arith Reals Bool Lia Lra FunctionalExtensionality.
From Coquelicot Require Import Coquelicot.
Import ListNotations.
From Verif Require Import ProductCalc_Model ProductCalc_Spec.
Local Open Scope R_scope.

(** ** Points *)
Lemma upd_same p i t : upd p i t i = t.
Proof. unfold upd. now rewrite Nat.eqb_refl. Qed.
Lemma upd_other p i j t : j <> i -> upd p i t j = p j.
Proof. intros H. unfold upd. now rewrite (proj2 (Nat.eqb_neq j i) H). Qed.
Lemma upd_upd p i t u : upd (upd p i t) i u = upd p i u.
Proof. extensionality j. unfold upd. now destruct (Nat.eqb j i). Qed.
Lemma upd_comm p i j t u : i <> j -> upd (upd p i t) j u = upd (upd p j u) i t.
Proof.
  intros H. extensionality k. unfold upd.
  destruct (Nat.eqb_spec k i), (Nat.eqb_spec k j); congruence.
Qed.
Lemma upd_self p i : upd p i (p i) = p.
Proof. extensionality j. unfold upd. destruct (Nat.eqb_spec j i); congruence. Qed.

Lemma total_ext n x y : (forall i, (i < n)%nat -> x i = y i) -> total n x = total n y.
Proof.
  intros H. unfold total. f_equal. apply map_ext_in. intros i I. apply in_seq in I. apply H. lia.
Qed.
Lemma fold_app (l l' : list R) : fold_right Rplus 0 (l ++ l') = fold_right Rplus 0 l + fold_right Rplus 0 l'.
Proof. induction l as [|a l IH]; cbn; [ring | rewrite IH; ring]. Qed.
Lemma total_app m n x : total (m + n) x = total m x + total n (fun j => x (m + j)%nat).
Proof.
  unfold total. rewrite seq_app, map_app, fold_app. f_equal. f_equal. rewrite Nat.add_0_l.
  rewrite <- (Nat.add_0_r m) at 1. generalize 0%nat as k. induction n as [|n IH]; intros k; cbn; [reflexivity |].
  f_equal. replace (S (m + k)) with (m + S k)%nat by lia. apply IH.
Qed.
Lemma total_zero n : total n (fun _ => 0) = 0.
Proof. unfold total. induction (seq 0 n) as [|a l IH]; cbn; [reflexivity | rewrite IH; ring]. Qed.
Lemma total_two x : total 2 x = x 0%nat + x 1%nat.
Proof. unfold total. cbn. ring. Qed.
Lemma total_delta n i x : (i < n)%nat -> total n (fun j => (if Nat.eqb i j then 1 else 0) * x j) = x i.
Proof.
  intros H. replace n with (i + (1 + (n - i - 1)))%nat by lia. rewrite total_app, total_app.
  rewrite (total_ext i _ (fun _ => 0)) by (intros j J; rewrite (proj2 (Nat.eqb_neq i j)) by lia; ring).
  rewrite (total_ext (n - i - 1) _ (fun _ => 0)) by (intros j J; rewrite (proj2 (Nat.eqb_neq i _)) by lia; ring).
  rewrite !total_zero. unfold total. cbn. rewrite Nat.add_0_r, Nat.eqb_refl. ring.
Qed.

(** ** Places *)
Lemma dims_cons c cs : dims (c :: cs) = (dim c + dims cs)%nat.
Proof. reflexivity. Qed.
Lemma dims_app l l' : dims (l ++ l') = (dims l + dims l')%nat.
Proof. induction l as [|c l IH]; [reflexivity |]. rewrite <- app_comm_cons, !dims_cons, IH. lia. Qed.
Lemma place_app l l' s p : place (l ++ l') s p = place l' (s + dims l) (place l s p).
Proof.
  revert s p; induction l as [|c l IH]; intros s p; cbn [app place].
  - cbn. now rewrite Nat.add_0_r.
  - rewrite IH, dims_cons. f_equal. lia.
Qed.

(** A map of points that leaves the axis [k] alone. *)
Definition free (g : point -> point) (k : nat) : Prop := (forall p t, g (upd p k t) = upd (g p) k t) /\ forall p, g p k = p k.

Lemma free_fplace c s k : (k < s \/ s + dim c <= k)%nat -> free (fplace c s) k.
Proof.
  intros K. destruct c as [n|]; cbn [dim] in K; split; intros p; try intros t; cbn [fplace]; try reflexivity.
  - rewrite !(upd_other p k) by lia. rewrite (upd_comm p k s), (upd_comm _ k (s + 1)) by lia. reflexivity.
  - rewrite !upd_other by lia. reflexivity.
Qed.
Lemma free_place cs s k : (k < s \/ s + dims cs <= k)%nat -> free (place cs s) k.
Proof.
  revert s; induction cs as [|c cs IH]; intros s K; cbn [place].
  - split; reflexivity.
  - rewrite dims_cons in K. destruct (free_fplace c s k) as [F1 F2]; [lia |]. destruct (IH (s + dim c)%nat) as [G1 G2]; [lia |].
    split; intros p; try intros t; [now rewrite F1, G1 | now rewrite G2, F2].
Qed.
Lemma fplace_place c s cs s' p : (s + dim c <= s')%nat -> fplace c s (place cs s' p) = place cs s' (fplace c s p).
Proof.
  intros H. destruct c as [n|]; cbn [fplace dim] in *; [reflexivity |].
  destruct (free_place cs s' s) as [A1 A2]; [lia |]. destruct (free_place cs s' (s + 1)) as [B1 B2]; [lia |].
  now rewrite B1, A1, A2, B2.
Qed.

(** Derivatives commute with maps that leave their axis alone. *)
Lemma pd_free g k f p : free g k -> pd k (fun q => f (g q)) p = pd k f (g p).
Proof. intros [G1 G2]. unfold pd. rewrite G2. f_equal. extensionality t. now rewrite G1. Qed.

(** ** The chain rule *)
Lemma chain F q i j X Y t dX dY : differentiable F -> i <> j -> is_derive X t dX -> is_derive Y t dY ->
  let Q := upd (upd q i (X t)) j (Y t) in is_derive (fun t => F (upd (upd q i (X t)) j (Y t))) t (dX * pd i F Q + dY * pd j F Q).
Proof.
  intros D N HX HY Q. destruct (D q i j (X t) (Y t) N) as (lx & ly & L).
  destruct (differentiable_pt_lim_unique _ _ _ _ _ L) as [Ex Ey].
  assert (Px : pd i F Q = lx).
  { rewrite <- Ex. unfold pd, Q. rewrite upd_other, upd_same by exact N. f_equal. extensionality u.
    rewrite (upd_comm q i j (X t) (Y t) N), upd_upd, (upd_comm q i j u (Y t) N). reflexivity. }
  assert (Py : pd j F Q = ly).
  { rewrite <- Ey. unfold pd, Q. rewrite upd_same. f_equal. extensionality u. now rewrite upd_upd. }
  rewrite Px, Py. apply is_derive_Reals. replace (dX * lx + dY * ly) with (lx * dX + ly * dY) by ring.
  apply (derivable_pt_lim_comp_2d (fun x y => F (upd (upd q i x) j y)) X Y); [exact L | now apply is_derive_Reals ..].
Qed.

Lemma derive_to (f : R -> R) (x a b : R) : is_derive f x a -> @eq R a b -> is_derive f x b.
Proof. now intros H <-. Qed.

Lemma derive_plus (f g : R -> R) (x a b : R) : is_derive f x a -> is_derive g x b -> is_derive (fun t => f t + g t) x (a + b).
Proof. intros H K. exact (is_derive_plus f g x a b H K). Qed.
Lemma derive_mult (f g : R -> R) (x a b : R) : is_derive f x a -> is_derive g x b -> is_derive (fun t => f t * g t) x (a * g x + f x * b).
Proof. intros H K. exact (is_derive_mult f g x a b H K Rmult_comm). Qed.

Section In_product.
Variables (l l' : list factor) (a0 : nat).

Lemma place_free n k p F : (k < n)%nat ->
  pd (a0 + dims l + k) (fun p => F (place (l ++ Cartesian n :: l') a0 p)) p = pd (a0 + dims l + k) F (place (l ++ Cartesian n :: l') a0 p).
Proof.
  intros K. apply (pd_free (place (l ++ Cartesian n :: l') a0)).
  destruct (free_place l a0 (a0 + dims l + k)) as [A1 A2]; [lia |].
  destruct (free_place l' (a0 + dims l + n) (a0 + dims l + k)) as [B1 B2]; [lia |].
  split; intros q; try intros t; rewrite !place_app; cbn [place fplace dim].
  - now rewrite A1, B1.
  - now rewrite B2, A2.
Qed.

Let s := (a0 + dims l)%nat.
Let E := place (l ++ Polar :: l') a0.

Lemma place_polar p : exists q, E p = upd (upd q s (p (s + 1)%nat * cos (p s))) (s + 1) (p (s + 1)%nat * sin (p s)) /\
  (forall t, E (upd p s t) = upd (upd q s (p (s + 1)%nat * cos t)) (s + 1) (p (s + 1)%nat * sin t)) /\
  forall t, E (upd p (s + 1) t) = upd (upd q s (t * cos (p s))) (s + 1) (t * sin (p s)).
Proof.
  assert (G : forall p, E p = fplace Polar s (place l' (s + 2) (place l a0 p))).
  { intros q. unfold E. rewrite place_app. cbn [place]. fold s. rewrite (fplace_place Polar s l' (s + 2) (place l a0 q)) by (cbn [dim]; lia). reflexivity. }
  destruct (free_place l a0 s) as [A1 A2]; [unfold s; lia |]. destruct (free_place l a0 (s + 1)) as [A3 A4]; [unfold s; lia |].
  destruct (free_place l' (s + 2) s) as [B1 B2]; [lia |]. destruct (free_place l' (s + 2) (s + 1)) as [B3 B4]; [lia |].
  exists (place l' (s + 2) (place l a0 p)). repeat split; try intros t; rewrite G; cbn [fplace].
  - now rewrite B2, B4, A2, A4.
  - rewrite A1, B1, !upd_same, (upd_other _ s), B4, A4, upd_upd by lia. reflexivity.
  - rewrite A3, B3, !upd_same, (upd_other _ (s + 1)), B2, A2 by lia.
    rewrite (upd_comm _ (s + 1) s) by lia. now rewrite upd_upd.
Qed.

Lemma along_radius F p : differentiable F ->
  is_derive (fun t => F (E (upd p (s + 1) t))) (p (s + 1)%nat) (cos (p s) * pd s F (E p) + sin (p s) * pd (s + 1) F (E p)).
Proof.
  intros D. destruct (place_polar p) as (q & Eq & _ & Er). rewrite Eq.
  apply (is_derive_ext (fun t => F (upd (upd q s (t * cos (p s))) (s + 1) (t * sin (p s))))); [intros t; now rewrite Er |].
  apply (chain F q s (s + 1) (fun t => t * cos (p s)) (fun t => t * sin (p s))); [exact D | lia | auto_derive; [exact I | ring] ..].
Qed.
Lemma along_azimuth F p : differentiable F ->
  is_derive (fun t => F (E (upd p s t))) (p s) (p (s + 1)%nat * (- sin (p s) * pd s F (E p) + cos (p s) * pd (s + 1) F (E p))).
Proof.
  intros D. destruct (place_polar p) as (q & Eq & Ea & _). rewrite Eq.
  apply (is_derive_ext (fun t => F (upd (upd q s (p (s + 1)%nat * cos t)) (s + 1) (p (s + 1)%nat * sin t)))); [intros t; now rewrite Ea |].
  eapply derive_to.
  - apply (chain F q s (s + 1) (fun t => p (s + 1)%nat * cos t) (fun t => p (s + 1)%nat * sin t)); [exact D | lia | auto_derive; [exact I | reflexivity] ..].
  - cbn beta zeta. ring.
Qed.
End In_product.

(** ** Components *)
Lemma dims_split cs i : (i < dims cs)%nat -> exists l c l' k, cs = l ++ c :: l' /\ i = (dims l + k)%nat /\ (k < dim c)%nat.
Proof.
  revert i; induction cs as [|c cs IH]; intros i H; [cbn in H; lia |]. rewrite dims_cons in H.
  destruct (Nat.lt_ge_cases i (dim c)) as [L|L].
  - exists [], c, cs, i. cbn. repeat split. exact L.
  - destruct (IH (i - dim c)%nat) as (l & c' & l' & k & -> & K & K'); [lia |].
    exists (c :: l), c', l', k. rewrite dims_cons. repeat split; [lia | exact K'].
Qed.

Lemma along_factor l c l' a0 p V k : (k < dim c)%nat ->
  along (l ++ c :: l') a0 p V (dims l + k) = total (dim c) (fun j => fframe c (a0 + dims l) p k j * V (dims l + j)%nat).
Proof.
  intros K. unfold along. revert a0 V; induction l as [|b l IH]; intros a0 V.
  - cbn [app]. rewrite dims_cons, total_app. cbn [dims map list_sum fold_right]. rewrite Nat.add_0_r, Nat.add_0_l.
    rewrite (total_ext (dims l') _ (fun _ => 0)).
    2: { intros j J. cbn [frame]. rewrite (proj2 (Nat.ltb_lt k (dim c)) K), (proj2 (Nat.ltb_ge (dim c + j) (dim c))) by lia. ring. }
    rewrite total_zero, Rplus_0_r. apply total_ext. intros j J. cbn [frame].
    rewrite (proj2 (Nat.ltb_lt k (dim c)) K), (proj2 (Nat.ltb_lt j (dim c)) J). reflexivity.
  - rewrite <- app_comm_cons, !dims_cons, total_app.
    rewrite (total_ext (dim b) _ (fun _ => 0)).
    2: { intros j J. cbn [frame]. rewrite (proj2 (Nat.ltb_ge (dim b + dims l + k) (dim b))), (proj2 (Nat.ltb_lt j (dim b)) J) by lia. ring. }
    rewrite total_zero, Rplus_0_l.
    rewrite (total_ext _ _ (fun j => frame (l ++ c :: l') (a0 + dim b) p (dims l + k) j * V (dim b + j)%nat)).
    2: { intros j J. cbn [frame]. rewrite (proj2 (Nat.ltb_ge (dim b + dims l + k) (dim b))), (proj2 (Nat.ltb_ge (dim b + j) (dim b))) by lia.
         f_equal. f_equal; lia. }
    rewrite (IH (a0 + dim b)%nat (fun j => V (dim b + j)%nat)). apply total_ext. intros j J.
    f_equal; f_equal; lia.
Qed.

Lemma gradient_loop_before cs axis i0 f out j : (j < i0)%nat -> gradient_loop cs axis i0 f out j = out j.
Proof.
  revert axis i0 out; induction cs as [|c cs IH]; intros axis i0 out H; cbn [gradient_loop]; [reflexivity |].
  rewrite IH by lia. unfold assign. now rewrite (proj2 (Nat.leb_gt i0 j) H).
Qed.
Lemma gradient_loop_at l c l' axis i0 f out k : (k < dim c)%nat ->
  gradient_loop (l ++ c :: l') axis i0 f out (i0 + dims l + k) = fgradient c (axis + dims l) f k.
Proof.
  intros K. revert axis i0 out; induction l as [|b l IH]; intros axis i0 out; cbn [app gradient_loop].
  - cbn [dims map list_sum fold_right]. rewrite !Nat.add_0_r, gradient_loop_before by lia. unfold assign.
    rewrite (proj2 (Nat.leb_le i0 (i0 + k))), (proj2 (Nat.ltb_lt (i0 + k) (i0 + dim c))) by lia. cbn [andb]. f_equal. lia.
  - rewrite dims_cons. replace (i0 + (dim b + dims l) + k)%nat with (i0 + dim b + dims l + k)%nat by lia. rewrite IH. f_equal. lia.
Qed.

Lemma off_axis_at l l' a0 p : off_axis (l ++ Polar :: l') a0 p -> p (a0 + dims l + 1)%nat <> 0.
Proof.
  revert a0; induction l as [|c l IH]; intros a0 H; cbn [app off_axis] in H.
  - cbn [dims map list_sum fold_right]. rewrite Nat.add_0_r. apply H.
  - rewrite dims_cons. replace (a0 + (dim c + dims l))%nat with (a0 + dim c + dims l)%nat by lia. apply IH, H.
Qed.

(** ** Operators of one factor *)
Lemma pd_is i f p (v : R) : is_derive (fun t => f (upd p i t)) (p i) v -> pd i f p = v.
Proof. intros H. exact (is_derive_unique _ _ _ H). Qed.

Lemma factor_gradient l c l' a0 F p k : differentiable F -> off_axis (l ++ c :: l') a0 p -> (k < dim c)%nat ->
  fgradient c (a0 + dims l) (fun p => F (place (l ++ c :: l') a0 p)) k p =
  total (dim c) (fun j => fframe c (a0 + dims l) p k j * pd (a0 + (dims l + j)) F (place (l ++ c :: l') a0 p)).
Proof.
  intros D O K. destruct c as [n|]; cbn [fgradient fframe dim] in *.
  - rewrite place_free by exact K. rewrite (total_delta n k (fun j => pd (a0 + (dims l + j)) F _) K). f_equal. lia.
  - rewrite total_two. rewrite !Nat.add_assoc, Nat.add_0_r. apply off_axis_at in O. destruct k as [|[|k]]; [| | lia].
    + rewrite (pd_is _ _ _ _ (along_azimuth l l' a0 F p D)). field. exact O.
    + apply pd_is, along_radius, D.
Qed.

Lemma factor_laplacian l c l' a0 F p : differentiable F -> (forall i, differentiable (pd i F)) -> off_axis (l ++ c :: l') a0 p ->
  flaplacian c (a0 + dims l) (fun p => F (place (l ++ c :: l') a0 p)) p =
  total (dim c) (fun j => pd (a0 + dims l + j) (pd (a0 + dims l + j) F) (place (l ++ c :: l') a0 p)).
Proof.
  intros D D2 O. destruct c as [n|]; cbn [flaplacian dim] in *.
  - apply total_ext. intros j J. rewrite <- (place_free l l' a0 n j p _ J). f_equal. extensionality q. apply (place_free l l' a0 n j q F J).
  - rewrite total_two, Nat.add_0_r. apply off_axis_at in O. set (s := (a0 + dims l)%nat) in *. set (E := place (l ++ Polar :: l') a0).
    assert (Hr : pd (s + 1) (fun p => F (E p)) = fun p => cos (p s) * pd s F (E p) + sin (p s) * pd (s + 1) F (E p)).
    { extensionality q. apply pd_is, along_radius, D. }
    assert (Ha : pd s (fun p => F (E p)) = fun p => p (s + 1)%nat * (- sin (p s) * pd s F (E p) + cos (p s) * pd (s + 1) F (E p))).
    { extensionality q. apply pd_is, along_azimuth, D. }
    rewrite Hr, Ha.
    assert (Hrr : pd (s + 1) (fun p => cos (p s) * pd s F (E p) + sin (p s) * pd (s + 1) F (E p)) p =
      cos (p s) * (cos (p s) * pd s (pd s F) (E p) + sin (p s) * pd (s + 1) (pd s F) (E p)) +
      sin (p s) * (cos (p s) * pd s (pd (s + 1) F) (E p) + sin (p s) * pd (s + 1) (pd (s + 1) F) (E p))).
    { apply pd_is. apply (is_derive_ext (fun t => cos (p s) * pd s F (E (upd p (s + 1) t)) + sin (p s) * pd (s + 1) F (E (upd p (s + 1) t)))).
      - intros t. rewrite (upd_other p (s + 1) s) by lia. reflexivity.
      - apply (derive_plus (fun t => cos (p s) * pd s F (E (upd p (s + 1) t))) (fun t => sin (p s) * pd (s + 1) F (E (upd p (s + 1) t))));
        [apply (is_derive_scal (fun t => pd s F (E (upd p (s + 1) t)))) | apply (is_derive_scal (fun t => pd (s + 1) F (E (upd p (s + 1) t))))];
        apply along_radius, D2. }
    assert (Haa : pd s (fun p => p (s + 1)%nat * (- sin (p s) * pd s F (E p) + cos (p s) * pd (s + 1) F (E p))) p =
      p (s + 1)%nat * ((- cos (p s) * pd s F (E p) - sin (p s) * (p (s + 1)%nat * (- sin (p s) * pd s (pd s F) (E p) + cos (p s) * pd (s + 1) (pd s F) (E p)))) +
        (- sin (p s) * pd (s + 1) F (E p) + cos (p s) * (p (s + 1)%nat * (- sin (p s) * pd s (pd (s + 1) F) (E p) + cos (p s) * pd (s + 1) (pd (s + 1) F) (E p)))))).
    { apply pd_is.
      apply (is_derive_ext (fun t => p (s + 1)%nat * (- sin t * pd s F (E (upd p s t)) + cos t * pd (s + 1) F (E (upd p s t))))).
      - intros t. rewrite (upd_other p s (s + 1)), upd_same by lia. reflexivity.
      - apply (is_derive_scal (fun t => - sin t * pd s F (E (upd p s t)) + cos t * pd (s + 1) F (E (upd p s t)))). eapply derive_to.
        + apply (derive_plus (fun t => - sin t * pd s F (E (upd p s t))) (fun t => cos t * pd (s + 1) F (E (upd p s t)))).
          * apply (derive_mult (fun t => - sin t) (fun t => pd s F (E (upd p s t))) (p s) (- cos (p s)));
              [auto_derive; [exact I | ring] | apply along_azimuth, D2].
          * apply (derive_mult (fun t => cos t) (fun t => pd (s + 1) F (E (upd p s t))) (p s) (- sin (p s)));
              [auto_derive; [exact I | ring] | apply along_azimuth, D2].
        + cbn beta. rewrite !upd_self. fold s. fold E.
          generalize (pd s (pd s F) (E p)) (pd (s + 1) (pd s F) (E p)) (pd s (pd (s + 1) F) (E p)) (pd (s + 1) (pd (s + 1) F) (E p)) (pd s F (E p)) (pd (s + 1) F (E p)).
          intros. ring. }
    rewrite Hrr, Haa. cbn [fplace].
    generalize (pd s (pd s F) (E p)) (pd (s + 1) (pd s F) (E p)) (pd s (pd (s + 1) F) (E p)) (pd (s + 1) (pd (s + 1) F) (E p)) (pd s F (E p)) (pd (s + 1) F (E p)).
    intros xx yx xy yy x y. assert (T : sin (p s) * sin (p s) = 1 - cos (p s) * cos (p s)) by (pose proof (sin2_cos2 (p s)) as T; unfold Rsqr in T; lra).
    transitivity ((xx + yy) * (sin (p s) * sin (p s) + cos (p s) * cos (p s))); [field; exact O | rewrite T; ring].
Qed.

(** Near a point off the axes points are off the axes. *)
Lemma near_off_axis cs a0 p k : off_axis cs a0 p -> locally (p k) (fun t => off_axis cs a0 (upd p k t)).
Proof.
  revert a0; induction cs as [|c cs IH]; intros a0 H; cbn [off_axis].
  - apply filter_true.
  - destruct H as [H1 H2]. apply (filter_and (F := locally (p k))); [| now apply IH]. destruct c as [n|]; [apply filter_true |].
    destruct (Nat.eq_dec (a0 + 1) k) as [<-|N].
    + apply (filter_imp (F := locally (p (a0 + 1)%nat)) (fun t => t <> 0)); [intros t T; now rewrite upd_same |]. exact (open_neq 0 (p (a0 + 1)%nat) H1).
    + apply (filter_imp (F := locally (p k)) (fun _ => True)); [intros t _; now rewrite upd_other | apply filter_true].
Qed.
(** Functions that agree off the axes have the same derivatives there. *)
Lemma pd_near cs a0 f g p k : off_axis cs a0 p -> (forall q, off_axis cs a0 q -> f q = g q) -> pd k f p = pd k g p.
Proof.
  intros O H. unfold pd. apply Derive_ext_loc.
  apply (filter_imp (F := locally (p k)) (fun t => off_axis cs a0 (upd p k t))); [intros t T; now apply H | now apply near_off_axis].
Qed.

Lemma axis_derive F p k : differentiable F -> is_derive (fun t => F (upd p k t)) (p k) (pd k F p).
Proof.
  intros D. eapply derive_to.
  - apply (is_derive_ext (fun t => F (upd (upd p k ((fun t => t) t)) (S k) ((fun _ => p (S k)) t)))).
    + intros t. f_equal. rewrite upd_comm by lia. now rewrite upd_self.
    + apply (chain F p k (S k) (fun t => t) (fun _ => p (S k)) (p k) 1 0 D); [lia | auto_derive; [exact I | reflexivity] ..].
  - cbn beta zeta. rewrite upd_comm, !upd_self by lia. ring.
Qed.

Lemma factor_divergence l c l' a0 (v W : nat -> scalar) p : (forall j, differentiable (W j)) -> off_axis (l ++ c :: l') a0 p ->
  (forall q k, off_axis (l ++ c :: l') a0 q -> (k < dim c)%nat -> v k q = total (dim c) (fun j => fframe c (a0 + dims l) q k j * W j (place (l ++ c :: l') a0 q))) ->
  fdivergence c (a0 + dims l) v p = total (dim c) (fun j => pd (a0 + dims l + j) (W j) (place (l ++ c :: l') a0 p)).
Proof.
  intros D O H. destruct c as [n|]; cbn [fdivergence dim] in *.
  - apply total_ext. intros j J. rewrite <- (place_free l l' a0 n j p _ J). apply (pd_near _ a0 _ _ p _ O).
    intros q Oq. rewrite (H q j Oq J). apply (total_delta n j (fun j => W j _) J).
  - rewrite total_two, Nat.add_0_r. pose proof (off_axis_at _ _ _ _ O) as N. set (s := (a0 + dims l)%nat) in *. set (E := place (l ++ Polar :: l') a0) in *.
    rewrite (H p 1%nat O) by lia. rewrite total_two. cbn [fframe].
    rewrite (pd_near _ a0 (v 0%nat) (fun q => - sin (q s) * W 0%nat (E q) + cos (q s) * W 1%nat (E q)) p s O).
    2: { intros q Oq. rewrite (H q 0%nat Oq) by lia. now rewrite total_two. }
    rewrite (pd_near _ a0 (v 1%nat) (fun q => cos (q s) * W 0%nat (E q) + sin (q s) * W 1%nat (E q)) p (s + 1) O).
    2: { intros q Oq. rewrite (H q 1%nat Oq) by lia. now rewrite total_two. }
    assert (Hr : pd (s + 1) (fun q => cos (q s) * W 0%nat (E q) + sin (q s) * W 1%nat (E q)) p =
      cos (p s) * (cos (p s) * pd s (W 0%nat) (E p) + sin (p s) * pd (s + 1) (W 0%nat) (E p)) +
      sin (p s) * (cos (p s) * pd s (W 1%nat) (E p) + sin (p s) * pd (s + 1) (W 1%nat) (E p))).
    { apply pd_is. apply (is_derive_ext (fun t => cos (p s) * W 0%nat (E (upd p (s + 1) t)) + sin (p s) * W 1%nat (E (upd p (s + 1) t)))).
      - intros t. rewrite (upd_other p (s + 1) s) by lia. reflexivity.
      - apply (derive_plus (fun t => cos (p s) * W 0%nat (E (upd p (s + 1) t))) (fun t => sin (p s) * W 1%nat (E (upd p (s + 1) t))));
          [apply (is_derive_scal (fun t => W 0%nat (E (upd p (s + 1) t)))) | apply (is_derive_scal (fun t => W 1%nat (E (upd p (s + 1) t))))];
          apply along_radius, D. }
    assert (Ha : pd s (fun q => - sin (q s) * W 0%nat (E q) + cos (q s) * W 1%nat (E q)) p =
      (- cos (p s) * W 0%nat (E p) - sin (p s) * (p (s + 1)%nat * (- sin (p s) * pd s (W 0%nat) (E p) + cos (p s) * pd (s + 1) (W 0%nat) (E p)))) +
        (- sin (p s) * W 1%nat (E p) + cos (p s) * (p (s + 1)%nat * (- sin (p s) * pd s (W 1%nat) (E p) + cos (p s) * pd (s + 1) (W 1%nat) (E p))))).
    { apply pd_is. apply (is_derive_ext (fun t => - sin t * W 0%nat (E (upd p s t)) + cos t * W 1%nat (E (upd p s t)))).
      - intros t. rewrite upd_same. reflexivity.
      - eapply derive_to.
        + apply (derive_plus (fun t => - sin t * W 0%nat (E (upd p s t))) (fun t => cos t * W 1%nat (E (upd p s t)))).
          * apply (derive_mult (fun t => - sin t) (fun t => W 0%nat (E (upd p s t))) (p s) (- cos (p s)));
              [auto_derive; [exact I | ring] | apply along_azimuth, D].
          * apply (derive_mult (fun t => cos t) (fun t => W 1%nat (E (upd p s t))) (p s) (- sin (p s)));
              [auto_derive; [exact I | ring] | apply along_azimuth, D].
        + cbn beta. rewrite !upd_self. fold s. fold E.
          generalize (pd s (W 0%nat) (E p)) (pd (s + 1) (W 0%nat) (E p)) (pd s (W 1%nat) (E p)) (pd (s + 1) (W 1%nat) (E p)) (W 0%nat (E p)) (W 1%nat (E p)).
          intros. ring. }
    rewrite Hr, Ha.
    generalize (pd s (W 0%nat) (E p)) (pd (s + 1) (W 0%nat) (E p)) (pd s (W 1%nat) (E p)) (pd (s + 1) (W 1%nat) (E p)) (W 0%nat (E p)) (W 1%nat (E p)).
    intros xx yx xy yy x y. assert (T : sin (p s) * sin (p s) = 1 - cos (p s) * cos (p s)) by (pose proof (sin2_cos2 (p s)) as T; unfold Rsqr in T; lra).
    transitivity ((xx + yy) * (sin (p s) * sin (p s) + cos (p s) * cos (p s))); [field; exact N | rewrite T; ring].
Qed.

(** ** Sums over the factors *)
Lemma divergence_suffix l' : forall l a0 (u U : nat -> scalar) p, (forall j, differentiable (U j)) -> off_axis (l ++ l') a0 p ->
  (forall q i, off_axis (l ++ l') a0 q -> (i < dims (l ++ l'))%nat -> u i q = along (l ++ l') a0 q (fun j => U j (place (l ++ l') a0 q)) i) ->
  divergence_loop l' a0 (a0 + dims l) u p = total (dims l') (fun j => pd (a0 + (dims l + j)) (U (dims l + j)%nat) (place (l ++ l') a0 p)).
Proof.
  induction l' as [|c l' IH]; intros l a0 u U p D O H; cbn [divergence_loop]; [reflexivity |].
  rewrite dims_cons, total_app. f_equal.
  - rewrite (factor_divergence l c l' a0 _ (fun j => U (dims l + j)%nat) p); [| intros j; apply D | exact O |].
    + apply total_ext. intros j J. f_equal. lia.
    + intros q k Oq K. unfold component. replace (a0 + dims l - a0 + k)%nat with (dims l + k)%nat by lia.
      rewrite H; [apply (along_factor l c l' a0 q (fun j => U j (place (l ++ c :: l') a0 q)) k K) | exact Oq | rewrite dims_app, dims_cons; lia].
  - assert (A : l ++ c :: l' = (l ++ [c]) ++ l') by now rewrite <- app_assoc. rewrite A in *.
    specialize (IH (l ++ [c]) a0 u U p D O H). rewrite dims_app in IH. change (dims [c]) with (dim c + 0)%nat in IH. rewrite Nat.add_0_r in IH.
    rewrite <- Nat.add_assoc, IH. apply total_ext. intros j J. rewrite <- !Nat.add_assoc. reflexivity.
Qed.
Lemma laplacian_suffix l' : forall l a0 F p, differentiable F -> (forall i, differentiable (pd i F)) -> off_axis (l ++ l') a0 p ->
  laplacian_loop l' (a0 + dims l) (fun p => F (place (l ++ l') a0 p)) p = total (dims l') (fun j => pd (a0 + (dims l + j)) (pd (a0 + (dims l + j)) F) (place (l ++ l') a0 p)).
Proof.
  induction l' as [|c l' IH]; intros l a0 F p D D2 O; cbn [laplacian_loop]; [reflexivity |].
  rewrite dims_cons, total_app. f_equal.
  - rewrite (factor_laplacian l c l' a0 F p D D2 O). apply total_ext. intros j J. now rewrite Nat.add_assoc.
  - assert (A : l ++ c :: l' = (l ++ [c]) ++ l') by now rewrite <- app_assoc. rewrite A in *.
    specialize (IH (l ++ [c]) a0 F p D D2 O). rewrite dims_app in IH. change (dims [c]) with (dim c + 0)%nat in IH. rewrite Nat.add_0_r in IH.
    rewrite <- Nat.add_assoc, IH. apply total_ext. intros j J. rewrite <- !Nat.add_assoc. reflexivity.
Qed.
Lemma trace_suffix cs i0 T : product_trace cs i0 T = total (dims cs) (fun i => T (i0 + i)%nat (i0 + i)%nat).
Proof.
  revert i0; induction cs as [|c cs IH]; intros i0; cbn [product_trace]; [reflexivity |]. rewrite IH, dims_cons, total_app. f_equal.
  apply total_ext. intros j J. now rewrite Nat.add_assoc.
Qed.

(** ** Curls *)
Lemma differentiable_opp F : differentiable F -> differentiable (fun q => - F q).
Proof.
  intros D q i j x y N. destruct (D q i j x y N) as (lx & ly & L). exists (- lx), (- ly). intros eps. specialize (L eps). revert L.
  apply locally_2d_impl, locally_2d_forall. intros u v H.
  match goal with |- Rabs ?A <= _ => match type of H with Rabs ?B <= _ => replace A with (- B) by ring end end. now rewrite Rabs_Ropp.
Qed.
Lemma pd_opp k f p : pd k (fun q => - f q) p = - pd k f p.
Proof. unfold pd. apply Derive_opp. Qed.
Lemma fgradient_near c s cs a0 f g p k : off_axis cs a0 p -> (forall q, off_axis cs a0 q -> f q = g q) -> fgradient c s f k p = fgradient c s g k p.
Proof.
  intros O H. destruct c as [n|]; cbn [fgradient]; [now apply (pd_near cs a0) |].
  destruct k as [|k]; [f_equal |]; now apply (pd_near cs a0).
Qed.

Section Curl.
Variables (ch : factor) (a0 : nat) (u U : nat -> scalar).
Hypothesis Hc : ch = Cartesian 2 \/ ch = Polar.
Let cs := [Cartesian 1; ch].
Hypothesis D : forall j, differentiable (U j).
Hypothesis H : forall q i, off_axis cs a0 q -> (i < 3)%nat -> u i q = along cs a0 q (fun j => U j (place cs a0 q)) i.

Lemma two : dim ch = 2%nat.
Proof using Hc. clear H D. now destruct Hc as [-> | ->]. Qed.
Lemma along_first p V : along cs a0 p V 0 = V 0%nat.
Proof.
  pose proof (along_factor [] (Cartesian 1) [ch] a0 p V 0 ltac:(cbn; lia)) as A. change (along cs a0 p V 0 = total 1 (fun j => fframe (Cartesian 1) (a0 + 0) p 0 j * V j)) in A.
  rewrite A. unfold total. cbn. ring.
Qed.
Lemma along_rest p V k : (k < 2)%nat -> along cs a0 p V (S k) = fframe ch (a0 + 1) p k 0 * V 1%nat + fframe ch (a0 + 1) p k 1 * V 2%nat.
Proof using Hc.
  intros K. pose proof (along_factor [Cartesian 1] ch [] a0 p V k) as A. rewrite two in A. specialize (A K). change (dims [Cartesian 1]) with 1%nat in A. cbn [app] in A.
  change (S k) with (1 + k)%nat. unfold cs. rewrite A, total_two. reflexivity.
Qed.
Lemma place_vertical p t : place cs a0 (upd p a0 t) = upd (place cs a0 p) a0 t.
Proof. unfold cs. cbn [place fplace dim]. apply free_fplace. lia. Qed.
Lemma place_at p : place cs a0 p a0 = p a0.
Proof. unfold cs. cbn [place fplace dim]. apply free_fplace. lia. Qed.

Lemma vertical p k : off_axis cs a0 p -> (k < 2)%nat ->
  pd a0 (u (S k)) p = fframe ch (a0 + 1) p k 0 * pd a0 (U 1%nat) (place cs a0 p) + fframe ch (a0 + 1) p k 1 * pd a0 (U 2%nat) (place cs a0 p).
Proof.
  intros O K.
  rewrite (pd_near cs a0 _ (fun q => fframe ch (a0 + 1) q k 0 * U 1%nat (place cs a0 q) + fframe ch (a0 + 1) q k 1 * U 2%nat (place cs a0 q)) p a0 O).
  2: { intros q Oq. rewrite H by (try exact Oq; lia). apply (along_rest q (fun j => U j (place cs a0 q))), K. }
  assert (FF : forall t j, fframe ch (a0 + 1) (upd p a0 t) k j = fframe ch (a0 + 1) p k j).
  { intros t j. destruct ch as [n|]; cbn [fframe]; [reflexivity |]. rewrite upd_other by lia. reflexivity. }
  apply pd_is.
  apply (is_derive_ext (fun t => fframe ch (a0 + 1) p k 0 * U 1%nat (upd (place cs a0 p) a0 t) + fframe ch (a0 + 1) p k 1 * U 2%nat (upd (place cs a0 p) a0 t))).
  { intros t. now rewrite !FF, place_vertical. }
  rewrite <- (place_at p).
  apply (derive_plus (fun t => fframe ch (a0 + 1) p k 0 * U 1%nat (upd (place cs a0 p) a0 t)) (fun t => fframe ch (a0 + 1) p k 1 * U 2%nat (upd (place cs a0 p) a0 t)));
    [apply (is_derive_scal (fun t => U 1%nat (upd (place cs a0 p) a0 t))) | apply (is_derive_scal (fun t => U 2%nat (upd (place cs a0 p) a0 t)))]; apply axis_derive, D.
Qed.

Lemma slope p k : off_axis cs a0 p -> (k < 2)%nat ->
  fgradient ch (a0 + 1) (u 0%nat) k p = fframe ch (a0 + 1) p k 0 * pd (a0 + 1) (U 0%nat) (place cs a0 p) + fframe ch (a0 + 1) p k 1 * pd (a0 + 2) (U 0%nat) (place cs a0 p).
Proof.
  intros O K. rewrite (fgradient_near ch (a0 + 1) cs a0 _ (fun q => U 0%nat (place cs a0 q)) p k O).
  2: { intros q Oq. rewrite H by (try exact Oq; lia). apply (along_first q (fun j => U j (place cs a0 q))). }
  pose proof (factor_gradient [Cartesian 1] ch [] a0 (U 0%nat) p k (D 0) O) as G. rewrite two in G. specialize (G K). rewrite total_two in G. exact G.
Qed.

Lemma spin p : off_axis cs a0 p ->
  fdivergence ch (a0 + 1) (fskew ch (fun j => u (S j))) p = pd (a0 + 2) (U 1%nat) (place cs a0 p) - pd (a0 + 1) (U 2%nat) (place cs a0 p).
Proof.
  intros O. pose (W := fun j => match j with O => fun q => - U 2%nat q | _ => U 1%nat end : scalar).
  pose proof (factor_divergence [Cartesian 1] ch [] a0 (fskew ch (fun j => u (S j))) W p) as G. rewrite two, total_two in G.
  change (dims [Cartesian 1]) with 1%nat in G. cbn [app] in G. fold cs in G. rewrite G.
  - cbn [W]. rewrite pd_opp. replace (a0 + 1 + 1)%nat with (a0 + 2)%nat by lia. replace (a0 + 1 + 0)%nat with (a0 + 1)%nat by lia. ring.
  - intros j. destruct j; [apply differentiable_opp |]; apply D.
  - exact O.
  - intros q k Oq K. rewrite total_two.
    destruct Hc as [E|E]; rewrite E; destruct k as [|[|k]]; try lia; cbn [fskew]; rewrite H by (try exact Oq; lia); rewrite along_rest by lia; rewrite E; cbn [fframe Nat.eqb W]; ring.
Qed.

Lemma flat_curl p i flip : off_axis cs a0 p -> (i < 3)%nat ->
  curl_parts ch a0 (a0 + 1) 0 1 flip (component a0 a0 u) (component a0 (a0 + 1) u) i p = (if flip then -1 else 1) * along cs a0 p (curl a0 U (place cs a0 p)) i.
Proof.
  intros O I. unfold curl_parts.
  assert (C0 : component a0 a0 u 0 = u 0%nat) by (unfold component; f_equal; lia).
  assert (C1 : component a0 (a0 + 1) u = fun j => u (S j)) by (extensionality j; unfold component; f_equal; lia).
  rewrite C0, C1, two, total_two, (spin p O).
  pose proof (vertical p 0 O ltac:(lia)) as V0. pose proof (vertical p 1 O ltac:(lia)) as V1.
  pose proof (slope p 0 O ltac:(lia)) as S0. pose proof (slope p 1 O ltac:(lia)) as S1.
  assert (X : total 2 (fun j => identity_entry 1 2 i j * (pd a0 (fskew ch (fun j => u (S j)) j) p - fskew ch (fgradient ch (a0 + 1) (u 0%nat)) j p)) +
     - ((if Nat.eqb i 0 then 1 else 0) * (pd (a0 + 2) (U 1%nat) (place cs a0 p) - pd (a0 + 1) (U 2%nat) (place cs a0 p))) = along cs a0 p (curl a0 U (place cs a0 p)) i).
  { rewrite total_two. destruct i as [|i].
    - rewrite along_first. unfold identity_entry. cbn [curl Nat.ltb Nat.leb Nat.eqb andb Nat.add]. ring.
    - rewrite (along_rest p _ i) by lia. cbn [curl].
      destruct Hc as [E|E]; rewrite E in *; cbn [fskew fframe Nat.eqb] in *; rewrite pd_opp, S0, S1, V0, V1; destruct i as [|[|i]]; try lia;
        unfold identity_entry; cbn [Nat.ltb Nat.leb Nat.eqb andb Nat.add]; ring. }
  rewrite total_two in X. rewrite X. destruct flip; ring.
Qed.

Lemma frame_sign p : orientation (frame cs a0 p) = match ch with Polar => -1 | _ => 1 end.
Proof using Hc.
  clear H D. unfold orientation, cs. destruct Hc as [-> | ->]; cbn.
  - ring.
  - pose proof (sin2_cos2 (p (a0 + 1)%nat)) as T. unfold Rsqr in T. ring_simplify. lra.
Qed.
End Curl.
