(** C51: the affine coordinate maps. *)
From Coq Require Import List ZArith Reals String Bool Lra Lia.
Import ListNotations.
From Coquelicot Require Import Coquelicot.
From Verif Require Import AffineCOV_Model.
Local Open Scope R_scope.

Lemma pydiv_some x y : y <> 0 -> pydiv x y = Some (x / y).
Proof. unfold pydiv. destruct (Req_EM_T y 0); [tauto|reflexivity]. Qed.
Lemma cov_fields nl nr pl pr c : affine_cov (nl, nr) (pl, pr) = Some c ->
  nr - nl <> 0 /\ c = Cov nl nr (nr - nl) ((nl + nr) / 2) pl pr (pr - pl) ((pl + pr) / 2) ((pr - pl) / (nr - nl)).
Proof. cbn. unfold pydiv. destruct (Req_EM_T (nr - nl) 0); [discriminate|]. intros H. injection H as <-. split; [assumption|reflexivity]. Qed.

(** The map exists for every native interval of nonzero length. *)
Theorem cov_exists nl nr pl pr : nl <> nr <-> exists c, affine_cov (nl, nr) (pl, pr) = Some c.
Proof.
  cbn. unfold pydiv. destruct (Req_EM_T (nr - nl) 0) as [E|E]; split; intros H.
  - exfalso. apply H. lra.
  - destruct H as [c H]. discriminate.
  - eexists. reflexivity.
  - intros ->. apply E. ring.
Qed.
(** Endpoints and centres correspond, by name and by value, in both directions. *)
Theorem cov_points nl nr pl pr c : affine_cov (nl, nr) (pl, pr) = Some c -> pl <> pr ->
  (forall s x y, In (s, x, y) [("left", nl, pl); ("lower", nl, pl); ("right", nr, pr); ("upper", nr, pr); ("center", (nl + nr) / 2, (pl + pr) / 2); ("middle", (nl + nr) / 2, (pl + pr) / 2)]%string ->
     problem_coord c (Named s) = Some y /\ problem_coord c (At x) = Some y /\ native_coord c (Named s) = Some x /\ native_coord c (At y) = Some x)
  /\ forall s, ~ In s ["left"; "lower"; "right"; "upper"; "center"; "middle"]%string -> problem_coord c (Named s) = None /\ native_coord c (Named s) = None.
Proof.
  intros H Hp. apply cov_fields in H. destruct H as [Hn ->]. assert (Hp' : pr - pl <> 0) by lra. split.
  - intros s x y Hin. cbn -[one_of]. rewrite !(pydiv_some _ _ Hn), !(pydiv_some _ _ Hp').
    repeat (destruct Hin as [Hin|Hin]; [injection Hin as <- <- <-; repeat split; try reflexivity; f_equal; field; lra|]). contradiction.
  - intros s Hs. assert (E : forall l, (forall t, In t l -> In t ["left"; "lower"; "right"; "upper"; "center"; "middle"]%string) -> one_of s l = false).
    { intros l Hl. unfold one_of. destruct (existsb (String.eqb s) l) eqn:E; [|reflexivity]. exfalso. apply existsb_exists in E. destruct E as (t & Ht & Et). apply String.eqb_eq in Et. subst t. apply Hs. apply Hl. assumption. }
    cbn -[one_of]. rewrite !E by (cbn; tauto). split; reflexivity.
Qed.
(** The two maps are inverse to each other, at every point. *)
Theorem cov_inverse nl nr pl pr c x : affine_cov (nl, nr) (pl, pr) = Some c -> pl <> pr ->
  (exists y, problem_coord c (At x) = Some y /\ native_coord c (At y) = Some x) /\ (exists y, native_coord c (At x) = Some y /\ problem_coord c (At y) = Some x).
Proof.
  intros H Hp. apply cov_fields in H. destruct H as [Hn ->]. assert (Hp' : pr - pl <> 0) by lra. cbn.
  split; eexists; rewrite ?(pydiv_some _ _ Hn), ?(pydiv_some _ _ Hp'); (split; [reflexivity|]); rewrite ?(pydiv_some _ _ Hn), ?(pydiv_some _ _ Hp'); f_equal; field; lra.
Qed.
(** The stretch is the derivative of the map to problem coordinates, and its inverse that of the other. *)
Theorem cov_stretch nl nr pl pr c (f g : R -> R) x : affine_cov (nl, nr) (pl, pr) = Some c -> pl <> pr ->
  (forall x, problem_coord c (At x) = Some (f x)) -> (forall x, native_coord c (At x) = Some (g x)) ->
  is_derive f x (stretch c) /\ is_derive g x (/ stretch c) /\ stretch c <> 0.
Proof.
  intros H Hp Hf Hg. apply cov_fields in H. destruct H as [Hn ->]. assert (Hp' : pr - pl <> 0) by lra. cbn in *. split; [|split].
  - apply is_derive_ext with (fun x => pl + (x - nl) / (nr - nl) * (pr - pl)).
    + intros t. specialize (Hf t). rewrite (pydiv_some _ _ Hn) in Hf. injection Hf as <-. reflexivity.
    + auto_derive; [exact I|]. field. exact Hn.
  - apply is_derive_ext with (fun x => nl + (x - pl) / (pr - pl) * (nr - nl)).
    + intros t. specialize (Hg t). rewrite (pydiv_some _ _ Hp') in Hg. injection Hg as <-. reflexivity.
    + auto_derive; [exact I|]. field. split; assumption.
  - intros E. apply Hp'. replace (pr - pl) with ((pr - pl) / (nr - nl) * (nr - nl)) by (field; exact Hn). rewrite E. ring.
Qed.
(** For intervals given from left to right the map is increasing and takes the inside to the inside. *)
Theorem cov_inside nl nr pl pr c x y : affine_cov (nl, nr) (pl, pr) = Some c -> nl < nr -> pl < pr -> problem_coord c (At x) = Some y -> (nl <= x <= nr <-> pl <= y <= pr).
Proof.
  intros H Hn Hp. apply cov_fields in H. destruct H as [Hn' ->]. cbn. rewrite (pydiv_some _ _ Hn'). intros E. injection E as <-.
  assert (F : (x - nl) / (nr - nl) * (nr - nl) = x - nl) by (field; exact Hn'). set (t := (x - nl) / (nr - nl)) in *. split; intros [H1 H2].
  - assert (0 <= t) by nra. assert (t <= 1) by nra. nra.
  - assert (0 <= t) by nra. assert (t <= 1) by nra. nra.
Qed.
(** A degenerate interval is accepted, but its points have no native coordinates. *)
Theorem cov_degenerate_refuted nl nr p x : nl <> nr -> exists c, affine_cov (nl, nr) (p, p) = Some c /\ stretch c = 0 /\ native_coord c (At x) = None.
Proof.
  intros H. destruct (proj1 (cov_exists nl nr p p) H) as [c Hc]. exists c. split; [exact Hc|]. apply cov_fields in Hc. destruct Hc as [Hn ->]. cbn. split; [field; exact Hn|].
  unfold pydiv. destruct (Req_EM_T (p - p) 0) as [|E]; [reflexivity|]. exfalso. apply E. ring.
Qed.
(** The grid of a Fourier basis: equally spaced points from the left end, without the right end. *)
Theorem fourier_grid pl pr c N : affine_cov fourier_bounds (pl, pr) = Some c -> (0 < N)%nat ->
  List.length (global_grid c (fourier_native_grid N)) = N /\ forall j, (j < N)%nat -> nth j (global_grid c (fourier_native_grid N)) None = Some (pl + INR j * ((pr - pl) / INR N)).
Proof.
  intros H HN. apply cov_fields in H. destruct H as [Hn ->]. unfold global_grid, fourier_native_grid. split; [rewrite !map_length, seq_length; reflexivity|].
  intros j Hj. rewrite (nth_indep _ None (problem_coord (Cov 0 (2 * PI) (2 * PI - 0) ((0 + 2 * PI) / 2) pl pr (pr - pl) ((pl + pr) / 2) ((pr - pl) / (2 * PI - 0))) (At ((2 * PI / INR N) * INR N)))) by (rewrite !map_length, seq_length; exact Hj).
  rewrite (map_nth (fun x => problem_coord _ (At x))). rewrite (map_nth (fun j => 2 * PI / INR N * INR j)). rewrite seq_nth by exact Hj. cbn. rewrite (pydiv_some _ _ Hn). f_equal.
  assert (INR N <> 0) by (apply not_0_INR; lia). pose proof PI_neq0. field. repeat split; (lra || assumption).
Qed.
Print Assumptions cov_exists.
Print Assumptions cov_points.
Print Assumptions cov_inverse.
Print Assumptions cov_stretch.
Print Assumptions cov_inside.
Print Assumptions cov_degenerate_refuted.
Print Assumptions fourier_grid.

(** ** Examples *)
Example cov_example : exists c, affine_cov (-1, 1) (2, 6) = Some c /\ problem_coord c (At 0) = Some 4 /\ native_coord c (At 3) = Some (- (1 / 2)) /\ stretch c = 2.
Proof.
  eexists. split; [cbn; rewrite pydiv_some by lra; reflexivity|]. cbn. rewrite !pydiv_some by lra. repeat split; f_equal; field.
Qed.
