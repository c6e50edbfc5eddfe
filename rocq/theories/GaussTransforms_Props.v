(** Transforms on grids of Gauss points: the properties. *)
From Coq Require Import List ZArith Reals Bool Lia Lra.
Import ListNotations.
From Verif Require Import MatSolvers_Model Codomain_Model Codomain_Proofs JacobiCalc_Model JacobiCalc_Spec JacobiCalc_Proofs JacobiCalc_Ops JacobiCalc_Props Radial_Model Radial_Spec Radial_Proofs GaussTransforms_Model GaussTransforms_Spec GaussTransforms_Proofs.
Local Open Scope R_scope.

Section Mass.
Context (mass : R -> R -> R) (Hm : mass_rules mass) (quadrature : nat -> R -> R -> list (R * R)).
Notation unit a b := (fun i => unit_polynomial mass i a b).

(** ** What the Gauss points must do *)
(** Points and weights that integrate every polynomial of degree below [2 n] do. *)
Theorem gauss_of_exact n a b q (I : (R -> R) -> R) : length q = n -> (forall z w, In (z, w) q -> -1 < z < 1) ->
  (forall p, polynomial (2 * n) p -> weighted_sum q p = I p) -> (forall l i j, orthonormal mass I a b l i j) -> gauss mass n a b q.
Proof.
  intros H1 H2 H3 H4. split; [exact H1|]. split; [exact H2|]. intros l i j H. unfold orthonormal. rewrite H3; [apply H4|].
  apply (polynomial_more (S (l + i) + j)); [lia|]. apply polynomial_times; [|apply polynomial_unit]. apply (polynomial_times (S l) i); [apply polynomial_one_plus|apply polynomial_unit].
Qed.

(** ** Jacobi polynomials *)
Section Jacobi.
Context (N M : nat) (HN : (1 <= N)%nat) (HM : (1 <= M)%nat) (a0 b0 : R) (Ha : -1 < a0) (Hb : -1 < b0) (da db : nat).
Notation q := (quadrature N a0 b0).
Context (Hq : gauss mass N a0 b0 q).
Notation a := (a0 + INR da).
Notation b := (b0 + INR db).
(** From [M] coefficients to [N] points and back.  The first transform gives the values of the function, without its terms above the
    number of points.  The second finds the coefficients from the values, if the function has no more terms than there are points
    and coefficients. *)
Theorem jacobi_transforms early : exists F B, jacobi_forward_matrix mass quadrature early N M a b a0 b0 = Some F /\ jacobi_backward_matrix mass quadrature N M a b a0 b0 = Some B
  /\ nr F = M /\ nc F = N /\ nr B = N /\ nc B = M
  /\ (forall c t, (t < N)%nat -> image B c t = series (Nat.min M N) c (unit a b) (point q t))
  /\ (forall n c g, (n <= M)%nat -> (n <= N)%nat -> (forall t, (t < N)%nat -> g t = series n c (unit a b) (point q t)) -> forall i, (i < M)%nat -> image F g i = if (i <? n)%nat then c i else 0)
  /\ (forall c i, (i < M)%nat -> image F (image B c) i = if (i <? N)%nat then c i else 0).
Proof.
  destruct (jacobi_forward_value mass Hm quadrature N M HN HM a0 b0 Ha Hb Hq da db early) as (F & EF & HrF & HcF & HF & _). destruct (jacobi_backward_value mass Hm quadrature N M HN HM a0 b0 Ha Hb Hq da db) as (B & EB & HrB & HcB & HB).
  assert (G : forall n c g, (n <= M)%nat -> (n <= N)%nat -> (forall t, (t < N)%nat -> g t = series n c (unit a b) (point q t)) -> forall i, (i < M)%nat -> image F g i = if (i <? n)%nat then c i else 0).
  { intros n c g H1 H2 H i Hi. rewrite <- (HF n c i H1 H2 Hi). unfold image. rewrite HcF. apply Rtotal_ext. intros t Ht. rewrite (H t Ht). reflexivity. }
  exists F, B. repeat (split; [assumption|]). intros c i Hi. rewrite (G (Nat.min M N) c (image B c) ltac:(lia) ltac:(lia)) by first [exact Hi | intros t Ht; apply HB, Ht]. destruct (Nat.ltb_spec i (Nat.min M N)), (Nat.ltb_spec i N); try lia; reflexivity.
Qed.
(** Functions with up to as many terms as points, but more than coefficients: dealiasing before conversion drops the terms of the
    polynomials of the grid, dealiasing after conversion drops those of the polynomials of the coefficients. *)
Theorem jacobi_dealias_before : exists F, jacobi_forward_matrix mass quadrature true N M a b a0 b0 = Some F
  /\ forall n e g, (n <= N)%nat -> (forall t, (t < N)%nat -> g t = series n e (unit a0 b0) (point q t)) -> forall z, series M (image F g) (unit a b) z = series (Nat.min M n) e (unit a0 b0) z.
Proof.
  destruct (jacobi_forward_value mass Hm quadrature N M HN HM a0 b0 Ha Hb Hq da db true) as (F & EF & HrF & HcF & _ & HF & _). exists F. split; [exact EF|]. intros n e g Hn H z. rewrite <- (HF eq_refl n e z Hn). apply series_ext. intros i _. unfold image. rewrite HcF. apply Rtotal_ext. intros t Ht. rewrite (H t Ht). reflexivity.
Qed.
Theorem jacobi_dealias_after : exists F, jacobi_forward_matrix mass quadrature false N M a b a0 b0 = Some F
  /\ forall n c g, (n <= N)%nat -> (forall t, (t < N)%nat -> g t = series n c (unit a b) (point q t)) -> forall i, (i < M)%nat -> image F g i = if (i <? n)%nat then c i else 0.
Proof.
  destruct (jacobi_forward_value mass Hm quadrature N M HN HM a0 b0 Ha Hb Hq da db false) as (F & EF & HrF & HcF & _ & _ & HF). exists F. split; [exact EF|]. intros n c g Hn H i Hi.
  destruct (unit_change mass Hm n a b a0 b0 Ha Hb c) as (e & He). rewrite <- (HF eq_refl n e c i Hn He Hi). unfold image. rewrite HcF. apply Rtotal_ext. intros t Ht. rewrite (H t Ht). unfold series at 1. rewrite He. reflexivity.
Qed.
End Jacobi.

(** ** Zernike functions *)
Definition ball_point radius z : R := radius * sqrt ((1 + z) / 2).
Lemma scaled d radius k l n c z : 0 < radius -> series n c (zernike mass d radius k l) (ball_point radius z) = series n c (zernike mass d 1 k l) (sqrt ((1 + z) / 2)).
Proof. intros H. apply Rtotal_ext. intros i _. unfold zernike, ball_point. replace (radius * sqrt ((1 + z) / 2) / radius) with (sqrt ((1 + z) / 2) / 1) by (field; lra). reflexivity. Qed.
Lemma radial_transforms early d Ng Nc Nmin alpha k l radius : (1 <= d)%nat -> (Nmin < Nc)%nat -> -1 < alpha -> 0 < radius -> gauss mass Ng alpha (INR d / 2 - 1) (quadrature Ng alpha (INR d / 2 - 1)) ->
  let f := zernike mass d radius (alpha + INR k) l in
  let r t := ball_point radius (point (quadrature Ng alpha (INR d / 2 - 1)) t) in
  let size := (Nc - Nmin)%nat in
  let known := (Ng - l / 2)%nat in
  exists F B, radial_forward_matrix mass quadrature early d Ng Nc Nmin alpha k (Z.of_nat l) = Some F /\ radial_backward_matrix mass quadrature d Ng Nc Nmin alpha k (Z.of_nat l) = Some B
  /\ nr F = size /\ nc F = Ng /\ nr B = Ng /\ nc B = size
  /\ (forall c t, (t < Ng)%nat -> image B c t = series (Nat.min size known) c f (r t))
  /\ (forall n c g, (n <= size)%nat -> (n <= known)%nat -> (forall t, (t < Ng)%nat -> g t = series n c f (r t)) -> forall i, (i < size)%nat -> image F g i = if (i <? n)%nat then c i else 0)
  /\ (forall c i, (i < size)%nat -> image F (image B c) i = if (i <? known)%nat then c i else 0).
Proof.
  intros Hd HN Ha Hr Hq f r size known. destruct (radial_forward_value mass Hm quadrature d Hd Ng Nc Nmin HN alpha Ha Hq k l early) as (F & EF & HrF & HcF & HF & _). destruct (radial_backward_value mass Hm quadrature d Hd Ng Nc Nmin HN alpha Ha Hq k l) as (B & EB & HrB & HcB & HB).
  assert (G : forall n c g, (n <= size)%nat -> (n <= known)%nat -> (forall t, (t < Ng)%nat -> g t = series n c f (r t)) -> forall i, (i < size)%nat -> image F g i = if (i <? n)%nat then c i else 0).
  { intros n c g H1 H2 H i Hi. rewrite <- (HF n c i H1 H2 Hi). unfold image. rewrite HcF. apply Rtotal_ext. intros t Ht. rewrite (H t Ht). unfold f, r. rewrite scaled by exact Hr. reflexivity. }
  assert (GB : forall c t, (t < Ng)%nat -> image B c t = series (Nat.min size known) c f (r t)).
  { intros c t Ht. unfold f, r. rewrite scaled by exact Hr. apply HB, Ht. }
  exists F, B. repeat (split; [assumption|]). intros c i Hi. rewrite (G (Nat.min size known) c (image B c) ltac:(lia) ltac:(lia)) by first [exact Hi | intros t Ht; apply GB, Ht]. destruct (Nat.ltb_spec i (Nat.min size known)), (Nat.ltb_spec i known); try lia; reflexivity.
Qed.
Section Radial.
Context (early : bool) (Ng Nc : nat) (alpha : R) (k : nat) (radius : R) (Ha : -1 < alpha) (Hr : 0 < radius).
(** Disks, for a component with given order and spin. *)
Theorem disk_transforms m s : gauss mass Ng alpha 0 (quadrature Ng alpha 0) -> (Z.abs m / 2 < Z.of_nat Nc)%Z ->
  let f := zernike mass 2 radius (alpha + INR k) (Z.abs_nat (m + s)) in
  let r t := ball_point radius (point (quadrature Ng alpha 0) t) in
  let size := (Nc - Z.abs_nat m / 2)%nat in
  let known := (Ng - Z.abs_nat (m + s) / 2)%nat in
  exists F B, disk_forward_matrix mass quadrature early Ng Nc alpha k m s = Some F /\ disk_backward_matrix mass quadrature Ng Nc alpha k m s = Some B
  /\ nr F = size /\ nc F = Ng /\ nr B = Ng /\ nc B = size
  /\ (forall c t, (t < Ng)%nat -> image B c t = series (Nat.min size known) c f (r t))
  /\ (forall n c g, (n <= size)%nat -> (n <= known)%nat -> (forall t, (t < Ng)%nat -> g t = series n c f (r t)) -> forall i, (i < size)%nat -> image F g i = if (i <? n)%nat then c i else 0)
  /\ (forall c i, (i < size)%nat -> image F (image B c) i = if (i <? known)%nat then c i else 0).
Proof.
  intros Hq HN. assert (E : INR 2 / 2 - 1 = 0) by (cbn; field). pose proof (radial_transforms early 2 Ng Nc (Z.abs_nat m / 2) alpha k (Z.abs_nat (m + s)) radius) as T. rewrite E in T. unfold disk_forward_matrix, disk_backward_matrix.
  replace (Z.to_nat (Z.max (Z.abs m / 2) 0)) with (Z.abs_nat m / 2)%nat; [|rewrite <- Zabs2Nat.id_abs; change 2%Z with (Z.of_nat 2); rewrite <- Nat2Z.inj_div; lia].
  rewrite <- Zabs2Nat.id_abs. apply T; try assumption; [lia|]. rewrite <- Zabs2Nat.id_abs in HN. change 2%Z with (Z.of_nat 2) in HN. rewrite <- Nat2Z.inj_div in HN. lia.
Qed.
(** Balls, for a component with given degree and regularity; [l] is the sum of the two. *)
Theorem ball_transforms ell regtotal l : (0 <= ell)%Z -> (ell + regtotal = Z.of_nat l)%Z -> gauss mass Ng alpha (1 / 2) (quadrature Ng alpha (1 / 2)) -> (ell / 2 < Z.of_nat Nc)%Z ->
  let f := zernike mass 3 radius (alpha + INR k) l in
  let r t := ball_point radius (point (quadrature Ng alpha (1 / 2)) t) in
  let size := (Nc - Z.to_nat ell / 2)%nat in
  let known := (Ng - l / 2)%nat in
  exists F B, ball_forward_matrix mass quadrature early false Ng Nc alpha k ell regtotal = Some F /\ ball_backward_matrix mass quadrature false Ng Nc alpha k ell regtotal = Some B
  /\ nr F = size /\ nc F = Ng /\ nr B = Ng /\ nc B = size
  /\ (forall c t, (t < Ng)%nat -> image B c t = series (Nat.min size known) c f (r t))
  /\ (forall n c g, (n <= size)%nat -> (n <= known)%nat -> (forall t, (t < Ng)%nat -> g t = series n c f (r t)) -> forall i, (i < size)%nat -> image F g i = if (i <? n)%nat then c i else 0)
  /\ (forall c i, (i < size)%nat -> image F (image B c) i = if (i <? known)%nat then c i else 0).
Proof.
  intros He El Hq HN. assert (E : INR 3 / 2 - 1 = 1 / 2) by (cbn; field). pose proof (radial_transforms early 3 Ng Nc (Z.to_nat ell / 2) alpha k l radius) as T. rewrite E in T. unfold ball_forward_matrix, ball_backward_matrix. cbv zeta.
  assert (E2 : (ell / 2 = Z.of_nat (Z.to_nat ell / 2))%Z) by (rewrite Nat2Z.inj_div, Z2Nat.id by exact He; reflexivity).
  rewrite El, E2. replace (Z.to_nat (Z.max (Z.of_nat (Z.to_nat ell / 2)) 0)) with (Z.to_nat ell / 2)%nat by lia. apply T; try assumption; lia.
Qed.
(** Components that smooth tensors do not have are set to zero. *)
Theorem ball_forbidden ell regtotal : (0 <= ell)%Z -> (ell / 2 < Z.of_nat Nc)%Z ->
  exists F B, ball_forward_matrix mass quadrature early true Ng Nc alpha k ell regtotal = Some F /\ ball_backward_matrix mass quadrature true Ng Nc alpha k ell regtotal = Some B
  /\ nr F = (Nc - Z.to_nat ell / 2)%nat /\ nc F = Ng /\ nr B = Ng /\ nc B = (Nc - Z.to_nat ell / 2)%nat /\ (forall g i, image F g i = 0) /\ (forall c t, image B c t = 0).
Proof.
  intros He HN. unfold ball_forward_matrix, ball_backward_matrix. cbv zeta. assert (E2 : (ell / 2 = Z.of_nat (Z.to_nat ell / 2))%Z) by (rewrite Nat2Z.inj_div, Z2Nat.id by exact He; reflexivity).
  rewrite E2 in *. replace (Z.to_nat (Z.max (Z.of_nat (Z.to_nat ell / 2)) 0)) with (Z.to_nat ell / 2)%nat by lia. destruct (Nat.ltb_spec Nc (Z.to_nat ell / 2)); [lia|].
  eexists _, _. do 2 (split; [reflexivity|]). cbn [nr nc]. do 4 (split; [reflexivity|]). split; intros g i; unfold image; cbn [nc at_]; apply Rtotal_zero; intros; ring.
Qed.
End Radial.
(** With as many points as coefficients, the last coefficient of the component with spin [+1] of an odd order is lost: it is one of the
    coefficients of the field, and going to the grid and back sets it to zero. *)
Theorem disk_round_trip_refuted early N alpha k m : (1 <= N)%nat -> -1 < alpha -> gauss mass N alpha 0 (quadrature N alpha 0) -> Nat.odd m = true -> (m / 2 < N)%nat ->
  exists F B, disk_forward_matrix mass quadrature early N N alpha k (Z.of_nat m) 1 = Some F /\ disk_backward_matrix mass quadrature N N alpha k (Z.of_nat m) 1 = Some B /\ nc B = (N - m / 2)%nat
  /\ forall c, image F (image B c) (N - m / 2 - 1) = 0.
Proof.
  intros HN Ha Hq Hodd Hm2. pose proof (Nat.odd_spec m) as [O _]. destruct (O Hodd) as [p Hp].
  assert (D1 : (m / 2 = p)%nat) by (subst m; rewrite Nat.mul_comm, Nat.div_add_l by lia; change (1 / 2)%nat with 0%nat; lia). assert (D2 : ((m + 1) / 2 = S p)%nat) by (subst m; replace (2 * p + 1 + 1)%nat with (S p * 2)%nat by lia; apply Nat.div_mul; lia).
  destruct (disk_transforms early N N alpha k 1 Ha Rlt_0_1 (Z.of_nat m) 1 Hq) as (F & B & EF & EB & H1 & H2 & H3 & H4 & _ & _ & H).
  - rewrite Z.abs_eq by lia. change 2%Z with (Z.of_nat 2). rewrite <- Nat2Z.inj_div. lia.
  - replace (Z.abs_nat (Z.of_nat m + 1)) with (m + 1)%nat in H by lia. replace (Z.abs_nat (Z.of_nat m)) with m in * by lia. rewrite D1, D2 in *. exists F, B. do 3 (split; [assumption|]). intros c. rewrite (H c (N - p - 1)%nat) by lia. destruct (Nat.ltb_spec (N - p - 1) (N - S p)); [lia|reflexivity].
Qed.

(** ** Shells and annuli *)
Section Shell.
Context (N M : nat) (HN : (1 <= N)%nat) (HM : (1 <= M)%nat) (inner outer : R) (Hin : 0 < inner) (Hout : inner < outer) (a b : R) (Ha : -1 < a) (Hb : -1 < b) (k : nat) (Hq : gauss mass N a b (quadrature N a b)).
Notation r t := (inner + (outer - inner) * (1 + point (quadrature N a b) t) / 2).
Lemma shell_point t : (t < N)%nat -> shell_radius inner outer (point (quadrature N a b) t) = r t /\ 0 < r t.
Proof.
  intros Ht. destruct Hq as (HL & Hi & _). unfold point. destruct (nth t (quadrature N a b) (0, 0)) as [z w] eqn:E. cbn [fst]. assert (Hz : -1 < z < 1) by (apply (Hi z w); rewrite <- E; apply nth_In; lia). split; [unfold shell_radius; field; lra|nra].
Qed.
Lemma shell_values n c t : (t < N)%nat -> series n c (shell_function mass inner outer a b k) (r t) = ((outer - inner) / r t) ^ k * series n c (unit (a + INR k) (b + INR k)) (point (quadrature N a b) t).
Proof.
  intros Ht. unfold series. rewrite <- Rtotal_scale. apply Rtotal_ext. intros i _. unfold shell_function. replace ((2 * r t - (outer + inner)) / (outer - inner)) with (point (quadrature N a b) t) by (field; lra). ring.
Qed.
Theorem shell_forward_exact early n c g : (n <= M)%nat -> (n <= N)%nat -> (forall t, (t < N)%nat -> g t = series n c (shell_function mass inner outer a b k) (r t)) ->
  exists c', shell_forward mass quadrature early N M inner outer a b k g = Some c' /\ forall i, (i < M)%nat -> c' i = if (i <? n)%nat then c i else 0.
Proof.
  intros H1 H2 H. destruct (jacobi_transforms N M HN HM a b Ha Hb k k Hq early) as (F & B & EF & _ & HrF & HcF & _ & _ & _ & HF & _). unfold shell_forward. rewrite EF. cbn [obind]. eexists. split; [reflexivity|]. intros i Hi. cbv beta zeta.
  rewrite <- (HF n c (fun t => series n c (unit (a + INR k) (b + INR k)) (point (quadrature N a b) t)) H1 H2 ltac:(reflexivity) i Hi). unfold image. rewrite HcF. apply Rtotal_ext. intros t Ht. f_equal. rewrite (H t Ht), shell_values by exact Ht. destruct (shell_point t Ht) as [E P].
  assert (Q : 0 < (outer - inner) / r t) by (apply Rdiv_lt_0_compat; lra). fold (point (quadrature N a b) t). unfold transform_factor. rewrite E. destruct (Nat.ltb_spec 0 k) as [Hk|Hk].
  - rewrite powerRZ_neg', <- pow_powerRZ. pose proof (pow_lt _ k Q) as Pk. set (v := ((outer - inner) / r t) ^ k) in *. set (u := series _ _ _ _). clearbody u v. field. lra.
  - assert (k = 0)%nat as -> by lia. cbn [pow]. ring.
Qed.
Theorem shell_transforms early c :
  exists g, shell_backward mass quadrature N M inner outer a b k c = Some g
  /\ (forall t, (t < N)%nat -> g t = series (Nat.min M N) c (shell_function mass inner outer a b k) (r t))
  /\ exists c', shell_forward mass quadrature early N M inner outer a b k g = Some c' /\ forall i, (i < M)%nat -> c' i = if (i <? N)%nat then c i else 0.
Proof.
  destruct (jacobi_transforms N M HN HM a b Ha Hb k k Hq early) as (F & B & _ & EB & _ & _ & HrB & HcB & HB & _ & _). unfold shell_backward. rewrite EB. cbn [obind]. eexists. split; [reflexivity|]. match goal with |- (forall t, _ -> ?g t = _) /\ _ => set (h := g) end.
  assert (G : forall t, (t < N)%nat -> h t = series (Nat.min M N) c (shell_function mass inner outer a b k) (r t)).
  { intros t Ht. rewrite shell_values by exact Ht. rewrite <- (HB c t Ht). unfold h. cbv zeta. change (msum 0 Rplus (nc B) (fun i => at_ B t i * c i)) with (image B c t). destruct (shell_point t Ht) as [E P]. fold (point (quadrature N a b) t). unfold transform_factor. rewrite E. destruct (Nat.ltb_spec 0 k) as [Hk|Hk].
    - rewrite <- pow_powerRZ. ring.
    - assert (k = 0)%nat as -> by lia. cbn [pow]. ring. }
  split; [exact G|]. destruct (shell_forward_exact early (Nat.min M N) c h ltac:(lia) ltac:(lia) G) as (c' & E & H). exists c'. split; [exact E|]. intros i Hi. rewrite (H i Hi). destruct (Nat.ltb_spec i (Nat.min M N)), (Nat.ltb_spec i N); try lia; reflexivity.
Qed.
End Shell.
End Mass.
Print Assumptions gauss_of_exact.
Print Assumptions jacobi_transforms.
Print Assumptions jacobi_dealias_before.
Print Assumptions jacobi_dealias_after.
Print Assumptions disk_transforms.
Print Assumptions ball_transforms.
Print Assumptions ball_forbidden.
Print Assumptions disk_round_trip_refuted.
Print Assumptions shell_forward_exact.
Print Assumptions shell_transforms.

(** ** Examples *)
(** The two Gauss points for the weight 1. *)
Definition two_points : list (R * R) := [(- sqrt (1 / 3), 1); (sqrt (1 / 3), 1)].
Lemma product_sum l i j : weighted_sum two_points (fun z => (1 + z) ^ l * unit_polynomial sample_mass i 0 (0 + INR l) z * unit_polynomial sample_mass j 0 (0 + INR l) z)
  = ((1 + - sqrt (1 / 3)) ^ l * classical i 0 (INR l) (- sqrt (1 / 3)) * classical j 0 (INR l) (- sqrt (1 / 3)) + (1 + sqrt (1 / 3)) ^ l * classical i 0 (INR l) (sqrt (1 / 3)) * classical j 0 (INR l) (sqrt (1 / 3)))
    / (sqrt (norm2 sample_mass i 0 (INR l)) * sqrt (norm2 sample_mass j 0 (INR l))).
Proof.
  rewrite Rplus_0_l. pose proof (pos_INR l). pose proof (sqrt_lt_R0 _ (norm2_pos sample_mass sample_rules i 0 (INR l) ltac:(lra) ltac:(lra))). pose proof (sqrt_lt_R0 _ (norm2_pos sample_mass sample_rules j 0 (INR l) ltac:(lra) ltac:(lra))).
  unfold weighted_sum, two_points, unit_polynomial. cbn [map fold_right fst snd]. field. lra.
Qed.
Lemma masses : sample_mass 0 0 = 2 /\ sample_mass 0 1 = 2 /\ sample_mass 0 2 = 8 / 3 /\ sample_mass 0 3 = 4.
Proof.
  pose proof sample_legendre as E. assert (S : forall b, -1 < b -> sample_mass 0 (b + 1) = 2 * (b + 1) / (b + 2) * sample_mass 0 b) by (intros b Hb; destruct (sample_rules 0 b ltac:(lra) Hb) as (_ & _ & ->); f_equal; f_equal; ring).
  assert (E1 : sample_mass 0 1 = 2) by (replace 1 with (0 + 1) by ring; rewrite S, E by lra; field). assert (E2 : sample_mass 0 2 = 8 / 3) by (replace 2 with (1 + 1) by ring; rewrite S, E1 by lra; field).
  repeat (split; [assumption|]). replace 3 with (2 + 1) by ring. rewrite S, E2 by lra. field.
Qed.
Example two_points_gauss : gauss sample_mass 2 0 0 two_points.
Proof.
  set (s := sqrt (1 / 3)). assert (Hs : s * s = 1 / 3) by (apply sqrt_sqrt; lra). assert (Hs0 : 0 < s) by (apply sqrt_lt_R0; lra). assert (s < 1) by nra. destruct masses as (M0 & M1 & M2 & M3).
  split; [reflexivity|]. split.
  { intros z w [E|[E|[]]]; injection E as <- <-; fold s; lra. }
  intros l i j HD. unfold orthonormal. rewrite product_sum. fold s.
  assert (K : (1 + - s) ^ l * classical i 0 (INR l) (- s) * classical j 0 (INR l) (- s) + (1 + s) ^ l * classical i 0 (INR l) s * classical j 0 (INR l) s = if (i =? j)%nat then norm2 sample_mass i 0 (INR l) else 0).
  { assert (S2 : s ^ 2 = 1 / 3) by (cbn [pow]; lra). assert (S3 : s ^ 3 = s / 3) by (cbn [pow]; nra). assert (S4 : s ^ 4 = 1 / 9) by (cbn [pow]; nra).
    assert (D : forall n : nat, (n < 4 -> n = 0 \/ n = 1 \/ n = 2 \/ n = 3)%nat) by (intros; lia).
    destruct (D l ltac:(lia)) as [->|[->|[->| ->]]], (D i ltac:(lia)) as [->|[->|[->| ->]]], (D j ltac:(lia)) as [->|[->|[->| ->]]]; try (exfalso; lia);
    unfold norm2, classical; rewrite !Rtotal_S; cbn -[pow]; replace (1 + 1) with 2 by ring; try replace (2 + 1) with 3 by ring; rewrite ?M0, ?M1, ?M2, ?M3; first [field_simplify_eq; lra | field_simplify_eq; nra]. }
  rewrite K. unfold delta. pose proof (pos_INR l) as Pl. destruct (Nat.eqb_spec i j) as [<-|]; [|unfold Rdiv; ring]. pose proof (norm2_pos sample_mass sample_rules i 0 (INR l) ltac:(lra) ltac:(lra)) as P. rewrite sqrt_sqrt by lra. field. lra.
Qed.
(** Two points and three coefficients of the disk: order 1, spin 1. *)
Example sample_disk : exists F B, disk_forward_matrix sample_mass (fun _ _ _ => two_points) true 2 3 0 2 1 1 = Some F /\ disk_backward_matrix sample_mass (fun _ _ _ => two_points) 2 3 0 2 1 1 = Some B
  /\ forall c i, (i < 3)%nat -> image F (image B c) i = if (i <? 1)%nat then c i else 0.
Proof.
  destruct (disk_transforms sample_mass sample_rules (fun _ _ _ => two_points) true 2 3 0 2 1 ltac:(lra) ltac:(lra) 1 1 two_points_gauss ltac:(reflexivity)) as (F & B & EF & EB & _ & _ & _ & _ & _ & _ & H). exists F, B. split; [exact EF|]. split; [exact EB|]. exact H.
Qed.
Example sample_shell c : exists g, shell_backward sample_mass (fun _ _ _ => two_points) 2 2 1 3 0 0 1 c = Some g
  /\ exists c', shell_forward sample_mass (fun _ _ _ => two_points) true 2 2 1 3 0 0 1 g = Some c' /\ c' 0%nat = c 0%nat /\ c' 1%nat = c 1%nat.
Proof.
  destruct (shell_transforms sample_mass sample_rules (fun _ _ _ => two_points) 2 2 ltac:(lia) ltac:(lia) 1 3 ltac:(lra) ltac:(lra) 0 0 ltac:(lra) ltac:(lra) 1 two_points_gauss true c) as (g & Eg & _ & c' & Ec & H). exists g. split; [exact Eg|]. exists c'. split; [exact Ec|]. split; apply H; lia.
Qed.
