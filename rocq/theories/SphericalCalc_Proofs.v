(** Tensor fields in balls and shells: proofs. *)
From Coq Require Import List ZArith Reals Bool Lia Lra.
Import ListNotations.
From Verif Require Import TupleTools_Model Intertwiner_Model Intertwiner_Spec Intertwiner_Proofs.
From Verif Require SphericalVec_Spec.
Local Open Scope R_scope.

Notation lower := SphericalVec_Spec.lower.
Notation upper := SphericalVec_Spec.upper.

(** ** From regularities to spins *)
Section Degree.
Context (L : Z) (HL : (0 <= L)%Z).
Notation Q := (Q L).
Notation D := (D_ L).
Notation "'J' b" := (L + Intertwiner_Model.zsum b)%Z (at level 9).
Definition along (x : Z) (u : tuple -> R) (t : tuple) : R := if (x =? 0)%Z then u t else 0.
Definition across (x : Z) (u : tuple -> R) (t : tuple) : R := if (x =? 0)%Z then 0 else D x u t.

Lemma root_quotient a b : 0 < a -> 0 < b -> sqrt (a / b) / sqrt (a * b) = / b.
Proof.
  intros Ha Hb. assert (S1 : sqrt (a / b) * b = sqrt (a * b)).
  { rewrite <- (sqrt_square b) at 2 by lra. rewrite <- sqrt_mult_alt by (apply Rlt_le, Rdiv_lt_0_compat; lra). f_equal. field. lra. }
  rewrite <- S1. assert (0 < sqrt (a / b)) by (apply sqrt_lt_R0, Rdiv_lt_0_compat; lra). field. split; lra.
Qed.
Lemma minus_entry n b x t : tup n b -> allowed L b -> three x -> tup n t ->
  lower (J b) * Q ((-1)%Z :: b) (x :: t) = (IZR (J b) * along x (Q b) t - across x (Q b) t) / (2 * IZR (J b) + 1).
Proof.
  intros Hb A Hx Ht. pose proof (allowed_nonneg L HL b A) as N. destruct (Z.eq_dec (J b) 0) as [Z|NZ].
  - rewrite Z. unfold lower. replace (0 / (2 * 0 + 1)) with 0 by field. rewrite sqrt_0. unfold across. destruct (x =? 0)%Z eqn:E; [field|]. apply Z.eqb_neq in E.
    rewrite (D_J0 L HL n) by (try assumption; try (unfold jj; rewrite Z; reflexivity); unfold three in Hx; unfold pm; tauto). field.
  - assert (P : 0 < IZR (J b)) by (apply (IZR_lt 0); lia).
    assert (Am : allowed L ((-1)%Z :: b)) by (apply allowed_cons; [exact HL|left; reflexivity|]; split; [exact A|lia]).
    rewrite (Q_step L n (-1)%Z b (or_introl eq_refl) Hb (proj1 (Q_level L HL n b Hb A)) Am) by (split; assumption). unfold vcol, al, be, ee, jj. cbn [Z.eqb Pos.eqb Pq Gq]. unfold along, across, lower.
    set (j := IZR (J b)) in *. assert (K : sqrt (j / (2 * j + 1)) / sqrt (j * (2 * j + 1)) = / (2 * j + 1)) by (apply root_quotient; lra). unfold Rdiv in *. destruct (x =? 0)%Z.
    + transitivity (j * Q b t * (sqrt (j * / (2 * j + 1)) * / sqrt (j * (2 * j + 1)))); [ring|]. rewrite K. ring.
    + transitivity (- D x (Q b) t * (sqrt (j * / (2 * j + 1)) * / sqrt (j * (2 * j + 1)))); [ring|]. rewrite K. ring.
Qed.
Lemma plus_entry n b x t : tup n b -> allowed L b -> three x -> tup n t ->
  upper (J b) * Q (1%Z :: b) (x :: t) = ((IZR (J b) + 1) * along x (Q b) t + across x (Q b) t) / (2 * IZR (J b) + 1).
Proof.
  intros Hb A Hx Ht. pose proof (allowed_nonneg L HL b A) as N. assert (P : 0 <= IZR (J b)) by (apply (IZR_le 0); lia).
  assert (Am : allowed L (1%Z :: b)) by (apply allowed_cons; [exact HL|right; left; reflexivity|]; split; [exact A|trivial]).
  rewrite (Q_step L n 1%Z b (or_intror (or_introl eq_refl)) Hb (proj1 (Q_level L HL n b Hb A)) Am) by (split; assumption). unfold vcol, al, be, ee, jj. cbn [Z.eqb Pos.eqb Pq Gq]. unfold along, across, upper. rewrite (plus_IZR (J b) 1).
  set (j := IZR (J b)) in *. assert (K : sqrt ((j + 1) / (2 * j + 1)) / sqrt ((j + 1) * (2 * j + 1)) = / (2 * j + 1)) by (apply root_quotient; lra). unfold Rdiv in *. destruct (x =? 0)%Z.
  + transitivity ((j + 1) * Q b t * (sqrt ((j + 1) * / (2 * j + 1)) * / sqrt ((j + 1) * (2 * j + 1)))); [ring|]. rewrite K. ring.
  + transitivity (D x (Q b) t * (sqrt ((j + 1) * / (2 * j + 1)) * / sqrt ((j + 1) * (2 * j + 1)))); [ring|]. rewrite K. ring.
Qed.
Lemma none_entry n a b x t : tup n b -> ~ allowed L b -> three a -> three x -> tup n t -> Q (a :: b) (x :: t) = 0 /\ along x (Q b) t = 0 /\ across x (Q b) t = 0.
Proof.
  intros Hb N Ha Hx Ht. assert (NA : ~ allowed L (a :: b)) by (intros C; apply (allowed_cons L HL a b Ha) in C; tauto). pose proof (Q_none L n b Hb N) as Z.
  split; [apply (Q_none L (S n)); [split; assumption|exact NA|split; assumption]|]. unfold along, across. rewrite (Z t Ht), (D_zero L n x _ t Hx Z Ht). destruct (x =? 0)%Z; split; reflexivity.
Qed.
Lemma D0 u t : D 0 u t = 0.
Proof. unfold D_. rewrite S_zero0. ring. Qed.
Lemma across_D x u t : across x u t = D x u t.
Proof. unfold across. destruct (x =? 0)%Z eqn:E; [apply Z.eqb_eq in E; subst; symmetry; apply D0|reflexivity]. Qed.

(** ** Gradients *)
Lemma D_scaled n sg a f t : three sg -> tup n t -> D sg (fun t => f t * a) t = D sg f t * a.
Proof. intros Hs Ht. rewrite (D_ext L n sg _ (fun t => a * f t + 0 * 0) t Hs) by (try exact Ht; intros; ring). rewrite (D_lin L sg a 0 f (fun _ => 0)). ring. Qed.
Definition spins (n : nat) (f : tuple -> R) (t : tuple) : R := tsum n (fun b => Q b t * f b).
Lemma gradient_spins n r (F E U : tuple -> R) x t : r <> 0 -> three x -> tup n t ->
  (forall b, tup n b -> allowed L b -> let j := IZR (J b) in
     U ((-1)%Z :: b) = lower (J b) * (E b + (j + 1) / r * F b) /\ U (1%Z :: b) = upper (J b) * (E b - j / r * F b) /\ U (0%Z :: b) = 0) ->
  spins (S n) U (x :: t) = along x (spins n E) t - / r * across x (spins n F) t.
Proof.
  intros Hr Hx Ht H. unfold spins at 1. cbn [tsum].
  transitivity (tsum n (fun b => 1 * (along x (Q b) t * E b) + (- / r) * (across x (Q b) t * F b))).
  - transitivity (tsum n (fun b => 1 * (1 * (Q ((-1)%Z :: b) (x :: t) * U ((-1)%Z :: b)) + 1 * (Q (1%Z :: b) (x :: t) * U (1%Z :: b))) + 1 * (Q (0%Z :: b) (x :: t) * U (0%Z :: b)))).
    { rewrite !tsum_lin. ring. }
    apply tsum_ext. intros b Hb. destruct (allowed_dec L b) as [A|N].
    + destruct (H b Hb A) as (H1 & H2 & H3). rewrite H1, H2, H3. pose proof (minus_entry n b x t Hb A Hx Ht) as M. pose proof (plus_entry n b x t Hb A Hx Ht) as P. pose proof (allowed_nonneg L HL b A) as NN. assert (0 <= IZR (J b)) by (apply (IZR_le 0); lia).
      set (j := IZR (J b)) in *. set (p := along x (Q b) t) in *. set (d := across x (Q b) t) in *.
      transitivity (lower (J b) * Q ((-1)%Z :: b) (x :: t) * (E b + (j + 1) / r * F b) + upper (J b) * Q (1%Z :: b) (x :: t) * (E b - j / r * F b)); [ring|]. rewrite M, P. field. split; lra.
    + destruct (none_entry n (-1)%Z b x t Hb N) as (Z1 & Z2 & Z3); try assumption; [left; reflexivity|]. destruct (none_entry n 1%Z b x t Hb N) as (Z4 & _); try assumption; [right; left; reflexivity|]. destruct (none_entry n 0%Z b x t Hb N) as (Z5 & _); try assumption; [right; right; reflexivity|]. rewrite Z1, Z2, Z3, Z4, Z5. ring.
  - rewrite tsum_lin. unfold along, across. destruct (x =? 0)%Z.
    + unfold spins. rewrite (tsum_zero n (fun b => 0 * F b)) by (intros; ring). ring.
    + rewrite (tsum_zero n (fun b => 0 * E b)) by (intros; ring). unfold spins. rewrite (D_tsum L n x (fun b t => Q b t * F b) t). rewrite (tsum_ext n (fun b => D x (fun t0 => Q b t0 * F b) t) (fun b => D x (Q b) t * F b)) by (intros b Hb; apply (D_scaled n); assumption). ring.
Qed.

(** ** Divergences *)
Lemma tsum_first n h : tsum (S n) h = tsum n (fun t => h ((-1)%Z :: t)) + tsum n (fun t => h (1%Z :: t)) + tsum n (fun t => h (0%Z :: t)).
Proof. reflexivity. Qed.
(** Components of the regularities that exist, from spins. *)
Lemma spins_back n (X : tuple -> R) a : tup n a -> allowed L a -> tsum n (fun s => Q a s * spins n X s) = X a.
Proof.
  intros Ha A. unfold spins.
  transitivity (tsum n (fun s => tsum n (fun b => Q a s * (Q b s * X b)))); [apply tsum_ext; intros s Hs; rewrite tsum_scal; reflexivity|].
  rewrite (tsum_swap n n (fun s b => Q a s * (Q b s * X b))). rewrite <- (tsum_delta n X a Ha). apply tsum_ext. intros b Hb.
  transitivity (tsum n (fun s => X b * (Q a s * Q b s))); [apply tsum_ext; intros; ring|]. rewrite tsum_scal. fold (dot n (Q a) (Q b)). rewrite (teq_sym b a).
  destruct (allowed_dec L b) as [B|N]; [rewrite (columns L HL n a b Ha Hb A B); ring|]. assert (a <> b) by (intros ->; contradiction). rewrite (teq_false a b H). unfold dot. rewrite tsum_zero; [cbn; ring|]. intros s Hs. rewrite (Q_none L n b Hb N s Hs). ring.
Qed.
(** What is zero for the spins that do not exist, from regularities. *)
Lemma spins_there n (f : tuple -> R) t : tup n t -> supp L n 0 f -> tsum n (fun b => Q b t * dot n (Q b) f) = f t.
Proof.
  intros Ht Hf. unfold dot.
  transitivity (tsum n (fun b => tsum n (fun s => Q b t * (Q b s * f s)))); [apply tsum_ext; intros b Hb; rewrite tsum_scal; reflexivity|].
  rewrite (tsum_swap n n (fun b s => Q b t * (Q b s * f s))). rewrite <- (tsum_delta n f t Ht). apply tsum_ext. intros s Hs.
  transitivity (tsum n (fun b => f s * (Q b t * Q b s))); [apply tsum_ext; intros; ring|]. rewrite tsum_scal, (rows L HL n t s Ht Hs), (teq_sym t s). unfold ind.
  destruct (list_eq_dec Z.eq_dec s t) as [->|N]; [|rewrite (teq_false s t N); cbn; ring]. rewrite teq_refl. cbn [b2R]. destruct (L <? Z.abs (zsum t))%Z eqn:E; [|ring]. apply Z.ltb_lt in E. rewrite (Hf t Ht) by (rewrite Z.add_0_r; exact E). ring.
Qed.
Lemma spins_supp n X : supp L n 0 (spins n X).
Proof. intros t Ht E. unfold spins. apply tsum_zero. intros b Hb. rewrite (proj1 (Q_level_all L HL n b Hb) t Ht E). ring. Qed.
Lemma spins_supp_cons n X x : three x -> supp L n x (fun t => spins (S n) X (x :: t)).
Proof. intros Hx t Ht E. apply (spins_supp (S n)); [split; assumption|]. rewrite zsum_c. replace (x + zsum t + 0)%Z with (zsum t + x)%Z by lia. exact E. Qed.
Lemma dot_D n b x f : tup n b -> three x -> tsum n (fun t => across x (Q b) t * f t) = if (x =? 0)%Z then 0 else dot n (Q b) (Ds L x f).
Proof.
  intros Hb Hx. unfold across. destruct (x =? 0)%Z eqn:E; [apply tsum_zero; intros; ring|]. apply Z.eqb_neq in E. rewrite <- (D_adj L n x) by (unfold three in Hx; unfold pm; tauto). reflexivity.
Qed.
Lemma entries_sum n b (h g : tuple -> R) : tup n b ->
  tsum (S n) (fun s => match s with x :: t => along x (Q b) t * h s + across x (Q b) t * g s | [] => 0 end)
  = dot n (Q b) (fun t => h (0%Z :: t)) + dot n (Q b) (Ds L (-1) (fun t => g ((-1)%Z :: t))) + dot n (Q b) (Ds L 1 (fun t => g (1%Z :: t))).
Proof.
  intros Hb. rewrite tsum_first. unfold along. cbn [Z.eqb].
  rewrite (tsum_ext n (fun t => 0 * h ((-1)%Z :: t) + across (-1) (Q b) t * g ((-1)%Z :: t)) (fun t => across (-1) (Q b) t * g ((-1)%Z :: t))) by (intros; ring).
  rewrite (tsum_ext n (fun t => 0 * h (1%Z :: t) + across 1 (Q b) t * g (1%Z :: t)) (fun t => across 1 (Q b) t * g (1%Z :: t))) by (intros; ring).
  rewrite (dot_D n b (-1) (fun t => g ((-1)%Z :: t)) Hb) by (left; reflexivity). rewrite (dot_D n b 1 (fun t => g (1%Z :: t)) Hb) by (right; left; reflexivity). cbn [Z.eqb].
  rewrite (tsum_ext n (fun t => Q b t * h (0%Z :: t) + across 0 (Q b) t * g (0%Z :: t)) (fun t => Q b t * h (0%Z :: t))) by (intros; unfold across; cbn [Z.eqb]; ring). unfold dot. ring.
Qed.
Lemma tsum_add n f g : tsum n (fun t => f t + g t) = tsum n f + tsum n g.
Proof. rewrite (tsum_ext n _ (fun t => 1 * f t + 1 * g t)) by (intros; ring). rewrite tsum_lin. ring. Qed.
Lemma divergence_spins n r (X E V : tuple -> R) t : r <> 0 -> tup n t ->
  (forall b, tup n b -> allowed L b -> let j := IZR (J b) in
     V b = lower (J b) * (E ((-1)%Z :: b) - (j - 1) / r * X ((-1)%Z :: b)) + upper (J b) * (E (1%Z :: b) + (j + 2) / r * X (1%Z :: b))) ->
  let T := spins (S n) X in
  spins n V t = spins (S n) E (0%Z :: t) + 2 / r * T (0%Z :: t) + / r * (Ds L (-1) (fun t => T ((-1)%Z :: t)) t + Ds L 1 (fun t => T (1%Z :: t)) t).
Proof.
  intros Hr Ht H T. set (e := spins (S n) E).
  assert (P : forall b, tup n b -> Q b t * V b = Q b t * dot n (Q b) (fun t => e (0%Z :: t) + 2 / r * T (0%Z :: t)) + / r * (Q b t * dot n (Q b) (Ds L (-1) (fun t => T ((-1)%Z :: t))) + Q b t * dot n (Q b) (Ds L 1 (fun t => T (1%Z :: t))))).
  { intros b Hb. destruct (allowed_dec L b) as [A|N]; [|rewrite (Q_none L n b Hb N t Ht); ring]. rewrite (H b Hb A). pose proof (allowed_nonneg L HL b A) as NN. assert (J0 : 0 <= IZR (J b)) by (apply (IZR_le 0); lia). set (j := IZR (J b)) in *.
    assert (Ap : allowed L (1%Z :: b)) by (apply allowed_cons; [exact HL|right; left; reflexivity|]; split; [exact A|trivial]).
    assert (Em : forall Y, lower (J b) * Y ((-1)%Z :: b) = tsum (S n) (fun s => lower (J b) * Q ((-1)%Z :: b) s * spins (S n) Y s)).
    { intros Y. destruct (Z.eq_dec (J b) 0) as [Z|NZ].
      - rewrite Z. replace (lower 0) with 0 by (unfold lower; replace (0 / (2 * 0 + 1)) with 0 by field; symmetry; apply sqrt_0). rewrite tsum_zero; [ring|]. intros; ring.
      - assert (Am : allowed L ((-1)%Z :: b)) by (apply allowed_cons; [exact HL|left; reflexivity|]; split; [exact A|lia]). rewrite <- (spins_back (S n) Y ((-1)%Z :: b)) at 1 by first [exact Am|exact (conj (or_introl eq_refl) Hb)]. rewrite <- tsum_scal. apply tsum_ext. intros; ring. }
    assert (Ep : forall Y, upper (J b) * Y (1%Z :: b) = tsum (S n) (fun s => upper (J b) * Q (1%Z :: b) s * spins (S n) Y s)).
    { intros Y. rewrite <- (spins_back (S n) Y (1%Z :: b)) at 1 by first [exact Ap|exact (conj (or_intror (or_introl eq_refl)) Hb)]. rewrite <- tsum_scal. apply tsum_ext. intros; ring. }
    transitivity (Q b t * tsum (S n) (fun s => match s with x :: t => along x (Q b) t * (e s + 2 / r * T s) + across x (Q b) t * (/ r * T s) | [] => 0 end)).
    - f_equal. transitivity (tsum (S n) (fun s => lower (J b) * Q ((-1)%Z :: b) s * e s) - (j - 1) / r * tsum (S n) (fun s => lower (J b) * Q ((-1)%Z :: b) s * T s) + (tsum (S n) (fun s => upper (J b) * Q (1%Z :: b) s * e s) + (j + 2) / r * tsum (S n) (fun s => upper (J b) * Q (1%Z :: b) s * T s))).
      { unfold e, T. rewrite <- (Em E), <- (Ep E), <- (Em X), <- (Ep X). ring. }
      rewrite <- !tsum_scal. unfold Rminus at 1. rewrite <- (tsum_add (S n) (fun t0 => upper (J b) * Q (1%Z :: b) t0 * e t0)). replace (- tsum (S n) (fun t0 => (j - 1) / r * (lower (J b) * Q ((-1)%Z :: b) t0 * T t0))) with ((-1) * tsum (S n) (fun t0 => (j - 1) / r * (lower (J b) * Q ((-1)%Z :: b) t0 * T t0))) by ring. rewrite <- tsum_scal, <- !tsum_add.
      apply tsum_ext. intros [|x s] Hs; [cbn in Hs; tauto|]. destruct Hs as [Hx Hs]. rewrite (minus_entry n b x s Hb A Hx Hs), (plus_entry n b x s Hb A Hx Hs). fold j. field. split; lra.
    - rewrite (entries_sum n b (fun s => e s + 2 / r * T s) (fun s => / r * T s) Hb).
      assert (S1 : forall x, pm x -> dot n (Q b) (Ds L x (fun t => / r * T (x :: t))) = / r * dot n (Q b) (Ds L x (fun t => T (x :: t)))).
      { intros x Hx. unfold dot. rewrite <- tsum_scal. apply tsum_ext. intros s Hs. rewrite (Ds_ext L n x _ (fun t => / r * T (x :: t) + 0 * 0) s Hx) by (try exact Hs; intros; ring). rewrite (Ds_lin L x (/ r) 0 (fun t => T (x :: t)) (fun _ => 0)). ring. }
      rewrite (S1 (-1)%Z) by (left; reflexivity). rewrite (S1 1%Z) by (right; reflexivity). ring. }
  unfold spins at 1. rewrite (tsum_ext n _ _ P), tsum_add, tsum_scal, tsum_add.
  rewrite (spins_there n (fun t => e (0%Z :: t) + 2 / r * T (0%Z :: t)) t Ht).
  - rewrite (spins_there n (Ds L (-1) (fun t => T ((-1)%Z :: t))) t Ht) by exact (Ds_supp L n (-1) _ (or_introl eq_refl) (spins_supp_cons n X (-1) (or_introl eq_refl))).
    rewrite (spins_there n (Ds L 1 (fun t => T (1%Z :: t))) t Ht) by exact (Ds_supp L n 1 _ (or_intror eq_refl) (spins_supp_cons n X 1 (or_intror (or_introl eq_refl)))). ring.
  - intros s Hs Hl. pose proof (spins_supp_cons n E 0%Z (or_intror (or_intror eq_refl)) s Hs Hl) as Z1. pose proof (spins_supp_cons n X 0%Z (or_intror (or_intror eq_refl)) s Hs Hl) as Z2. cbv beta in Z1, Z2. unfold e, T. rewrite Z1, Z2. ring.
Qed.

(** ** Curls *)
Lemma roots j : 0 < j -> let q1 := sqrt (j * (2 * j + 1)) in let q2 := sqrt (j * (j + 1)) in let q3 := sqrt ((j + 1) * (2 * j + 1)) in
  sqrt ((j + 1) / (2 * j + 1)) / (q1 * q2) = / (j * (2 * j + 1)) /\ sqrt (j / (2 * j + 1)) / (q3 * q2) = / ((j + 1) * (2 * j + 1)).
Proof.
  intros Hj q1 q2 q3. assert (0 < q1) by (apply sqrt_lt_R0; nra). assert (0 < q2) by (apply sqrt_lt_R0; nra). assert (0 < q3) by (apply sqrt_lt_R0; nra).
  assert (M1 : q1 * q1 = j * (2 * j + 1)) by (apply sqrt_sqrt; nra). assert (M2 : q2 * q2 = j * (j + 1)) by (apply sqrt_sqrt; nra). assert (M3 : q3 * q3 = (j + 1) * (2 * j + 1)) by (apply sqrt_sqrt; nra).
  assert (M : q1 * q3 = q2 * (2 * j + 1)).
  { unfold q1, q2, q3. rewrite <- sqrt_mult_alt by nra. replace (j * (2 * j + 1) * ((j + 1) * (2 * j + 1))) with (j * (j + 1) * ((2 * j + 1) * (2 * j + 1))) by ring. rewrite sqrt_mult_alt by nra. rewrite sqrt_square by lra. reflexivity. }
  assert (U : sqrt ((j + 1) / (2 * j + 1)) = q3 / (2 * j + 1)).
  { unfold q3. replace ((j + 1) / (2 * j + 1)) with ((j + 1) * (2 * j + 1) / ((2 * j + 1) * (2 * j + 1))) by (field; lra). rewrite sqrt_div_alt by nra. rewrite sqrt_square by lra. reflexivity. }
  assert (V : sqrt (j / (2 * j + 1)) = q1 / (2 * j + 1)).
  { unfold q1. replace (j / (2 * j + 1)) with (j * (2 * j + 1) / ((2 * j + 1) * (2 * j + 1))) by (field; lra). rewrite sqrt_div_alt by nra. rewrite sqrt_square by lra. reflexivity. }
  rewrite U, V. clear U V. clearbody q1 q2 q3. split.
  - transitivity (q3 * q3 / ((2 * j + 1) * q2 * (q1 * q3))); [field; repeat split; lra|]. rewrite M, M3. transitivity ((j + 1) / ((q2 * q2) * (2 * j + 1))); [field; repeat split; lra|]. rewrite M2. field. repeat split; lra.
  - transitivity (q1 * q1 / ((2 * j + 1) * q2 * (q1 * q3))); [field; repeat split; lra|]. rewrite M, M1. transitivity (j / ((q2 * q2) * (2 * j + 1))); [field; repeat split; lra|]. rewrite M2. field. repeat split; lra.
Qed.
Lemma cross_entries n b x t y s : tup n b -> allowed L b -> (0 < J b)%Z -> three x -> tup n t -> three y -> tup n s -> let j := IZR (J b) in
  upper (J b) * (Q ((-1)%Z :: b) (x :: t) * Q (0%Z :: b) (y :: s)) = (j * along x (Q b) t - across x (Q b) t) * (IZR y * across y (Q b) s) / (j * (2 * j + 1))
  /\ lower (J b) * (Q (1%Z :: b) (x :: t) * Q (0%Z :: b) (y :: s)) = ((j + 1) * along x (Q b) t + across x (Q b) t) * (IZR y * across y (Q b) s) / ((j + 1) * (2 * j + 1)).
Proof.
  intros Hb A P Hx Ht Hy Hs j. assert (Pj : 0 < j) by (apply (IZR_lt 0); lia). destruct (roots j Pj) as [K1 K2]. cbv zeta in K1, K2. pose proof (proj1 (Q_level L HL n b Hb A)) as Sq.
  assert (Am : allowed L ((-1)%Z :: b)) by (apply allowed_cons; [exact HL|left; reflexivity|]; split; [exact A|lia]). assert (Ap : allowed L (1%Z :: b)) by (apply allowed_cons; [exact HL|right; left; reflexivity|]; split; [exact A|trivial]). assert (A0 : allowed L (0%Z :: b)) by (apply allowed_cons; [exact HL|right; right; reflexivity|]; split; [exact A|lia]).
  rewrite (Q_step L n (-1)%Z b (or_introl eq_refl) Hb Sq Am) by (split; assumption). rewrite (Q_step L n 1%Z b (or_intror (or_introl eq_refl)) Hb Sq Ap) by (split; assumption). rewrite (Q_step L n 0%Z b (or_intror (or_intror eq_refl)) Hb Sq A0) by (split; assumption).
  assert (Q0 : sqrt (j * (2 * j + 1)) <> 0 /\ sqrt (j * (j + 1)) <> 0 /\ sqrt ((j + 1) * (2 * j + 1)) <> 0) by (repeat split; apply Rgt_not_eq, sqrt_lt_R0; nra). destruct Q0 as (N1 & N2 & N3).
  assert (E1 : vcol L (al (-1) (jj L b)) (be (-1) (jj L b)) (ee (-1)) (Q b) (x :: t) = (j * along x (Q b) t - across x (Q b) t) / sqrt (j * (2 * j + 1))).
  { unfold vcol, al, be, ee, jj, along, across. cbn [Z.eqb Pos.eqb Pq Gq]. fold j. destruct (x =? 0)%Z; field; exact N1. }
  assert (E2 : vcol L (al 1 (jj L b)) (be 1 (jj L b)) (ee 1) (Q b) (x :: t) = ((j + 1) * along x (Q b) t + across x (Q b) t) / sqrt ((j + 1) * (2 * j + 1))).
  { unfold vcol, al, be, ee, jj, along, across. cbn [Z.eqb Pos.eqb Pq Gq]. fold j. destruct (x =? 0)%Z; field; exact N3. }
  assert (E3 : vcol L (al 0 (jj L b)) (be 0 (jj L b)) (ee 0) (Q b) (y :: s) = IZR y * across y (Q b) s / sqrt (j * (j + 1))).
  { unfold vcol, al, be, ee, jj, along, across. cbn [Z.eqb Pos.eqb Pq Gq]. fold j. destruct (y =? 0)%Z; field; exact N2. }
  rewrite E1, E2, E3. unfold upper, lower. rewrite (plus_IZR (J b) 1). fold j. set (a := j * along x (Q b) t - across x (Q b) t). set (c := (j + 1) * along x (Q b) t + across x (Q b) t). set (d := IZR y * across y (Q b) s). split.
  - transitivity (sqrt ((j + 1) / (2 * j + 1)) / (sqrt (j * (2 * j + 1)) * sqrt (j * (j + 1))) * (a * d)); [field; split; assumption|]. rewrite K1. field. split; lra.
  - transitivity (sqrt (j / (2 * j + 1)) / (sqrt ((j + 1) * (2 * j + 1)) * sqrt (j * (j + 1))) * (c * d)); [field; split; assumption|]. rewrite K2. field. split; lra.
Qed.
Definition curl_entry (b : tuple) (r : R) (x : Z) (t : tuple) (e T : tuple -> R) (s : tuple) : R :=
  match s with y :: s' => (IZR x + IZR y) / 2 * (iota L b * across x (Q b) t * across y (Q b) s') * (e s + / r * T s) + (- (along x (Q b) t * (IZR y * across y (Q b) s')) + along y (Q b) s' * (IZR x * across x (Q b) t)) * (/ r * T s) | [] => 0 end.
Lemma curl_column n b r (X E W : tuple -> R) x t : r <> 0 -> tup n b -> three x -> tup n t ->
  (allowed L b -> (0 < J b)%Z -> let j := IZR (J b) in
     W ((-1)%Z :: b) = - upper (J b) * (E (0%Z :: b) + (j + 1) / r * X (0%Z :: b)) /\ W (1%Z :: b) = lower (J b) * (E (0%Z :: b) - j / r * X (0%Z :: b))
     /\ W (0%Z :: b) = - upper (J b) * (E ((-1)%Z :: b) - (j - 1) / r * X ((-1)%Z :: b)) + lower (J b) * (E (1%Z :: b) + (j + 2) / r * X (1%Z :: b))) ->
  (allowed L b -> J b = 0%Z -> forall a, three a -> W (a :: b) = 0) ->
  Q ((-1)%Z :: b) (x :: t) * W ((-1)%Z :: b) + Q (1%Z :: b) (x :: t) * W (1%Z :: b) + Q (0%Z :: b) (x :: t) * W (0%Z :: b) = tsum (S n) (curl_entry b r x t (spins (S n) E) (spins (S n) X)).
Proof.
  intros Hr Hb Hx Ht H1 H0. destruct (allowed_dec L b) as [A|N].
  - pose proof (allowed_nonneg L HL b A) as NN. destruct (Z.eq_dec (J b) 0) as [Z|NZ].
    + rewrite !(H0 A Z) by (unfold three; tauto).
      assert (D0 : forall y s, three y -> tup n s -> across y (Q b) s = 0).
      { intros y s Hy Hs. unfold across. destruct (y =? 0)%Z eqn:Ey; [reflexivity|]. apply Z.eqb_neq in Ey. apply (D_J0 L HL n); try assumption; [unfold jj; rewrite Z; reflexivity|unfold three in Hy; unfold pm; tauto]. }
      rewrite tsum_zero; [ring|]. intros [|y s] Hs; [reflexivity|]. destruct Hs as [Hy Hs]. unfold curl_entry. rewrite (D0 x t Hx Ht), (D0 y s Hy Hs). ring.
    + assert (P : (0 < J b)%Z) by lia. destruct (H1 A P) as (W1 & W2 & W3). rewrite W1, W2, W3. assert (Pj : 0 < IZR (J b)) by (apply (IZR_lt 0); lia). set (j := IZR (J b)) in *.
      assert (Am : allowed L ((-1)%Z :: b)) by (apply allowed_cons; [exact HL|left; reflexivity|]; split; [exact A|lia]). assert (Ap : allowed L (1%Z :: b)) by (apply allowed_cons; [exact HL|right; left; reflexivity|]; split; [exact A|trivial]). assert (A0 : allowed L (0%Z :: b)) by (apply allowed_cons; [exact HL|right; right; reflexivity|]; split; [exact A|lia]).
      assert (T1 : tup (S n) ((-1)%Z :: b)) by exact (conj (or_introl eq_refl) Hb). assert (T2 : tup (S n) (1%Z :: b)) by exact (conj (or_intror (or_introl eq_refl)) Hb). assert (T3 : tup (S n) (0%Z :: b)) by exact (conj (or_intror (or_intror eq_refl)) Hb).
      rewrite <- (spins_back (S n) E _ T1 Am), <- (spins_back (S n) E _ T2 Ap), <- (spins_back (S n) E _ T3 A0), <- (spins_back (S n) X _ T1 Am), <- (spins_back (S n) X _ T2 Ap), <- (spins_back (S n) X _ T3 A0).
      set (e := spins (S n) E). set (T := spins (S n) X). set (qm := Q ((-1)%Z :: b)). set (qp := Q (1%Z :: b)). set (q0 := Q (0%Z :: b)). set (u := upper (J b)). set (l := lower (J b)).
      transitivity (tsum (S n) (fun s => - (u * (qm (x :: t) * q0 s)) * (e s + (j + 1) / r * T s) + (l * (qp (x :: t) * q0 s)) * (e s - j / r * T s) + (- (u * (qm s * q0 (x :: t))) * (e s - (j - 1) / r * T s) + (l * (qp s * q0 (x :: t))) * (e s + (j + 2) / r * T s)))).
      * rewrite (tsum_ext (S n) (fun s => - (u * (qm (x :: t) * q0 s)) * (e s + (j + 1) / r * T s) + (l * (qp (x :: t) * q0 s)) * (e s - j / r * T s) + (- (u * (qm s * q0 (x :: t))) * (e s - (j - 1) / r * T s) + (l * (qp s * q0 (x :: t))) * (e s + (j + 2) / r * T s)))
          (fun s => 1 * ((- u * qm (x :: t) + l * qp (x :: t)) * (q0 s * e s) + (- u * qm (x :: t) * (j + 1) / r - l * qp (x :: t) * j / r) * (q0 s * T s))
             + 1 * (1 * (- u * q0 (x :: t) * (qm s * e s) + (u * q0 (x :: t) * (j - 1) / r) * (qm s * T s)) + 1 * (l * q0 (x :: t) * (qp s * e s) + l * q0 (x :: t) * (j + 2) / r * (qp s * T s))))) by (intros; field; exact Hr).
        rewrite !tsum_lin. field. exact Hr.
      * apply tsum_ext. intros [|y s] Hs; [cbn in Hs; tauto|]. destruct Hs as [Hy Hs]. destruct (cross_entries n b x t y s Hb A P Hx Ht Hy Hs) as [C1 C2]. destruct (cross_entries n b y s x t Hb A P Hy Hs Hx Ht) as [C3 C4]. cbv zeta in C1, C2, C3, C4. fold j qm qp q0 u l in C1, C2, C3, C4. rewrite C1, C2, C3, C4. unfold curl_entry.
        assert (I : iota L b = 2 / (j * (j + 1))). { unfold iota, lam, jj. fold j. destruct (J b =? 0)%Z eqn:E0; [apply Z.eqb_eq in E0; lia|]. field. split; lra. }
        rewrite I. set (p := along x (Q b) t). set (d := across x (Q b) t). set (p' := along y (Q b) s). set (d' := across y (Q b) s). field. repeat split; lra.
  - destruct (none_entry n (-1)%Z b x t Hb N) as (Z1 & Z2 & Z3); try assumption; [left; reflexivity|]. destruct (none_entry n 1%Z b x t Hb N) as (Z4 & _); try assumption; [right; left; reflexivity|]. destruct (none_entry n 0%Z b x t Hb N) as (Z5 & _); try assumption; [right; right; reflexivity|].
    rewrite Z1, Z4, Z5, tsum_zero; [ring|]. intros [|y s] Hs; [reflexivity|]. unfold curl_entry. rewrite Z2, Z3. ring.
Qed.
Lemma curl_spins n r (X E W : tuple -> R) x t : r <> 0 -> three x -> tup n t ->
  (forall b, tup n b -> allowed L b -> (0 < J b)%Z -> let j := IZR (J b) in
     W ((-1)%Z :: b) = - upper (J b) * (E (0%Z :: b) + (j + 1) / r * X (0%Z :: b)) /\ W (1%Z :: b) = lower (J b) * (E (0%Z :: b) - j / r * X (0%Z :: b))
     /\ W (0%Z :: b) = - upper (J b) * (E ((-1)%Z :: b) - (j - 1) / r * X ((-1)%Z :: b)) + lower (J b) * (E (1%Z :: b) + (j + 2) / r * X (1%Z :: b))) ->
  (forall b, tup n b -> allowed L b -> J b = 0%Z -> forall a, three a -> W (a :: b) = 0) ->
  let T := spins (S n) X in
  spins (S n) W (x :: t) = if (x =? 0)%Z then / r * (Ds L (-1) (fun t => T ((-1)%Z :: t)) t - Ds L 1 (fun t => T (1%Z :: t)) t)
    else IZR x * (spins (S n) E (x :: t) + / r * T (x :: t) + / r * D x (fun t => T (0%Z :: t)) t).
Proof.
  intros Hr Hx Ht H1 H0 T. set (e := spins (S n) E).
  transitivity (tsum n (fun b => tsum (S n) (curl_entry b r x t e T))).
  { unfold spins at 1. rewrite tsum_first, <- !tsum_add. apply tsum_ext. intros b Hb. apply (curl_column n b r X E W x t Hr Hb Hx Ht (H1 b Hb) (H0 b Hb)). }
  destruct (x =? 0)%Z eqn:E0.
  - apply Z.eqb_eq in E0. subst x.
    transitivity (tsum n (fun b => / r * (Q b t * dot n (Q b) (Ds L (-1) (fun t => T ((-1)%Z :: t))) + (-1) * (Q b t * dot n (Q b) (Ds L 1 (fun t => T (1%Z :: t))))))).
    + apply tsum_ext. intros b Hb. rewrite tsum_first. unfold curl_entry, along. cbn [Z.eqb].
      rewrite (tsum_ext n (fun t0 => (0 + -1) / 2 * (iota L b * across 0 (Q b) t * across (-1) (Q b) t0) * (e ((-1)%Z :: t0) + / r * T ((-1)%Z :: t0)) + (- (Q b t * (-1 * across (-1) (Q b) t0)) + 0 * (0 * across 0 (Q b) t)) * (/ r * T ((-1)%Z :: t0))) (fun t0 => (/ r * Q b t) * (across (-1) (Q b) t0 * T ((-1)%Z :: t0)))) by (intros; unfold across at 1; cbn [Z.eqb]; ring).
      rewrite (tsum_ext n (fun t0 => (0 + 1) / 2 * (iota L b * across 0 (Q b) t * across 1 (Q b) t0) * (e (1%Z :: t0) + / r * T (1%Z :: t0)) + (- (Q b t * (1 * across 1 (Q b) t0)) + 0 * (0 * across 0 (Q b) t)) * (/ r * T (1%Z :: t0))) (fun t0 => (- / r * Q b t) * (across 1 (Q b) t0 * T (1%Z :: t0)))) by (intros; unfold across at 1; cbn [Z.eqb]; ring).
      rewrite (tsum_zero n (fun t0 => (0 + 0) / 2 * _ * _ + _)) by (intros; unfold across; cbn [Z.eqb]; ring). rewrite !tsum_scal. rewrite (dot_D n b (-1) (fun t => T ((-1)%Z :: t)) Hb) by (left; reflexivity). rewrite (dot_D n b 1 (fun t => T (1%Z :: t)) Hb) by (right; left; reflexivity). cbn [Z.eqb]. ring.
    + rewrite tsum_scal, tsum_add, tsum_scal. rewrite (spins_there n (Ds L (-1) (fun t => T ((-1)%Z :: t))) t Ht) by exact (Ds_supp L n (-1) _ (or_introl eq_refl) (spins_supp_cons n X (-1) (or_introl eq_refl))).
      rewrite (spins_there n (Ds L 1 (fun t => T (1%Z :: t))) t Ht) by exact (Ds_supp L n 1 _ (or_intror eq_refl) (spins_supp_cons n X 1 (or_intror (or_introl eq_refl)))). ring.
  - apply Z.eqb_neq in E0. assert (Px : pm x) by (unfold three in Hx; unfold pm; tauto).
    transitivity (tsum n (fun b => 1 * (IZR x * tsum n (fun s => iota L b * D x (Q b) t * D x (Q b) s * (e (x :: s) + / r * T (x :: s)))) + (/ r * IZR x) * (D x (Q b) t * dot n (Q b) (fun t => T (0%Z :: t))))).
    + apply tsum_ext. intros b Hb. rewrite tsum_first. unfold curl_entry.
      assert (Ax : along x (Q b) t = 0) by (unfold along; apply Z.eqb_neq in E0; rewrite E0; reflexivity). rewrite Ax.
      assert (Az : tsum n (fun t0 => (IZR x + 0) / 2 * (iota L b * across x (Q b) t * across 0 (Q b) t0) * (e (0%Z :: t0) + / r * T (0%Z :: t0)) + (- (0 * (0 * across 0 (Q b) t0)) + along 0 (Q b) t0 * (IZR x * across x (Q b) t)) * (/ r * T (0%Z :: t0))) = (/ r * IZR x) * (D x (Q b) t * dot n (Q b) (fun t => T (0%Z :: t)))).
      { rewrite <- across_D. unfold dot. rewrite <- !tsum_scal. apply tsum_ext. intros s Hs. change (across 0 (Q b) s) with 0. change (along 0 (Q b) s) with (Q b s). ring. }
      rewrite Az.
      assert (Ay : forall y, pm y -> tsum n (fun t0 => (IZR x + IZR y) / 2 * (iota L b * across x (Q b) t * across y (Q b) t0) * (e (y :: t0) + / r * T (y :: t0)) + (- (0 * (IZR y * across y (Q b) t0)) + along y (Q b) t0 * (IZR x * across x (Q b) t)) * (/ r * T (y :: t0))) = if (x =? y)%Z then IZR x * tsum n (fun s => iota L b * D x (Q b) t * D x (Q b) s * (e (x :: s) + / r * T (x :: s))) else 0).
      { intros y Hy. assert (Ey : forall s, along y (Q b) s = 0) by (intros s; unfold along; destruct Hy as [->| ->]; reflexivity). destruct (x =? y)%Z eqn:Exy.
        - apply Z.eqb_eq in Exy. subst y. rewrite <- tsum_scal. apply tsum_ext. intros s Hs. rewrite Ey, !across_D. field. exact Hr.
        - apply Z.eqb_neq in Exy. apply tsum_zero. intros s Hs. rewrite Ey. replace (IZR x + IZR y) with 0 by (destruct Px as [->| ->], Hy as [->| ->]; try contradiction; lra). field. exact Hr. }
      rewrite (Ay (-1)%Z (or_introl eq_refl)), (Ay 1%Z (or_intror eq_refl)). destruct Px as [->| ->]; cbn [Z.eqb Pos.eqb]; ring.
    + rewrite tsum_lin, tsum_scal.
      assert (P1 : tsum n (fun b => tsum n (fun s => iota L b * D x (Q b) t * D x (Q b) s * (e (x :: s) + / r * T (x :: s)))) = e (x :: t) + / r * T (x :: t)).
      { rewrite (tsum_swap n n (fun b s => iota L b * D x (Q b) t * D x (Q b) s * (e (x :: s) + / r * T (x :: s)))). rewrite <- (tsum_delta n (fun t => e (x :: t) + / r * T (x :: t)) t Ht). apply tsum_ext. intros s Hs.
        transitivity (tsum n (fun b => (e (x :: s) + / r * T (x :: s)) * (iota L b * D x (Q b) t * D x (Q b) s))); [apply tsum_ext; intros; ring|]. rewrite tsum_scal, (projector L HL n x (rows L HL n) Px t s Ht Hs), (teq_sym t s). unfold ind.
        destruct (list_eq_dec Z.eq_dec s t) as [->|N]; [|rewrite (teq_false s t N); cbn; ring]. rewrite teq_refl. destruct (L <? Z.abs (zsum t + x))%Z eqn:El; [|cbn; ring]. apply Z.ltb_lt in El.
        pose proof (spins_supp_cons n E x Hx t Ht El) as Z1. pose proof (spins_supp_cons n X x Hx t Ht El) as Z2. cbv beta in Z1, Z2. unfold e, T. rewrite Z1, Z2. ring. }
      assert (P2 : tsum n (fun b => D x (Q b) t * dot n (Q b) (fun t => T (0%Z :: t))) = D x (fun t => T (0%Z :: t)) t).
      { rewrite <- (tsum_ext n (fun b => D x (fun t0 => Q b t0 * dot n (Q b) (fun t => T (0%Z :: t))) t)) by (intros b Hb; apply (D_scaled n); assumption). rewrite <- (D_tsum L n x (fun b t0 => Q b t0 * dot n (Q b) (fun t => T (0%Z :: t))) t). apply (D_ext L n x _ _ t Hx); [|exact Ht]. intros s Hs. apply (spins_there n (fun t => T (0%Z :: t)) s Hs). exact (spins_supp_cons n X 0%Z (or_intror (or_intror eq_refl))). }
      rewrite P2. rewrite P1. ring.
Qed.
End Degree.

(** ** Complex components, by indices *)
From Coquelicot Require Import Coquelicot.
Import ListNotations.
From Verif Require Import Integrals_Proofs SphericalVec_Model SphericalVec_Spec SphericalVec_Proofs SphereCalc_Spec SphericalCalc_Spec.
Definition name (z : Z) : nat := match z with 0%Z => 2%nat | Zpos _ => 1%nat | Zneg _ => 0%nat end.
Lemma name_value a : (a < 3)%nat -> name (value a) = a.
Proof. intros H. destruct a as [|[|[|a]]]; try reflexivity. lia. Qed.
Lemma value_name z : three z -> value (name z) = z.
Proof. intros [->|[->| ->]]; reflexivity. Qed.
Lemma names_values rank i : is_component rank i -> map name (map value i) = i.
Proof. intros [_ F]. induction F as [|a i Ha F IH]; [reflexivity|]. cbn [map]. rewrite (name_value a Ha), IH. reflexivity. Qed.
Lemma values_names n t : tup n t -> map value (map name t) = t.
Proof. revert t. induction n as [|n IH]; intros [|x t] Ht; cbn in Ht; try tauto. cbn [map]. rewrite (value_name x (proj1 Ht)), (IH t (proj2 Ht)). reflexivity. Qed.
Lemma tup_values rank i : is_component rank i -> tup rank (map value i).
Proof. intros H. apply in_components. apply (components_in rank i H). Qed.
Lemma names_component n t : tup n t -> is_component n (map name t).
Proof. revert t. induction n as [|n IH]; intros [|x t] Ht; cbn in Ht; try tauto; [split; [reflexivity|constructor]|]. apply cons_component; [|apply IH; tauto]. destruct (proj1 Ht) as [->|[->| ->]]; cbn; lia. Qed.
Lemma csum_indices n : forall h : index -> C, csum (indices n) h = (tsum n (fun t => Re (h (map name t))), tsum n (fun t => Im (h (map name t)))).
Proof.
  induction n as [|n IH]; intros h; [unfold csum, Re, Im; cbn; destruct (h []) as [a b]; unfold Cplus; cbn; f_equal; ring|].
  cbn [indices]. rewrite csum_flat. unfold csum at 1. cbn [map fold_right]. rewrite !csum_map, !IH. unfold Cplus, RtoC. cbn [fst snd tsum map name]. f_equal; ring.
Qed.
Definition partwise (F : index -> C) (part : C -> R) (t : tuple) : R := part (F (map name t)).
Lemma spin_parts n l F i : is_component n i -> spin_value n l F i = (spins l n (partwise F Re) (map value i), spins l n (partwise F Im) (map value i)).
Proof.
  intros Hi. unfold spin_value, spins, partwise. rewrite csum_indices. f_equal; apply tsum_ext; intros t Ht; rewrite (values_names n t Ht); unfold Re, Im, Cmult, RtoC; cbn [fst snd]; ring.
Qed.
Lemma spin_name n l F t : tup n t -> spin_value n l F (map name t) = (spins l n (partwise F Re) t, spins l n (partwise F Im) t).
Proof. intros Ht. rewrite (spin_parts n l F _ (names_component n t Ht)), (values_names n t Ht). reflexivity. Qed.
Lemma tilt_parts n a T (u v : tuple -> R) : (a < 2)%nat -> (forall t, tup n t -> T (map name t) = (u t, v t)) ->
  forall t, tup n t -> tilt a T (map name t) = (- S_ (value a) u t, - S_ (value a) v t).
Proof.
  intros Ha. revert T u v. induction n as [|n IH]; intros T u v H [|x t] Ht; cbn in Ht; try tauto; [cbn; unfold RtoC; f_equal; ring|]. destruct Ht as [Hx Ht]. cbn [map tilt S_].
  rewrite (IH (fun j => T (name x :: j)) (fun t => u (x :: t)) (fun t => v (x :: t))) by (try exact Ht; intros s Hs; apply (H (x :: s)); split; assumption).
  pose proof (H (0%Z :: t) (conj (or_intror (or_intror eq_refl)) Ht)) as H2. cbn [map name] in H2. rewrite H2.
  assert (Ta : three (value a)) by (destruct a as [|[|a]]; [left; reflexivity|right; left; reflexivity|lia]). pose proof (H (value a :: t) (conj Ta Ht)) as H3. cbn [map] in H3. rewrite (name_value a) in H3 by lia. rewrite H3.
  destruct a as [|[|a]]; [| |lia]; destruct Hx as [->|[->| ->]]; cbn -[S_ Cplus Cminus]; repeat match goal with |- context [(?a + ?b =? 0)%Z] => let v := eval compute in (a + b =? 0)%Z in change (a + b =? 0)%Z with v end; cbv iota; unfold Cplus, Cminus, Copp, RtoC; cbn -[S_]; f_equal; ring.
Qed.
Lemma degree_zsum l i : degree l i = (l + Intertwiner_Model.zsum (map value i))%Z.
Proof. unfold degree. rewrite sumZ_zsum. reflexivity. Qed.
Lemma present_allowed n l i : (0 <= l)%Z -> is_component n i -> (present l i <-> Intertwiner_Proofs.allowed l (map value i)).
Proof. intros Hl Hi. apply (exists_allowed l n); [exact Hl|apply tup_values; exact Hi]. Qed.
Lemma name_present n l b : (0 <= l)%Z -> tup n b -> (present l (map name b) <-> Intertwiner_Proofs.allowed l b).
Proof. intros Hl Hb. rewrite (present_allowed n l _ Hl (names_component n b Hb)), (values_names n b Hb). tauto. Qed.
Lemma name_degree n l b : tup n b -> degree l (map name b) = (l + Intertwiner_Model.zsum b)%Z.
Proof. intros Hb. rewrite degree_zsum, (values_names n b Hb). reflexivity. Qed.

(** The ladder of spins; components of a first index. *)
Definition ladder (l : Z) (a : nat) (s : Z) : R := match a with 0%nat => SphereOps_Spec.lowering l s | _ => SphereOps_Spec.raising l s end.
Definition ladder_back (l : Z) (a : nat) (s : Z) : R := match a with 0%nat => SphereOps_Spec.raising l (s - 1) | _ => SphereOps_Spec.lowering l (s + 1) end.
Lemma spin_total i : SphereOps_Spec.spin i = Intertwiner_Model.zsum (map value i).
Proof.
  rewrite <- sumZ_zsum. induction i as [|a i IH]; [reflexivity|]. cbn [map sumZ fold_right]. change (fold_right Z.add 0%Z (map value i)) with (sumZ (map value i)). rewrite <- IH. unfold SphereOps_Spec.spin, SphereOps_Spec.ups, SphereOps_Spec.downs. cbn [filter]. destruct a as [|[|a]]; cbn [Nat.eqb length value]; lia.
Qed.
Lemma D_ladder l a u i : (a < 2)%nat -> - D_ l (value a) u (map value i) = ladder l a (SphereOps_Spec.spin i) * u (map value i) - S_ (value a) u (map value i).
Proof.
  intros Ha. unfold D_, c_. rewrite spin_total. set (s := Intertwiner_Model.zsum (map value i)). destruct a as [|[|a]]; [| |lia]; cbn [value ladder]; unfold SphereOps_Spec.lowering, SphereOps_Spec.raising.
  - replace ((l - s * -1) * (l + s * -1 + 1))%Z with ((l + s) * (l - s + 1))%Z by ring. ring.
  - replace ((l - s * 1) * (l + s * 1 + 1))%Z with ((l - s) * (l + s + 1))%Z by ring. ring.
Qed.
Lemma Ds_ladder l a u i : (a < 2)%nat -> Ds l (value a) u (map value i) = ladder_back l a (SphereOps_Spec.spin i) * u (map value i) - S_ (value (1 - a)) u (map value i).
Proof.
  intros Ha. unfold Ds, c_. rewrite spin_total. set (s := Intertwiner_Model.zsum (map value i)). destruct a as [|[|a]]; [| |lia]; cbn [value ladder_back Nat.sub]; unfold SphereOps_Spec.lowering, SphereOps_Spec.raising.
  - replace ((l - s * -1) * (l + s * -1 + 1))%Z with ((l - (s - 1)) * (l + (s - 1) + 1))%Z by ring. change (- -1)%Z with 1%Z. ring.
  - replace ((l - s * 1) * (l + s * 1 + 1))%Z with ((l + (s + 1)) * (l - (s + 1) + 1))%Z by ring. change (- (1))%Z with (-1)%Z. ring.
Qed.

Section Coefficients.
Context (l : Z) (Hl : (0 <= l)%Z) (n : nat) (r : R) (Hr : r <> 0).
Lemma pm_value a : (a < 2)%nat -> pm (value a). Proof. intros H. destruct a as [|[|a]]; [left; reflexivity|right; reflexivity|lia]. Qed.
Lemma value_nonzero a : (a < 2)%nat -> (value a =? 0)%Z = false. Proof. intros H. destruct a as [|[|a]]; [reflexivity|reflexivity|lia]. Qed.
Lemma at_names b a : map name (value a :: b) = name (value a) :: map name b. Proof. reflexivity. Qed.
Ltac shape_parts := apply injective_projections; unfold Cdiv, Cminus, Cplus, Cmult, Copp, RtoC, Ci; cbn [fst snd].
Lemma tilt_spins a rank (F : index -> C) (h : index -> index) (ht : tuple -> tuple) i : (a < 2)%nat -> is_component n i -> (forall t, tup n t -> h (map name t) = map name (ht t) /\ tup rank (ht t)) ->
  tilt a (fun j => spin_value rank l F (h j)) i = (- S_ (value a) (fun t => spins l rank (partwise F Re) (ht t)) (map value i), - S_ (value a) (fun t => spins l rank (partwise F Im) (ht t)) (map value i)).
Proof.
  intros Ha Hi Hh. rewrite <- (names_values n i Hi) at 1. apply (tilt_parts n a); [exact Ha| |apply tup_values; exact Hi]. intros t Ht. destruct (Hh t Ht) as [E1 E2]. rewrite E1. apply spin_name. exact E2.
Qed.
Lemma tilt_same a F i : (a < 2)%nat -> is_component n i -> tilt a (spin_value n l F) i = (- S_ (value a) (spins l n (partwise F Re)) (map value i), - S_ (value a) (spins l n (partwise F Im)) (map value i)).
Proof. intros Ha Hi. apply (tilt_spins a n F (fun j => j) (fun t => t) i Ha Hi). intros t Ht. split; [reflexivity|exact Ht]. Qed.
Lemma tilt_first a c F i : (a < 2)%nat -> (c < 3)%nat -> is_component n i ->
  tilt a (fun j => spin_value (S n) l F (c :: j)) i = (- S_ (value a) (fun t => spins l (S n) (partwise F Re) (value c :: t)) (map value i), - S_ (value a) (fun t => spins l (S n) (partwise F Im) (value c :: t)) (map value i)).
Proof.
  intros Ha Hc Hi. apply (tilt_spins a (S n) F (fun j => c :: j) (fun t => value c :: t) i Ha Hi). intros t Ht. split; [cbn [map]; rewrite (name_value c Hc); reflexivity|]. split; [|exact Ht]. destruct c as [|[|[|c]]]; [left|right; left|right; right|lia]; reflexivity.
Qed.

Lemma gradient_coefficients (F E U : index -> C) i : is_component n i ->
  (forall b, is_component n b -> present l b -> let j := degree l b in
     U (0%nat :: b) = (lower j * (E b + RtoC ((IZR j + 1) / r) * F b))%C /\ U (1%nat :: b) = (upper j * (E b - RtoC (IZR j / r) * F b))%C /\ U (2%nat :: b) = RtoC 0) ->
  spin_value (S n) l U (2%nat :: i) = spin_value n l E i
  /\ forall a, (a < 2)%nat -> spin_value (S n) l U (a :: i) = (RtoC (/ r) * (RtoC (ladder l a (SphereOps_Spec.spin i)) * spin_value n l F i + tilt a (spin_value n l F) i))%C.
Proof.
  intros Hi H.
  assert (G : forall part : C -> R, (part = Re \/ part = Im) -> forall x, three x -> spins l (S n) (partwise U part) (x :: map value i) = along x (spins l n (partwise E part)) (map value i) - / r * across l x (spins l n (partwise F part)) (map value i)).
  { intros part Hp x Hx. apply (gradient_spins l Hl); [exact Hr|exact Hx|apply tup_values; exact Hi|]. intros b Hb A. apply (name_present n l b Hl Hb) in A. specialize (H (map name b) (names_component n b Hb) A). cbv zeta in H. rewrite (name_degree n l b Hb) in H. destruct H as (H1 & H2 & H3).
    unfold partwise. cbn [map name]. rewrite H1, H2, H3. destruct Hp as [->| ->]; unfold Cminus, Cplus, Cmult, Copp, RtoC, Re, Im; cbn [fst snd]; repeat split; ring. }
  split.
  - rewrite (spin_parts (S n) l U _ (cons_component n 2 i ltac:(lia) Hi)), (spin_parts n l E i Hi). cbn [map]. change (value 2) with 0%Z. rewrite (G Re), (G Im) by (unfold three; tauto). unfold along, across. cbn [Z.eqb]. f_equal; ring.
  - intros a Ha. assert (Ta : three (value a)) by (apply pm_three, pm_value; exact Ha). rewrite (spin_parts (S n) l U _ (cons_component n a i ltac:(lia) Hi)), (spin_parts n l F i Hi). cbn [map]. rewrite (G Re), (G Im) by tauto. rewrite (tilt_same a F i Ha Hi). unfold along, across. rewrite (value_nonzero a Ha).
    pose proof (D_ladder l a (spins l n (partwise F Re)) i Ha) as D1. pose proof (D_ladder l a (spins l n (partwise F Im)) i Ha) as D2.
    shape_parts.
    + transitivity (/ r * - D_ l (value a) (spins l n (partwise F Re)) (map value i)); [ring|]. rewrite D1. ring.
    + transitivity (/ r * - D_ l (value a) (spins l n (partwise F Im)) (map value i)); [ring|]. rewrite D2. ring.
Qed.
(** What the divergence of a first index of a direction has of the components. *)
Definition inward (T : index -> C) (a : nat) (i : index) : C := (RtoC (ladder_back l a (SphereOps_Spec.spin i)) * T (a :: i) + tilt (1 - a) (fun j => T (a :: j)) i)%C.
Lemma inward_parts F a i : (a < 2)%nat -> is_component n i ->
  inward (spin_value (S n) l F) a i = (Ds l (value a) (fun t => spins l (S n) (partwise F Re) (value a :: t)) (map value i), Ds l (value a) (fun t => spins l (S n) (partwise F Im) (value a :: t)) (map value i)).
Proof.
  intros Ha Hi. unfold inward. rewrite (tilt_first (1 - a) a F i) by (try exact Hi; lia). rewrite !(Ds_ladder l a _ i Ha). rewrite (spin_parts (S n) l F _ (cons_component n a i ltac:(lia) Hi)). cbn [map]. shape_parts; ring.
Qed.
Lemma divergence_coefficients (X E V : index -> C) i : is_component n i ->
  (forall b, is_component n b -> present l b -> let j := degree l b in
     V b = (lower j * (E (0%nat :: b) - RtoC ((IZR j - 1) / r) * X (0%nat :: b)) + upper j * (E (1%nat :: b) + RtoC ((IZR j + 2) / r) * X (1%nat :: b)))%C) ->
  let T := spin_value (S n) l X in
  spin_value n l V i = (spin_value (S n) l E (2%nat :: i) + RtoC (2 / r) * T (2%nat :: i) + RtoC (/ r) * (inward T 0 i + inward T 1 i))%C.
Proof.
  intros Hi H T.
  assert (G : forall part : C -> R, (part = Re \/ part = Im) -> let S := spins l (S n) (partwise X part) in spins l n (partwise V part) (map value i) = spins l (Datatypes.S n) (partwise E part) (0%Z :: map value i) + 2 / r * S (0%Z :: map value i) + / r * (Ds l (-1) (fun t => S ((-1)%Z :: t)) (map value i) + Ds l 1 (fun t => S (1%Z :: t)) (map value i))).
  { intros part Hp S. apply (divergence_spins l Hl); [exact Hr|apply tup_values; exact Hi|]. intros b Hb A. apply (name_present n l b Hl Hb) in A. specialize (H (map name b) (names_component n b Hb) A). cbv zeta in H. rewrite (name_degree n l b Hb) in H.
    unfold partwise. cbn [map name]. rewrite H. destruct Hp as [->| ->]; unfold Cminus, Cplus, Cmult, Copp, RtoC, Re, Im; cbn [fst snd]; ring. }
  unfold T. rewrite !inward_parts by (try exact Hi; lia). rewrite (spin_parts n l V i Hi), (spin_parts (S n) l E _ (cons_component n 2 i ltac:(lia) Hi)), (spin_parts (S n) l X _ (cons_component n 2 i ltac:(lia) Hi)). cbn [map]. change (value 2) with 0%Z. change (value 0) with (-1)%Z. change (value 1) with 1%Z.
  rewrite (G Re), (G Im) by tauto. shape_parts; ring.
Qed.
Lemma curl_coefficients (X E U : index -> C) i : is_component n i ->
  (forall b, is_component n b -> present l b -> (0 < degree l b)%Z -> let j := degree l b in
     U (0%nat :: b) = (- Ci * upper j * (E (2%nat :: b) + RtoC ((IZR j + 1) / r) * X (2%nat :: b)))%C /\ U (1%nat :: b) = (Ci * lower j * (E (2%nat :: b) - RtoC (IZR j / r) * X (2%nat :: b)))%C
     /\ U (2%nat :: b) = (- Ci * upper j * (E (0%nat :: b) - RtoC ((IZR j - 1) / r) * X (0%nat :: b)) + Ci * lower j * (E (1%nat :: b) + RtoC ((IZR j + 2) / r) * X (1%nat :: b)))%C) ->
  (forall b a, is_component n b -> present l b -> degree l b = 0%Z -> (a < 3)%nat -> U (a :: b) = RtoC 0) ->
  let T := spin_value (S n) l X in
  spin_value (S n) l U (2%nat :: i) = (Ci * (RtoC (/ r) * (inward T 0 i - inward T 1 i)))%C
  /\ forall a, (a < 2)%nat -> spin_value (S n) l U (a :: i) = (Ci * RtoC (IZR (value a)) * (spin_value (S n) l E (a :: i) + RtoC (/ r) * (T (a :: i) - (RtoC (ladder l a (SphereOps_Spec.spin i)) * T (2%nat :: i) + tilt a (fun j => T (2%nat :: j)) i))))%C.
Proof.
  intros Hi H1 H0 T.
  assert (G : forall (sgn : R) (pu px : C -> R), (pu = Re /\ px = Im /\ sgn = -1 \/ pu = Im /\ px = Re /\ sgn = 1) -> forall x, three x ->
     let S := spins l (S n) (partwise X px) in
     spins l (Datatypes.S n) (partwise U pu) (x :: map value i) = sgn * if (x =? 0)%Z then / r * (Ds l (-1) (fun t => S ((-1)%Z :: t)) (map value i) - Ds l 1 (fun t => S (1%Z :: t)) (map value i))
       else IZR x * (spins l (Datatypes.S n) (partwise E px) (x :: map value i) + / r * S (x :: map value i) + / r * D_ l x (fun t => S (0%Z :: t)) (map value i))).
  { intros sgn pu px Hp x Hx S. assert (Sg : sgn * sgn = 1) by (destruct Hp as [(_ & _ & ->)|(_ & _ & ->)]; lra).
    pose proof (curl_spins l Hl n r (partwise X px) (partwise E px) (fun t => sgn * partwise U pu t) x (map value i) Hr Hx (tup_values n i Hi)) as K. fold S in K. cbv zeta in K. rewrite <- K; clear K.
    - unfold spins. rewrite <- tsum_scal. apply tsum_ext. intros t Ht. transitivity (sgn * sgn * (Q l t (x :: map value i) * partwise U pu t)); [rewrite Sg; ring|ring].
    - intros b Hb A P. apply (name_present n l b Hl Hb) in A. rewrite <- (name_degree n l b Hb) in P. specialize (H1 (map name b) (names_component n b Hb) A P). cbv zeta in H1. rewrite (name_degree n l b Hb) in H1. destruct H1 as (E1 & E2 & E3).
      unfold partwise. cbn [map name]. rewrite E1, E2, E3. destruct Hp as [(-> & -> & ->)|(-> & -> & ->)]; unfold Cminus, Cplus, Cmult, Copp, RtoC, Ci, Re, Im; cbn [fst snd]; repeat split; ring.
    - intros b Hb A P a Ha. apply (name_present n l b Hl Hb) in A. rewrite <- (name_degree n l b Hb) in P. unfold partwise. cbn [map]. rewrite (H0 (map name b) (name a) (names_component n b Hb) A P) by (destruct Ha as [->|[->| ->]]; cbn; lia). destruct Hp as [(-> & _)|(-> & _)]; unfold RtoC, Re, Im; cbn; ring. }
  assert (Gr := G (-1) Re Im (or_introl (conj eq_refl (conj eq_refl eq_refl)))). assert (Gi := G 1 Im Re (or_intror (conj eq_refl (conj eq_refl eq_refl)))). clear G. cbv zeta in Gr, Gi. unfold T. split.
  - rewrite !inward_parts by (try exact Hi; lia). rewrite (spin_parts (S n) l U _ (cons_component n 2 i ltac:(lia) Hi)). cbn [map]. change (value 2) with 0%Z. change (value 0) with (-1)%Z. change (value 1) with 1%Z. rewrite (Gr 0%Z), (Gi 0%Z) by (unfold three; tauto). cbn [Z.eqb]. shape_parts; ring.
  - intros a Ha. assert (Ta : three (value a)) by (apply pm_three, pm_value; exact Ha). rewrite (tilt_first a 2 X i Ha ltac:(lia) Hi).
    rewrite (spin_parts (S n) l U _ (cons_component n a i ltac:(lia) Hi)), (spin_parts (S n) l E _ (cons_component n a i ltac:(lia) Hi)), (spin_parts (S n) l X _ (cons_component n a i ltac:(lia) Hi)), (spin_parts (S n) l X _ (cons_component n 2 i ltac:(lia) Hi)). cbn [map]. change (value 2) with 0%Z. rewrite (Gr (value a) Ta), (Gi (value a) Ta), (value_nonzero a Ha).
    pose proof (D_ladder l a (fun t => spins l (S n) (partwise X Re) (0%Z :: t)) i Ha) as D1. pose proof (D_ladder l a (fun t => spins l (S n) (partwise X Im) (0%Z :: t)) i Ha) as D2. cbv beta in D1, D2.
    set (dr := D_ l (value a) (fun t => spins l (S n) (partwise X Re) (0%Z :: t)) (map value i)) in *. set (di := D_ l (value a) (fun t => spins l (S n) (partwise X Im) (0%Z :: t)) (map value i)) in *.
    shape_parts.
    + transitivity (- 1 * (IZR (value a) * (spins l (S n) (partwise E Im) (value a :: map value i) + / r * spins l (S n) (partwise X Im) (value a :: map value i) - / r * - di))); [ring|]. rewrite D2. ring.
    + transitivity (IZR (value a) * (spins l (S n) (partwise E Re) (value a :: map value i) + / r * spins l (S n) (partwise X Re) (value a :: map value i) - / r * - dr)); [ring|]. rewrite D1. ring.
Qed.
End Coefficients.
