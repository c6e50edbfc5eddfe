(** C88: low- and high-pass filters. *)
From Coq Require Import List Arith Bool Reals Lra Lia FunctionalExtensionality ZifyNat ZifyBool.
Import ListNotations.
From Verif Require Import Filters_Model Filters_Spec Filters_Proofs.
From Verif Require AdvectiveCFL_Model AdvectiveCFL_Props.

Section Filters.
Context {V : Type} (zero : V) (dim : nat) (coeffs : nat -> nat) (fwd bwd : nat -> nat -> list V -> list V) (kept : nat -> nat -> nat -> bool).
Notation grid := (grid coeffs).
Notation truncates := (truncates zero coeffs fwd bwd kept).
Notation low_pass_scales := (low_pass_scales zero dim coeffs fwd bwd).
Notation low_pass := (low_pass zero dim coeffs fwd bwd).
Notation read := (read zero dim coeffs fwd).
Notation mode := (mode coeffs dim).
Notation passes := (passes kept dim).
Notation down := (down zero dim coeffs fwd).

Lemma read_value f : layout f <= dim -> read f = Field (scales f) 0 (down (layout f) (scales f) (data f)).
Proof. intros H. now apply read_down. Qed.

(** In whatever layout and scales a field is, a low-pass filter keeps the coefficients of exactly those modes that the filter's grid resolves along
    all axes, zeroes the others, and leaves the scales as they were. *)
Lemma low_pass_at s f : layout f <= dim -> (forall a, a < dim -> truncates a (grid s a)) ->
  let g := low_pass_scales s f in
  scales g = scales f /\ layout g <= dim /\ forall p, mode p -> data (read g) p = if passes (grid s) p then data (read f) p else zero.
Proof.
  intros Hl T. unfold Filters_Model.low_pass_scales.
  destruct (change_value zero dim coeffs fwd s f Hl) as (S1 & L1 & D1). cbv zeta in S1, L1, D1. set (f1 := change_scales zero dim coeffs fwd s f) in *. clearbody f1. destruct f1 as [s1 l1 x1]. cbn [scales layout data] in *. subst s1.
  destruct (up_down zero dim coeffs fwd bwd kept dim s l1 x1 L1 ltac:(lia) T) as (S2 & L2 & D2). unfold require_grid. cbv zeta in S2, L2, D2.
  set (f2 := repeat_while dim (fun f0 => layout f0 <? dim) (towards_grid zero dim coeffs bwd) (Field s l1 x1)) in *. clearbody f2.
  destruct (change_value zero dim coeffs fwd (scales f) f2 ltac:(lia)) as (S3 & L3 & D3). cbv zeta in S3, L3, D3 |- *. split; [exact S3|]. split; [exact L3|].
  intros p Hp. rewrite !read_value by assumption. cbn [data]. rewrite S3, D3, L2, S2, (D2 p Hp), <- D1.
  unfold Filters_Spec.passes. replace (seq 0 dim) with (seq 0 (dim - l1) ++ seq (dim - l1) l1) by (rewrite <- seq_app; f_equal; lia). rewrite forallb_app.
  destruct (forallb _ (seq 0 (dim - l1))); cbn [andb]; [|reflexivity]. destruct (forallb _ (seq (dim - l1) l1)) eqn:E; [reflexivity|].
  assert (exists a, In a (seq (dim - l1) l1) /\ kept a (grid s a) (p a) = false) as (a & Ha & Hk).
  { clear - E. induction (seq (dim - l1) l1) as [|a l IH]; [discriminate|]. cbn in E. destruct (kept a (grid s a) (p a)) eqn:F; [destruct (IH E) as (b & Hb & ?); exists b; split; [now right|assumption]|exists a; split; [now left|exact F]]. }
  apply in_seq in Ha. rewrite (down_kept zero dim coeffs fwd bwd kept l1 s a x1 L1) by first [lia|intros; apply T; lia|apply Hp; lia]. now rewrite Hk.
Qed.
Theorem low_pass_modes : forall s f, layout f <= dim -> (forall a, a < dim -> truncates a (grid s a)) ->
  exists g, low_pass None (Some s) f = Some g /\ scales g = scales f /\ layout g <= dim /\
  forall p, mode p -> data (read g) p = if passes (grid s) p then data (read f) p else zero.
Proof. intros s f Hl T. exists (low_pass_scales s f). split; [reflexivity|]. now apply low_pass_at. Qed.

(** The shape given is the shape of the filter's grid (axes without a basis have one point). *)
Lemma shape_grid shape a : length shape = dim -> a < dim -> coeffs a <> 0 -> coeffs a <> 1 -> grid (shape_scales dim coeffs shape) a = nth a shape 0.
Proof.
  intros Hs Ha H0 H1. assert (Hc : INR (coeffs a) <> 0%R) by now apply not_0_INR.
  assert (E1 : grid (repeat R1 dim) a = coeffs a).
  { unfold Filters_Model.grid, scale. rewrite nth_indep with (d' := R1), nth_repeat by now rewrite repeat_length. destruct (AdvectiveCFL_Props.grid_points 1 (coeffs a) ltac:(lra) H1) as [A B].
    rewrite Rmult_1_l in A, B. apply INR_le in A. rewrite <- S_INR in B. apply INR_lt in B. change R1 with 1%R. lia. }
  assert (E : scale (shape_scales dim coeffs shape) a = (INR (nth a shape O) / INR (coeffs a))%R).
  { unfold scale, shape_scales. set (g := fun an : nat * nat => _). assert (La : a < length (combine (seq 0 (length shape)) shape)) by (rewrite combine_length, seq_length; lia).
    rewrite nth_indep with (d' := g (0, 0)) by now rewrite map_length. rewrite map_nth, combine_nth by apply seq_length. rewrite seq_nth by lia. unfold g. cbn [fst snd Nat.add]. now rewrite E1. }
  unfold Filters_Model.grid. rewrite E. destruct (AdvectiveCFL_Props.grid_points (INR (nth a shape O) / INR (coeffs a)) (coeffs a)) as [A B]; [|exact H1|].
  - apply Rmult_le_pos; [apply pos_INR|]. apply Rlt_le, Rinv_0_lt_compat, lt_0_INR. lia.
  - replace (INR (nth a shape O) / INR (coeffs a) * INR (coeffs a))%R with (INR (nth a shape O)) in A, B by (field; exact Hc). apply INR_le in A. rewrite <- S_INR in B. apply INR_lt in B. lia.
Qed.
Definition shape_points (shape : list nat) (a : nat) : nat := if coeffs a =? 1 then 1 else nth a shape 0.
Theorem low_pass_shape : forall shape f, layout f <= dim -> length shape = dim -> (forall a, a < dim -> coeffs a <> 0 /\ truncates a (shape_points shape a)) ->
  exists g, low_pass (Some shape) None f = Some g /\ scales g = scales f /\
  forall p, mode p -> data (read g) p = if passes (shape_points shape) p then data (read f) p else zero.
Proof.
  intros shape f Hl Hs T. exists (low_pass_scales (shape_scales dim coeffs shape) f). split; [reflexivity|].
  assert (G : forall a, a < dim -> grid (shape_scales dim coeffs shape) a = shape_points shape a).
  { intros a Ha. unfold shape_points. destruct (Nat.eqb_spec (coeffs a) 1) as [E|E]; [|apply shape_grid; try assumption; now apply T].
    unfold Filters_Model.grid, AdvectiveCFL_Model.grid_size. now rewrite E. }
  destruct (low_pass_at (shape_scales dim coeffs shape) f Hl) as (A & _ & C); [intros a Ha; rewrite G by exact Ha; now apply T|]. split; [exact A|]. intros p Hp. rewrite (C p Hp).
  replace (passes (grid (shape_scales dim coeffs shape)) p) with (passes (shape_points shape) p); [reflexivity|]. unfold Filters_Spec.passes.
  assert (forall l, (forall a, In a l -> a < dim) -> forallb (fun a => kept a (shape_points shape a) (p a)) l = forallb (fun a => kept a (grid (shape_scales dim coeffs shape) a) (p a)) l) as X.
  { induction l as [|a l IH]; intros Hin; cbn; [reflexivity|]. rewrite IH by (intros; apply Hin; now right). rewrite G by (apply Hin; now left). reflexivity. }
  apply X. intros a Ha. apply in_seq in Ha. lia.
Qed.
(** Filtering twice is filtering once, and filters commute. *)
Theorem low_pass_twice : forall s f, layout f <= dim -> (forall a, a < dim -> truncates a (grid s a)) ->
  exists g h, low_pass None (Some s) f = Some g /\ low_pass None (Some s) g = Some h /\ forall p, mode p -> data (read h) p = data (read g) p.
Proof.
  intros s f Hl T. destruct (low_pass_modes s f Hl T) as (g & Eg & Sg & Lg & Dg). destruct (low_pass_modes s g Lg T) as (h & Eh & _ & _ & Dh). exists g, h. split; [exact Eg|]. split; [exact Eh|].
  intros p Hp. rewrite (Dh p Hp), (Dg p Hp). now destruct (passes _ p).
Qed.
Theorem low_pass_order : forall s t f, layout f <= dim -> (forall a, a < dim -> truncates a (grid s a) /\ truncates a (grid t a)) ->
  exists g h g' h', low_pass None (Some s) f = Some g /\ low_pass None (Some t) g = Some h /\ low_pass None (Some t) f = Some g' /\ low_pass None (Some s) g' = Some h' /\
  forall p, mode p -> data (read h) p = data (read h') p.
Proof.
  intros s t f Hl T. assert (Ts : forall a, a < dim -> truncates a (grid s a)) by (intros; now apply T). assert (Tt : forall a, a < dim -> truncates a (grid t a)) by (intros; now apply T).
  destruct (low_pass_modes s f Hl Ts) as (g & Eg & Sg & Lg & Dg). destruct (low_pass_modes t g Lg Tt) as (h & Eh & _ & _ & Dh).
  destruct (low_pass_modes t f Hl Tt) as (g' & Eg' & Sg' & Lg' & Dg'). destruct (low_pass_modes s g' Lg' Ts) as (h' & Eh' & _ & _ & Dh'). exists g, h, g', h'. repeat (split; [assumption|]).
  intros p Hp. rewrite (Dh p Hp), (Dg p Hp), (Dh' p Hp), (Dg' p Hp). destruct (passes (grid s) p), (passes (grid t) p); reflexivity.
Qed.

Context (minus : V -> V -> V).
Notation high_pass := (high_pass zero minus dim coeffs fwd bwd).
(** A shape and scales together are refused. *)
Theorem low_pass_both : forall shape s f, low_pass (Some shape) (Some s) f = None /\ high_pass (Some shape) (Some s) f = None.
Proof. intros. split; reflexivity. Qed.

(** A high-pass filter keeps the coefficients that the low-pass filter drops, leaves the scales as they were, and leaves the field in coefficient space. *)
Theorem high_pass_modes : (forall v, minus v v = zero) -> (forall v, minus v zero = v) -> forall s f, layout f <= dim -> (forall a, a < dim -> truncates a (grid s a)) ->
  exists g, high_pass None (Some s) f = Some g /\ scales g = scales f /\ layout g = 0 /\
  forall p, mode p -> data (read g) p = if passes (grid s) p then zero else data (read f) p.
Proof.
  intros Hv Hz s f Hl T. unfold Filters_Model.high_pass.
  destruct (low_pass_modes s (read f)) as (g & Eg & Sg & Lg & Dg); [rewrite read_value by exact Hl; cbn; lia|exact T|]. rewrite Eg. eexists. split; [reflexivity|]. cbn [scales layout].
  split; [rewrite read_value by exact Lg; cbn [scales]; rewrite Sg, read_value by exact Hl; reflexivity|]. split; [reflexivity|]. intros p Hp. rewrite (read_value (Field _ 0 _)) by (cbn; lia). cbn [data layout scales Filters_Proofs.down].
  rewrite (Dg p Hp). rewrite (read_value (read f)) by (rewrite read_value by exact Hl; cbn; lia). rewrite (read_value f Hl). cbn [data layout Filters_Proofs.down]. destruct (passes _ p); [apply Hv|apply Hz].
Qed.
End Filters.

(** The transforms of C08, C09 and C11 lose exactly the modes that are not resolved. *)
From Coq Require Import ZArith.
From stdpp Require Import list.
From Verif Require Import Fourier_Model Fourier_Spec Sums Fourier_Proofs Fourier_Props.

Lemma nth_of_lookup {A} (l : list A) j (x d : A) : l !! j = Some x -> nth j l d = x.
Proof. intros H. apply nth_lookup_Some with (d := d) in H. exact H. Qed.
Lemma rat_zeros n x : rat (repeat 0%R n) x = 0%R.
Proof. unfold rat. revert x. induction n as [|n IH]; intros [|x]; try reflexivity. apply IH. Qed.
Lemma cat_zeros n x : cat (repeat C0 n) x = C0.
Proof. unfold cat. revert x. induction n as [|n IH]; intros [|x]; try reflexivity. apply IH. Qed.
Lemma csum_zeros n f : (forall i, f i = C0) -> csum n f = C0.
Proof. intros H. unfold csum, C0. f_equal; apply rsum_zero; intros; now rewrite H. Qed.
Lemma past_end {A} (l : list A) n j d : length l = n -> ~ j < n -> nth j l d = d.
Proof. intros <- H. apply nth_overflow. lia. Qed.

Lemma real_truncates ax a n : real_good ax a n -> truncates 0%R (real_coeffs ax) (real_fwd ax) (real_bwd ax) (real_kept ax) a n.
Proof.
  unfold real_good. intros G. destruct (ax a) as [M|M|] eqn:E.
  - destruct G as (HM & HE & Hn). assert (P : pair_storage M = M). { unfold pair_storage. apply Nat.even_spec in HE. destruct HE as [m ->]. replace (2 * m + 1) with (1 + m * 2) by lia. rewrite Nat.div_add by lia. cbn [Nat.div Nat.divmod fst]. lia. }
    assert (K : forall j, j <> 1 -> real_kept ax a n j = true <-> j / 2 <= resolved n M).
    { intros j Hj. unfold real_kept, resolved. rewrite E. replace (j =? 1) with false by (symmetry; now apply Nat.eqb_neq). cbn [negb]. rewrite andb_true_r, andb_true_iff, !Nat.ltb_lt. 
      assert (X : forall m, 0 < m -> 2 * (j / 2) < m <-> j / 2 <= (m - 1) / 2).
      { intros m Hm. split; intros H; [apply Nat.div_le_lower_bound; lia|]. pose proof (Nat.mul_div_le (m - 1) 2 ltac:(lia)). lia. }
      rewrite !X by assumption. lia. }
    assert (K1 : real_kept ax a n 1 = false) by (unfold real_kept; rewrite E, andb_false_r; reflexivity).
    constructor; unfold real_coeffs, real_fwd, real_bwd; rewrite E.
    + intros v Hv. destruct (real_fft_backward n M v (repeat 0%R (n / 2 + 1)) (repeat 0%R (n / 2 + 1)) (repeat 0%R n)) as (_ & -> & _); rewrite ?repeat_length; try lia. cbn. now rewrite map_length, seq_length.
    + intros v Hv j Hj. destruct (real_fft_round_trip n M v (repeat 0%R (n / 2 + 1)) (repeat 0%R (n / 2 + 1)) (repeat 0%R M)) as (g & o & E1 & _ & E2 & _ & L & H); rewrite ?repeat_length; try lia.
      rewrite E1. cbn [no_list]. rewrite E2. cbn [no_list]. rewrite P in H. specialize (H j Hj). apply (nth_of_lookup _ _ _ 0%R) in H. rewrite H. destruct (decide (j = 1)) as [->|Hne].
      * rewrite K1. now destruct (decide (1 / 2 <= _)).
      * specialize (K j Hne). destruct (decide (j / 2 <= resolved n M)), (real_kept ax a n j); try reflexivity; try (exfalso; intuition congruence). unfold rat. symmetry. apply nth_lookup.
    + intros w Hw j Hj Hk. destruct (real_fft_forward n M w (repeat 0%R M)) as (o & -> & _ & L & H); rewrite ?repeat_length; try lia. cbn [no_list]. rewrite P in H. specialize (H j Hj). apply (nth_of_lookup _ _ _ 0%R) in H. rewrite H.
      destruct (decide (j = 1)) as [->|Hne]; [now destruct (decide _)|]. specialize (K j Hne). destruct (decide (j / 2 <= resolved n M)); [exfalso; intuition congruence|reflexivity].
    + intros j. destruct (real_fft_forward n M (repeat 0%R n) (repeat 0%R M)) as (o & -> & _ & L & H); rewrite ?repeat_length; try lia. cbn [no_list]. rewrite P in *. destruct (lt_dec j M) as [Hj|Hj]; [|now apply past_end with M].
      specialize (H j Hj). apply (nth_of_lookup _ _ _ 0%R) in H. rewrite H. destruct (decide _); [|reflexivity]. unfold real_coefficient. destruct (decide _); [|destruct (decide _); [reflexivity|destruct (Nat.even j)]].
      * rewrite rsum_zero; [lra|]. intros. apply rat_zeros.
      * rewrite rsum_zero; [lra|]. intros. rewrite rat_zeros. lra.
      * rewrite rsum_zero; [lra|]. intros. rewrite rat_zeros. lra.
  - destruct G as [HM Hn]. assert (K : forall j, j < M -> real_kept ax a n j = true <-> j < Nat.min n M) by (intros j Hj; unfold real_kept; rewrite E, Nat.ltb_lt; lia).
    constructor; unfold real_coeffs, real_fwd, real_bwd; rewrite E.
    + intros v Hv. rewrite chebyshev_backward; rewrite ?repeat_length; try lia. cbn. now rewrite map_length, seq_length.
    + intros v Hv j Hj. destruct (chebyshev_round_trip n M v (repeat 0%R n) (repeat 0%R M)) as (g & o & E1 & E2 & L & H); rewrite ?repeat_length; try lia. rewrite E1. cbn [no_list]. rewrite E2. cbn [no_list].
      specialize (H j Hj). apply (nth_of_lookup _ _ _ 0%R) in H. rewrite H. specialize (K j Hj). destruct (decide _), (real_kept ax a n j); try reflexivity; try (exfalso; intuition congruence). unfold rat. symmetry. apply nth_lookup.
    + intros w Hw j Hj Hk. destruct (chebyshev_forward n M w (repeat 0%R M)) as (o & -> & L & H); rewrite ?repeat_length; try lia. cbn [no_list]. specialize (H j Hj). apply (nth_of_lookup _ _ _ 0%R) in H. rewrite H.
      specialize (K j Hj). destruct (decide _); [exfalso; intuition congruence|reflexivity].
    + intros j. destruct (chebyshev_forward n M (repeat 0%R n) (repeat 0%R M)) as (o & -> & L & H); rewrite ?repeat_length; try lia. cbn [no_list]. destruct (lt_dec j M) as [Hj|Hj]; [|now apply past_end with M].
      specialize (H j Hj). apply (nth_of_lookup _ _ _ 0%R) in H. rewrite H. destruct (decide _); [|reflexivity]. unfold cheb_coefficient. apply rsum_zero. intros. rewrite rat_zeros. lra.
  - subst n. constructor; unfold real_coeffs, real_fwd, real_bwd, real_kept; rewrite E; try easy. intros [|[|j]]; reflexivity.
Qed.

Lemma complex_truncates ax a n : complex_good ax a n -> truncates C0 (complex_coeffs ax) (complex_fwd ax) (complex_bwd ax) (complex_kept ax) a n.
Proof.
  unfold complex_good. intros G. destruct (ax a) as [M|] eqn:E.
  - destruct G as (HM & Hn).
    assert (K : forall j, complex_kept ax a n j = true <-> (Z.abs (wavenumber M j) <= Z.of_nat (resolved n M))%Z).
    { intros j. unfold complex_kept, resolved. rewrite E, andb_true_iff, !Z.ltb_lt. generalize (Z.abs_nonneg (wavenumber M j)). generalize (Z.abs (wavenumber M j)). intros z Hz. rewrite <- (Z2Nat.id z Hz). generalize (Z.to_nat z). clear z Hz. intros z.
      assert (X : forall m, 0 < m -> 2 * z < m <-> z <= (m - 1) / 2).
      { intros m Hm. split; intros H; [apply Nat.div_le_lower_bound; lia|]. pose proof (Nat.mul_div_le (m - 1) 2 ltac:(lia)). lia. }
      pose proof (X M HM). pose proof (X n Hn). lia. }
    assert (Q : forall f o, exactly_modes M (resolved n M) f o -> forall j, j < M -> nth j o C0 = if complex_kept ax a n j then f (wavenumber M j) else C0).
    { intros f o (L & H1 & H2) j Hj. destruct (complex_kept ax a n j) eqn:F.
      - apply K in F. apply H1 in F. rewrite wavenumber_slot in F by exact Hj. now apply nth_of_lookup.
      - apply nth_of_lookup, H2; [exact Hj|]. intros k Hk Hs. pose proof (resolved_bounds n M Hn HM). assert (complex_kept ax a n j = true); [|congruence]. apply K. rewrite <- Hs, slot_wavenumber; [exact Hk|exact HM|].
        pose proof (Nat.div_le_lower_bound (M - 1) 2 (resolved n M)). lia. }
    constructor; unfold complex_coeffs, complex_fwd, complex_bwd; rewrite E.
    + intros v Hv. destruct (complex_fft_backward n M v (repeat C0 n)) as (_ & ->); rewrite ?repeat_length; try lia. cbn. now rewrite map_length, seq_length.
    + intros v Hv j Hj. destruct (complex_fft_round_trip n M v (repeat C0 n) (repeat C0 M)) as (g & o & E1 & _ & E2 & H); rewrite ?repeat_length; try lia. rewrite E1. cbn [no_list]. rewrite E2. cbn [no_list].
      rewrite (Q _ _ H j Hj). rewrite wavenumber_slot by exact Hj. unfold cat. now rewrite nth_lookup.
    + intros w Hw j Hj Hk. destruct (complex_fft_forward n M w (repeat C0 M)) as (o & -> & H); rewrite ?repeat_length; try lia. cbn [no_list]. rewrite (Q _ _ H j Hj). now rewrite Hk.
    + intros j. destruct (complex_fft_forward n M (repeat C0 n) (repeat C0 M)) as (o & -> & H); rewrite ?repeat_length; try lia. cbn [no_list]. destruct (lt_dec j M) as [Hj|Hj]; [|apply past_end with M; [apply H|exact Hj]].
      rewrite (Q _ _ H j Hj). destruct (complex_kept _ _ _ _); [|reflexivity]. unfold complex_coefficient. rewrite csum_zeros; [unfold Cscale, C0; cbn; f_equal; lra|]. intros i. rewrite cat_zeros. unfold Cmul, C0. cbn. f_equal; lra.
  - subst n. constructor; unfold complex_coeffs, complex_fwd, complex_bwd, complex_kept; rewrite E; try easy. intros [|[|j]]; reflexivity.
Qed.

(** Filters of real fields of waves, Chebyshev polynomials and constants, and of complex fields of waves. *)
Theorem real_low_pass : forall dim ax s f, layout f <= dim -> (forall a, a < dim -> real_good ax a (grid (real_coeffs ax) s a)) ->
  exists g, low_pass 0%R dim (real_coeffs ax) (real_fwd ax) (real_bwd ax) None (Some s) f = Some g /\ scales g = scales f /\ layout g <= dim /\
  forall p, mode (real_coeffs ax) dim p ->
  data (read 0%R dim (real_coeffs ax) (real_fwd ax) g) p = if passes (real_kept ax) dim (grid (real_coeffs ax) s) p then data (read 0%R dim (real_coeffs ax) (real_fwd ax) f) p else 0%R.
Proof. intros dim ax s f Hl G. apply low_pass_modes; [exact Hl|]. intros a Ha. apply real_truncates, G, Ha. Qed.
Theorem complex_low_pass : forall dim ax s f, layout f <= dim -> (forall a, a < dim -> complex_good ax a (grid (complex_coeffs ax) s a)) ->
  exists g, low_pass C0 dim (complex_coeffs ax) (complex_fwd ax) (complex_bwd ax) None (Some s) f = Some g /\ scales g = scales f /\ layout g <= dim /\
  forall p, mode (complex_coeffs ax) dim p ->
  data (read C0 dim (complex_coeffs ax) (complex_fwd ax) g) p = if passes (complex_kept ax) dim (grid (complex_coeffs ax) s) p then data (read C0 dim (complex_coeffs ax) (complex_fwd ax) f) p else C0.
Proof. intros dim ax s f Hl G. apply low_pass_modes; [exact Hl|]. intros a Ha. apply complex_truncates, G, Ha. Qed.
Theorem real_high_pass : forall dim ax s f, layout f <= dim -> (forall a, a < dim -> real_good ax a (grid (real_coeffs ax) s a)) ->
  exists g, high_pass 0%R Rminus dim (real_coeffs ax) (real_fwd ax) (real_bwd ax) None (Some s) f = Some g /\ scales g = scales f /\ layout g = 0 /\
  forall p, mode (real_coeffs ax) dim p ->
  data (read 0%R dim (real_coeffs ax) (real_fwd ax) g) p = if passes (real_kept ax) dim (grid (real_coeffs ax) s) p then 0%R else data (read 0%R dim (real_coeffs ax) (real_fwd ax) f) p.
Proof. intros dim ax s f Hl G. apply high_pass_modes; [intros; lra|intros; lra|exact Hl|]. intros a Ha. apply real_truncates, G, Ha. Qed.

(** Eight waves by four polynomials, filtered to a grid of four by two from a field halfway between layouts on a finer grid: wavenumbers zero and one
    and degrees zero and one are left. *)
Definition sample_axes (a : nat) : real_axis := match a with 0 => Waves 8 | 1 => Polynomials 4 | _ => Constant end.
Example sample_low_pass (x : array) :
  let read := read 0%R 2 (real_coeffs sample_axes) (real_fwd sample_axes) in
  let f := Field [3 / 2; 3 / 2]%R 1 x in
  exists g, low_pass 0%R 2 (real_coeffs sample_axes) (real_fwd sample_axes) (real_bwd sample_axes) (Some [4; 2]) None f = Some g /\ scales g = [3 / 2; 3 / 2]%R /\
  (forall i j, i < 4 -> i <> 1 -> j < 2 -> data (read g) (fun a => if a =? 0 then i else j) = data (read f) (fun a => if a =? 0 then i else j)) /\
  (forall i j, 4 <= i < 8 -> j < 4 -> data (read g) (fun a => if a =? 0 then i else j) = 0%R) /\
  (forall i j, i < 8 -> 2 <= j < 4 -> data (read g) (fun a => if a =? 0 then i else j) = 0%R).
Proof.
  intros read f.
  destruct (low_pass_shape 0%R 2 (real_coeffs sample_axes) (real_fwd sample_axes) (real_bwd sample_axes) (real_kept sample_axes) [4; 2] f) as (g & E & Sg & D).
  - cbn. lia.
  - reflexivity.
  - intros a Ha. split; [destruct a as [|[|a]]; cbn; lia|]. apply real_truncates. destruct a as [|[|a]]; cbn; lia.
  - exists g. split; [exact E|]. split; [exact Sg|]. assert (Hm : forall i j, i < 8 -> j < 4 -> mode (real_coeffs sample_axes) 2 (fun a => if a =? 0 then i else j)) by (intros i j Hi Hj [|[|a]] Ha; cbn; lia).
    assert (Hp : forall i j, passes (real_kept sample_axes) 2 (shape_points (real_coeffs sample_axes) [4; 2]) (fun a => if a =? 0 then i else j) = (2 * (i / 2) <? 8) && (2 * (i / 2) <? 4) && negb (i =? 1) && (j <? 2)).
    { intros i j. unfold passes. cbn [seq forallb]. rewrite andb_true_r. reflexivity. }
    split; [|split].
    + intros i j Hi Hi1 Hj. rewrite D by (apply Hm; lia). rewrite Hp. replace (j <? 2) with true by (symmetry; now apply Nat.ltb_lt). destruct i as [|[|[|[|i]]]]; try lia; reflexivity.
    + intros i j Hi Hj. rewrite D by (apply Hm; lia). rewrite Hp. replace (2 * (i / 2) <? 4) with false; [now rewrite andb_false_r|]. symmetry. apply Nat.ltb_ge. pose proof (Nat.div_le_lower_bound i 2 2). lia.
    + intros i j Hi Hj. rewrite D by (apply Hm; lia). rewrite Hp. replace (j <? 2) with false by (symmetry; apply Nat.ltb_ge; lia). now rewrite andb_false_r.
Qed.
Print Assumptions low_pass_modes.
Print Assumptions low_pass_shape.
Print Assumptions low_pass_both.
Print Assumptions low_pass_twice.
Print Assumptions low_pass_order.
Print Assumptions high_pass_modes.
Print Assumptions real_low_pass.
Print Assumptions complex_low_pass.
Print Assumptions real_high_pass.
