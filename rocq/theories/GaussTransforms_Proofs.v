(** Proofs about transforms on Gauss points. *)
From Coq Require Import List ZArith Reals Bool Lia Lra.
From Coquelicot Require Import Coquelicot.
Import ListNotations.
From Verif Require Import MatSolvers_Model MatSolvers_Proofs CSR_Spec Codomain_Model Codomain_Spec Codomain_Proofs JacobiCalc_Model JacobiCalc_Spec JacobiCalc_Proofs JacobiCalc_Ops JacobiCalc_Props JacobiNCC_Proofs Radial_Model Radial_Spec Radial_Proofs GaussTransforms_Model GaussTransforms_Spec.
Local Open Scope R_scope.
Notation total := (CSR_Spec.total 0 Rplus).

(** ** Any orthonormal functions *)
Definition assembled (early : bool) (M : nat) (W : mat R) (conv : option (nat -> option (mat R))) : option (mat R) :=
  let W := if early then top M W else W in
  obind (match conv with Some C => obind (C (nr W)) (fun C => product C W) | None => Some W end) (fun F => Some (if early then F else top M F)).
Lemma series_cut n m (c : nat -> R) (phi : nat -> R -> R) x : (n <= m)%nat -> series m (fun i => if (i <? n)%nat then c i else 0) phi x = series n c phi x.
Proof.
  intros H. unfold series. rewrite (Rtotal_more n m) by first [exact H | intros i Hi; destruct (Nat.ltb_spec i n); [lia|ring]]. apply Rtotal_ext. intros i Hi. destruct (Nat.ltb_spec i n); [reflexivity|lia].
Qed.
Lemma series_ext n c d phi x : (forall i, (i < n)%nat -> c i = d i) -> series n c phi x = series n d phi x.
Proof. intros H. apply Rtotal_ext. intros i Hi. rewrite (H i Hi). reflexivity. Qed.
Section Families.
Context (D : R -> Prop) (phi psi : nat -> R -> R) (pts wts : nat -> R) (Ng cut : nat).
Context (Hpts : forall t, (t < Ng)%nat -> D (pts t)).
Context (Horth : forall i j, (i < cut)%nat -> (j < cut)%nat -> total Ng (fun t => phi i (pts t) * wts t * phi j (pts t)) = delta i j).
Context (Hind : forall n c, (forall x, D x -> series n c psi x = 0) -> forall i, (i < n)%nat -> c i = 0).
Context (Hspan : forall n c, exists b, forall x, D x -> series n c psi x = series n b phi x).
Lemma psi_unique n c d : (forall x, D x -> series n c psi x = series n d psi x) -> forall i, (i < n)%nat -> c i = d i.
Proof.
  intros H i Hi. assert (c i + -1 * d i = 0); [|lra]. apply (Hind n (fun i => c i + -1 * d i)); [|exact Hi]. intros x Hx. unfold series. rewrite (Rtotal_ext _ _ (fun n => c n * psi n x + -1 * (d n * psi n x))) by (intros; ring). rewrite Rtotal_add, Rtotal_scale. specialize (H x Hx). unfold series in H. lra.
Qed.
Definition converts (A : mat R) (K : nat) : Prop := nr A = K /\ nc A = K /\ forall c x, D x -> series K (image A c) psi x = series K c phi x.
Definition conv_ok (conv : option (nat -> option (mat R))) : Prop :=
  match conv with Some C => forall K, (1 <= K)%nat -> exists A, C K = Some A /\ converts A K | None => forall i x, D x -> phi i x = psi i x end.
Lemma base_value W i R b : (nc W = Ng) -> (forall t, (t < Ng)%nat -> at_ W i t = if (cut <=? i)%nat then 0 else phi i (pts t) * wts t) -> (R <= cut)%nat ->
  total Ng (fun t => at_ W i t * series R b phi (pts t)) = if (i <? R)%nat then b i else 0.
Proof.
  intros Hc HW HR. rewrite (Rtotal_ext _ _ (fun t => if (cut <=? i)%nat then 0 else phi i (pts t) * wts t * series R b phi (pts t))) by (intros t Ht; rewrite (HW t Ht); destruct (cut <=? i)%nat; ring).
  destruct (Nat.leb_spec cut i) as [H|H]; [rewrite Rtotal_zero by reflexivity; destruct (Nat.ltb_spec i R); [lia|reflexivity]|].
  rewrite (Rtotal_ext _ _ (fun t => total R (fun j => b j * (phi i (pts t) * wts t * phi j (pts t))))) by (intros t _; unfold series; rewrite <- Rtotal_scale; apply Rtotal_ext; intros; ring).
  rewrite Rtotal_swap. rewrite (Rtotal_ext _ _ (fun j => b j * delta i j)) by (intros j Hj; rewrite Rtotal_scale, Horth by lia; reflexivity).
  destruct (Nat.ltb_spec i R) as [Hi|Hi].
  - rewrite (Rtotal_single R i) by (try exact Hi; intros j _ Hj; unfold delta; rewrite (proj2 (Nat.eqb_neq i j)) by lia; ring). unfold delta. rewrite Nat.eqb_refl. ring.
  - apply Rtotal_zero. intros j Hj. unfold delta. rewrite (proj2 (Nat.eqb_neq i j)) by lia. ring.
Qed.
Lemma assembled_some early M W conv : (1 <= M <= nr W)%nat -> nc W = Ng -> conv_ok conv -> exists F A, assembled early M W conv = Some F /\ nr F = M /\ nc F = Ng
  /\ converts A (if early then M else nr W) /\ forall f i, (i < M)%nat -> image F f i = image A (fun j => total Ng (fun t => at_ W j t * f t)) i.
Proof.
  intros HM HN HC. unfold assembled. set (K := if early then M else nr W). set (V := if early then top M W else W).
  assert (HK : nr V = K /\ nc V = Ng /\ at_ V = at_ W) by (unfold V, K; destruct early; [cbn; split; [lia|auto]|auto]). destruct HK as (HK & HV & HA). assert (K1 : (M <= K)%nat) by (unfold K; destruct early; lia).
  destruct conv as [C|].
  - destruct (HC K ltac:(lia)) as (A & EA & HrA & HcA & HsA). rewrite HK, EA. cbn [obind]. unfold product. rewrite HcA, HK, Nat.eqb_refl. cbn [obind]. eexists _, A. split; [reflexivity|].
    assert (G : forall f i, (i < M)%nat -> total Ng (fun t => at_ (mmul 0 Rplus Rmult A V) i t * f t) = image A (fun j => total Ng (fun t => at_ W j t * f t)) i).
    { intros f i Hi. cbn [mmul at_]. unfold image. rewrite (Rtotal_ext _ _ (fun t => total (nc A) (fun j => at_ A i j * at_ V j t * f t))) by (intros t _; rewrite Rtotal_scale_r; reflexivity). rewrite Rtotal_swap. apply Rtotal_ext. intros j _. rewrite <- Rtotal_scale. apply Rtotal_ext. intros t _. rewrite HA. ring. }
    destruct early; cbn [top mmul nr nc]; (split; [unfold K in *; lia|]); (split; [exact HV|]); (split; [split; [exact HrA|split; [exact HcA|exact HsA]]|]); intros f i Hi; unfold image at 1; cbn [top nc at_ mmul]; rewrite HV; exact (G f i Hi).
  - cbn [obind]. eexists _, (identity 0 1 K). split; [reflexivity|].
    assert (I : forall c i, (i < K)%nat -> image (identity 0 1 K) c i = c i).
    { intros c i Hi. unfold image. cbn [identity nc at_]. rewrite (Rtotal_single K i) by (try exact Hi; intros j _ Hj; rewrite (proj2 (Nat.eqb_neq i j)) by lia; ring). rewrite Nat.eqb_refl. ring. }
    assert (Cv : converts (identity 0 1 K) K). { split; [reflexivity|]. split; [reflexivity|]. intros c x Hx. unfold series. apply Rtotal_ext. intros i Hi. rewrite I by exact Hi. rewrite (HC i x Hx). reflexivity. }
    destruct early; cbn [top nr nc]; (split; [unfold K, V in *; cbn in *; lia|]); (split; [exact HV|]); (split; [exact Cv|]); intros f i Hi; rewrite I by lia; unfold image; cbn [top nc at_]; rewrite HV, ?HA; reflexivity.
Qed.
Lemma assembled_value early M W conv : (1 <= M <= nr W)%nat -> nc W = Ng -> conv_ok conv -> (forall i t, (i < nr W)%nat -> (t < Ng)%nat -> at_ W i t = if (cut <=? i)%nat then 0 else phi i (pts t) * wts t) -> exists F, assembled early M W conv = Some F /\ nr F = M /\ nc F = Ng
  /\ (forall R c i, (R <= M)%nat -> (R <= cut)%nat -> (i < M)%nat -> image F (fun t => series R c psi (pts t)) i = if (i <? R)%nat then c i else 0)
  /\ (early = true -> forall R e x, (R <= cut)%nat -> D x -> series M (image F (fun t => series R e phi (pts t))) psi x = series (Nat.min M R) e phi x)
  /\ (early = false -> forall R e e' i, (R <= cut)%nat -> (R <= nr W)%nat -> (forall x, D x -> series R e' psi x = series R e phi x) -> (i < M)%nat -> image F (fun t => series R e phi (pts t)) i = if (i <? R)%nat then e' i else 0).
Proof.
  intros HM HN HC HW. destruct (assembled_some early M W conv HM HN HC) as (F & A & EF & HrF & HcF & (HrA & HcA & HsA) & HF). set (K := if early then M else nr W) in *. assert (K1 : (M <= K)%nat) by (unfold K; destruct early; lia).
  assert (B : forall R b i, (R <= cut)%nat -> (i < M)%nat -> image F (fun t => series R b phi (pts t)) i = image A (fun j => if (j <? R)%nat then b j else 0) i).
  { intros R b i HR Hi. rewrite HF by exact Hi. unfold image. apply Rtotal_ext. intros j Hj. rewrite (base_value W j R b HN (fun t => HW j t ltac:(rewrite HcA in Hj; unfold K in Hj; destruct early; lia)) HR). reflexivity. }
  exists F. split; [exact EF|]. split; [exact HrF|]. split; [exact HcF|]. split; [|split].
  - intros R c i HR1 HR2 Hi. destruct (Hspan R c) as (b & Hb). transitivity (image F (fun t => series R b phi (pts t)) i). { unfold image. rewrite HcF. apply Rtotal_ext. intros t Ht. rewrite (Hb _ (Hpts t Ht)). reflexivity. }
    rewrite B by assumption. apply (psi_unique K (image A (fun j => if (j <? R)%nat then b j else 0)) (fun i => if (i <? R)%nat then c i else 0)); [|lia]. intros x Hx. rewrite HsA by exact Hx. rewrite !series_cut by lia. symmetry. apply Hb, Hx.
  - intros E R e x HR Hx. unfold K in *. rewrite E in *. rewrite (series_ext M _ (image A (fun j => if (j <? R)%nat then e j else 0))) by (intros i Hi; apply B; assumption). rewrite HsA by exact Hx.
    unfold series. destruct (Nat.le_gt_cases R M) as [H|H].
    + rewrite Nat.min_r by exact H. apply (series_cut R M e phi x H).
    + rewrite Nat.min_l by lia. apply Rtotal_ext. intros i Hi. destruct (Nat.ltb_spec i R); [reflexivity|lia].
  - intros E R e e' i HR HR' He Hi. unfold K in *. rewrite E in *. rewrite B by assumption. apply (psi_unique (nr W) (image A (fun j => if (j <? R)%nat then e j else 0)) (fun i => if (i <? R)%nat then e' i else 0)); [|lia]. intros x Hx. rewrite HsA by exact Hx. rewrite !series_cut by exact HR'. symmetry. apply He, Hx.
Qed.
(** The transform to the grid. *)
Lemma backward_value M W c t : nc W = Ng -> nr W = M -> (forall i t, (t < Ng)%nat -> (i < M)%nat -> at_ W i t = if (cut <=? i)%nat then 0 else psi i (pts t)) -> (t < Ng)%nat -> image (transpose W) c t = series (Nat.min M cut) c psi (pts t).
Proof.
  intros HN HM HW Ht. unfold image. cbn [transpose nc at_]. rewrite HM. unfold series. rewrite (Rtotal_ext M _ (fun i => (if (i <? Nat.min M cut)%nat then c i else 0) * psi i (pts t))).
  - apply (series_cut (Nat.min M cut) M c psi). lia.
  - intros i Hi. rewrite HW by assumption. destruct (Nat.leb_spec cut i), (Nat.ltb_spec i (Nat.min M cut)); try lia; ring.
Qed.
End Families.

(** ** Values on grids *)
Lemma each_some_map {A B} (f : A -> option B) (g : A -> B) l : (forall a, In a l -> f a = Some (g a)) -> each_some (map f l) = Some (map g l).
Proof. induction l as [|a l IH]; intros H; [reflexivity|]. cbn [map each_some]. rewrite (H a (or_introl eq_refl)), IH by (intros b Hb; apply H; right; exact Hb). reflexivity. Qed.
Lemma values_some n f (phi : nat -> R -> R) grid : (forall z, In z grid -> f z = Some (map (fun i => phi i z) (seq 0 n))) -> exists W, values n f grid = Some W /\ nr W = n /\ nc W = length grid /\ forall i t, (i < n)%nat -> (t < length grid)%nat -> at_ W i t = phi i (nth t grid 0).
Proof.
  intros H. unfold values. rewrite (each_some_map f (fun z => map (fun i => phi i z) (seq 0 n)) grid H). cbn [obind]. eexists. split; [reflexivity|]. cbn [nr nc at_]. do 2 (split; [reflexivity|]). intros i t Hi Ht.
  rewrite (nth_indep _ [] (map (fun i => phi i 0) (seq 0 n))) by (rewrite map_length; exact Ht). rewrite (map_nth (fun z => map (fun i => phi i z) (seq 0 n))).
  rewrite (nth_indep _ 0 (phi 0%nat (nth t grid 0))) by (rewrite map_length, seq_length; exact Hi). rewrite (map_nth (fun i => phi i (nth t grid 0))), seq_nth by exact Hi. reflexivity.
Qed.
Lemma point_map q t : nth t (map fst q) 0 = point q t. Proof. exact (map_nth fst q (0, 0) t). Qed.
Definition weight (q : list (R * R)) (t : nat) : R := snd (nth t q (0, 0)).
Lemma weight_map q t : nth t (map snd q) 0 = weight q t. Proof. exact (map_nth snd q (0, 0) t). Qed.
Lemma weighted_total q p : weighted_sum q p = total (length q) (fun t => weight q t * p (point q t)).
Proof.
  induction q as [|[z w] q IH]; [reflexivity|]. cbn [length]. rewrite Rtotal_first. unfold weighted_sum. cbn [map fold_right fst snd]. unfold weighted_sum in IH. rewrite IH. reflexivity.
Qed.

Section Mass.
Context (mass : R -> R -> R) (Hm : mass_rules mass) (quadrature : nat -> R -> R -> list (R * R)).
Notation unit := (unit_polynomial mass).
Lemma unit_span n a b : -1 < a -> -1 < b -> forall c, exists d, forall z, ev n c z = total n (fun i => d i * unit i a b z).
Proof.
  intros Ha Hb. induction n as [|n IH]; intros c; [exists c; reflexivity|]. pose proof (leading_pos n a b Ha Hb) as P1. pose proof (sqrt_lt_R0 _ (norm2_pos mass Hm n a b Ha Hb)) as P2. set (lc := coefficient n a b n / sqrt (norm2 mass n a b)). assert (P : 0 < lc) by (apply Rdiv_lt_0_compat; assumption).
  destruct (IH (fun k => c k + - (c n / lc) * (coefficient n a b k / sqrt (norm2 mass n a b)))) as (d & Hd). exists (fun i => if (i =? n)%nat then c n / lc else d i). intros z. rewrite Rtotal_S, Nat.eqb_refl. rewrite (Rtotal_ext n _ (fun i => d i * unit i a b z)) by (intros i Hi; rewrite (proj2 (Nat.eqb_neq i n)) by lia; reflexivity).
  rewrite <- Hd, (unit_ev mass (S n) n a b z) by lia. unfold ev. rewrite !Rtotal_S. fold lc.
  assert (X : total n (fun k => (c k + - (c n / lc) * (coefficient n a b k / sqrt (norm2 mass n a b))) * ((z - 1) / 2) ^ k) = total n (fun k => c k * ((z - 1) / 2) ^ k) + - (c n / lc) * total n (fun k => coefficient n a b k / sqrt (norm2 mass n a b) * ((z - 1) / 2) ^ k)).
  { rewrite <- Rtotal_scale, <- Rtotal_add. apply Rtotal_ext. intros. ring. }
  rewrite X. field. lra.
Qed.
Lemma unit_in n a b c : exists d, forall z, total n (fun i => c i * unit i a b z) = ev n d z.
Proof.
  exists (fun k => total n (fun i => c i * (coefficient i a b k / sqrt (norm2 mass i a b)))). intros z. unfold ev. rewrite (Rtotal_ext n _ (fun i => total n (fun k => c i * (coefficient i a b k / sqrt (norm2 mass i a b)) * ((z - 1) / 2) ^ k))).
  - rewrite Rtotal_swap. apply Rtotal_ext. intros k _. apply Rtotal_scale_r.
  - intros i Hi. rewrite (unit_ev mass n i a b z Hi). unfold ev. rewrite <- Rtotal_scale. apply Rtotal_ext. intros. ring.
Qed.
Lemma unit_change n a b a' b' : -1 < a' -> -1 < b' -> forall c, exists d, forall z, total n (fun i => c i * unit i a b z) = total n (fun i => d i * unit i a' b' z).
Proof. intros Ha Hb c. destruct (unit_in n a b c) as (e & He). destruct (unit_span n a' b' Ha Hb e) as (d & Hd). exists d. intros z. rewrite He. apply Hd. Qed.

(** ** Jacobi polynomials *)
Section Jacobi.
Context (N M : nat) (HN : (1 <= N)%nat) (HM : (1 <= M)%nat) (a0 b0 : R) (Ha : -1 < a0) (Hb : -1 < b0) (Hq : gauss mass N a0 b0 (quadrature N a0 b0)) (da db : nat).
Notation q := (quadrature N a0 b0).
Notation a := (a0 + INR da).
Notation b := (b0 + INR db).
Lemma jacobi_orth i j : (i < N)%nat -> (j < N)%nat -> total N (fun t => unit i a0 b0 (point q t) * weight q t * unit j a0 b0 (point q t)) = delta i j.
Proof.
  intros Hi Hj. destruct Hq as (HL & _ & H). specialize (H 0%nat i j ltac:(lia)). unfold orthonormal in H. rewrite weighted_total, HL in H. rewrite <- H. apply Rtotal_ext. intros t _. cbn [pow INR]. rewrite Rplus_0_r. ring.
Qed.
Lemma parameter x n : -1 < x -> -1 < x + INR n. Proof. intros. pose proof (pos_INR n). lra. Qed.
Lemma jacobi_ind n c : (forall x, True -> series n c (fun i => unit i a b) x = 0) -> forall i, (i < n)%nat -> c i = 0.
Proof. intros H. apply (unit_independent mass Hm n a b c (parameter _ _ Ha) (parameter _ _ Hb)). intros z. exact (H z I). Qed.
Lemma jacobi_span n c : exists d, forall x, True -> series n c (fun i => unit i a b) x = series n d (fun i => unit i a0 b0) x.
Proof. destruct (unit_change n a b a0 b0 Ha Hb c) as (d & H). exists d. intros x _. apply H. Qed.
Definition jacobi_conv : option (nat -> option (mat R)) := if Req_EM_T a a0 then if Req_EM_T b b0 then None else Some (fun n => conversion_matrix n a0 b0 a b) else Some (fun n => conversion_matrix n a0 b0 a b).
Lemma jacobi_conv_ok : conv_ok (fun _ => True) (fun i => unit i a0 b0) (fun i => unit i a b) jacobi_conv.
Proof.
  assert (G : forall K, (1 <= K)%nat -> exists A, conversion_matrix K a0 b0 a b = Some A /\ converts (fun _ => True) (fun i => unit i a0 b0) (fun i => unit i a b) A K).
  { intros K HK. destruct (conversion_value mass Hm K a0 b0 da db HK Ha Hb) as (A & EA & Hr & Hc & H). exists A. split; [exact EA|]. split; [exact Hr|]. split; [exact Hc|]. intros c x _. unfold series, image. rewrite Hc. rewrite (Rtotal_ext K _ (fun i => total K (fun j => at_ A i j * c j * unit i a b x))) by (intros; symmetry; apply Rtotal_scale_r).
    rewrite Rtotal_swap. apply Rtotal_ext. intros j Hj. rewrite (H j x Hj). rewrite <- Rtotal_scale. apply Rtotal_ext. intros. ring. }
  unfold jacobi_conv. destruct (Req_EM_T a a0) as [E1|]; [destruct (Req_EM_T b b0) as [E2|]|]; cbn [conv_ok]; try exact G. intros i x _. rewrite E1, E2. reflexivity.
Qed.
Theorem jacobi_forward_value early : exists F, jacobi_forward_matrix mass quadrature early N M a b a0 b0 = Some F /\ nr F = M /\ nc F = N
  /\ (forall R c i, (R <= M)%nat -> (R <= N)%nat -> (i < M)%nat -> image F (fun t => series R c (fun i => unit i a b) (point q t)) i = if (i <? R)%nat then c i else 0)
  /\ (early = true -> forall R e x, (R <= N)%nat -> series M (image F (fun t => series R e (fun i => unit i a0 b0) (point q t))) (fun i => unit i a b) x = series (Nat.min M R) e (fun i => unit i a0 b0) x)
  /\ (early = false -> forall R e e' i, (R <= N)%nat -> (forall x, series R e' (fun i => unit i a b) x = series R e (fun i => unit i a0 b0) x) -> (i < M)%nat -> image F (fun t => series R e (fun i => unit i a0 b0) (point q t)) i = if (i <? R)%nat then e' i else 0).
Proof.
  destruct Hq as (HL & Hin & _). unfold jacobi_forward_matrix. destruct (values_some (Nat.max M N) (fun z => polynomials mass true None (Nat.max M N) a0 b0 z) (fun i => unit i a0 b0) (map fst q) ltac:(intros z _; apply (polynomials_value mass Hm); assumption)) as (W & EW & HrW & HcW & HW). rewrite EW. cbn [obind]. rewrite map_length in *. rewrite HL in *.
  set (V := zero_from N (weigh (map snd q) W)).
  destruct (assembled_value (fun _ => True) (fun i => unit i a0 b0) (fun i => unit i a b) (point q) (weight q) N N (fun _ _ => I) jacobi_orth jacobi_ind jacobi_span early M V jacobi_conv) as (F & EF & Hr & Hc & H1 & H2 & H3).
  - unfold V. cbn. lia.
  - exact HcW.
  - exact jacobi_conv_ok.
  - intros i t _ Ht. unfold V. cbn [zero_from weigh at_]. destruct (Nat.leb_spec N i); [reflexivity|]. rewrite HW, point_map, weight_map by lia. reflexivity.
  - exists F. split; [|split; [exact Hr|split; [exact Hc|split; [exact H1|split]]]].
    + rewrite <- EF. unfold assembled, jacobi_conv. cbv zeta. destruct (Req_EM_T a a0); [destruct (Req_EM_T b b0)|]; reflexivity.
    + intros E R e x HR. apply (H2 E R e x HR I).
    + intros E R e e' i HR He. apply (H3 E R e e' i HR); [unfold V; cbn; lia|]. intros x _. apply He.
Qed.
Theorem jacobi_backward_value : exists B, jacobi_backward_matrix mass quadrature N M a b a0 b0 = Some B /\ nr B = N /\ nc B = M
  /\ forall c t, (t < N)%nat -> image B c t = series (Nat.min M N) c (fun i => unit i a b) (point q t).
Proof.
  destruct Hq as (HL & Hin & _). unfold jacobi_backward_matrix. destruct (values_some M (fun z => polynomials mass true None M a b z) (fun i => unit i a b) (map fst q) ltac:(intros z _; apply (polynomials_value mass Hm); apply parameter; assumption)) as (W & EW & HrW & HcW & HW). rewrite EW. cbn [obind]. rewrite map_length in *. rewrite HL in *.
  eexists. split; [reflexivity|]. split; [exact HcW|]. split; [exact HrW|]. intros c t Ht. apply (backward_value (fun i => unit i a b) (point q) N N M); [exact HcW|exact HrW| |exact Ht].
  intros i t' Ht' Hi. cbn [zero_from at_]. destruct (Nat.leb_spec N i); [reflexivity|]. rewrite HW, point_map by lia. reflexivity.
Qed.
End Jacobi.

(** ** Zernike functions *)
Section Zernike.
Context (d : nat) (Hd : (1 <= d)%nat) (Ng Nc Nmin : nat) (HNc : (Nmin < Nc)%nat) (alpha : R) (Ha : -1 < alpha) (Hq : gauss mass Ng alpha (INR d / 2 - 1) (quadrature Ng alpha (INR d / 2 - 1))) (k l : nat).
Notation q := (quadrature Ng alpha (INR d / 2 - 1)).
Notation phi := (zernike mass d 1 alpha l).
Notation psi := (zernike mass d 1 (alpha + INR k) l).
Definition inside (t : nat) : R := sqrt ((1 + point q t) / 2).
Definition wts (t : nat) : R := weight q t / Rpower 2 (alpha + INR d / 2 + 1).
Lemma zb_low : -1 < INR l + INR d / 2 - 1. Proof. pose proof (zb_of d l Hd) as [H _]. exact H. Qed.
Lemma point_in t : (t < Ng)%nat -> -1 < point q t < 1.
Proof. intros Ht. destruct Hq as (HL & Hin & _). apply (Hin _ (weight q t)). unfold point, weight. rewrite <- surjective_pairing. apply nth_In. lia. Qed.
Lemma inside_pos t : (t < Ng)%nat -> 0 < inside t. Proof. intros Ht. pose proof (point_in t Ht). apply sqrt_lt_R0. lra. Qed.
Lemma inside_arg t : (t < Ng)%nat -> 2 * (inside t / 1) ^ 2 - 1 = point q t.
Proof. intros Ht. pose proof (point_in t Ht). unfold inside. rewrite Rdiv_1. cbn [pow]. rewrite Rmult_1_r, sqrt_sqrt by lra. field. Qed.
Lemma two_pow : Rpower 2 (alpha + INR l + INR d / 2 + 1) = 2 ^ l * Rpower 2 (alpha + INR d / 2 + 1).
Proof. rewrite <- Rpower_pow by lra. rewrite <- Rpower_plus. f_equal. ring. Qed.
Lemma zernike_orth i j : (i < Ng - l / 2)%nat -> (j < Ng - l / 2)%nat -> total Ng (fun t => phi i (inside t) * wts t * phi j (inside t)) = delta i j.
Proof.
  intros Hi Hj. pose proof Hq as (HL & _ & H). assert (HI : (l + i + j < 2 * Ng)%nat) by (pose proof (Nat.div_mod l 2 ltac:(lia)); pose proof (Nat.mod_upper_bound l 2 ltac:(lia)); lia).
  specialize (H l i j HI). unfold orthonormal in H. rewrite weighted_total, HL in H. rewrite <- H. apply Rtotal_ext. intros t Ht. unfold zernike, wts. rewrite (inside_arg t Ht).
  replace (INR d / 2 - 1 + INR l) with (INR l + INR d / 2 - 1) by ring. set (u := unit i _ _ _). set (v := unit j _ _ _).
  assert (S2 : sqrt (Rpower 2 (alpha + INR l + INR d / 2 + 1)) * sqrt (Rpower 2 (alpha + INR l + INR d / 2 + 1)) = Rpower 2 (alpha + INR l + INR d / 2 + 1)) by (apply sqrt_sqrt; left; apply exp_pos).
  assert (P : 0 < Rpower 2 (alpha + INR d / 2 + 1)) by apply exp_pos.
  assert (X : (inside t / 1) ^ l * (inside t / 1) ^ l * 2 ^ l = (1 + point q t) ^ l). { rewrite <- !Rpow_mult_distr. f_equal. pose proof (inside_arg t Ht) as E. cbn [pow] in E. lra. }
  rewrite <- X. transitivity (sqrt (Rpower 2 (alpha + INR l + INR d / 2 + 1)) * sqrt (Rpower 2 (alpha + INR l + INR d / 2 + 1)) / Rpower 2 (alpha + INR d / 2 + 1) * ((inside t / 1) ^ l * (inside t / 1) ^ l) * u * v * weight q t); [field; lra|]. rewrite S2, two_pow. field. lra.
Qed.
Lemma zernike_ind n c : (forall r, 0 < r -> series n c psi r = 0) -> forall i, (i < n)%nat -> c i = 0.
Proof.
  intros H. pose proof (zf_independent mass Hm d 1 Rlt_0_1 0%Z (alpha + INR k) (INR l) (parameter alpha k Ha) zb_low n c) as I. apply I. intros r Hr. rewrite (series_zernike mass d 1 Rlt_0_1) by exact Hr. apply H, Hr.
Qed.
Lemma zernike_span n c : exists b, forall r, 0 < r -> series n c psi r = series n b phi r.
Proof.
  destruct (unit_change n (alpha + INR k) (INR l + INR d / 2 - 1) alpha (INR l + INR d / 2 - 1) Ha zb_low c) as (e & He).
  pose proof (sqrt_lt_R0 _ (exp_pos ((alpha + INR l + INR d / 2 + 1) * ln 2))) as P. fold (Rpower 2 (alpha + INR l + INR d / 2 + 1)) in P.
  set (s := sqrt (Rpower 2 (alpha + INR k + INR l + INR d / 2 + 1))). set (s0 := sqrt (Rpower 2 (alpha + INR l + INR d / 2 + 1))) in *. exists (fun i => s / s0 * e i). intros r Hr. specialize (He (2 * (r / 1) ^ 2 - 1)). unfold series, zernike. fold s s0.
  rewrite (Rtotal_ext n _ (fun i => s * (r / 1) ^ l * (c i * unit i (alpha + INR k) (INR l + INR d / 2 - 1) (2 * (r / 1) ^ 2 - 1)))) by (intros; ring). rewrite Rtotal_scale, He, <- Rtotal_scale. apply Rtotal_ext. intros i _. field. lra.
Qed.
Definition radial_conv : option (nat -> option (mat R)) := if (0 <? k)%nat then Some (fun n => fn (opow (zernike_E d 1 1) k) (Z.of_nat n, alpha, INR l)) else None.
Lemma radial_conv_ok : conv_ok (fun r => 0 < r) phi psi radial_conv.
Proof.
  unfold radial_conv. destruct (Nat.ltb_spec 0 k) as [Hk|Hk]; cbn [conv_ok].
  - intros K HK. destruct (pow_E mass Hm d 1 k K alpha l Hd HK Ha) as [Ec Hrep]. destruct (columns _ _ _ _ Hrep (ptimes_linear _ _)) as (y & A & Ey & EA & Hr & Hc & HA). apply jcall_some in Ey. destruct Ey as [-> _]. rewrite size_nat in *. rewrite Ec in *. unfold shift in *. cbn [flip dn da db] in *. rewrite Z.add_0_l in *. rewrite size_nat in *.
    exists A. split; [exact EA|]. split; [exact Hr|]. split; [exact Hc|]. intros c r Hr0. specialize (HA c r Hr0). rewrite Rmult_1_l, Rplus_0_l, <- INR_IZR_INZ, (Rplus_comm (INR k)), !(series_zernike mass d 1 Rlt_0_1) in HA by exact Hr0. exact HA.
  - intros i r Hr. assert (k = 0)%nat as -> by lia. cbn [INR]. rewrite Rplus_0_r. reflexivity.
Qed.
Lemma cut_nat : Z.to_nat (Z.max (Z.of_nat Ng - Z.of_nat l / 2) 0) = (Ng - l / 2)%nat.
Proof. change 2%Z with (Z.of_nat 2). rewrite <- Nat2Z.inj_div. lia. Qed.
Lemma radial_grid : map fst (zernike_quadrature quadrature d Ng alpha) = map fst q /\ map snd (zernike_quadrature quadrature d Ng alpha) = map (fun zw => snd zw / Rpower 2 (alpha + INR d / 2 + 1)) q.
Proof. unfold zernike_quadrature. rewrite !map_map. split; reflexivity. Qed.
Lemma radial_values n kk : exists W, values n (fun z => zernike_polynomials mass d n (alpha + INR kk) (IZR (Z.of_nat l)) z) (map fst q) = Some W /\ nr W = n /\ nc W = Ng
  /\ forall i t, (i < n)%nat -> (t < Ng)%nat -> at_ W i t = zernike mass d 1 (alpha + INR kk) l i (inside t).
Proof.
  pose proof Hq as (HL & Hin & _). destruct (values_some n (fun z => zernike_polynomials mass d n (alpha + INR kk) (IZR (Z.of_nat l)) z) (fun i z => zernike mass d 1 (alpha + INR kk) l i (sqrt ((1 + z) / 2))) (map fst q)) as (W & EW & Hr & Hc & HW).
  - intros z Hz. apply in_map_iff in Hz. destruct Hz as ([z' w] & E & Hz). cbn [fst] in E. subst z'. pose proof (Hin z w Hz). rewrite <- INR_IZR_INZ. rewrite <- (zernike_values mass Hm d 1 Rlt_0_1) by first [exact Hd | apply parameter, Ha | apply sqrt_lt_R0; lra].
    f_equal. unfold arg. rewrite Rdiv_1. cbn [pow]. rewrite Rmult_1_r, sqrt_sqrt by lra. field.
  - rewrite map_length, HL in *. exists W. split; [exact EW|]. split; [exact Hr|]. split; [exact Hc|]. intros i t Hi Ht. rewrite (HW i t Hi Ht), point_map. reflexivity.
Qed.
Theorem radial_forward_value early : exists F, radial_forward_matrix mass quadrature early d Ng Nc Nmin alpha k (Z.of_nat l) = Some F /\ nr F = (Nc - Nmin)%nat /\ nc F = Ng
  /\ (forall R c i, (R <= Nc - Nmin)%nat -> (R <= Ng - l / 2)%nat -> (i < Nc - Nmin)%nat -> image F (fun t => series R c psi (inside t)) i = if (i <? R)%nat then c i else 0)
  /\ (early = true -> forall R e r, (R <= Ng - l / 2)%nat -> 0 < r -> series (Nc - Nmin) (image F (fun t => series R e phi (inside t))) psi r = series (Nat.min (Nc - Nmin) R) e phi r)
  /\ (early = false -> forall R e e' i, (R <= Ng - l / 2)%nat -> (R <= Nat.max Ng Nc - Nmin)%nat -> (forall r, 0 < r -> series R e' psi r = series R e phi r) -> (i < Nc - Nmin)%nat -> image F (fun t => series R e phi (inside t)) i = if (i <? R)%nat then e' i else 0).
Proof.
  unfold radial_forward_matrix. destruct radial_grid as [-> ->]. rewrite cut_nat. destruct (radial_values (Nat.max Ng Nc - Nmin) 0) as (W & EW & HrW & HcW & HW). cbn [INR] in EW, HW. rewrite Rplus_0_r in EW. rewrite EW. cbn [obind].
  set (V := zero_from (Ng - l / 2) (weigh (map (fun zw => snd zw / Rpower 2 (alpha + INR d / 2 + 1)) q) W)).
  destruct (assembled_value (fun r => 0 < r) phi psi inside wts Ng (Ng - l / 2) inside_pos zernike_orth zernike_ind zernike_span early (Nc - Nmin) V radial_conv) as (F & EF & Hr & Hc & H1 & H2 & H3).
  - unfold V. cbn. lia.
  - exact HcW.
  - exact radial_conv_ok.
  - intros i t Hi Ht. unfold V in *. cbn [zero_from weigh at_ nr] in *. destruct (Nat.leb_spec (Ng - l / 2) i); [reflexivity|].
    rewrite HW by lia. rewrite Rplus_0_r. f_equal. unfold wts, weight. change (0 / Rpower 2 (alpha + INR d / 2 + 1)) with ((fun zw : R * R => snd zw / Rpower 2 (alpha + INR d / 2 + 1)) (0, 0)).
    rewrite (nth_indep _ 0 ((fun zw : R * R => snd zw / Rpower 2 (alpha + INR d / 2 + 1)) (0, 0))) by (rewrite map_length; destruct Hq as (-> & _); exact Ht). rewrite (map_nth (fun zw : R * R => snd zw / Rpower 2 (alpha + INR d / 2 + 1))). reflexivity.
  - exists F. split; [|split; [exact Hr|split; [exact Hc|split; [exact H1|split]]]].
    + rewrite <- EF. unfold assembled, radial_conv. cbv zeta. rewrite <- INR_IZR_INZ. destruct (0 <? k)%nat; reflexivity.
    + exact H2.
    + intros E R e e' i HR HR'. apply (H3 E R e e' i HR). unfold V. cbn. lia.
Qed.
Theorem radial_backward_value : exists B, radial_backward_matrix mass quadrature d Ng Nc Nmin alpha k (Z.of_nat l) = Some B /\ nr B = Ng /\ nc B = (Nc - Nmin)%nat
  /\ forall c t, (t < Ng)%nat -> image B c t = series (Nat.min (Nc - Nmin) (Ng - l / 2)) c psi (inside t).
Proof.
  unfold radial_backward_matrix. destruct radial_grid as [-> _]. rewrite cut_nat. destruct (radial_values (Nc - Nmin) k) as (W & EW & HrW & HcW & HW). rewrite EW. cbn [obind].
  eexists. split; [reflexivity|]. split; [exact HcW|]. split; [exact HrW|]. intros c t Ht. apply (backward_value psi inside Ng (Ng - l / 2) (Nc - Nmin)); [exact HcW|exact HrW| |exact Ht].
  intros i t' Ht' Hi. cbn [zero_from at_]. destruct (Nat.leb_spec (Ng - l / 2) i); [reflexivity|]. rewrite HW by lia. reflexivity.
Qed.
End Zernike.
End Mass.
(** ** Products of polynomials *)
Lemma polynomial_times d e p q : polynomial d p -> polynomial (S e) q -> polynomial (d + e) (fun z => p z * q z).
Proof.
  revert p. induction d as [|d IH]; intros p (c & Hc) Hq.
  - exists (fun _ => 0). intros z. rewrite Hc. change (total 0 (fun k => c k * z ^ k)) with 0. symmetry. rewrite Rmult_0_l. apply Rtotal_zero. intros. ring.
  - apply (polynomial_ext _ (fun z => c 0%nat * q z + z * (total d (fun k => c (S k) * z ^ k) * q z))).
    + intros z. rewrite Hc, Rtotal_first. rewrite (Rtotal_ext d (fun i => c (S i) * z ^ S i) (fun i => z * (c (S i) * z ^ i))) by (intros; cbn [pow]; ring). rewrite Rtotal_scale. cbn [pow]. ring.
    + apply polynomial_add; [apply (polynomial_more (S e)); [lia|]; apply polynomial_scale, Hq|]. cbn [plus]. apply polynomial_shift. apply IH; [|exact Hq]. exists (fun k => c (S k)). reflexivity.
Qed.
Lemma polynomial_one_plus l : polynomial (S l) (fun z => (1 + z) ^ l).
Proof.
  induction l as [|l IH]; [exists (fun _ => 1); intros z; cbn; ring|]. apply (polynomial_ext _ (fun z => (1 + z) * (1 + z) ^ l)); [reflexivity|]. apply (polynomial_times 2 l); [|exact IH]. exists (fun _ => 1). intros z. cbn. ring.
Qed.
