(** Lemmas for the algebra of bases. *)
From stdpp Require Import numbers list strings option.
From Coq Require Import Qcanon.
From Verif Require Import BasisAlgebra_Model BasisAlgebra_Spec.
Local Open Scope nat_scope.

Ltac ands := repeat match goal with H : _ /\ _ |- _ => destruct H end.
Lemma qmax_is x y : is_max x y (qmax x y).
Proof.
  unfold qmax, is_max. destruct (Qclt_le_dec x y) as [H|H].
  - split; [apply Qclt_le_weak; exact H|]. split; [apply Qcle_refl|]. right. reflexivity.
  - split; [apply Qcle_refl|]. split; [exact H|]. left. reflexivity.
Qed.
Lemma is_max_unique x y m n : is_max x y m -> is_max x y n -> m = n.
Proof. intros (H1 & H2 & [-> | ->]) (H3 & H4 & [-> | ->]); try reflexivity; apply Qcle_antisym; assumption. Qed.
Lemma qmax_comm x y : qmax x y = qmax y x.
Proof. apply (is_max_unique x y); [apply qmax_is|]. destruct (qmax_is y x) as (H1 & H2 & H3). split; [exact H2|]. split; [exact H1|]. tauto. Qed.
Lemma qmax_idem x : qmax x x = x.
Proof. unfold qmax. destruct (Qclt_le_dec x x); reflexivity. Qed.
Lemma qmax_le x y z : (qmax x y <= z)%Qc <-> (x <= z)%Qc /\ (y <= z)%Qc.
Proof.
  destruct (qmax_is x y) as (H1 & H2 & H3). split; [intros H; split; eapply Qcle_trans; eassumption|]. intros [? ?]. destruct H3 as [-> | ->]; assumption.
Qed.
Lemma qmax_assoc x y z : qmax (qmax x y) z = qmax x (qmax y z).
Proof.
  apply Qcle_antisym; rewrite ?qmax_le; pose proof (qmax_is x y) as (H1 & H2 & _); pose proof (qmax_is y z) as (H3 & H4 & _);
  pose proof (qmax_is (qmax x y) z) as (H5 & H6 & _); pose proof (qmax_is x (qmax y z)) as (H7 & H8 & _); eauto 8 using Qcle_trans.
Qed.
Lemma pad_scale d : pad_dealias d = scale3 d.
Proof. reflexivity. Qed.
Lemma pad_pad d : pad_dealias (pad_dealias d) = pad_dealias d.
Proof. destruct d as [|x [|y d]]; reflexivity. Qed.
Lemma scale_scale d : scale3 (scale3 d) = scale3 d.
Proof. destruct d as [|x [|y d]]; reflexivity. Qed.
Lemma max2_comm s t : max2 s t = max2 t s.
Proof. unfold max2. f_equal; apply Nat.max_comm. Qed.
Lemma max3_comm s t : max3 s t = max3 t s.
Proof. unfold max3. f_equal; [apply max2_comm|apply Nat.max_comm]. Qed.
Lemma max2_assoc s t u : max2 (max2 s t) u = max2 s (max2 t u).
Proof. unfold max2. cbn. f_equal; symmetry; apply Nat.max_assoc. Qed.
Lemma max3_assoc s t u : max3 (max3 s t) u = max3 s (max3 t u).
Proof. unfold max3. cbn. f_equal; [apply max2_assoc|symmetry; apply Nat.max_assoc]. Qed.
Lemma max2_idem s : max2 s s = s.
Proof. destruct s. unfold max2. cbn. f_equal; apply Nat.max_id. Qed.
Lemma max3_idem s : max3 s s = s.
Proof. destruct s. unfold max3. cbn. f_equal; [apply max2_idem|apply Nat.max_id]. Qed.

(** Each kind adds by its grid and an update. *)
Definition up (x y : basis) : basis :=
  match x, y with
  | BJ x, BJ y => BJ (j_clone x (j_size x `max` j_size y) (qmax (j_a x) (j_a y)) (qmax (j_b x) (j_b y)))
  | BA x, BA y => BA (a_clone x (max2 (a_shape x) (a_shape y)) (a_k x `max` a_k y)%Z)
  | BD x, BD y => BD (d_clone x (max2 (d_shape x) (d_shape y)) (d_k x `max` d_k y)%Z)
  | BS x, BS y => BS (s_clone x (max2 (s_shape x) (s_shape y)))
  | BSR x, BSR y => BSR (sr_clone x (sr_size x `max` sr_size y) (sr_k x `max` sr_k y)%Z)
  | BBR x, BBR y => BBR (br_clone x (br_size x `max` br_size y) (br_k x `max` br_k y)%Z)
  | BSh x, BSh y => BSh (sh_clone x (max3 (sh_shape x) (sh_shape y)) (sh_k x `max` sh_k y)%Z)
  | BBa x, BBa y => BBa (ba_clone x (max3 (ba_shape x) (ba_shape y)) (ba_k x `max` ba_k y)%Z)
  | _, _ => x
  end.
Lemma compatible_refl x : compatible x x.
Proof. destruct x; cbn; repeat split. Qed.
Lemma compatible_sym x y : compatible x y -> compatible y x.
Proof. destruct x, y; cbn; intros H; try contradiction; ands; repeat split; congruence. Qed.
Lemma compatible_trans x y z : compatible x y -> compatible y z -> compatible x z.
Proof. destruct x, y; cbn; intros H; try contradiction; destruct z; cbn; intros G; try contradiction; ands; repeat split; congruence. Qed.
Lemma compatible_up x y : compatible x y -> compatible x (up x y).
Proof.
  destruct x, y; cbn; intros H; try contradiction; repeat split; try (match goal with |- scale3 ?d = _ => destruct d as [|? [|? ?]]; reflexivity end).
Qed.
Lemma compatible_class x y : compatible x y -> class_of x = class_of y.
Proof. destruct x, y; cbn; intros H; try contradiction; try reflexivity. subst; reflexivity. Qed.
Ltac grids := repeat match goal with
  | H : context [is_ ?a ?b] |- _ => destruct (bool_decide_reflect (a = b)) as [?E|?E]
  | |- context [is_ ?a ?b] => destruct (bool_decide_reflect (a = b)) as [?E|?E] end.
Lemma grid_compatible x y : match x, y with
  | BJ x, BJ y => j_grid x = j_grid y | BA x, BA y => a_grid x = a_grid y | BD x, BD y => d_grid x = d_grid y | BS x, BS y => s_grid x = s_grid y
  | BSR x, BSR y => sr_grid x = sr_grid y | BBR x, BBR y => br_grid x = br_grid y | BSh x, BSh y => sh_grid x = sh_grid y | BBa x, BBa y => ba_grid x = ba_grid y
  | BF x, BF y => x = y | _, _ => False end <-> compatible x y.
Proof.
  destruct x, y; cbn [compatible]; try tauto;
  (split; [intros H; injection H as ?; repeat split; try assumption; change scale3 with pad_dealias; assumption
          |intros H; ands; change scale3 with pad_dealias in *; unfold j_grid, a_grid, d_grid, s_grid, sr_grid, br_grid, sh_grid, ba_grid; congruence]).
Qed.
Lemma plus_cases x y : (x = y /\ plus_ (Some x) (Some y) = Val x) \/ (x <> y /\ compatible x y /\ plus_ (Some x) (Some y) = Val (up x y))
  \/ (~ compatible x y /\ value (plus_ (Some x) (Some y)) = None).
Proof.
  destruct (decide (x = y)) as [->|Hne].
  { left. split; [reflexivity|]. unfold plus_, operator, add. rewrite bool_decide_eq_true_2 by reflexivity. reflexivity. }
  right. pose proof (grid_compatible x y) as Hg. unfold plus_, operator, add. rewrite !(bool_decide_eq_false_2 (_ = _ :> basis)) by congruence.
  destruct x as [x|x|x|x|x|x|x|x|x], y as [y|y|y|y|y|y|y|y|y]; cbn [class_of raised]; try (right; split; [intros []|]; cbn; repeat case_match; reflexivity);
  cbn [compatible up] in *;
  try (rewrite bool_decide_decide; destruct (decide (_ = _)) as [E|E]; [left; split; [exact Hne|]; split; [apply Hg; exact E|reflexivity]|right; split; [intros H; apply E, Hg, H|rewrite ?Nat.eqb_refl; reflexivity]]; fail).
  - right. split; [intros ->; apply Hne; reflexivity|]. repeat case_match; reflexivity.
  - rewrite !bool_decide_decide. destruct (decide (s_radius x = s_radius y)) as [Er|Er]; cbn [negb]; [|right; split; [intros H; apply Er; tauto|reflexivity]].
    destruct (decide (_ = _)) as [E|E]; [left; split; [exact Hne|]; split; [apply Hg; exact E|reflexivity]|right; split; [intros H; apply E, Hg, H|reflexivity]].
Qed.
Lemma up_comm x y : compatible x y -> alike x y -> x <> y -> up x y = up y x.
Proof.
  intros H A Hne. destruct x as [x|x|x|x|x|x|x|x|x], y as [y|y|y|y|y|y|y|y|y]; cbn [compatible alike up] in *; try contradiction; try (subst; reflexivity); f_equal; destruct x, y; cbn in *;
  repeat match goal with H : _ /\ _ |- _ => destruct H end; subst; unfold j_clone, a_clone, d_clone, s_clone, sr_clone, br_clone, sh_clone, ba_clone; cbn;
  rewrite ?pad_scale in *; f_equal; try assumption; apply Nat.max_comm || apply Z.max_comm || apply qmax_comm || apply max2_comm || apply max3_comm.
Qed.
Lemma up_assoc x y z : compatible x y -> compatible y z -> up (up x y) z = up x (up y z).
Proof.
  intros H G. destruct x, y; cbn [compatible up] in *; try contradiction; destruct z; cbn [compatible up] in *; try contradiction; try reflexivity; f_equal;
  unfold j_clone, a_clone, d_clone, s_clone, sr_clone, br_clone, sh_clone, ba_clone; cbn; rewrite ?pad_pad;
  f_equal; (symmetry; apply Nat.max_assoc) || (symmetry; apply Z.max_assoc) || apply qmax_assoc || apply max2_assoc || apply max3_assoc.
Qed.
(** A basis that absorbs: updates by a part already in it do nothing. *)
Lemma up_absorb_r x y : compatible x y -> up (up x y) y = up x y.
Proof.
  intros H. destruct x, y; cbn [compatible up] in *; try contradiction; try reflexivity; f_equal;
  unfold j_clone, a_clone, d_clone, s_clone, sr_clone, br_clone, sh_clone, ba_clone; cbn; rewrite ?pad_pad; f_equal;
  rewrite ?qmax_assoc, ?max2_assoc, ?max3_assoc, ?qmax_idem, ?max2_idem, ?max3_idem; try reflexivity; lia.
Qed.
Lemma up_absorb_l x y : compatible x y -> up x (up x y) = up x y.
Proof.
  intros H. destruct x, y; cbn [compatible up] in *; try contradiction; try reflexivity; f_equal;
  unfold j_clone, a_clone, d_clone, s_clone, sr_clone, br_clone, sh_clone, ba_clone; cbn; rewrite ?pad_pad; f_equal;
  rewrite <- ?qmax_assoc, <- ?max2_assoc, <- ?max3_assoc, ?qmax_idem, ?max2_idem, ?max3_idem; try reflexivity; lia.
Qed.
Lemma up_up x y : compatible x y -> up (up x y) (up x y) = up x y.
Proof.
  intros H. destruct x, y; cbn [compatible up] in *; try contradiction; try reflexivity; f_equal;
  unfold j_clone, a_clone, d_clone, s_clone, sr_clone, br_clone, sh_clone, ba_clone; cbn; rewrite ?pad_pad; f_equal;
  rewrite ?qmax_idem, ?max2_idem, ?max3_idem; try reflexivity; lia.
Qed.
(** Sums as a partial operation. *)
Definition sum2 (x y : basis) : option basis := value (plus_ (Some x) (Some y)).
Lemma sum2_same x : sum2 x x = Some x.
Proof. unfold sum2. destruct (plus_cases x x) as [[_ ->]|[[H _]|[H _]]]; [reflexivity|congruence|]. exfalso. apply H, compatible_refl. Qed.
Lemma sum2_up x y : compatible x y -> x <> y -> sum2 x y = Some (up x y).
Proof. intros H Hne. unfold sum2. destruct (plus_cases x y) as [[E _]|[(_ & _ & ->)|[G _]]]; [congruence|reflexivity|contradiction]. Qed.
Lemma sum2_none x y : ~ compatible x y -> sum2 x y = None.
Proof. intros H. unfold sum2. destruct (plus_cases x y) as [[-> _]|[(_ & G & _)|[_ ->]]]; [exfalso; apply H, compatible_refl|contradiction|reflexivity]. Qed.
Global Instance compatible_dec x y : Decision (compatible x y).
Proof. destruct x, y; cbn; apply _. Qed.
Lemma sum2_some x y z : sum2 x y = Some z -> compatible x y /\ compatible x z.
Proof.
  intros H. destruct (decide (compatible x y)) as [C|C]; [|rewrite sum2_none in H by exact C; discriminate]. split; [exact C|].
  destruct (decide (x = y)) as [->|Hne]; [rewrite sum2_same in H; injection H as <-; exact C|]. rewrite sum2_up in H by assumption. injection H as <-. apply compatible_up, C.
Qed.
Lemma up_eq_l x y z : compatible x y -> compatible y z -> up x y = z -> up x z = up x y.
Proof. intros H _ <-. apply up_absorb_l, H. Qed.
Lemma sum2_assoc x y z : sum2 x y ≫= (fun s => sum2 s z) = sum2 y z ≫= (fun t => sum2 x t).
Proof.
  destruct (decide (compatible x y)) as [C|C].
  2:{ rewrite (sum2_none x y C). cbn. destruct (sum2 y z) as [t|] eqn:E; [|reflexivity]. cbn. symmetry. apply sum2_none. intros H. apply C. destruct (sum2_some _ _ _ E) as [_ G]. eapply compatible_trans; [exact H|]. apply compatible_sym, G. }
  destruct (decide (compatible y z)) as [D|D].
  2:{ rewrite (sum2_none y z D). cbn. destruct (sum2 x y) as [t|] eqn:E; [|reflexivity]. cbn. apply sum2_none. intros H. apply D. destruct (sum2_some _ _ _ E) as [G1 G2].
      eapply compatible_trans; [apply compatible_sym, G1|]. eapply compatible_trans; [exact G2|exact H]. }
  assert (CD : compatible x z) by (eapply compatible_trans; eassumption).
  destruct (decide (x = y)) as [->|Hxy].
  { rewrite sum2_same. cbn. destruct (decide (y = z)) as [->|Hyz]; [rewrite sum2_same; cbn; rewrite sum2_same; reflexivity|]. rewrite sum2_up by assumption. cbn.
    destruct (decide (y = up y z)) as [E|E]; [rewrite <- E, sum2_same; reflexivity|]. rewrite sum2_up by (apply compatible_up, D || exact E). rewrite up_absorb_l by exact D. reflexivity. }
  rewrite (sum2_up x y) by assumption. cbn. destruct (decide (y = z)) as [->|Hyz].
  { rewrite sum2_same. cbn. rewrite (sum2_up x z) by assumption. destruct (decide (up x z = z)) as [E|E]; [rewrite E, sum2_same; reflexivity|].
    rewrite sum2_up; [|eapply compatible_trans; [apply compatible_sym, compatible_up; exact CD|exact CD]|exact E]. rewrite up_absorb_r by exact CD. reflexivity. }
  rewrite (sum2_up y z) by assumption. cbn.
  assert (A : sum2 (up x y) z = Some (up (up x y) z)).
  { destruct (decide (up x y = z)) as [E|E]; [rewrite E, sum2_same; f_equal; rewrite <- E; symmetry; apply up_up, C|]. apply sum2_up; [|exact E]. eapply compatible_trans; [apply compatible_sym, compatible_up; exact C|exact CD]. }
  assert (B : sum2 x (up y z) = Some (up x (up y z))).
  { destruct (decide (x = up y z)) as [E|E]; [rewrite E, sum2_same; f_equal; symmetry; apply up_up, D|]. apply sum2_up; [|exact E]. eapply compatible_trans; [exact C|]. apply compatible_up, D. }
  rewrite A, B, up_assoc by assumption. reflexivity.
Qed.
Lemma sum2_comm x y : alike x y -> sum2 x y = sum2 y x.
Proof.
  intros A. destruct (decide (x = y)) as [->|Hne]; [reflexivity|]. destruct (decide (compatible x y)) as [C|C].
  - rewrite (sum2_up x y), (sum2_up y x) by (assumption || (apply compatible_sym; assumption) || congruence). f_equal. apply up_comm; assumption.
  - rewrite (sum2_none x y), (sum2_none y x); [reflexivity|intros H; apply C, compatible_sym, H|exact C].
Qed.
