(** Sums and products of bases, and the conversions of operands to a sum's bases (property C52). *)
From stdpp Require Import numbers list strings option.
From Coq Require Import Qcanon.
From Verif Require Import BasisAlgebra_Model BasisAlgebra_Spec BasisAlgebra_Proofs.
Local Open Scope nat_scope.

(** ** Sums *)
(** Bases can be added exactly if they are compatible. *)
Theorem plus_defined x y : (exists z, plus_ (Some x) (Some y) = Val z) <-> compatible x y.
Proof.
  destruct (plus_cases x y) as [[-> H]|[(_ & C & H)|[C H]]].
  - split; [intros _; apply compatible_refl|]. intros _. exists y. exact H.
  - split; [intros _; exact C|]. intros _. eexists. exact H.
  - split; [intros [z E]; rewrite E in H; discriminate|]. intros G. contradiction.
Qed.
(** The sum keeps the grid of both, and has the larger resolution along each axis and the higher polynomials. *)
Theorem plus_value x y z : plus_ (Some x) (Some y) = Val z ->
  compatible x z /\ compatible y z /\ resolution z = zip_with max (resolution x) (resolution y) /\ highest (polynomials x) (polynomials y) (polynomials z).
Proof.
  intros Hz. destruct (plus_cases x y) as [[-> H]|[(Hne & C & H)|[C H]]]; [| |rewrite Hz in H; discriminate].
  - rewrite H in Hz. injection Hz as <-. split; [apply compatible_refl|]. split; [apply compatible_refl|].
    split; [destruct y; cbn; rewrite ?Nat.max_id; reflexivity|]. destruct y; cbn; try exact I; try (symmetry; apply Z.max_id). split; (split; [apply Qcle_refl|split; [apply Qcle_refl|left; reflexivity]]).
  - rewrite H in Hz. injection Hz as <-. split; [apply compatible_up, C|]. split; [eapply compatible_trans; [apply compatible_sym, C|apply compatible_up, C]|].
    destruct x, y; cbn in C; try contradiction; try (exfalso; apply Hne; congruence); (split; [reflexivity|]); cbn; try exact I; try reflexivity. split; apply qmax_is.
Qed.
Theorem plus_idem x : plus_ (Some x) (Some x) = Val x.
Proof. destruct (plus_cases x x) as [[_ H]|[(H & _)|[H _]]]; [exact H|congruence|]. exfalso. apply H, compatible_refl. Qed.
Theorem plus_none x : plus_ (Some x) None = Val x /\ plus_ None (Some x) = Val x.
Proof. split; reflexivity. Qed.
(** The order does not matter, neither for the basis nor for the exception. *)
Theorem plus_comm x y : alike x y -> plus_ (Some x) (Some y) = plus_ (Some y) (Some x).
Proof.
  intros A. destruct (decide (x = y)) as [->|Hne]; [reflexivity|]. destruct (decide (compatible x y)) as [C|C].
  { destruct (plus_cases x y) as [[E _]|[(_ & _ & ->)|[E _]]]; [contradiction| |contradiction]. destruct (plus_cases y x) as [[E _]|[(_ & _ & ->)|[E _]]]; [congruence| |exfalso; apply E, compatible_sym, C].
    f_equal. apply up_comm; assumption. }
  assert (C' : ~ compatible y x) by (intros H; apply C, compatible_sym, H). pose proof (grid_compatible x y) as G. pose proof (grid_compatible y x) as G'.
  unfold plus_, operator, add. rewrite !(bool_decide_eq_false_2 (_ = _ :> basis)) by congruence. rewrite (Nat.eqb_sym (class_of y)).
  destruct x as [x|x|x|x|x|x|x|x|x], y as [y|y|y|y|y|y|y|y|y]; cbn [raised] in *; try reflexivity; try (rewrite !bool_decide_eq_false_2 by (rewrite G || rewrite G'; assumption); reflexivity).
  - destruct (decide (s_radius x = s_radius y)) as [E|E].
    + rewrite (bool_decide_eq_true_2 (s_radius x = _)), (bool_decide_eq_true_2 (s_radius y = _)) by congruence. cbn [negb]. rewrite !bool_decide_eq_false_2 by (rewrite G || rewrite G'; assumption). reflexivity.
    + rewrite (bool_decide_eq_false_2 (s_radius x = _)), (bool_decide_eq_false_2 (s_radius y = _)) by congruence. reflexivity.
Qed.
(** Radial bases of different data types, or with different libraries, are added without complaint; the sum takes the left
    one's. *)
Definition num (n : Z) : Qc := Q2Qc (QArith_base.inject_Z n).
Definition radial1 : shellradial := SRa "rtp" 8 false (num 1, num 2) (num 0, num 0) [num 1] 0 "matrix".
Definition radial2 : shellradial := SRa "rtp" 8 true (num 1, num 2) (num 0, num 0) [num 1] 0 "matrix".
Theorem plus_comm_refuted : exists x y u v, plus_ (Some (BSR x)) (Some (BSR y)) = Val (BSR u) /\ plus_ (Some (BSR y)) (Some (BSR x)) = Val (BSR v) /\ sr_dtype u <> sr_dtype v.
Proof. exists radial1, radial2. eexists. eexists. split; [vm_compute; reflexivity|]. split; [vm_compute; reflexivity|]. discriminate. Qed.
Theorem plus_assoc x y z : value (plus_ (Some x) (Some y)) ≫= (fun s => value (plus_ (Some s) (Some z))) = value (plus_ (Some y) (Some z)) ≫= (fun t => value (plus_ (Some x) (Some t))).
Proof. exact (sum2_assoc x y z). Qed.

(** The bases of a sum of operands do not depend on their order or grouping, and bound those of the operands. *)
Lemma np_sum_value x l : value (np_sum x l) = foldl (fun s y => s ≫= fun s => sum2 s y) (Some x) l.
Proof.
  revert x. induction l as [|y l IH]; intros x; [reflexivity|]. cbn [np_sum foldl]. change (Some x ≫= (fun s => sum2 s y)) with (value (plus_ (Some x) (Some y))). destruct (plus_ (Some x) (Some y)) as [z| |e]; cbn [value]; [apply IH| |]; clear; induction l; cbn; auto.
Qed.
Lemma fold_sum x l : foldl (fun s y => s ≫= fun s => sum2 s y) x l = match l with [] => x | y :: l => x ≫= fun s => foldl (fun s y => s ≫= fun s => sum2 s y) (Some y) l ≫= fun t => sum2 s t end.
Proof.
  revert x. induction l as [|y l IH]; intros x; [reflexivity|]. cbn. rewrite IH. destruct l as [|w l]; [destruct x; reflexivity|].
  rewrite (IH (Some y)). cbn [foldl]. destruct x as [x|]; [|reflexivity]. cbn. rewrite (IH (Some y ≫= _)) || idtac. cbn.
  destruct (foldl _ (Some w) l) as [t|]; cbn; [|destruct (sum2 x y); reflexivity]. apply sum2_assoc.
Qed.
Lemma alike_sym x y : alike x y -> alike y x.
Proof. destruct x, y; cbn; try exact (fun _ => I); intros [-> ->]; split; reflexivity. Qed.
Lemma np_sum_perm x l y l' : x :: l ≡ₚ y :: l' -> (forall u v, u ∈ x :: l -> v ∈ x :: l -> alike u v) -> value (np_sum x l) = value (np_sum y l').
Proof.
  rewrite !np_sum_value. intros HP HA.
  set (f := fun l => match l with [] => None | x :: l => foldl (fun s y => s ≫= fun s => sum2 s y) (Some x) l end). change (f (x :: l) = f (y :: l')). revert HP HA. generalize (x :: l), (y :: l'). clear.
  assert (HS : forall x l, f (x :: l) = match l with [] => Some x | _ => f l ≫= fun t => sum2 x t end) by (intros x l; cbn; rewrite fold_sum; destruct l; reflexivity).
  intros l l' HP. induction HP as [|x l l' HP IH|x y l|l1 l2 l3 H1 IH1 H2 IH2]; intros HA.
  - reflexivity.
  - rewrite !HS. rewrite IH by (intros u v Hu Hv; apply HA; right; assumption). destruct l as [|a l]; [apply Permutation_nil in HP; subst l'; reflexivity|].
    destruct l' as [|b l']; [apply Permutation_sym, Permutation_nil in HP; discriminate|]. reflexivity.
  - rewrite (HS y (x :: l)), (HS x (y :: l)). destruct l as [|a l].
    + cbn. apply sum2_comm. apply HA; [left|right; left].
    + rewrite (HS x (a :: l)), (HS y (a :: l)). destruct (f (a :: l)) as [t|]; [|reflexivity]. cbn. rewrite <- (sum2_assoc y x t), <- (sum2_assoc x y t). rewrite (sum2_comm x y); [reflexivity|]. apply HA; [right; left|left].
  - rewrite IH1 by exact HA. apply IH2. intros u v Hu Hv. apply HA; rewrite H1; assumption.
Qed.
Theorem sum_order l l' : l ≡ₚ l' -> (forall u v, Some u ∈ l -> Some v ∈ l -> alike u v) -> value (sum_bases l) = value (sum_bases l').
Proof.
  intros HP HA. unfold sum_bases. assert (HQ : omap id l ≡ₚ omap id l').
  { clear HA. induction HP as [|[x|] l l' HP IH|[x|] [y|] l|l1 l2 l3 H1 IH1 H2 IH2]; cbn; try reflexivity; try (constructor; assumption); try assumption; try apply Permutation_swap. exact (Permutation_trans IH1 IH2). }
  destruct (omap id l) as [|x k] eqn:E; [apply Permutation_nil in HQ; rewrite HQ; reflexivity|]. destruct (omap id l') as [|y k']; [apply Permutation_sym, Permutation_nil in HQ; discriminate|].
  assert (HV : value (np_sum x k) = value (np_sum y k')).
  { apply np_sum_perm; [exact HQ|]. rewrite <- E. intros u v Hu Hv. apply elem_of_list_omap in Hu as (u' & Hu & Eu). apply elem_of_list_omap in Hv as (v' & Hv & Ev). cbn in Eu, Ev. subst. apply HA; assumption. }
  destruct (np_sum x k), (np_sum y k'); cbn in *; congruence.
Qed.
Lemma sum2_bounds x y z : sum2 x y = Some z -> (compatible x z /\ Forall2 le (resolution x) (resolution z)) /\ (compatible y z /\ Forall2 le (resolution y) (resolution z)).
Proof.
  unfold sum2. intros H. destruct (plus_ (Some x) (Some y)) as [w| |e] eqn:E; try discriminate. injection H as ->. destruct (plus_value x y z E) as (C1 & C2 & R & _). rewrite R.
  pose proof (proj1 (plus_defined x y) (ex_intro _ z E)) as C.
  split; (split; [assumption|]); destruct x, y; cbn in C; try contradiction; cbn; repeat constructor; lia.
Qed.
Theorem sum_bounds l z : sum_bases l = Val (Some z) -> forall x, Some x ∈ l -> compatible x z /\ Forall2 le (resolution x) (resolution z).
Proof.
  unfold sum_bases. intros H x Hx. assert (Hx' : x ∈ omap id l) by (apply elem_of_list_omap; exists (Some x); split; [exact Hx|reflexivity]). clear Hx.
  destruct (omap id l) as [|b bs]; [inversion Hx'|]. assert (HV : value (np_sum b bs) = Some z) by (destruct (np_sum b bs); cbn in *; congruence). clear H. rewrite np_sum_value in HV.
  assert (HG : forall w, foldl (fun s y => s ≫= fun s => sum2 s y) w bs = Some z -> exists s, w = Some s /\ (compatible s z /\ Forall2 le (resolution s) (resolution z)) /\ forall y, y ∈ bs -> compatible y z /\ Forall2 le (resolution y) (resolution z)).
  { clear. induction bs as [|y bs IH]; intros w HV; cbn in HV.
    - exists z. split; [exact HV|]. split; [split; [apply compatible_refl|]; apply Forall2_same_length_lookup_2; [reflexivity|]; intros i a c Ha Hc; rewrite Ha in Hc; injection Hc as ->; lia|]. intros y Hy. inversion Hy.
    - apply IH in HV. destruct HV as (s & Hs & [C1 R1] & Hbs). destruct w as [w|]; [|discriminate]. cbn in Hs. destruct (sum2_bounds _ _ _ Hs) as [[Cw Rw] [Cy Ry]]. exists w. split; [reflexivity|].
      assert (HT : forall u, compatible u s -> Forall2 le (resolution u) (resolution s) -> compatible u z /\ Forall2 le (resolution u) (resolution z)).
      { intros u Cu Ru. split; [eapply compatible_trans; eassumption|]. eapply Forall2_transitive; [|exact Ru|exact R1]. intros; lia. }
      split; [apply HT; assumption|]. intros v Hv. apply elem_of_cons in Hv as [->|Hv]; [apply HT; assumption|]. apply Hbs, Hv. }
  destruct (HG _ HV) as (s & Es & Hs & Hbs). injection Es as <-. apply elem_of_cons in Hx' as [->|Hx']; [exact Hs|apply Hbs, Hx'].
Qed.

(** ** Products *)
Theorem times_none x : times (Some x) None = Val x /\ times None (Some x) = Val x /\ matmul (Some x) None = Val x /\ matmul None (Some x) = Val x.
Proof. repeat split. Qed.
Lemma sr_grid_of x y : sr_grid x = sr_grid y -> sr_dtype x = sr_dtype y -> sr_lib x = sr_lib y -> forall n k, sr_clone x n k = sr_clone y n k.
Proof. destruct x, y. cbn. intros H -> -> n k. unfold sr_grid in H. cbn in H. injection H as -> -> -> HD. unfold sr_clone. cbn. rewrite HD. reflexivity. Qed.
Lemma br_grid_of x y : br_grid x = br_grid y -> br_dtype x = br_dtype y -> br_lib x = br_lib y -> forall n k, br_clone x n k = br_clone y n k.
Proof. destruct x, y. cbn. intros H -> -> n k. unfold br_grid in H. cbn in H. injection H as -> -> -> HD. unfold br_clone. cbn. rewrite HD. reflexivity. Qed.
Theorem times_comm x y : alike x y -> times (Some x) (Some y) = times (Some y) (Some x).
Proof.
  intros A. unfold times, operator, mul. rewrite (Nat.eqb_sym (class_of y)). pose proof (grid_compatible x y) as G.
  destruct x as [x|x|x|x|x|x|x|x|x], y as [y|y|y|y|y|y|y|y|y]; cbn [raised class_of Nat.eqb alike] in *; try reflexivity; try (destruct (f_complex _); reflexivity).
  - destruct (decide (x = y)) as [->|Hne]; [reflexivity|]. rewrite !(bool_decide_eq_false_2 (_ = _ :> jacobi)) by congruence.
    destruct (decide (j_grid x = j_grid y)) as [E|E]; [|rewrite !bool_decide_eq_false_2 by congruence; reflexivity]. rewrite !bool_decide_eq_true_2 by congruence.
    do 2 f_equal. destruct x, y. unfold j_grid in E. cbn in E. injection E as -> -> -> -> -> ->. unfold j_clone. cbn. f_equal. apply Nat.max_comm.
  - destruct (decide (x = y)) as [->|Hne]; [reflexivity|]. rewrite !(bool_decide_eq_false_2 (_ = _ :> fourier)) by congruence. destruct (f_complex x), (f_complex y); reflexivity.
  - destruct (decide (a_grid x = a_grid y)) as [E|E]; [|rewrite !bool_decide_eq_false_2 by congruence; reflexivity]. rewrite !bool_decide_eq_true_2 by congruence.
    do 2 f_equal. destruct x, y. unfold a_grid in E. cbn in E. injection E as -> -> -> -> -> -> ->. unfold a_clone. cbn. f_equal; [apply max2_comm|apply Z.add_comm].
  - destruct (decide (d_grid x = d_grid y)) as [E|E]; [|rewrite !bool_decide_eq_false_2 by congruence; reflexivity]. rewrite !bool_decide_eq_true_2 by congruence.
    do 2 f_equal. destruct x, y. unfold d_grid in E. cbn in E. injection E as -> -> -> -> -> -> ->. unfold d_clone. cbn. f_equal; apply max2_comm.
  - destruct (decide (x = y)) as [->|Hne]; [reflexivity|]. rewrite !(bool_decide_eq_false_2 (_ = _ :> sphere)) by congruence.
    destruct (decide (s_radius x = s_radius y)) as [F|F]; [|rewrite !(bool_decide_eq_false_2 (s_radius _ = _)) by congruence; reflexivity]. rewrite !(bool_decide_eq_true_2 (s_radius _ = _)) by congruence. cbn [negb].
    destruct (decide (s_grid x = s_grid y)) as [E|E]; [|rewrite !bool_decide_eq_false_2 by congruence; reflexivity]. rewrite !bool_decide_eq_true_2 by congruence.
    do 2 f_equal. destruct x, y. unfold s_grid in E. cbn in E. injection E as -> -> -> -> -> ->. unfold s_clone. cbn. f_equal; apply max2_comm.
  - destruct (negb _); [reflexivity|]. destruct (negb _); [reflexivity|]. destruct (s_dealias _) as [|? [|? [|? ?]]]; try reflexivity. destruct (list.last _); reflexivity.
  - destruct (negb _); [reflexivity|]. destruct (negb _); [reflexivity|]. destruct (s_dealias _) as [|? [|? [|? ?]]]; try reflexivity. destruct (list.last _); reflexivity.
  - unfold sr_mul. destruct (decide (sr_grid x = sr_grid y)) as [E|E]; [|rewrite !bool_decide_eq_false_2 by congruence; reflexivity]. rewrite !bool_decide_eq_true_2 by congruence.
    cbn [then_]. do 2 f_equal. rewrite (Nat.max_comm (sr_size y)), (Z.add_comm (sr_k y)). apply sr_grid_of; tauto.
  - unfold sr_mul. destruct (is_ _ _); reflexivity.
  - unfold br_mul. destruct (decide (br_grid x = br_grid y)) as [E|E]; [|rewrite !bool_decide_eq_false_2 by congruence; reflexivity]. rewrite !bool_decide_eq_true_2 by congruence.
    cbn [then_]. do 2 f_equal. rewrite (Nat.max_comm (br_size y)), (Z.max_comm (br_k y)). apply br_grid_of; tauto.
  - unfold br_mul. destruct (is_ _ _); reflexivity.
  - unfold sr_mul. destruct (is_ _ _); reflexivity.
  - destruct (decide (sh_grid x = sh_grid y)) as [E|E]; [|rewrite !bool_decide_eq_false_2 by congruence; reflexivity]. rewrite !(bool_decide_eq_true_2 (_ = _)) by congruence.
    unfold sr_mul, sh_radial, sr_grid, order_of, then_. destruct x, y. unfold sh_grid in E. cbn in E. injection E as -> -> -> -> -> -> -> ->. cbn. rewrite bool_decide_eq_true_2 by reflexivity. unfold sh_clone. cbn. do 3 f_equal; [apply max3_comm|apply Z.add_comm].
  - unfold br_mul. destruct (is_ _ _); reflexivity.
  - destruct (decide (ba_grid x = ba_grid y)) as [E|E]; [|rewrite !bool_decide_eq_false_2 by congruence; reflexivity]. rewrite !(bool_decide_eq_true_2 (_ = _)) by congruence.
    do 2 f_equal. destruct x, y. unfold ba_grid in E. cbn in E. injection E as -> -> -> -> -> -> -> ->. unfold ba_clone. cbn. f_equal; apply max3_comm.
Qed.
Lemma radial_compatible x y : sh_grid x = sh_grid y -> sr_grid (sh_radial x) = sr_grid (sh_radial y).
Proof. destruct x, y. unfold sh_grid, sr_grid, sh_radial. cbn. intros H. injection H as -> -> -> -> -> -> -> ->. reflexivity. Qed.
Lemma times_cases x y : class_of x = class_of y ->
  (compatible x y /\ exists z, times (Some x) (Some y) = Val z /\ compatible x z /\ resolution z = zip_with max (resolution x) (resolution y) /\ polynomials z = product_family x y)
  \/ (~ compatible x y /\ value (times (Some x) (Some y)) = None).
Proof.
  intros HC. pose proof (grid_compatible x y) as G. unfold times, operator, mul. rewrite HC, Nat.eqb_refl.
  destruct x as [x|x|x|x|x|x|x|x|x], y as [y|y|y|y|y|y|y|y|y]; cbn [class_of] in HC; try discriminate; try (destruct (f_complex _); discriminate); cbn [product_family].
  - destruct (decide (x = y)) as [->|Hne].
    + left. split; [apply compatible_refl|]. rewrite bool_decide_eq_true_2 by reflexivity. eexists. split; [reflexivity|]. split; [apply compatible_refl|]. cbn. rewrite Nat.max_id. split; reflexivity.
    + rewrite (bool_decide_eq_false_2 (y = x)) by congruence. rewrite bool_decide_decide. destruct (decide (_ = _)) as [E|E]; [left|right; split; [rewrite <- G; exact E|reflexivity]].
      split; [apply G, E|]. eexists. split; [reflexivity|]. repeat split.
  - destruct (decide (x = y)) as [->|Hne].
    + left. split; [reflexivity|]. rewrite bool_decide_eq_true_2 by reflexivity. eexists. split; [reflexivity|]. cbn. rewrite Nat.max_id. repeat split.
    + right. split; [exact Hne|]. rewrite bool_decide_eq_false_2 by congruence. reflexivity.
  - rewrite bool_decide_decide. destruct (decide (_ = _)) as [E|E]; [left|right; split; [rewrite <- G; exact E|reflexivity]]. split; [apply G, E|]. eexists. split; [reflexivity|]. repeat split.
  - rewrite bool_decide_decide. destruct (decide (_ = _)) as [E|E]; [left|right; split; [rewrite <- G; exact E|reflexivity]]. split; [apply G, E|]. eexists. split; [reflexivity|]. repeat split.
  - destruct (decide (x = y)) as [->|Hne].
    + left. split; [apply compatible_refl|]. rewrite bool_decide_eq_true_2 by reflexivity. eexists. split; [reflexivity|]. cbn. rewrite !Nat.max_id. repeat split.
    + rewrite (bool_decide_eq_false_2 (y = x)) by congruence. rewrite !bool_decide_decide. destruct (decide (s_radius x = s_radius y)) as [F|F]; cbn [negb]; [|right; split; [cbn; tauto|reflexivity]].
      destruct (decide (_ = _)) as [E|E]; [left|right; split; [rewrite <- G; exact E|reflexivity]]. split; [apply G, E|]. eexists. split; [reflexivity|]. repeat split.
  - unfold sr_mul. rewrite bool_decide_decide. destruct (decide (_ = _)) as [E|E]; [left|right; split; [rewrite <- G; exact E|reflexivity]]. split; [apply G, E|]. eexists. split; [reflexivity|]. cbn [then_]. repeat split. cbn. destruct (sr_dealias x) as [|? [|? ?]]; reflexivity.
  - unfold br_mul. rewrite bool_decide_decide. destruct (decide (_ = _)) as [E|E]; [left|right; split; [rewrite <- G; exact E|reflexivity]]. split; [apply G, E|]. eexists. split; [reflexivity|]. cbn [then_]. repeat split. cbn. destruct (br_dealias x) as [|? [|? ?]]; reflexivity.
  - rewrite bool_decide_decide. destruct (decide (_ = _)) as [E|E]; [left|right; split; [rewrite <- G; exact E|reflexivity]]. split; [apply G, E|].
    unfold sr_mul. rewrite bool_decide_eq_true_2 by (apply radial_compatible, E). eexists. split; [reflexivity|]. repeat split.
  - rewrite bool_decide_decide. destruct (decide (_ = _)) as [E|E]; [left|right; split; [rewrite <- G; exact E|reflexivity]]. split; [apply G, E|]. eexists. split; [reflexivity|]. repeat split.
Qed.
(** Bases of one kind have a product exactly if they are compatible, *)
Theorem times_defined x y : class_of x = class_of y -> ((exists z, times (Some x) (Some y) = Val z) <-> compatible x y).
Proof.
  intros HC. destruct (times_cases x y HC) as [(C & z & H & _)|[C H]].
  - split; [intros _; exact C|]. intros _. exists z. exact H.
  - split; [intros [z E]; rewrite E in H; discriminate|]. intros G. contradiction.
Qed.
(** with their grid, the larger resolution, and the polynomials of [product_family]. *)
Theorem times_value x y z : class_of x = class_of y -> times (Some x) (Some y) = Val z ->
  compatible x z /\ compatible y z /\ resolution z = zip_with max (resolution x) (resolution y) /\ polynomials z = product_family x y.
Proof.
  intros HC Hz. destruct (times_cases x y HC) as [(C & w & H & C1 & R & P)|[C H]]; [|rewrite Hz in H; discriminate]. rewrite Hz in H. injection H as <-.
  split; [exact C1|]. split; [eapply compatible_trans; [apply compatible_sym, C|exact C1]|]. split; assumption.
Qed.
(** A product with its own basis keeps the polynomials of a Jacobi basis, but resets those of a disk. *)
Theorem times_square x y : times (Some (BJ x)) (Some (BJ x)) = Val (BJ x) /\ times (Some (BD y)) (Some (BD y)) = Val (BD (d_clone y (d_shape y) 0)).
Proof.
  split; unfold times, operator, mul; rewrite bool_decide_eq_true_2 by reflexivity; [reflexivity|]. rewrite max2_idem. reflexivity.
Qed.
(** Products of more than two bases of one kind do not depend on the grouping. *)
Definition prod2 (x y : basis) : option basis := value (times (Some x) (Some y)).
Definition by_grid (x y : basis) : basis :=
  match x, y with
  | BJ x, BJ y => if decide (x = y) then BJ x else BJ (j_clone x (j_size x `max` j_size y) (j_a0 x) (j_b0 x))
  | BA x, BA y => BA (a_clone x (max2 (a_shape x) (a_shape y)) (a_k x + a_k y)%Z)
  | BD x, BD y => BD (d_clone x (max2 (d_shape x) (d_shape y)) 0%Z)
  | BS x, BS y => BS (s_clone x (max2 (s_shape x) (s_shape y)))
  | BSR x, BSR y => BSR (sr_clone x (sr_size x `max` sr_size y) (sr_k x + sr_k y)%Z)
  | BBR x, BBR y => BBR (br_clone x (br_size x `max` br_size y) (br_k x `max` br_k y)%Z)
  | BSh x, BSh y => BSh (sh_clone x (max3 (sh_shape x) (sh_shape y)) (sh_k x + sh_k y)%Z)
  | BBa x, BBa y => BBa (ba_clone x (max3 (ba_shape x) (ba_shape y)) 0%Z)
  | _, _ => x
  end.
Lemma prod2_some x y : compatible x y -> prod2 x y = Some (by_grid x y).
Proof.
  intros C. pose proof (proj2 (grid_compatible x y) C) as G. unfold prod2, times, operator, mul.
  destruct x as [x|x|x|x|x|x|x|x|x], y as [y|y|y|y|y|y|y|y|y]; try contradiction; cbn [by_grid].
  - destruct (decide (x = y)) as [->|Hne]; [rewrite bool_decide_eq_true_2 by reflexivity; reflexivity|]. rewrite (bool_decide_eq_false_2 (y = x)) by congruence. rewrite bool_decide_eq_true_2 by exact G. reflexivity.
  - rewrite bool_decide_eq_true_2 by congruence. reflexivity.
  - rewrite bool_decide_eq_true_2 by exact G. reflexivity.
  - rewrite bool_decide_eq_true_2 by exact G. reflexivity.
  - destruct (decide (x = y)) as [->|Hne]; [rewrite bool_decide_eq_true_2, max2_idem by reflexivity; destruct y; reflexivity|]. rewrite (bool_decide_eq_false_2 (y = x)) by congruence. cbn in C. ands. rewrite (bool_decide_eq_true_2 (s_radius x = _)) by assumption. cbn [negb]. rewrite bool_decide_eq_true_2 by exact G. reflexivity.
  - unfold sr_mul. rewrite bool_decide_eq_true_2 by exact G. reflexivity.
  - unfold br_mul. rewrite bool_decide_eq_true_2 by exact G. reflexivity.
  - rewrite bool_decide_eq_true_2 by exact G. unfold sr_mul. rewrite bool_decide_eq_true_2 by (apply radial_compatible, G). reflexivity.
  - rewrite bool_decide_eq_true_2 by exact G. reflexivity.
Qed.
Lemma prod2_none x y : class_of x = class_of y -> ~ compatible x y -> prod2 x y = None.
Proof. intros HC C. unfold prod2. destruct (times_cases x y HC) as [[G _]|[_ H]]; [contradiction|exact H]. Qed.
Lemma by_grid_compatible x y : compatible x y -> compatible x (by_grid x y).
Proof.
  destruct x, y; cbn; intros H; try contradiction; try (destruct (decide _)); repeat split; try (match goal with |- scale3 ?d = _ => destruct d as [|? [|? ?]]; reflexivity end).
Qed.
Lemma by_grid_assoc x y z : compatible x y -> compatible y z -> by_grid (by_grid x y) z = by_grid x (by_grid y z).
Proof.
  intros C D. destruct x as [x|x|x|x|x|x|x|x|x], y as [y|y|y|y|y|y|y|y|y]; cbn [compatible] in C; try contradiction; destruct z as [z|z|z|z|z|z|z|z|z]; cbn [compatible] in D; try contradiction; try reflexivity.
  - cbn. destruct x as [c n bd a b a0 b0 d l], y as [c' n' bd' a' b' a0' b0' d' l'], z as [c'' n'' bd'' a'' b'' a0'' b0'' d'' l'']. cbn in C, D. ands. subst.
    repeat (cbn; match goal with |- context [decide ?P] => destruct (decide P) end); unfold j_clone in *; cbn in *; try congruence;
    repeat match goal with H : Jac _ _ _ _ _ _ _ _ _ = Jac _ _ _ _ _ _ _ _ _ |- _ => injection H as ?; subst end; rewrite ?Nat.max_id, ?Nat.max_assoc in *; try congruence; try (do 2 f_equal; lia); exfalso; match goal with H : _ <> _ |- _ => apply H; f_equal; lia end.
  - cbn. unfold a_clone. cbn. rewrite max2_assoc, Z.add_assoc. reflexivity.
  - cbn. unfold d_clone. cbn. rewrite max2_assoc. reflexivity.
  - cbn. unfold s_clone. cbn. rewrite max2_assoc. reflexivity.
  - cbn. unfold sr_clone. cbn. rewrite pad_pad, Nat.max_assoc, Z.add_assoc. reflexivity.
  - cbn. unfold br_clone. cbn. rewrite pad_pad, Nat.max_assoc, Z.max_assoc. reflexivity.
  - cbn. unfold sh_clone. cbn. rewrite max3_assoc, Z.add_assoc. reflexivity.
  - cbn. unfold ba_clone. cbn. rewrite max3_assoc. reflexivity.
Qed.
Theorem times_assoc x y z : class_of x = class_of y -> class_of y = class_of z ->
  value (times (Some x) (Some y)) ≫= (fun s => value (times (Some s) (Some z))) = value (times (Some y) (Some z)) ≫= (fun t => value (times (Some x) (Some t))).
Proof.
  intros H1 H2. change (prod2 x y ≫= (fun s => prod2 s z) = prod2 y z ≫= (fun t => prod2 x t)).
  destruct (decide (compatible x y)) as [C|C].
  2:{ rewrite (prod2_none x y H1 C). cbn. destruct (decide (compatible y z)) as [D|D]; [|rewrite (prod2_none y z H2 D); reflexivity]. rewrite (prod2_some y z D). cbn. symmetry. apply prod2_none.
      - rewrite H1. apply compatible_class, by_grid_compatible, D.
      - intros H. apply C. eapply compatible_trans; [exact H|]. apply compatible_sym, by_grid_compatible, D. }
  rewrite (prod2_some x y C). cbn. pose proof (by_grid_compatible x y C) as B. destruct (decide (compatible y z)) as [D|D].
  2:{ rewrite (prod2_none y z H2 D). cbn. apply prod2_none; [rewrite <- (compatible_class _ _ B); congruence|]. intros H. apply D. eapply compatible_trans; [apply compatible_sym, C|]. eapply compatible_trans; eassumption. }
  rewrite (prod2_some y z D). cbn. rewrite !prod2_some, by_grid_assoc; [reflexivity|assumption|assumption|eapply compatible_trans; [exact C|apply by_grid_compatible, D]|].
  eapply compatible_trans; [apply compatible_sym, B|]. exact (compatible_trans _ _ _ C D).
Qed.

(** A radial basis times a sphere is a shell with both resolutions and the radial polynomials, *)
Theorem times_shell s r : sr_cs r = s_cs s -> sr_dtype r = s_dtype s -> (exists d1 d2, s_dealias s = [d1; d2]) -> (exists d, sr_dealias r = [d]) ->
  exists z, times (Some (BS s)) (Some (BSR r)) = Val (BSh z) /\ resolution (BSh z) = resolution (BS s) ++ [sr_size r]
  /\ polynomials (BSh z) = polynomials (BSR r) /\ sh_radial z = r.
Proof.
  intros H1 H2 (d1 & d2 & H3) (d & H4). unfold times, operator. cbn [mul class_of Nat.eqb]. rewrite H1, H2, H3, H4, !bool_decide_eq_true_2 by reflexivity. cbn.
  eexists. split; [reflexivity|]. destruct s as [? [] ? ? ? ? ?], r. cbn in *. subst. repeat split.
Qed.
(** and a shell times a radial basis adds the orders, *)
Theorem times_shell_radial x r : compatible (BSR (sh_radial x)) (BSR r) ->
  exists z, times (Some (BSh x)) (Some (BSR r)) = Val (BSh z) /\ compatible (BSh x) (BSh z) /\ resolution (BSh z) = resolution (BSh x) /\ polynomials (BSh z) = Level (sh_k x + sr_k r).
Proof.
  intros C. pose proof (proj2 (grid_compatible (BSR (sh_radial x)) (BSR r)) C) as G. cbn in G. unfold times, operator. cbn [mul]. unfold sr_mul. rewrite bool_decide_eq_true_2 by (symmetry; exact G). cbn.
  eexists. split; [reflexivity|]. repeat split. cbn. rewrite Z.add_comm. reflexivity.
Qed.
(** although with the shell's resolution, even when that of the radial basis is larger; so products can depend on the grouping. *)
Definition sample_radial (n : nat) (k : Z) : shellradial := SRa "rtp" n false (num 1, num 2) (num 0, num 0) [num 1] k "matrix".
Definition sample_sphere : sphere := Sph "rtp" (8, 4) false (num 1) [num 1; num 1] "fftw" "matrix".
Definition sample_shell (nphi nr : nat) (k : Z) : shell := She "rtp" (nphi, 4, nr) false (num 1, num 2) k (num 0, num 0) (num 1, num 1, num 1) "fftw" "matrix" "matrix".
Theorem times_resolution_refuted : exists x r z, times (Some (BSh x)) (Some (BSR r)) = Val z /\ resolution z = [8; 4; 6] /\ resolution (BSR r) = [1; 1; 10].
Proof. exists (sample_shell 8 6 0), (sample_radial 10 0). eexists. split; [vm_compute; reflexivity|]. split; reflexivity. Qed.
Theorem times_assoc_refuted : exists x y z s t u v, times (Some x) (Some y) = Val s /\ times (Some s) (Some z) = Val t /\ times (Some y) (Some z) = Val u /\ times (Some x) (Some u) = Val v
  /\ resolution t = [8; 4; 6] /\ resolution v = [8; 4; 10].
Proof.
  exists (BS sample_sphere), (BSR (sample_radial 6 0)), (BSR (sample_radial 10 0)). do 4 eexists. do 4 (split; [vm_compute; reflexivity|]). split; vm_compute; reflexivity.
Qed.

(** A nonconstant coefficient: the product lies in a basis of the operand's kind, on its grid, with the polynomials of
    [operand_family]; shells and balls keep the operand's resolution, other operands take the larger one. *)
Theorem matmul_value x y z : matmul (Some x) (Some y) = Val z ->
  class_of z = class_of y /\ compatible y z /\ polynomials z = operand_family x y
  /\ resolution z = match y with BSh _ | BBa _ => resolution y | _ => zip_with max (resolution x) (resolution y) end.
Proof.
  unfold matmul, raised. destruct y as [y|y|y|y|y|y|y|y|y], x as [x|x|x|x|x|x|x|x|x]; cbn [rmatmul mul]; intros H; try discriminate.
  - destruct (decide (x = y)) as [->|Hne].
    + rewrite bool_decide_eq_true_2 in H by reflexivity. injection H as <-. cbn. rewrite Nat.max_id. repeat split.
    + rewrite (bool_decide_eq_false_2 (x = y)) in H by exact Hne. destruct (bool_decide _); [|discriminate]. injection H as <-. cbn. rewrite Nat.max_comm. repeat split.
  - destruct (decide (x = y)) as [->|Hne]; [|rewrite bool_decide_eq_false_2 in H by exact Hne; discriminate]. rewrite bool_decide_eq_true_2 in H by reflexivity. injection H as <-. cbn. rewrite Nat.max_id. repeat split.
  - destruct (bool_decide _); [|discriminate]. injection H as <-. cbn. rewrite Z.add_comm, !(Nat.max_comm (_ (a_shape y))). repeat split.
  - destruct (bool_decide _); [|discriminate]. injection H as <-. cbn. rewrite !(Nat.max_comm (_ (d_shape y))). repeat split.
  - destruct (decide (x = y)) as [->|Hne].
    + rewrite bool_decide_eq_true_2 in H by reflexivity. injection H as <-. cbn. rewrite !Nat.max_id. repeat split.
    + rewrite (bool_decide_eq_false_2 (x = y)) in H by exact Hne. destruct (negb _); [discriminate|]. destruct (bool_decide _); [|discriminate]. injection H as <-. cbn. rewrite !(Nat.max_comm (_ (s_shape y))). repeat split.
  - unfold sr_mul in H. destruct (bool_decide _); [|discriminate]. injection H as <-. cbn. rewrite Z.add_comm, (Nat.max_comm (sr_size y)). repeat split. destruct (sr_dealias y) as [|? [|? ?]]; reflexivity.
  - unfold br_mul in H. destruct (bool_decide _); [|discriminate]. injection H as <-. cbn. rewrite Z.max_comm, (Nat.max_comm (br_size y)). repeat split. destruct (br_dealias y) as [|? [|? ?]]; reflexivity.
  - unfold sr_mul in H. destruct (bool_decide _); [|discriminate]. injection H as <-. cbn. rewrite Z.add_comm. repeat split.
  - destruct (negb _); [discriminate|]. unfold sr_mul in H. destruct (bool_decide _); [|discriminate]. injection H as <-. cbn. rewrite Z.add_comm. repeat split.
  - unfold br_mul in H. destruct (bool_decide _); [|discriminate]. injection H as <-. cbn. rewrite Z.max_comm. repeat split.
  - unfold br_mul in H. destruct (bool_decide _); [|discriminate]. injection H as <-. cbn. rewrite Z.max_comm. repeat split.
Qed.
(** Compatible bases of one kind can be so multiplied, except that a coefficient on a shell must not vary in azimuth. *)
Theorem matmul_defined x y : compatible x y -> (exists z, matmul (Some x) (Some y) = Val z) <-> match x with BSh x => (sh_shape x).1.1 = 1 | _ => True end.
Proof.
  intros C. pose proof (proj2 (grid_compatible y x) (compatible_sym _ _ C)) as G. unfold matmul, raised.
  destruct x as [x|x|x|x|x|x|x|x|x], y as [y|y|y|y|y|y|y|y|y]; try contradiction; cbn [rmatmul mul].
  all: try (split; [intros _; exact I|intros _]).
  - destruct (bool_decide (x = y)); [eauto|]. rewrite bool_decide_eq_true_2 by exact G. eauto.
  - cbn in C. rewrite bool_decide_eq_true_2 by exact C. eauto.
  - rewrite bool_decide_eq_true_2 by exact G. eauto.
  - rewrite bool_decide_eq_true_2 by exact G. eauto.
  - destruct (bool_decide (x = y)); [eauto|]. cbn in C. ands. rewrite (bool_decide_eq_true_2 (s_radius y = _)) by congruence. cbn [negb]. rewrite bool_decide_eq_true_2 by exact G. eauto.
  - unfold sr_mul. rewrite bool_decide_eq_true_2 by exact G. cbn. eauto.
  - unfold br_mul. rewrite bool_decide_eq_true_2 by exact G. cbn. eauto.
  - unfold sr_mul. rewrite bool_decide_eq_true_2 by (apply radial_compatible, G). destruct (Nat.eqb_spec (sh_shape x).1.1 1) as [E|E]; cbn.
    + split; [intros _; exact E|eauto].
    + split; [intros [z H]; discriminate|intros H; contradiction].
  - unfold br_mul. rewrite bool_decide_eq_true_2; [cbn; eauto|]. destruct x, y. unfold ba_grid, br_grid, ba_radial in *. cbn in *. injection G as -> -> -> -> -> -> -> ->. reflexivity.
Qed.

(** Operands of a sum are converted to its basis.  With equal resolutions that gives an operand in that basis, up to the
    dealiasing factors of radial bases being written out, *)
Lemma py_eq_same x y : py_eq x y = true -> resolution x = resolution y -> compatible x y /\ polynomials x = polynomials y.
Proof.
  destruct x as [x|x|x|x|x|x|x|x|x], y as [y|y|y|y|y|y|y|y|y]; cbn [py_eq]; intros H R; try (rewrite bool_decide_eq_true in H; injection H as <-; split; [apply compatible_refl|reflexivity]); try (rewrite bool_decide_eq_true in H; discriminate).
  all: rewrite ?andb_true_iff, ?bool_decide_eq_true in H; ands; (split; [apply grid_compatible; assumption|cbn; congruence]).
Qed.
Theorem convert_sum x y z : plus_ (Some x) (Some y) = Val z -> resolution x = resolution y ->
  exists w, convert x z = Val w /\ compatible w z /\ resolution w = resolution z /\ polynomials w = polynomials z.
Proof.
  intros H R. destruct (plus_value _ _ _ H) as (C1 & C2 & R1 & P). assert (RR : resolution x = resolution z).
  { rewrite R1, <- R. clear. induction (resolution x) as [|a l IH]; [reflexivity|]. cbn. rewrite Nat.max_id, <- IH. reflexivity. }
  unfold convert. destruct (py_eq x z) eqn:E.
  - exists x. split; [reflexivity|]. destruct (py_eq_same x z E RR) as [? ?]. repeat split; assumption.
  - exists z. split; [|split; [apply compatible_refl|split; reflexivity]].
    destruct x, z; try contradiction; try reflexivity; cbn in *; rewrite bool_decide_eq_false in E; exfalso; apply E; [congruence|].
    destruct x as [? [] ? ? ? ? ?], x0 as [? [] ? ? ? ? ?]. cbn in *. ands. congruence.
Qed.
(** but with different resolutions the conversion of annular, disk, shell and ball operands of equal order is skipped, *)
Definition sample_disk (n : nat) (k : Z) : disk := Dis "rt" (4, n) false (num 1) k (num 0) [num 1; num 1] "fftw" "matrix".
Theorem convert_shape_refuted : exists x y z, plus_ (Some x) (Some y) = Val z /\ convert x z = Val x /\ resolution x = [4; 6] /\ resolution z = [4; 8].
Proof. exists (BD (sample_disk 6 1)), (BD (sample_disk 8 1)). eexists. split; [vm_compute; reflexivity|]. split; [vm_compute; reflexivity|]. split; reflexivity. Qed.
(** there is none between spheres, *)
Theorem convert_sphere_refuted : exists x y z, plus_ (Some x) (Some y) = Val z /\ convert x z = Raises NotImplementedError.
Proof.
  exists (BS sample_sphere), (BS (s_clone sample_sphere (8, 6))). eexists. split; vm_compute; reflexivity.
Qed.
(** and the matrix between Jacobi bases has the size of the operand's basis in both dimensions. *)
Definition sample_jacobi (n : nat) (a : Z) : jacobi := Jac "x" n (num 0, num 1) (num a) (num a) (num 0) (num 0) [num 1] "matrix".
Theorem convert_jacobi_size_refuted : exists x y z, plus_ (Some (BJ x)) (Some (BJ y)) = Val (BJ z) /\ convert (BJ x) (BJ z) = Val (BJ z) /\ convert_shape x z = (6, 6) /\ resolution (BJ z) = [8].
Proof. exists (sample_jacobi 6 0), (sample_jacobi 8 1). eexists. split; [vm_compute; reflexivity|]. split; [vm_compute; reflexivity|]. split; reflexivity. Qed.

(** Products of fields along a coordinate: no basis only if neither has one. *)
Theorem product_bases_value x y z : product_bases x y = Val z -> (z = None <-> x = None /\ y = None) /\ (forall b, z = Some b -> times x y = Val b).
Proof.
  unfold product_bases. destruct x as [x|], y as [y|]; intros H.
  all: try (injection H as <-; split; [split; [split; reflexivity|reflexivity]|intros b E; discriminate]).
  all: destruct (times _ _) as [b| |]; try discriminate; cbn in H; injection H as <-; split; [split; [discriminate|intros [? ?]; discriminate]|intros c E; injection E as <-; reflexivity].
Qed.

Example times_case : times (Some (BJ (sample_jacobi 6 0))) (Some (BJ (sample_jacobi 8 1))) = Val (BJ (sample_jacobi 8 0))
  /\ times (Some (BD (sample_disk 6 1))) (Some (BD (sample_disk 8 2))) = Val (BD (sample_disk 8 0))
  /\ times (Some (BS sample_sphere)) (Some (BSR (sample_radial 6 1))) = Val (BSh (sample_shell 8 6 1))
  /\ times (Some (BSh (sample_shell 8 6 1))) (Some (BSR (sample_radial 5 2))) = Val (BSh (sample_shell 8 6 3)).
Proof. vm_compute. repeat split. Qed.
Example matmul_case : matmul (Some (BSh (sample_shell 1 8 1))) (Some (BSh (sample_shell 8 6 1))) = Val (BSh (sample_shell 8 6 2))
  /\ matmul (Some (BSh (sample_shell 8 6 1))) (Some (BSh (sample_shell 8 6 1))) = Raises ValueError
  /\ matmul (Some (BD (sample_disk 8 0))) (Some (BD (sample_disk 6 2))) = Val (BD (sample_disk 8 2)).
Proof. vm_compute. repeat split. Qed.
Example sum_case : sum_bases [None; Some (BJ (sample_jacobi 6 0)); None; Some (BJ (sample_jacobi 8 1)); Some (BJ (sample_jacobi 5 2))] = Val (Some (BJ (sample_jacobi 8 2)))
  /\ plus_ (Some (BD (sample_disk 6 1))) (Some (BS sample_sphere)) = Raises TypeError /\ product_bases None None = Val None
  /\ convert (BD (sample_disk 6 1)) (BD (sample_disk 8 2)) = Val (BD (sample_disk 8 2)).
Proof. vm_compute. repeat split. Qed.
Print Assumptions plus_defined.
Print Assumptions plus_value.
Print Assumptions plus_idem.
Print Assumptions plus_none.
Print Assumptions plus_comm.
Print Assumptions plus_comm_refuted.
Print Assumptions plus_assoc.
Print Assumptions sum_order.
Print Assumptions sum_bounds.
Print Assumptions times_none.
Print Assumptions times_comm.
Print Assumptions times_defined.
Print Assumptions times_value.
Print Assumptions times_square.
Print Assumptions times_assoc.
Print Assumptions times_shell.
Print Assumptions times_shell_radial.
Print Assumptions times_resolution_refuted.
Print Assumptions times_assoc_refuted.
Print Assumptions matmul_value.
Print Assumptions matmul_defined.
Print Assumptions convert_sum.
Print Assumptions convert_shape_refuted.
Print Assumptions convert_sphere_refuted.
Print Assumptions convert_jacobi_size_refuted.
Print Assumptions product_bases_value.
