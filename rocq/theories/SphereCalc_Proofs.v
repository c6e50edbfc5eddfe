(** Tensor fields on the sphere: proofs. *)
From Coq Require Import List ZArith Reals Bool Lia Lra.
Import ListNotations.
From Coquelicot Require Import Coquelicot.
From Verif Require Import Integrals_Proofs SphereOps_Model SphereOps_Spec SphereOps_Proofs SphereOps_Props SphericalVec_Spec SphericalVec_Proofs Harmonics_Spec Harmonics_Proofs Harmonics_Props SphereCalc_Spec.
Local Open Scope R_scope.

Section Mass.
Context (mass : R -> R -> R) (Hm : true_mass mass).
Notation Y := (harmonic mass).
Notation shape := (shape mass).
(** The derivative of the function of colatitude. *)
Definition slope (m s l : Z) (th : R) : R := if (lowest m s <=? l)%Z then (IZR m + IZR s * cos th) / sin th * Y m s l (cos th) + sqrt 2 * raising l s * Y m (s + 1) l (cos th) else 0.
Lemma slope_derive m s l th : 0 < th < PI -> is_derive (shape m s l) th (slope m s l th).
Proof.
  intros Ht. unfold shape, slope. destruct (Z.leb_spec (lowest m s) l) as [H|H]; [apply (harmonics_raised mass Hm m s l th H Ht)|apply (is_derive_const (0:R))].
Qed.
Lemma slope_lower m s l th : 0 < th < PI -> (lowest m s <= l)%Z -> slope m s l th = - ((IZR m + IZR s * cos th) / sin th) * Y m s l (cos th) + sqrt 2 * lowering l s * Y m (s - 1) l (cos th).
Proof.
  intros Ht H. pose proof (slope_derive m s l th Ht) as D. pose proof (harmonics_lowered mass Hm m s l th H Ht) as D'. apply is_derive_unique in D. apply is_derive_unique in D'. rewrite <- D, <- D'. apply Derive_ext. intros t. unfold shape. rewrite (proj2 (Z.leb_le _ _) H). reflexivity.
Qed.
Lemma root2 : sqrt 2 * sqrt 2 = 2 /\ sqrt 2 <> 0.
Proof. split; [apply sqrt_sqrt; lra|apply Rgt_not_eq, sqrt_lt_R0; lra]. Qed.
Lemma up_mode m s l th : 0 < th < PI -> (if exists_at l s && exists_at l (s + 1) then raising l s else 0) * shape m (s + 1) l th = / sqrt 2 * (slope m s l th - (IZR m + IZR s * cos th) / sin th * shape m s l th).
Proof.
  intros Ht. destruct root2 as [_ R2]. unfold slope, shape, exists_at. destruct (Z.leb_spec (lowest m s) l) as [H|H].
  - transitivity (raising l s * Y m (s + 1) l (cos th)); [|set (k := (IZR m + IZR s * cos th) / sin th); field; exact R2]. destruct (Z.leb_spec (Z.abs s) l) as [H1|H1]; [|unfold lowest in H; lia]. destruct (Z.leb_spec (Z.abs (s + 1)) l) as [H2|H2]; cbn [andb].
    + destruct (Z.leb_spec (lowest m (s + 1)) l) as [H3|H3]; [reflexivity|unfold lowest in *; lia].
    + assert (l = s) by lia. subst l. unfold raising. replace ((s - s) * (s + s + 1))%Z with 0%Z by ring. replace (0 / 2) with 0 by field. rewrite sqrt_0. ring.
  - rewrite !Rmult_0_r, Rminus_0_r, Rmult_0_r. destruct (Z.leb_spec (lowest m (s + 1)) l) as [H3|H3]; [|ring]. destruct (Z.leb_spec (Z.abs s) l) as [H1|H1]; [unfold lowest in *; lia|]. cbn [andb]. ring.
Qed.
Lemma down_mode m s l th : 0 < th < PI -> (if exists_at l s && exists_at l (s - 1) then lowering l s else 0) * shape m (s - 1) l th = / sqrt 2 * (slope m s l th + (IZR m + IZR s * cos th) / sin th * shape m s l th).
Proof.
  intros Ht. destruct root2 as [_ R2]. destruct (Z.leb_spec (lowest m s) l) as [H|H].
  - rewrite slope_lower by assumption. unfold shape, exists_at. rewrite (proj2 (Z.leb_le _ _) H). transitivity (lowering l s * Y m (s - 1) l (cos th)); [|set (k := (IZR m + IZR s * cos th) / sin th); field; exact R2].
    destruct (Z.leb_spec (Z.abs s) l) as [H1|H1]; [|unfold lowest in H; lia]. destruct (Z.leb_spec (Z.abs (s - 1)) l) as [H2|H2]; cbn [andb].
    + destruct (Z.leb_spec (lowest m (s - 1)) l) as [H3|H3]; [reflexivity|unfold lowest in *; lia].
    + assert (l = - s)%Z by lia. subst l. unfold lowering. replace ((- s + s) * (- s - s + 1))%Z with 0%Z by ring. replace (0 / 2) with 0 by field. rewrite sqrt_0. ring.
  - unfold slope, shape, exists_at. destruct (Z.leb_spec (lowest m s) l) as [H0|H0]; [lia|]. rewrite !Rmult_0_r, Rplus_0_r, Rmult_0_r. destruct (Z.leb_spec (lowest m (s - 1)) l) as [H3|H3]; [|ring]. destruct (Z.leb_spec (Z.abs s) l) as [H1|H1]; [unfold lowest in *; lia|]. cbn [andb]. ring.
Qed.

(** ** Sums over modes *)
Lemma csum_three (l : list (Z * Z)) (g f1 f2 f3 : Z * Z -> C) (a b c : C) : (forall x, g x = a * f1 x + b * f2 x + c * f3 x)%C -> csum l g = (a * csum l f1 + b * csum l f2 + c * csum l f3)%C.
Proof. intros H. induction l as [|x l IH]; unfold csum in *; cbn [map fold_right]; [ring|]. rewrite H, IH. ring. Qed.
Lemma csum_add (l : list (Z * Z)) (g f1 f2 : Z * Z -> C) : (forall x, g x = f1 x + f2 x)%C -> csum l g = (csum l f1 + csum l f2)%C.
Proof. intros H. induction l as [|x l IH]; unfold csum in *; cbn [map fold_right]; [ring|]. rewrite H, IH. ring. Qed.
Lemma csum_same (l : list (Z * Z)) (g f : Z * Z -> C) : (forall x, g x = f x) -> csum l g = csum l f.
Proof. intros H. unfold csum. f_equal. apply map_ext, H. Qed.
Lemma derive_sum (l : list (Z * Z)) (f : R -> Z * Z -> C) (f' : Z * Z -> C) t : (forall x, has_derivative (fun t => f t x) t (f' x)) -> has_derivative (fun t => csum l (f t)) t (csum l f').
Proof.
  intros H. induction l as [|x l IH]; unfold csum in *; cbn [map fold_right]; [split; cbn; apply (is_derive_const (0:R))|]. destruct IH as [I1 I2]. destruct (H x) as [H1 H2]. split.
  - apply (is_derive_ext (fun t => plus (Re (f t x)) (Re (fold_right Cplus (RtoC 0) (map (f t) l))))); [intros u; reflexivity|]. exact (is_derive_plus _ _ t _ _ H1 I1).
  - apply (is_derive_ext (fun t => plus (Im (f t x)) (Im (fold_right Cplus (RtoC 0) (map (f t) l))))); [intros u; reflexivity|]. exact (is_derive_plus _ _ t _ _ H2 I2).
Qed.
Section Field.
Context (modes : list (Z * Z)) (c : index -> Z * Z -> C) (i : index).
Notation wave m phi := (cos (IZR m * phi), sin (IZR m * phi)).
Definition theta_slope (phi th : R) : C := csum modes (fun ml => Cmult (Cmult (c i ml) (wave (fst ml) phi)) (RtoC (slope (fst ml) (spin i) (snd ml) th))).
Definition phi_slope (phi th : R) : C := csum modes (fun ml => Cmult (Cmult (c i ml) (Cmult (RtoC (IZR (fst ml))) (Cmult Ci (wave (fst ml) phi)))) (RtoC (shape (fst ml) (spin i) (snd ml) th))).
Lemma theta_derive phi th : 0 < th < PI -> has_derivative (component mass modes c i phi) th (theta_slope phi th).
Proof.
  intros Ht. unfold component, theta_slope. apply (derive_sum modes (fun t ml => Cmult (Cmult (c i ml) (wave (fst ml) phi)) (RtoC (shape (fst ml) (spin i) (snd ml) t)))). intros ml. set (k := Cmult (c i ml) (wave (fst ml) phi)). pose proof (slope_derive (fst ml) (spin i) (snd ml) th Ht) as D.
  split.
  - apply (is_derive_ext (fun t => fst k * shape (fst ml) (spin i) (snd ml) t)); [intros t; unfold Re, Cmult, RtoC; cbn [fst snd]; on_R; ring|]. eapply eq_ind; [exact (is_derive_scal _ th (fst k) _ D)|]. unfold Re, Cmult, RtoC; cbn [fst snd]. on_R. ring.
  - apply (is_derive_ext (fun t => snd k * shape (fst ml) (spin i) (snd ml) t)); [intros t; unfold Im, Cmult, RtoC; cbn [fst snd]; on_R; ring|]. eapply eq_ind; [exact (is_derive_scal _ th (snd k) _ D)|]. unfold Im, Cmult, RtoC; cbn [fst snd]. on_R. ring.
Qed.
Lemma phi_derive phi th : has_derivative (fun p => component mass modes c i p th) phi (phi_slope phi th).
Proof.
  unfold component, phi_slope. apply (derive_sum modes (fun p ml => Cmult (Cmult (c i ml) (wave (fst ml) p)) (RtoC (shape (fst ml) (spin i) (snd ml) th)))). intros [m l]. cbn [fst snd]. generalize (shape m (spin i) l th). intros y. generalize (c i (m, l)). intros [a b].
  split; unfold Re, Im, Cmult, RtoC, Ci; cbn [fst snd]; (auto_derive; [repeat split; trivial|ring]).
Qed.
End Field.
Ltac parts := apply injective_projections; unfold Cmult, Cplus, Cminus, Copp, RtoC, Ci, Re, Im; cbn [fst snd].
Section Operators.
Context (modes : list (Z * Z)) (c : index -> Z * Z -> C) (sig : list nat) (r : R) (Hr : r <> 0) (i : index) (Hi : is_index sig i) (phi th : R) (Ht : 0 < th < PI).
Notation F := (component mass modes c).
Notation s := (IZR (spin i)).
Lemma sin_pos : sin th <> 0. Proof. apply Rgt_not_eq, sin_gt_0; lra. Qed.
Lemma gradient_up : component mass modes (on_modes (fun l => gradient sig l r) c) (1%nat :: i) phi th =
  (RtoC (/ sqrt 2 / r) * theta_slope modes c i phi th + RtoC (/ sqrt 2 / r / sin th) * Ci * phi_slope modes c i phi th + RtoC (- (/ sqrt 2 / r / sin th * s * cos th)) * F i phi th)%C.
Proof.
  unfold component, theta_slope, phi_slope. apply csum_three. intros [m l]. cbn [fst snd]. rewrite spin_cons. change (spin_of 1) with 1%Z. replace (1 + spin i)%Z with (spin i + 1)%Z by ring. unfold on_modes. cbn [fst snd].
  rewrite !(proj1 (sphere_gradient sig l r _ i Hi)). destruct (c i (m, l)) as [x y]. unfold Re, Im. cbn [fst snd]. pose proof (up_mode m (spin i) l th Ht) as U. set (k := if exists_at l (spin i) && exists_at l (spin i + 1) then raising l (spin i) else 0) in *. set (z := shape m (spin i + 1) l th) in *. pose proof sin_pos as Hs. destruct root2 as [_ R2].
  parts.
  - transitivity ((x * cos (IZR m * phi) - y * sin (IZR m * phi)) / r * (k * z)); [field; exact Hr|]. rewrite U. field. repeat split; assumption.
  - transitivity ((x * sin (IZR m * phi) + y * cos (IZR m * phi)) / r * (k * z)); [field; exact Hr|]. rewrite U. field. repeat split; assumption.
Qed.
Lemma gradient_down : component mass modes (on_modes (fun l => gradient sig l r) c) (0%nat :: i) phi th =
  (RtoC (/ sqrt 2 / r) * theta_slope modes c i phi th + RtoC (- (/ sqrt 2 / r / sin th)) * Ci * phi_slope modes c i phi th + RtoC (/ sqrt 2 / r / sin th * s * cos th) * F i phi th)%C.
Proof.
  unfold component, theta_slope, phi_slope. apply csum_three. intros [m l]. cbn [fst snd]. rewrite spin_cons. change (spin_of 0) with (-1)%Z. replace (-1 + spin i)%Z with (spin i - 1)%Z by ring. unfold on_modes. cbn [fst snd].
  rewrite !(proj2 (sphere_gradient sig l r _ i Hi)). destruct (c i (m, l)) as [x y]. unfold Re, Im. cbn [fst snd]. pose proof (down_mode m (spin i) l th Ht) as U. set (k := if exists_at l (spin i) && exists_at l (spin i - 1) then lowering l (spin i) else 0) in *. set (z := shape m (spin i - 1) l th) in *. pose proof sin_pos as Hs. destruct root2 as [_ R2].
  parts.
  - transitivity ((x * cos (IZR m * phi) - y * sin (IZR m * phi)) / r * (k * z)); [field; exact Hr|]. rewrite U. field. repeat split; assumption.
  - transitivity ((x * sin (IZR m * phi) + y * cos (IZR m * phi)) / r * (k * z)); [field; exact Hr|]. rewrite U. field. repeat split; assumption.
Qed.
Lemma divergence_sum n : (2 <= n)%nat -> component mass modes (on_modes (fun l => divergence (n :: sig) l r) c) i phi th =
  ((RtoC (/ sqrt 2 / r) * theta_slope modes c (0%nat :: i) phi th + RtoC (/ sqrt 2 / r / sin th) * Ci * phi_slope modes c (0%nat :: i) phi th + RtoC (- (/ sqrt 2 / r / sin th * (s - 1) * cos th)) * F (0%nat :: i) phi th)
   + (RtoC (/ sqrt 2 / r) * theta_slope modes c (1%nat :: i) phi th + RtoC (- (/ sqrt 2 / r / sin th)) * Ci * phi_slope modes c (1%nat :: i) phi th + RtoC (/ sqrt 2 / r / sin th * (s + 1) * cos th) * F (1%nat :: i) phi th))%C.
Proof.
  intros Hn. unfold component at 1.
  rewrite (csum_add modes _ (fun ml => Cmult (Cmult (Cmult (RtoC ((if exists_at (snd ml) (spin i) && exists_at (snd ml) (spin i - 1) then raising (snd ml) (spin i - 1) else 0) / r)) (c (0%nat :: i) ml)) (cos (IZR (fst ml) * phi), sin (IZR (fst ml) * phi))) (RtoC (shape (fst ml) (spin i) (snd ml) th)))
    (fun ml => Cmult (Cmult (Cmult (RtoC ((if exists_at (snd ml) (spin i) && exists_at (snd ml) (spin i + 1) then lowering (snd ml) (spin i + 1) else 0) / r)) (c (1%nat :: i) ml)) (cos (IZR (fst ml) * phi), sin (IZR (fst ml) * phi))) (RtoC (shape (fst ml) (spin i) (snd ml) th)))).
  2:{ intros [m l]. cbn [fst snd]. unfold on_modes. cbn [fst snd]. rewrite !(sphere_divergence n sig l r _ i Hn Hi). destruct (c (0%nat :: i) (m, l)) as [x y], (c (1%nat :: i) (m, l)) as [x' y']. parts; ring. }
  pose proof sin_pos as Hs. destruct root2 as [_ R2]. f_equal; unfold component, theta_slope, phi_slope; apply csum_three; intros [m l]; cbn [fst snd]; rewrite !spin_cons.
  - change (spin_of 0) with (-1)%Z. replace (-1 + spin i)%Z with (spin i - 1)%Z by ring. destruct (c (0%nat :: i) (m, l)) as [x y]. pose proof (up_mode m (spin i - 1) l th Ht) as U. replace (spin i - 1 + 1)%Z with (spin i) in U by ring. rewrite andb_comm in U. rewrite minus_IZR in U.
    set (k := if exists_at l (spin i) && exists_at l (spin i - 1) then raising l (spin i - 1) else 0) in *. set (z := shape m (spin i) l th) in *. parts.
    + transitivity ((x * cos (IZR m * phi) - y * sin (IZR m * phi)) / r * (k * z)); [field; exact Hr|]. rewrite U. field. repeat split; assumption.
    + transitivity ((x * sin (IZR m * phi) + y * cos (IZR m * phi)) / r * (k * z)); [field; exact Hr|]. rewrite U. field. repeat split; assumption.
  - change (spin_of 1) with 1%Z. replace (1 + spin i)%Z with (spin i + 1)%Z by ring. destruct (c (1%nat :: i) (m, l)) as [x y]. pose proof (down_mode m (spin i + 1) l th Ht) as U. replace (spin i + 1 - 1)%Z with (spin i) in U by ring. rewrite andb_comm in U. rewrite plus_IZR in U.
    set (k := if exists_at l (spin i) && exists_at l (spin i + 1) then lowering l (spin i + 1) else 0) in *. set (z := shape m (spin i) l th) in *. parts.
    + transitivity ((x * cos (IZR m * phi) - y * sin (IZR m * phi)) / r * (k * z)); [field; exact Hr|]. rewrite U. field. repeat split; assumption.
    + transitivity ((x * sin (IZR m * phi) + y * cos (IZR m * phi)) / r * (k * z)); [field; exact Hr|]. rewrite U. field. repeat split; assumption.
Qed.
End Operators.
End Mass.
