(** Proofs about Fourier series: wavenumbers, derivatives and integrals. *)
From Coq Require Import List ZArith Reals Bool Lia Lra Field.
Import ListNotations.
From Coquelicot Require Import Coquelicot.
From Verif Require Blocks_Model Blocks_Proofs MatSolvers_Proofs.
From Verif Require Import MatSolvers_Model CSR_Spec AffineCOV_Model AffineCOV_Props FourierCalc_Model FourierCalc_Spec FourierCalc_Proofs.

(** ** Wavenumbers *)
Lemma nth_map_seq {A} (f : nat -> A) n i d : (i < n)%nat -> nth i (map f (seq 0 n)) d = f i.
Proof. intros Hi. rewrite (nth_indep _ d (f 0%nat)) by (rewrite map_length, seq_length; exact Hi). rewrite (map_nth f), seq_nth by exact Hi. reflexivity. Qed.
Lemma arange_length a b : length (arange a b) = Z.to_nat (b - a).
Proof. unfold arange. rewrite map_length, seq_length. reflexivity. Qed.
Lemma arange_nth a b i d : (i < Z.to_nat (b - a))%nat -> nth i (arange a b) d = (a + Z.of_nat i)%Z.
Proof.
  intros Hi. unfold arange. rewrite (nth_indep _ d (a + Z.of_nat 0)%Z) by (rewrite map_length, seq_length; exact Hi).
  rewrite (map_nth (fun i => (a + Z.of_nat i)%Z)), seq_nth by exact Hi. reflexivity.
Qed.
Lemma arange_in a b k : In k (arange a b) <-> (a <= k < b)%Z.
Proof.
  unfold arange. rewrite in_map_iff. split.
  - intros (i & <- & Hi). apply in_seq in Hi. lia.
  - intros Hk. exists (Z.to_nat (k - a)). split; [lia|]. apply in_seq. lia.
Qed.
Lemma map_nodup {A B} (f : A -> B) l : NoDup l -> (forall x y, In x l -> In y l -> f x = f y -> x = y) -> NoDup (map f l).
Proof.
  intros H. induction H as [|a l Ha H IH]; intros Hf; [constructor|]. cbn [map]. constructor.
  - rewrite in_map_iff. intros (b & E & Hb). apply Hf in E; [subst; contradiction|right; assumption|left; reflexivity].
  - apply IH. intros x y Hx Hy. apply Hf; right; assumption.
Qed.
Lemma arange_nodup a b : NoDup (arange a b).
Proof. apply map_nodup; [apply seq_NoDup|]. intros x y _ _ E. lia. Qed.
Lemma app_nodup {A} (l l' : list A) : NoDup l -> NoDup l' -> (forall x, In x l -> ~ In x l') -> NoDup (l ++ l').
Proof.
  intros H H'. induction H as [|a l Ha H IH]; intros Hd; [exact H'|]. cbn. constructor.
  - rewrite in_app_iff. intros [Hi|Hi]; [contradiction|]. apply (Hd a); [left; reflexivity|exact Hi].
  - apply IH. intros x Hx. apply Hd. right. exact Hx.
Qed.
Lemma cdiv_1 n : Blocks_Model.cdiv n 1 = n.
Proof. unfold Blocks_Model.cdiv. rewrite Nat.div_1_r. lia. Qed.
Lemma complex_ks N : (0 < N)%nat -> modes 1 (complex_wavenumbers N) (complex_wavenumbers N) N /\ nth 0 (complex_wavenumbers N) 0%Z = 0%Z.
Proof.
  intros HN. pose proof (Nat.div_mod N 2 ltac:(lia)) as Hd. pose proof (Nat.mod_upper_bound N 2 ltac:(lia)) as Hm. unfold modes. rewrite cdiv_1. unfold complex_wavenumbers.
  set (h := (N / 2)%nat) in *. split; [split; [left; tauto|]|].
  - destruct (Nat.eqb_spec (N mod 2) 1) as [E|E]; (split; [apply app_nodup; try apply arange_nodup; intros x Hx Hy; apply arange_in in Hx; apply arange_in in Hy; lia|]);
      rewrite app_length, !arange_length; lia.
  - destruct (Nat.eqb_spec (N mod 2) 1) as [E|E]; rewrite app_nth1 by (rewrite arange_length; lia); rewrite arange_nth by lia; reflexivity.
Qed.
Lemma cdiv_2 n : (0 < n)%nat -> Blocks_Model.cdiv n 2 = S ((n - 1) / 2).
Proof. intros H. unfold Blocks_Model.cdiv. replace (n + 2 - 1)%nat with (n - 1 + 1 * 2)%nat by lia. rewrite Nat.div_add by lia. lia. Qed.
Lemma real_ks N : (0 < N)%nat -> modes 2 (arange 0 (Z.of_nat ((N - 1) / 2) + 1)) (real_wavenumbers N) N /\ nth 0 (arange 0 (Z.of_nat ((N - 1) / 2) + 1)) 0%Z = 0%Z.
Proof.
  intros HN. split; [split; [right; split; reflexivity|split; [apply arange_nodup|]]|].
  - rewrite arange_length, cdiv_2 by exact HN. lia.
  - rewrite arange_nth by lia. reflexivity.
Qed.
Lemma complex_permuted N : (0 < N)%nat -> (N mod 2 = 0)%nat ->
  exists ks, native_wavenumbers (complex_wavenumbers N) (Some (complex_m_perm N)) = Some ks /\ modes 1 ks ks N /\ nth 0 ks 0%Z = 0%Z.
Proof.
  intros HN He. destruct (complex_ks N HN) as [(_ & Hn & Hl) H0]. rewrite cdiv_1 in Hl. pose proof (Nat.div_mod N 2 ltac:(lia)) as Hd. set (h := (N / 2)%nat) in *.
  assert (Hp : forall i, In i (complex_m_perm N) -> (i < N)%nat).
  { intros i Hi. unfold complex_m_perm in Hi. fold h in Hi. apply in_map_iff in Hi. destruct Hi as (a & <- & Ha). apply in_seq in Ha.
    pose proof (Nat.div_mod a 2 ltac:(lia)). pose proof (Nat.mod_upper_bound a 2 ltac:(lia)). destruct (Nat.eq_dec (a mod 2) 0) as [E|E]; [rewrite E|replace (a mod 2)%nat with 1%nat by lia]; lia. }
  exists (map (fun i => nth i (complex_wavenumbers N) 0%Z) (complex_m_perm N)). split; [apply take_all_map; rewrite Hl; exact Hp|].
  split; [split; [left; tauto|split; [|rewrite map_length; unfold complex_m_perm; rewrite map_length, seq_length, cdiv_1; reflexivity]]|].
  - apply map_nodup.
    + unfold complex_m_perm. apply map_nodup; [apply seq_NoDup|]. fold h. intros x y Hx Hy E. apply in_seq in Hx. apply in_seq in Hy.
      pose proof (Nat.div_mod x 2 ltac:(lia)). pose proof (Nat.mod_upper_bound x 2 ltac:(lia)). pose proof (Nat.div_mod y 2 ltac:(lia)). pose proof (Nat.mod_upper_bound y 2 ltac:(lia)).
      assert (forall r, (r < 2)%nat -> r = 0%nat \/ r = 1%nat) as R2 by lia. destruct (R2 (x mod 2)%nat) as [E1|E1], (R2 (y mod 2)%nat) as [E2|E2]; try assumption; rewrite E1, E2 in *; lia.
    + intros x y Hx Hy E. apply (proj1 (NoDup_nth _ 0%Z) Hn) in E; [exact E|rewrite Hl; apply Hp; assumption..].
  - unfold complex_m_perm. destruct N as [|N]; [lia|]. cbn [seq map nth]. change (0 / 2)%nat with 0%nat. change (0 mod 2)%nat with 0%nat. rewrite Nat.mul_0_r. exact H0.
Qed.
Lemma real_permuted N : (0 < N)%nat -> (N mod 4 = 0)%nat ->
  exists ks ps, native_wavenumbers (real_wavenumbers N) (Some (real_m_perm N)) = Some ks /\ modes 2 ps ks N /\ nth 0 ps 0%Z = 0%Z.
Proof.
  intros HN He. pose proof (Nat.div_mod N 4 ltac:(lia)) as Hd. rewrite He, Nat.add_0_r in Hd. set (h := (N / 4)%nat) in *.
  set (old := fun p => if Nat.even p then (p / 2)%nat else ((N - 1 - p) / 2)%nat). exists (repeat2 (map (fun p => Z.of_nat (old p)) (seq 0 (2 * h)))), (map (fun p => Z.of_nat (old p)) (seq 0 (2 * h))).
  assert (Hh : ((N - 1) / 2 = 2 * h - 1)%nat) by (replace (N - 1)%nat with (1 + (2 * h - 1) * 2)%nat by lia; rewrite Nat.div_add by lia; reflexivity).
  assert (Hev : forall p, (p < 2 * h)%nat -> exists m, (Nat.even p = true /\ p = 2 * m /\ old p = m \/ Nat.even p = false /\ p = 2 * m + 1 /\ old p = 2 * h - 1 - m)%nat).
  { intros p Hp. destruct (Nat.Even_or_Odd p) as [[m E]|[m E]]; exists m; [left|right].
    - assert (Ee : Nat.even p = true) by (apply Nat.even_spec; exists m; exact E). split; [exact Ee|]. split; [exact E|]. unfold old. rewrite Ee, E, Nat.mul_comm. apply Nat.div_mul. lia.
    - assert (Ee : Nat.even p = false) by (rewrite <- Nat.negb_odd; apply Bool.negb_false_iff, Nat.odd_spec; exists m; exact E). split; [exact Ee|]. split; [exact E|]. unfold old. rewrite Ee.
      replace (N - 1 - p)%nat with ((2 * h - 1 - m) * 2)%nat by lia. apply Nat.div_mul. lia. }
  set (perm := fun a => (let div2 := a / 2 in let mod2 := a mod 2 in let div22 := div2 mod 2 in (mod2 + div2) * (1 - div22) + (N - 1 + mod2 - div2) * div22)%nat).
  assert (Hperm : forall a, (a < N)%nat -> (perm a / 2 = old (a / 2) /\ perm a < N)%nat).
  { intros a Ha. pose proof (Nat.div_mod a 2 ltac:(lia)) as Ea. pose proof (Nat.mod_upper_bound a 2 ltac:(lia)) as Hr. unfold perm. cbv zeta. set (p := (a / 2)%nat) in *. set (r := (a mod 2)%nat) in *.
    destruct (Hev p) as [m [(Hp & E & ->)|(Hp & E & ->)]]; [lia| |].
    - replace (p mod 2)%nat with 0%nat by (rewrite E, Nat.mul_comm; symmetry; apply Nat.mod_mul; lia). rewrite Nat.mul_1_r, Nat.mul_0_r, Nat.add_0_r. split; [|lia].
      rewrite E, Nat.mul_comm, Nat.div_add by lia. rewrite Nat.div_small by lia. lia.
    - replace (p mod 2)%nat with 1%nat by (rewrite E, Nat.add_comm, Nat.mul_comm, Nat.mod_add by lia; reflexivity). replace (1 - 1)%nat with 0%nat by lia. rewrite Nat.mul_1_r, Nat.mul_0_r, Nat.add_0_l. split; [|lia].
      replace (N - 1 + r - p)%nat with (r + (2 * h - 1 - m) * 2)%nat by lia. rewrite Nat.div_add by lia. rewrite Nat.div_small by lia. lia. }
  assert (Hold : forall p, (p < 2 * h)%nat -> (old p < 2 * h)%nat) by (intros p Hp; destruct (Hev p Hp) as [m [(_ & E & ->)|(_ & E & ->)]]; lia).
  split; [|split; [split; [right; split; reflexivity|split]|]].
  - unfold native_wavenumbers. rewrite (take_all_map _ 0%Z).
    + f_equal. apply (nth_ext _ _ 0%Z 0%Z); [rewrite map_length, repeat2_length; unfold real_m_perm; rewrite !map_length, !seq_length; lia|].
      intros a Ha. rewrite map_length in Ha. unfold real_m_perm in *. rewrite map_length, seq_length in Ha. rewrite map_map. fold perm.
      rewrite (nth_map_seq (fun x => nth (perm x) (real_wavenumbers N) 0%Z)) by exact Ha. destruct (Hperm a Ha) as [Hp1 Hp2].
      assert (Ha2 : (a / 2 < 2 * h)%nat) by (apply Nat.div_lt_upper_bound; lia).
      rewrite repeat2_nth, (nth_map_seq (fun p => Z.of_nat (old p))) by exact Ha2. unfold real_wavenumbers. rewrite repeat2_nth, Hp1.
      specialize (Hold _ Ha2). rewrite arange_nth by lia. reflexivity.
    + intros i Hi. unfold real_m_perm in Hi. fold perm in Hi. apply in_map_iff in Hi. destruct Hi as (a & <- & Ha). apply in_seq in Ha. destruct (Hperm a) as [_ Hp]; [lia|].
      unfold real_wavenumbers. rewrite repeat2_length, arange_length. lia.
  - apply map_nodup; [apply seq_NoDup|]. intros x y Hx Hy E. apply in_seq in Hx. apply in_seq in Hy. apply Nat2Z.inj in E.
    destruct (Hev x) as [m [(_ & E1 & E2)|(_ & E1 & E2)]]; [lia| |]; destruct (Hev y) as [m' [(_ & E3 & E4)|(_ & E3 & E4)]]; lia.
  - rewrite map_length, seq_length, cdiv_2, Hh by exact HN. lia.
  - rewrite (nth_map_seq (fun p => Z.of_nat (old p))) by lia. reflexivity.
Qed.

(** ** Derivatives and integrals of sums *)
Local Open Scope R_scope.
Notation Rf := RealField.Rfield.
Notation Cf := Complex.C_field_theory.
Notation Rtotal := (CSR_Spec.total 0 Rplus).
Notation Ctotal := (CSR_Spec.total (RtoC 0) Cplus).
Notation Rtotal_S := (MatSolvers_Proofs.total_S 0 1 Rplus Rmult Rminus Rdiv Ropp Rinv Rf).
Notation Rtotal_ext := (MatSolvers_Proofs.total_ext 0 1 Rplus Rmult Rminus Rdiv Ropp Rinv Rf).
Notation Rtotal_zero := (MatSolvers_Proofs.total_zero 0 1 Rplus Rmult Rminus Rdiv Ropp Rinv Rf).
Notation Rtotal_single := (MatSolvers_Proofs.total_single 0 1 Rplus Rmult Rminus Rdiv Ropp Rinv Rf).
Notation Rtotal_blocks := (total_blocks 0 1 Rplus Rmult Rminus Rdiv Ropp Rinv Rf).
Notation Ctotal_S := (MatSolvers_Proofs.total_S (RtoC 0) (RtoC 1) Cplus Cmult Cminus Cdiv Copp Cinv Cf).
Notation Ctotal_ext := (MatSolvers_Proofs.total_ext (RtoC 0) (RtoC 1) Cplus Cmult Cminus Cdiv Copp Cinv Cf).
Notation Ctotal_single := (MatSolvers_Proofs.total_single (RtoC 0) (RtoC 1) Cplus Cmult Cminus Cdiv Copp Cinv Cf).
Lemma derive_total n (f : nat -> R -> R) d x : (forall j, (j < n)%nat -> is_derive (f j) x (d j)) -> is_derive (fun t => Rtotal n (fun j => f j t)) x (Rtotal n d).
Proof.
  induction n as [|n IH]; intros H.
  - apply (is_derive_const 0 x).
  - rewrite Rtotal_S. apply is_derive_ext with (fun t => Rtotal n (fun j => f j t) + f n t); [intros t; rewrite Rtotal_S; reflexivity|].
    apply (is_derive_plus (fun t => Rtotal n (fun j => f j t)) (f n) x (Rtotal n d) (d n)); [apply IH; intros; apply H; lia|apply H; lia].
Qed.
Lemma integral_total n (f : nat -> R -> R) v l r : (forall j, (j < n)%nat -> is_RInt (f j) l r (v j)) -> is_RInt (fun t => Rtotal n (fun j => f j t)) l r (Rtotal n v).
Proof.
  induction n as [|n IH]; intros H.
  - apply is_RInt_ext with (fun _ => 0); [intros; reflexivity|]. replace (Rtotal 0 v) with (scal (r - l) 0) by (cbn; unfold mult; cbn; ring). apply (is_RInt_const l r 0).
  - rewrite Rtotal_S. apply is_RInt_ext with (fun t => Rtotal n (fun j => f j t) + f n t); [intros t _; rewrite Rtotal_S; reflexivity|].
    apply (is_RInt_plus (fun t => Rtotal n (fun j => f j t)) (f n) l r (Rtotal n v) (v n)); [apply IH; intros; apply H; lia|apply H; lia].
Qed.
Lemma fst_total n f : fst (Ctotal n f) = Rtotal n (fun j => fst (f j)).
Proof. induction n as [|n IH]; [reflexivity|]. rewrite Ctotal_S, Rtotal_S, <- IH. reflexivity. Qed.
Lemma snd_total n f : snd (Ctotal n f) = Rtotal n (fun j => snd (f j)).
Proof. induction n as [|n IH]; [reflexivity|]. rewrite Ctotal_S, Rtotal_S, <- IH. reflexivity. Qed.

(** ** Modes *)
Section Interval.
Context (l r : R) (Hlr : l <> r).
Definition kappa (k : Z) : R := 2 * PI * IZR k / (r - l).
Lemma cos_derive k x : is_derive (fun t => cos (phase l r k t)) x (- kappa k * sin (phase l r k x)).
Proof. unfold phase, kappa. auto_derive; [exact I|]. unfold Rdiv, Rminus. ring. Qed.
Lemma sin_derive k x : is_derive (fun t => sin (phase l r k t)) x (kappa k * cos (phase l r k x)).
Proof. unfold phase, kappa. auto_derive; [exact I|]. unfold Rdiv, Rminus. ring. Qed.
Lemma scaled_derive (f : R -> R) a x d : is_derive f x d -> is_derive (fun t => a * f t) x (a * d).
Proof. intros H. apply (is_derive_scal f x a d H). Qed.
Lemma phase_left k : phase l r k l = 0.
Proof. unfold phase. field. lra. Qed.
Lemma phase_right k : phase l r k r = 2 * IZR k * PI.
Proof. unfold phase. field. lra. Qed.
Lemma sin_turns k : sin (2 * IZR k * PI) = 0 /\ cos (2 * IZR k * PI) = 1.
Proof.
  assert (E : sin (IZR k * PI) = 0) by (apply sin_eq_0_1; exists k; reflexivity).
  replace (2 * IZR k * PI) with (2 * (IZR k * PI)) by ring. split; [rewrite sin_2a, E; ring|]. rewrite cos_2a, E. pose proof (sin2_cos2 (IZR k * PI)) as H. unfold Rsqr in H. rewrite E in H. lra.
Qed.
Lemma phase_zero x : phase l r 0 x = 0.
Proof. unfold phase. field. lra. Qed.
Lemma constant_integral c : is_RInt (fun _ => c) l r ((r - l) * c).
Proof. apply (is_RInt_const l r c). Qed.
Lemma cos_integral k : is_RInt (fun t => cos (phase l r k t)) l r (if (k =? 0)%Z then r - l else 0).
Proof.
  destruct (Z.eqb_spec k 0) as [->|Hk].
  - apply is_RInt_ext with (fun _ => 1); [intros; rewrite phase_zero, cos_0; reflexivity|]. replace (r - l) with ((r - l) * 1) by ring. apply constant_integral.
  - assert (Hk' : kappa k <> 0).
    { unfold kappa. intros E. assert (E' : 2 * PI * IZR k = 0) by (replace (2 * PI * IZR k) with (2 * PI * IZR k / (r - l) * (r - l)) by (field; lra); rewrite E; ring).
      apply Rmult_integral in E'. pose proof PI_neq0. destruct E' as [E'|E']; [lra|]. apply eq_IZR in E'. contradiction. }
    set (F := fun t => / kappa k * sin (phase l r k t)). replace 0 with (minus (F r) (F l)).
    + apply (is_RInt_derive F (fun t => cos (phase l r k t))).
      * intros x _. replace (cos (phase l r k x)) with (/ kappa k * (kappa k * cos (phase l r k x))) by (field; exact Hk'). apply scaled_derive, sin_derive.
      * intros x _. apply (ex_derive_continuous (V := R_NormedModule)). eexists. apply cos_derive.
    + unfold F, minus, plus, opp. cbn. rewrite phase_left, phase_right, sin_0. destruct (sin_turns k) as [-> _]. ring.
Qed.
Lemma sin_integral k : is_RInt (fun t => sin (phase l r k t)) l r 0.
Proof.
  destruct (Z.eqb_spec k 0) as [->|Hk].
  - apply is_RInt_ext with (fun _ => 0); [intros; rewrite phase_zero, sin_0; reflexivity|]. pose proof (constant_integral 0) as H. rewrite Rmult_0_r in H. exact H.
  - assert (Hk' : kappa k <> 0).
    { unfold kappa. intros E. assert (E' : 2 * PI * IZR k = 0) by (replace (2 * PI * IZR k) with (2 * PI * IZR k / (r - l) * (r - l)) by (field; lra); rewrite E; ring).
      apply Rmult_integral in E'. pose proof PI_neq0. destruct E' as [E'|E']; [lra|]. apply eq_IZR in E'. contradiction. }
    set (F := fun t => - / kappa k * cos (phase l r k t)). replace 0 with (minus (F r) (F l)).
    + apply (is_RInt_derive F (fun t => sin (phase l r k t))).
      * intros x _. replace (sin (phase l r k x)) with (- / kappa k * (- kappa k * sin (phase l r k x))) by (field; exact Hk'). apply scaled_derive, cos_derive.
      * intros x _. apply (ex_derive_continuous (V := R_NormedModule)). eexists. apply sin_derive.
    + unfold F, minus, plus, opp. cbn. rewrite phase_left, phase_right, cos_0. destruct (sin_turns k) as [_ ->]. ring.
Qed.
Lemma scaled_integral (f : R -> R) a v : is_RInt f l r v -> is_RInt (fun t => a * f t) l r (a * v).
Proof. intros H. apply (is_RInt_scal f l r a v H). Qed.

(** ** Series *)
Lemma complex_series_derive ks u x : complex_derive (complex_series l r ks u) x (complex_series l r ks (fun j => Ci * RtoC (kappa (nth j ks 0%Z)) * u j)%C x).
Proof.
  unfold complex_series. split.
  - apply is_derive_ext with (fun t => Rtotal (length ks) (fun j => fst (u j) * cos (phase l r (nth j ks 0%Z) t) - snd (u j) * sin (phase l r (nth j ks 0%Z) t))); [intros t; rewrite fst_total; reflexivity|].
    rewrite fst_total. apply (derive_total (length ks) (fun j t => fst (u j) * cos (phase l r (nth j ks 0%Z) t) - snd (u j) * sin (phase l r (nth j ks 0%Z) t))). intros j Hj. cbn.
    set (k := nth j ks 0%Z). replace (_ - _) with (fst (u j) * (- kappa k * sin (phase l r k x)) - snd (u j) * (kappa k * cos (phase l r k x))) by (cbn; ring).
    apply (is_derive_minus (fun t => fst (u j) * cos (phase l r k t)) (fun t => snd (u j) * sin (phase l r k t))); apply scaled_derive; [apply cos_derive|apply sin_derive].
  - apply is_derive_ext with (fun t => Rtotal (length ks) (fun j => fst (u j) * sin (phase l r (nth j ks 0%Z) t) + snd (u j) * cos (phase l r (nth j ks 0%Z) t))); [intros t; rewrite snd_total; reflexivity|].
    rewrite snd_total. apply (derive_total (length ks) (fun j t => fst (u j) * sin (phase l r (nth j ks 0%Z) t) + snd (u j) * cos (phase l r (nth j ks 0%Z) t))). intros j Hj. cbn.
    set (k := nth j ks 0%Z). replace (_ + _) with (fst (u j) * (kappa k * cos (phase l r k x)) + snd (u j) * (- kappa k * sin (phase l r k x))) by (cbn; ring).
    apply (is_derive_plus (fun t => fst (u j) * sin (phase l r k t)) (fun t => snd (u j) * cos (phase l r k t))); apply scaled_derive; [apply sin_derive|apply cos_derive].
Qed.
Lemma zero_only ks j : NoDup ks -> nth 0 ks 0%Z = 0%Z -> (j < length ks)%nat -> j <> 0%nat -> (nth j ks 0 =? 0)%Z = false.
Proof. intros Hn H0 Hj Hne. apply Z.eqb_neq. intros E. rewrite <- H0 in E at 2. apply (proj1 (NoDup_nth ks 0%Z) Hn) in E; lia. Qed.
Lemma complex_series_integral ks u : NoDup ks -> (0 < length ks)%nat -> nth 0 ks 0%Z = 0%Z ->
  complex_integral (complex_series l r ks u) l r (RtoC (r - l) * u 0%nat)%C.
Proof.
  intros Hn Hl H0. unfold complex_series. split.
  - apply is_RInt_ext with (fun t => Rtotal (length ks) (fun j => fst (u j) * cos (phase l r (nth j ks 0%Z) t) - snd (u j) * sin (phase l r (nth j ks 0%Z) t))); [intros t _; rewrite fst_total; reflexivity|].
    replace (fst _) with (Rtotal (length ks) (fun j => fst (u j) * (if (nth j ks 0 =? 0)%Z then r - l else 0) - snd (u j) * 0)).
    + apply (integral_total (length ks) (fun j t => fst (u j) * cos (phase l r (nth j ks 0%Z) t) - snd (u j) * sin (phase l r (nth j ks 0%Z) t))). intros j Hj.
      apply (is_RInt_minus (fun t => fst (u j) * cos (phase l r (nth j ks 0%Z) t)) (fun t => snd (u j) * sin (phase l r (nth j ks 0%Z) t))); apply scaled_integral; [apply cos_integral|apply sin_integral].
    + rewrite (Rtotal_single (length ks) 0%nat); [rewrite H0; cbn; ring|exact Hl|]. intros j Hj Hne. rewrite zero_only by assumption. ring.
  - apply is_RInt_ext with (fun t => Rtotal (length ks) (fun j => fst (u j) * sin (phase l r (nth j ks 0%Z) t) + snd (u j) * cos (phase l r (nth j ks 0%Z) t))); [intros t _; rewrite snd_total; reflexivity|].
    replace (snd _) with (Rtotal (length ks) (fun j => fst (u j) * 0 + snd (u j) * (if (nth j ks 0 =? 0)%Z then r - l else 0))).
    + apply (integral_total (length ks) (fun j t => fst (u j) * sin (phase l r (nth j ks 0%Z) t) + snd (u j) * cos (phase l r (nth j ks 0%Z) t))). intros j Hj.
      apply (is_RInt_plus (fun t => fst (u j) * sin (phase l r (nth j ks 0%Z) t)) (fun t => snd (u j) * cos (phase l r (nth j ks 0%Z) t))); apply scaled_integral; [apply sin_integral|apply cos_integral].
    + rewrite (Rtotal_single (length ks) 0%nat); [rewrite H0; cbn; ring|exact Hl|]. intros j Hj Hne. rewrite zero_only by assumption. ring.
Qed.
(** Real series, by pairs. *)
Lemma pair_sum f : Rtotal 2 f = f 0%nat + f 1%nat.
Proof. cbn. ring. Qed.
Lemma even_pair p : Nat.even (2 * p + 0) = true /\ Nat.even (2 * p + 1) = false.
Proof. rewrite !Nat.even_add, !Nat.even_mul. split; reflexivity. Qed.
Lemma real_series_pairs ps u x : real_series l r (repeat2 ps) u x = Rtotal (length ps) (fun p => u (2 * p)%nat * cos (phase l r (nth p ps 0%Z) x) - u (2 * p + 1)%nat * sin (phase l r (nth p ps 0%Z) x)).
Proof.
  unfold real_series. rewrite repeat2_length, Rtotal_blocks. apply Rtotal_ext. intros p Hp. rewrite pair_sum. unfold real_mode. destruct (even_pair p) as [-> ->].
  rewrite !repeat2_nth. replace ((2 * p + 0) / 2)%nat with p by (rewrite Nat.add_0_r, Nat.mul_comm, Nat.div_mul by lia; reflexivity).
  replace ((2 * p + 1) / 2)%nat with p by (rewrite Nat.mul_comm, Nat.div_add_l by lia; cbn; lia). rewrite Nat.add_0_r. ring.
Qed.
Lemma real_series_derive ps u x : is_derive (real_series l r (repeat2 ps) u) x
  (real_series l r (repeat2 ps) (fun e => if Nat.even e then - kappa (nth (e / 2) ps 0%Z) * u (e + 1)%nat else kappa (nth (e / 2) ps 0%Z) * u (e - 1)%nat) x).
Proof.
  apply is_derive_ext with (fun t => Rtotal (length ps) (fun p => u (2 * p)%nat * cos (phase l r (nth p ps 0%Z) t) - u (2 * p + 1)%nat * sin (phase l r (nth p ps 0%Z) t))); [intros t; rewrite real_series_pairs; reflexivity|].
  rewrite real_series_pairs. apply (derive_total (length ps) (fun p t => u (2 * p)%nat * cos (phase l r (nth p ps 0%Z) t) - u (2 * p + 1)%nat * sin (phase l r (nth p ps 0%Z) t))). intros p Hp.
  destruct (even_pair p) as [E0 ->]. rewrite Nat.add_0_r in E0. rewrite E0. replace (2 * p / 2)%nat with p by (rewrite Nat.mul_comm, Nat.div_mul by lia; reflexivity).
  replace ((2 * p + 1) / 2)%nat with p by (rewrite Nat.mul_comm, Nat.div_add_l by lia; cbn; lia). replace (2 * p + 1 - 1)%nat with (2 * p)%nat by lia.
  set (k := nth p ps 0%Z). replace (_ - _) with (u (2 * p)%nat * (- kappa k * sin (phase l r k x)) - u (2 * p + 1)%nat * (kappa k * cos (phase l r k x))) by ring.
  apply (is_derive_minus (fun t => u (2 * p)%nat * cos (phase l r k t)) (fun t => u (2 * p + 1)%nat * sin (phase l r k t))); apply scaled_derive; [apply cos_derive|apply sin_derive].
Qed.
Lemma real_series_integral ps u : NoDup ps -> (0 < length ps)%nat -> nth 0 ps 0%Z = 0%Z -> is_RInt (real_series l r (repeat2 ps) u) l r ((r - l) * u 0%nat).
Proof.
  intros Hn Hl H0.
  apply is_RInt_ext with (fun t => Rtotal (length ps) (fun p => u (2 * p)%nat * cos (phase l r (nth p ps 0%Z) t) - u (2 * p + 1)%nat * sin (phase l r (nth p ps 0%Z) t))); [intros t _; rewrite real_series_pairs; reflexivity|].
  replace ((r - l) * u 0%nat) with (Rtotal (length ps) (fun p => u (2 * p)%nat * (if (nth p ps 0 =? 0)%Z then r - l else 0) - u (2 * p + 1)%nat * 0)).
  - apply (integral_total (length ps) (fun p t => u (2 * p)%nat * cos (phase l r (nth p ps 0%Z) t) - u (2 * p + 1)%nat * sin (phase l r (nth p ps 0%Z) t))). intros p Hp.
    apply (is_RInt_minus (fun t => u (2 * p)%nat * cos (phase l r (nth p ps 0%Z) t)) (fun t => u (2 * p + 1)%nat * sin (phase l r (nth p ps 0%Z) t))); apply scaled_integral; [apply cos_integral|apply sin_integral].
  - rewrite (Rtotal_single (length ps) 0%nat); [rewrite H0, Z.eqb_refl, Nat.mul_0_r; ring|exact Hl|]. intros p Hp Hne. rewrite zero_only by assumption. ring.
Qed.
End Interval.
