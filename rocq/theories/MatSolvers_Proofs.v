(** Proofs about matrix solvers. *)
From Coq Require Import List Arith ZArith Bool Lia Field.
Import ListNotations.
From Verif Require Import MatSolvers_Model CSR_Spec MatSolvers_Spec.

Section Field.
Context {K : Type} (k0 k1 : K) (kadd kmul ksub kdiv : K -> K -> K) (kopp kinv conj : K -> K).
Context (Hf : field_theory k0 k1 kadd kmul ksub kopp kdiv kinv eq).
Add Field Kf : Hf.
Notation "a +k b" := (kadd a b) (at level 50, left associativity).
Notation "a *k b" := (kmul a b) (at level 40, left associativity).
Notation "a -k b" := (ksub a b) (at level 50, left associativity).
Notation total := (CSR_Spec.total k0 kadd).
Notation applied := (applied k0 kadd kmul).
Notation equation := (equation k0 kadd kmul).
Notation adjoint := (adjoint conj).

(** ** Sums *)
Lemma total_S n f : total (S n) f = total n f +k f n.
Proof.
  unfold CSR_Spec.total. rewrite seq_S, fold_right_app. cbn [fold_right plus].
  generalize (seq 0 n). intros l. induction l as [|j l IH]; cbn [fold_right]; [ring|]. rewrite IH. ring.
Qed.
Lemma total_0 f : total 0 f = k0. Proof. reflexivity. Qed.
Lemma total_ext n f g : (forall j, j < n -> f j = g j) -> total n f = total n g.
Proof. induction n as [|n IH]; intros H; [reflexivity|]. rewrite !total_S, IH, H by (intros; try apply H; lia). reflexivity. Qed.
Lemma total_add n f g : total n (fun j => f j +k g j) = total n f +k total n g.
Proof. induction n as [|n IH]; [rewrite !total_0; ring|]. rewrite !total_S, IH. ring. Qed.
Lemma total_sub n f g : total n (fun j => f j -k g j) = total n f -k total n g.
Proof. induction n as [|n IH]; [rewrite !total_0; ring|]. rewrite !total_S, IH. ring. Qed.
Lemma total_mul_l n a f : total n (fun j => a *k f j) = a *k total n f.
Proof. induction n as [|n IH]; [rewrite !total_0; ring|]. rewrite !total_S, IH. ring. Qed.
Lemma total_mul_r n a f : total n (fun j => f j *k a) = total n f *k a.
Proof. induction n as [|n IH]; [rewrite !total_0; ring|]. rewrite !total_S, IH. ring. Qed.
Lemma total_zero n f : (forall j, j < n -> f j = k0) -> total n f = k0.
Proof. induction n as [|n IH]; intros H; [reflexivity|]. rewrite total_S, IH, H by (intros; try apply H; lia). ring. Qed.
Lemma total_swap n m f : total n (fun i => total m (fun j => f i j)) = total m (fun j => total n (fun i => f i j)).
Proof.
  induction n as [|n IH]; [rewrite total_0; symmetry; apply total_zero; reflexivity|].
  rewrite total_S, IH, <- total_add. apply total_ext. intros j Hj. rewrite total_S. reflexivity.
Qed.
Lemma total_single n i f : i < n -> (forall j, j < n -> j <> i -> f j = k0) -> total n f = f i.
Proof.
  induction n as [|n IH]; intros Hi H; [lia|]. rewrite total_S. destruct (Nat.eq_dec i n) as [->|Hne].
  - rewrite (total_zero n f) by (intros; apply H; lia). ring.
  - rewrite IH by (try lia; intros; apply H; lia). rewrite (H n) by lia. ring.
Qed.
Lemma total_conj n f : conjugation k0 k1 kadd kmul conj -> conj (total n f) = total n (fun j => conj (f j)).
Proof. intros (Ha & _ & _ & H0 & _). induction n as [|n IH]; [exact H0|]. rewrite !total_S, Ha, IH. reflexivity. Qed.

(** ** Matrices and vectors *)
Lemma applied_ext n A A' x x' i : (forall j, j < n -> A i j = A' i j) -> (forall j, j < n -> x j = x' j) -> applied n A x i = applied n A' x' i.
Proof. intros HA Hx. unfold MatSolvers_Spec.applied. apply total_ext. intros j Hj. rewrite HA, Hx by assumption. reflexivity. Qed.
Lemma applied_assoc n m A B x i : applied n A (fun k => applied m B x k) i = applied m (fun i j => applied n A (fun k => B k j) i) x i.
Proof.
  unfold MatSolvers_Spec.applied.
  rewrite (total_ext n _ (fun j => total m (fun j' => A i j *k (B j j' *k x j')))) by (intros; rewrite total_mul_l; reflexivity).
  rewrite total_swap. apply total_ext. intros j Hj. rewrite <- total_mul_r. apply total_ext. intros k Hk. ring.
Qed.
Lemma applied_add n A x y i : applied n A (fun k => x k +k y k) i = applied n A x i +k applied n A y i.
Proof. unfold MatSolvers_Spec.applied. rewrite <- total_add. apply total_ext. intros. ring. Qed.
Lemma applied_sub n A x y i : applied n A (fun k => x k -k y k) i = applied n A x i -k applied n A y i.
Proof. unfold MatSolvers_Spec.applied. rewrite <- total_sub. apply total_ext. intros. ring. Qed.
Lemma applied_scale n A c x i : applied n A (fun k => c *k x k) i = c *k applied n A x i.
Proof. unfold MatSolvers_Spec.applied. rewrite <- total_mul_l. apply total_ext. intros. ring. Qed.
Lemma applied_sub_m n A B x i : applied n (fun i j => A i j -k B i j) x i = applied n A x i -k applied n B x i.
Proof. unfold MatSolvers_Spec.applied. rewrite <- total_sub. apply total_ext. intros. ring. Qed.
Lemma applied_add_m n A B x i : applied n (fun i j => A i j +k B i j) x i = applied n A x i +k applied n B x i.
Proof. unfold MatSolvers_Spec.applied. rewrite <- total_add. apply total_ext. intros. ring. Qed.
Lemma applied_scale_m n A c x i : applied n (fun i j => c *k A i j) x i = c *k applied n A x i.
Proof. unfold MatSolvers_Spec.applied. rewrite <- total_mul_l. apply total_ext. intros. ring. Qed.
Lemma applied_delta n x i : i < n -> applied n (delta k0 k1) x i = x i.
Proof.
  intros Hi. unfold MatSolvers_Spec.applied. rewrite (total_single n i) by (first [exact Hi | intros j Hj Hne; unfold delta; destruct (Nat.eqb_spec i j); [lia|ring]]).
  unfold delta. rewrite Nat.eqb_refl. ring.
Qed.
Lemma applied_delta_col n A j i : j < n -> applied n A (fun k => delta k0 k1 k j) i = A i j.
Proof.
  intros Hi. unfold MatSolvers_Spec.applied. rewrite (total_single n j) by (first [exact Hi | intros k Hk Hne; unfold delta; destruct (Nat.eqb_spec k j); [lia|ring]]).
  unfold delta. rewrite Nat.eqb_refl. ring.
Qed.
Lemma inverses_unique n A B x y : inverses k0 k1 kadd kmul n A B -> equation n A x y -> forall i, i < n -> x i = applied n B y i.
Proof.
  intros HI HE i Hi. transitivity (applied n B (fun k => applied n A x k) i).
  2:{ apply applied_ext; [reflexivity|exact HE]. }
  rewrite applied_assoc. rewrite (applied_ext n _ (delta k0 k1) x x i) by (first [reflexivity | intros j Hj; apply (HI i j); assumption]).
  rewrite applied_delta by assumption. reflexivity.
Qed.
Lemma inverses_solve n A B y : inverses k0 k1 kadd kmul n A B -> equation n A (applied n B y) y.
Proof.
  intros HI i Hi. rewrite (applied_assoc n n). rewrite (applied_ext n _ (delta k0 k1) y y i) by (first [reflexivity | intros j Hj; apply (HI i j); assumption]).
  apply applied_delta. exact Hi.
Qed.

Lemma inverses_transpose n A B : inverses k0 k1 kadd kmul n A B -> inverses k0 k1 kadd kmul n (fun i j => A j i) (fun i j => B j i).
Proof.
  intros H i j Hi Hj. destruct (H j i Hj Hi) as [H1 H2]. unfold MatSolvers_Spec.applied, delta in *. rewrite Nat.eqb_sym in H1, H2.
  split; [rewrite <- H2|rewrite <- H1]; apply total_ext; intros; ring.
Qed.
Lemma inverses_conj n A B : conjugation k0 k1 kadd kmul conj -> inverses k0 k1 kadd kmul n A B -> inverses k0 k1 kadd kmul n (fun i j => conj (A i j)) (fun i j => conj (B i j)).
Proof.
  intros Hc H i j Hi Hj. destruct (H i j Hi Hj) as [H1 H2]. pose proof Hc as (Ha & Hm & _ & H0 & H1').
  unfold MatSolvers_Spec.applied in *. apply (f_equal conj) in H1, H2. rewrite total_conj in H1, H2 by exact Hc.
  assert (Ed : conj (delta k0 k1 i j) = delta k0 k1 i j) by (unfold delta; destruct (i =? j); assumption). rewrite Ed in H1, H2.
  split; [rewrite <- H1|rewrite <- H2]; apply total_ext; intros; rewrite Hm; reflexivity.
Qed.
Lemma superlu_invertible n t A : conjugation k0 k1 kadd kmul conj -> (exists B, inverses k0 k1 kadd kmul n (at_ A) B) -> exists B, inverses k0 k1 kadd kmul n (at_ (superlu_matrix conj t A)) B.
Proof.
  intros Hc [B HB]. destruct t; cbn [superlu_matrix transpose mconj at_].
  - exists B. exact HB.
  - exists (fun i j => B j i). apply inverses_transpose. exact HB.
  - exists (fun i j => conj (B j i)). apply (inverses_transpose n (fun i j => conj (at_ A i j)) (fun i j => conj (B i j))). apply inverses_conj; assumption.
Qed.
(** ** SuperLU *)
Lemma superlu_ok n t A LU (Hc : conjugation k0 k1 kadd kmul conj) v : nr A = n -> nc A = n -> factorises k0 kadd kmul conj n (at_ (superlu_matrix conj t A)) LU ->
  equation n (at_ A) (superlu_solve t LU v) v /\ equation n (adjoint (at_ A)) (superlu_solve_H conj t LU v) v.
Proof.
  intros Hr Hcn HLU. pose proof Hc as (Hca & Hcm & Hci & Hc0 & Hc1). destruct t; cbn [superlu_matrix superlu_solve superlu_solve_H] in *.
  - split; apply HLU.
  - split; [apply (HLU v)|]. intros i Hi. destruct (HLU (fun i => conj (v i))) as (HN & _ & _). specialize (HN i Hi).
    cbn [transpose at_] in HN. unfold MatSolvers_Spec.applied in *.
    transitivity (conj (conj (v i))); [|apply Hci]. rewrite <- HN, total_conj by assumption. apply total_ext. intros j Hj.
    rewrite Hcm. reflexivity.
  - destruct (HLU v) as (HN & _ & HH). split.
    + intros i Hi. rewrite <- (HH i Hi). apply applied_ext; [|reflexivity]. intros j Hj. unfold MatSolvers_Spec.adjoint. cbn [transpose mconj at_]. rewrite Hci. reflexivity.
    + exact HN.
Qed.

(** ** Banded storage *)
Notation dense := (dense k0 kadd).
Lemma dense_absent l i j : ~ In (i, j) (map fst l) ->
  fold_right (fun e s => (if (fst (fst e) =? i) && (snd (fst e) =? j) then snd e else k0) +k s) k0 l = k0.
Proof.
  induction l as [|[[a b] v] l IH]; cbn [fold_right map fst snd]; [reflexivity|]. intros H.
  destruct (Nat.eqb_spec a i) as [->|]; cbn [andb]; [destruct (Nat.eqb_spec b j) as [->|]|].
  - exfalso. apply H. left. reflexivity.
  - rewrite IH by (intros HI; apply H; right; exact HI). ring.
  - rewrite IH by (intros HI; apply H; right; exact HI). ring.
Qed.
Lemma dense_find l i j : NoDup (map fst l) ->
  fold_right (fun e s => (if (fst (fst e) =? i) && (snd (fst e) =? j) then snd e else k0) +k s) k0 l
  = match find (fun e : nat * nat * K => (fst (fst e) =? i) && (snd (fst e) =? j)) l with Some e => snd e | None => k0 end.
Proof.
  induction l as [|[[a b] v] l IH]; cbn [fold_right map fst snd find]; [reflexivity|]. intros H. inversion H; subst.
  destruct (Nat.eqb_spec a i) as [->|]; cbn [andb]; [destruct (Nat.eqb_spec b j) as [->|]|].
  - rewrite dense_absent by assumption. cbn [snd]. ring.
  - rewrite IH by assumption. ring.
  - rewrite IH by assumption. ring.
Qed.
Lemma find_ext {A} (f g : A -> bool) l : (forall x, f x = g x) -> find f l = find g l.
Proof. intros H. induction l; cbn [find]; [reflexivity|]. rewrite H, IHl. reflexivity. Qed.
Lemma dia_dense (m : coo K) i j : coo_valid m -> dia_data k0 m (Z.of_nat j - Z.of_nat i) j = dense m i j.
Proof.
  intros [Hnd _]. unfold dia_data, MatSolvers_Spec.dense. rewrite dense_find by assumption.
  rewrite (find_ext _ (fun e : nat * nat * K => (fst (fst e) =? i) && (snd (fst e) =? j))); [reflexivity|].
  intros [[a b] v]. cbn [fst snd off]. unfold off. cbn [fst snd].
  destruct (Nat.eqb_spec b j), (Nat.eqb_spec a i), (Z.eqb_spec (Z.of_nat b - Z.of_nat a) (Z.of_nat j - Z.of_nat i)); cbn; try reflexivity; lia.
Qed.
Lemma zmax_ge l d : In d l -> (d <= zmax l)%Z.
Proof. induction l; cbn [In zmax fold_right]; [tauto|]. intros [->|H]; [lia|]. specialize (IHl H). unfold zmax in IHl. lia. Qed.
Lemma zmax_pos l : (0 <= zmax l)%Z.
Proof. unfold zmax. induction l; cbn [fold_right]; lia. Qed.
Lemma rows_written u w m ds ab i j : NoDup ds -> (forall d, In d ds -> (d <= Z.of_nat u)%Z) ->
  at_ (fold_left (fun ab d => Mat (nr ab) (nc ab) (fun i j => if i =? Z.to_nat (Z.of_nat u - d) then dia_data k0 m d (broadcast w j) else at_ ab i j)) ds ab) i j
  = if in_dec Z.eq_dec (Z.of_nat u - Z.of_nat i)%Z ds then dia_data k0 m (Z.of_nat u - Z.of_nat i) (broadcast w j) else at_ ab i j.
Proof.
  revert ab. induction ds as [|d ds IH]; intros ab Hnd Hu; cbn [fold_left].
  - destruct (in_dec _ _ _) as [[]|]; reflexivity.
  - inversion Hnd; subst. rewrite IH by (first [assumption | intros; apply Hu; right; assumption]). clear IH. cbn [at_].
    assert (Hd := Hu d (or_introl eq_refl)).
    destruct (in_dec Z.eq_dec (Z.of_nat u - Z.of_nat i)%Z ds) as [Hin|Hin]; destruct (in_dec Z.eq_dec (Z.of_nat u - Z.of_nat i)%Z (d :: ds)) as [Hin'|Hin'].
    + reflexivity.
    + exfalso. apply Hin'. right. exact Hin.
    + destruct Hin' as [->|]; [|contradiction]. destruct (Nat.eqb_spec i (Z.to_nat (Z.of_nat u - (Z.of_nat u - Z.of_nat i)))); [reflexivity|lia].
    + destruct (Nat.eqb_spec i (Z.to_nat (Z.of_nat u - d))); [|reflexivity]. exfalso. apply Hin'. left. lia.
Qed.
Lemma width_le (m : coo K) : coo_valid m -> width m <= cols m.
Proof.
  intros [_ H]. unfold width. induction H as [|e l [_ He] _ IH]; cbn [map fold_right]; lia.
Qed.
Lemma width_ge (m : coo K) e : In e (stored m) -> snd (fst e) < width m.
Proof.
  unfold width. induction (stored m) as [|e' l IH]; cbn [In map fold_right]; [tauto|]. intros [->|H]; [lia|]. specialize (IH H). lia.
Qed.
Lemma off_used (m : coo K) i j : dense m i j <> k0 -> In (Z.of_nat j - Z.of_nat i)%Z (offsets m).
Proof.
  intros H. unfold offsets. apply nodup_In. destruct (in_dec Z.eq_dec (Z.of_nat j - Z.of_nat i)%Z (map off (stored m))) as [|Hn]; [assumption|].
  exfalso. apply H. apply dense_absent. intros Hin. apply Hn. apply in_map_iff in Hin. destruct Hin as ([[a b] v] & E & Hin). cbn in E. injection E as -> ->.
  apply in_map_iff. exists (i, j, v). split; [reflexivity|exact Hin].
Qed.
Lemma banded_ok (m : coo K) l u ab : coo_valid m -> column_used m (cols m - 1) -> sparse_to_banded k0 m = Some (l, u, ab) ->
  nr ab = u + l + 1 /\ nc ab = cols m /\ forall i j, i < rows m -> j < cols m -> banded_entry k0 l u ab i j = dense m i j.
Proof.
  intros Hv (i0 & v0 & Hlast) H. unfold sparse_to_banded in H. destruct (offsets m) as [|d0 ds0] eqn:Eds; [discriminate|].
  remember (d0 :: ds0) as ds eqn:E0. destruct (fits (width m) (cols m)) eqn:Ef; [|discriminate]. injection H as Hl Hu Hab.
  assert (Hw : width m = cols m). { pose proof (width_le m Hv). pose proof (width_ge m _ Hlast) as Hg. cbn [fst snd] in Hg. lia. }
  assert (Hshape : forall ds ab, nr (fold_left (fun ab d => Mat (nr ab) (nc ab) (fun i j => if i =? Z.to_nat (Z.of_nat u - d) then dia_data k0 m d (broadcast (width m) j) else at_ ab i j)) ds ab) = nr ab
    /\ nc (fold_left (fun ab d => Mat (nr ab) (nc ab) (fun i j => if i =? Z.to_nat (Z.of_nat u - d) then dia_data k0 m d (broadcast (width m) j) else at_ ab i j)) ds ab) = nc ab).
  { clear. intros ds1. induction ds1 as [|d' ds' IH]; intros ab'; cbn [fold_left]; [split; reflexivity|]. destruct (IH (Mat (nr ab') (nc ab') (fun i j => if i =? Z.to_nat (Z.of_nat u - d') then dia_data k0 m d' (broadcast (width m) j) else at_ ab' i j))) as [E1 E2].
    rewrite E1, E2. split; reflexivity. }
  rewrite Hu, Hl in Hab. subst ab. split; [apply Hshape|]. split; [apply Hshape|]. intros i j Hi Hj.
  assert (Hb : broadcast (width m) j = j). { unfold broadcast. destruct (Nat.eqb_spec (width m) 1); lia. }
  unfold banded_entry. destruct (Nat.leb_spec i (j + l)) as [Hil|Hil]; [destruct (Nat.leb_spec j (i + u)) as [Hju|Hju]|]; cbn [andb].
  - rewrite rows_written.
    + rewrite Hb. replace (Z.of_nat u - Z.of_nat (u + i - j))%Z with (Z.of_nat j - Z.of_nat i)%Z by lia.
      destruct (in_dec _ _ _) as [Hin|Hin]; [apply dia_dense; assumption|]. cbn [zeros at_].
      symmetry. apply dense_absent. intros Hc. apply Hin. rewrite <- Eds. unfold offsets. apply nodup_In.
      apply in_map_iff in Hc. destruct Hc as ([[a b] v] & E & Hc). cbn in E. injection E as -> ->. apply in_map_iff. exists (i, j, v). split; [reflexivity|exact Hc].
    + rewrite <- Eds. apply NoDup_nodup.
    + intros d Hd. apply zmax_ge in Hd. pose proof (zmax_pos ds). lia.
  - symmetry. destruct (in_dec Z.eq_dec (Z.of_nat j - Z.of_nat i)%Z ds) as [Hin|Hin].
    + exfalso. apply zmax_ge in Hin. pose proof (zmax_pos ds). lia.
    + apply dense_absent. intros Hc. apply Hin. rewrite <- Eds. unfold offsets. apply nodup_In.
      apply in_map_iff in Hc. destruct Hc as ([[a b] v] & E & Hc). cbn in E. injection E as -> ->. apply in_map_iff. exists (i, j, v). split; [reflexivity|exact Hc].
  - symmetry. destruct (in_dec Z.eq_dec (Z.of_nat j - Z.of_nat i)%Z ds) as [Hin|Hin].
    + exfalso. apply (in_map Z.opp) in Hin. apply zmax_ge in Hin. pose proof (zmax_pos (map Z.opp ds)). lia.
    + apply dense_absent. intros Hc. apply Hin. rewrite <- Eds. unfold offsets. apply nodup_In.
      apply in_map_iff in Hc. destruct Hc as ([[a b] v] & E & Hc). cbn in E. injection E as -> ->. apply in_map_iff. exists (i, j, v). split; [reflexivity|exact Hc].
Qed.
Lemma banded_defined (m : coo K) : coo_valid m -> column_used m (cols m - 1) -> exists r, sparse_to_banded k0 m = Some r.
Proof.
  intros Hv (i0 & v0 & Hlast). unfold sparse_to_banded. destruct (offsets m) as [|d0 ds0] eqn:Eds.
  - exfalso. assert (In (off (i0, cols m - 1, v0)) (offsets m)) as Hin by (unfold offsets; apply nodup_In, in_map, Hlast). rewrite Eds in Hin. exact Hin.
  - assert (fits (width m) (cols m) = true) as ->; [|eexists; reflexivity]. unfold fits. apply orb_true_intro. left. apply Nat.eqb_eq.
    pose proof (width_le m Hv). pose proof (width_ge m _ Hlast) as Hg. cbn [fst snd] in Hg. lia.
Qed.
Lemma banded_fails (m : coo K) : coo_valid m -> 1 < cols m -> ~ column_used m (cols m - 1) -> width m <> 1 -> sparse_to_banded k0 m = None.
Proof.
  intros Hv Hc Hn Hw. unfold sparse_to_banded. destruct (offsets m) as [|d0 ds0]; [reflexivity|].
  assert (fits (width m) (cols m) = false) as ->; [|reflexivity]. unfold fits. destruct (Nat.eqb_spec (width m) 1); [contradiction|]. rewrite orb_false_r.
  apply Nat.eqb_neq. intros E. assert (exists e, In e (stored m) /\ S (snd (fst e)) = width m) as ([[i j] v] & Hin & Hj).
  { assert (0 < width m) as Hpos by lia. clear -Hpos. unfold width in *. induction (stored m) as [|e l IH]; cbn [map fold_right] in *; [lia|].
    destruct (Nat.max_dec (S (snd (fst e))) (fold_right Nat.max 0 (map (fun e => S (snd (fst e))) l))) as [E|E]; rewrite E.
    - exists e. split; [left; reflexivity|reflexivity].
    - destruct IH as (e' & Hin & He'); [lia|]. exists e'. split; [right; exact Hin|exact He']. }
  cbn [fst snd] in Hj. apply Hn. exists i, v. replace (cols m - 1) with j by lia. exact Hin.
Qed.

(** ** Woodbury *)
Lemma clip_pos n R : R <= n -> clip n (Z.of_nat R) = R.
Proof. intros H. unfold clip. destruct (Z.ltb_spec (Z.of_nat R) 0); lia. Qed.
Lemma clip_neg n R : 0 < R -> R <= n -> clip n (- Z.of_nat R) = n - R.
Proof. intros H0 H. unfold clip. destruct (Z.ltb_spec (- Z.of_nat R) 0); lia. Qed.
Definition factor_U (M : mat K) (R : nat) : nat -> nat -> K := fun i j =>
  if i <? R then (if j <? R then delta k0 k1 i j else k0)
  else if i <? nr M - R then (if j <? R then k0 else at_ M i (nc M - R + (j - R))) else k0.
Definition factor_V (M : mat K) (R : nat) : nat -> nat -> K := fun i j =>
  if i <? R then (if j <? R then k0 else at_ M i j)
  else if nc M - R <=? j then delta k0 k1 (i - R) (j - (nc M - R)) else k0.
Lemma fits_refl n : fits n n = true.
Proof. unfold fits. rewrite Nat.eqb_refl. reflexivity. Qed.
Lemma factors_value (M : mat K) R n : nr M = n -> nc M = n -> 0 < R -> R <= n -> exists U V, woodbury_factors k0 k1 M R = Some (U, V)
  /\ nr U = n /\ nc U = 2 * R /\ nr V = 2 * R /\ nc V = n
  /\ (forall i j, i < n -> j < 2 * R -> at_ U i j = factor_U M R i j) /\ (forall i j, i < 2 * R -> j < n -> at_ V i j = factor_V M R i j).
Proof.
  intros Hr Hc H0 HR. unfold woodbury_factors, assign, get, upto, from, between, bounds, zeros, identity. cbn [fst snd nr nc].
  assert (E1 : 2 * R - R = R) by lia. assert (E2 : Nat.max (n - R) n = n) by lia. assert (E3 : n - (n - R) = R) by lia.
  assert (E4 : Nat.max R (2 * R) = 2 * R) by lia. assert (E5 : Nat.max R n = n) by lia.
  do 6 (rewrite ?Hr, ?Hc, ?(clip_pos n R), ?(clip_neg n R), ?(clip_pos (2 * R) R), ?(clip_neg (2 * R) R) by lia;
        rewrite ?E4, ?E1, ?E2, ?E3, ?E5, ?Nat.max_0_l, ?Nat.sub_0_r, ?E4, ?E1, ?E2, ?E3, ?E5, ?fits_refl; cbn [andb fst snd nr nc at_]).
  do 2 eexists. split; [reflexivity|]. cbn [nr nc at_]. do 4 (split; [lia|]). split; intros i j Hi Hj.
  - unfold factor_U, inside. rewrite Hr, Hc. cbn [fst snd]. unfold broadcast, delta.
    destruct (Nat.ltb_spec i R).
    + destruct (Nat.leb_spec R i); [lia|]. cbn [andb]. destruct (Nat.leb_spec 0 i); [|lia]. cbn [andb].
      destruct (Nat.leb_spec 0 j); [|lia]. cbn [andb]. destruct (Nat.ltb_spec j R); [|reflexivity].
      rewrite !Nat.sub_0_r. destruct (Nat.eqb_spec R 1); [|reflexivity]. replace i with 0 by lia. replace j with 0 by lia. reflexivity.
    + destruct (Nat.leb_spec R i); [|lia]. destruct (Nat.ltb_spec i (n - R)).
      * destruct (Nat.ltb_spec i (Nat.max R (n - R))); [|lia]. cbn [andb]. destruct (Nat.ltb_spec j R).
        -- destruct (Nat.leb_spec R j); [lia|]. cbn [andb]. destruct (Nat.leb_spec 0 i); [|lia]. reflexivity.
        -- destruct (Nat.leb_spec R j); [|lia]. destruct (Nat.ltb_spec j (2 * R)); [|lia]. cbn [andb].
           f_equal; [destruct (Nat.eqb_spec (Nat.max R (n - R) - R) 1); lia|destruct (Nat.eqb_spec R 1); lia].
      * destruct (Nat.ltb_spec i (Nat.max R (n - R))); [lia|]. cbn [andb]. destruct (Nat.leb_spec 0 i); [|lia]. reflexivity.
  - unfold factor_V, inside. rewrite Hc. cbn [fst snd]. unfold broadcast, delta.
    destruct (Nat.ltb_spec i R).
    + destruct (Nat.leb_spec R i); [lia|]. cbn [andb]. destruct (Nat.leb_spec 0 i); [|lia]. cbn [andb].
      destruct (Nat.ltb_spec j R).
      * destruct (Nat.leb_spec R j); [lia|]. reflexivity.
      * destruct (Nat.leb_spec R j); [|lia]. destruct (Nat.ltb_spec j n); [|lia]. cbn [andb].
        f_equal; [destruct (Nat.eqb_spec R 1); lia|destruct (Nat.eqb_spec (n - R) 1); lia].
    + destruct (Nat.leb_spec R i); [|lia]. destruct (Nat.ltb_spec i (2 * R)); [|lia]. cbn [andb].
      destruct (Nat.leb_spec (n - R) j).
      * destruct (Nat.ltb_spec j n); [|lia]. cbn [andb]. destruct (Nat.eqb_spec R 1); [|reflexivity].
        replace (i - R) with 0 by lia. replace (j - (n - R)) with 0 by lia. reflexivity.
      * cbn [andb]. destruct (Nat.leb_spec 0 i); [|lia]. reflexivity.
Qed.
Notation unbordered := (MatSolvers_Spec.unbordered k0).
Lemma factors_product (M : mat K) R n i j : nr M = n -> nc M = n -> 0 < R -> R <= n -> i < n -> j < n ->
  at_ M i j -k applied (2 * R) (factor_U M R) (fun k => factor_V M R k j) i = unbordered M R i j.
Proof.
  intros Hr Hc H0 HR Hi Hj. unfold MatSolvers_Spec.unbordered, MatSolvers_Spec.applied. rewrite Hr, Hc.
  destruct (Nat.ltb_spec i R) as [HiR|HiR].
  - rewrite (total_single _ i); [|lia|].
    + unfold factor_U, factor_V, delta. rewrite Nat.eqb_refl. destruct (Nat.ltb_spec i R); [|lia]. destruct (Nat.leb_spec R i); [lia|]. cbn [andb].
      destruct (Nat.ltb_spec j R), (Nat.leb_spec R j); try lia; cbn [orb]; ring.
    + intros k Hk Hne. unfold factor_U. destruct (Nat.ltb_spec i R); [|lia]. destruct (Nat.ltb_spec k R); [|ring].
      unfold delta. destruct (Nat.eqb_spec i k); [lia|ring].
  - cbn [andb orb]. destruct (Nat.leb_spec R i); [|lia]. cbn [andb]. destruct (Nat.ltb_spec i (n - R)) as [Hin|Hin].
    + destruct (Nat.leb_spec (n - R) j) as [Hj'|Hj']; cbn [andb orb].
      * rewrite (total_single _ (R + (j - (n - R)))); [|lia|].
        -- unfold factor_U, factor_V, delta. rewrite Hr, Hc.
           destruct (Nat.ltb_spec i R); [lia|]. destruct (Nat.ltb_spec i (n - R)); [|lia].
           destruct (Nat.ltb_spec (R + (j - (n - R))) R); [lia|]. destruct (Nat.leb_spec (n - R) j); [|lia].
           replace (R + (j - (n - R)) - R) with (j - (n - R)) by lia. rewrite Nat.eqb_refl.
           replace (n - R + (j - (n - R))) with j by lia. ring.
        -- intros k Hk Hne. unfold factor_U, factor_V, delta. rewrite Hr, Hc.
           destruct (Nat.ltb_spec i R); [lia|]. destruct (Nat.ltb_spec i (n - R)); [|lia]. destruct (Nat.ltb_spec k R); [ring|].
           destruct (Nat.leb_spec (n - R) j); [|lia]. destruct (Nat.eqb_spec (k - R) (j - (n - R))); [lia|ring].
      * rewrite total_zero; [ring|]. intros k Hk. unfold factor_U, factor_V. rewrite Hr, Hc.
        destruct (Nat.ltb_spec i R); [lia|]. destruct (Nat.ltb_spec i (n - R)); [|lia]. destruct (Nat.ltb_spec k R); [ring|].
        destruct (Nat.leb_spec (n - R) j); [lia|]. ring.
    + cbn [andb orb]. rewrite total_zero; [ring|]. intros k Hk. unfold factor_U. rewrite Hr.
      destruct (Nat.ltb_spec i R); [lia|]. destruct (Nat.ltb_spec i (n - R)); [lia|]. ring.
Qed.
Notation mmul := (mmul k0 kadd kmul).
Notation solves := (solves k0 kadd kmul).
Lemma at_mmul A B i j : at_ (mmul A B) i j = applied (nc A) (at_ A) (fun k => at_ B k j) i.
Proof. reflexivity. Qed.
Notation exact_base := (MatSolvers_Spec.exact_base k0 kadd kmul).
Notation exact_inverse := (MatSolvers_Spec.exact_inverse k0 k1 kadd kmul).
Lemma woodbury_ok base inv (M : mat K) R n w Y : nr M = n -> nc M = n -> nr Y = n -> exact_base base -> exact_inverse inv ->
  woodbury_init k0 k1 kadd kmul ksub base inv M R = Some w -> 0 < R -> R <= n -> solves M (woodbury_solve k0 kadd kmul ksub w Y) Y.
Proof.
  intros Hr Hc HY Hb Hi HW H0 HR. destruct (factors_value M R n Hr Hc H0 HR) as (U & V & HF & HUr & HUc & HVr & HVc & _ & _).
  unfold woodbury_init in HW. rewrite HF in HW. destruct (base _) as [Ainv|] eqn:EA; [|discriminate]. destruct (inv _) as [Sinv|] eqn:ES; [|discriminate].
  injection HW as <-. unfold woodbury_solve. cbn [wAinv wAinvU wSinv wV].
  destruct (Hb _ _ EA Y) as (HYr & HYc & HYe). { cbn [msub nr]. lia. }
  destruct (Hb _ _ EA U) as (HAr & HAc & HAe). { cbn [msub nr]. lia. }
  destruct (Hi _ _ ES) as (HSr & HSc & HSe). cbn [msub madd identity nr nc MatSolvers_Model.mmul] in *. rewrite Hr, Hc in *.
  split; [cbn [msub nr]; lia|]. split; [cbn [msub nc]; lia|]. intros j Hj i Hin. rewrite HUc in HAc, HAe. rewrite Hr in Hin. rewrite Hc.
  (* the columns involved *)
  set (a := fun k => at_ (Ainv Y) k j). set (b := fun k => applied n (at_ V) a k). set (c := fun k => applied (nc Sinv) (at_ Sinv) b k).
  assert (EAa : forall i, i < n -> applied n (at_ M) a i -k applied (2 * R) (at_ U) (fun k => applied n (at_ V) a k) i = at_ Y i j).
  { intros i' Hi'. rewrite <- (HYe j Hj i' Hi'). rewrite (applied_assoc (2 * R) n), <- applied_sub_m. rewrite <- HUc. reflexivity. }
  assert (EAU : forall i q, i < n -> q < 2 * R -> applied n (at_ M) (fun k => at_ (Ainv U) k q) i -k applied (2 * R) (at_ U) (fun k => applied n (at_ V) (fun k => at_ (Ainv U) k q) k) i = at_ U i q).
  { intros i' q Hi' Hq. rewrite <- (HAe q Hq i' Hi'). rewrite (applied_assoc (2 * R) n), <- applied_sub_m. rewrite <- HUc. reflexivity. }
  assert (HSc' : nc Sinv = 2 * R) by (rewrite HSc; cbn; reflexivity).
  (* S applied to c gives b *)
  assert (ESc : forall q, q < 2 * R -> c q +k applied (2 * R) (fun i j => applied n (at_ V) (fun k => at_ (Ainv U) k j) i) c q = b q).
  { intros q Hq. rewrite <- (applied_delta (2 * R) c q Hq), <- applied_add_m. unfold c. rewrite HSc'.
    rewrite (applied_assoc (2 * R) (2 * R)). rewrite <- (applied_delta (2 * R) b q Hq). apply applied_ext; [|reflexivity].
    intros q' Hq'. specialize (HSe q' Hq' q Hq). cbn [at_ madd identity MatSolvers_Model.mmul nc] in HSe. rewrite HVc in HSe. exact HSe. }
  change (applied n (at_ M) (fun k => a k -k applied (nc (Ainv U)) (at_ (Ainv U)) (fun k' => applied (nc Sinv) (at_ Sinv) (fun k'' => applied (nc V) (at_ V) a k'') k') k) i = at_ Y i j).
  rewrite applied_sub, HVc, HAc. change (fun k' => applied (nc Sinv) (at_ Sinv) (fun k'' => applied n (at_ V) a k'') k') with c.
  rewrite (applied_assoc n (2 * R)).
  rewrite (applied_ext (2 * R) _ (fun i q => at_ U i q +k applied (2 * R) (at_ U) (fun k => applied n (at_ V) (fun k => at_ (Ainv U) k q) k) i) c c i); [|intros q Hq; rewrite <- (EAU i q Hin Hq); ring|reflexivity].
  rewrite applied_add_m. rewrite <- (EAa i Hin).
  transitivity (applied n (at_ M) a i -k applied (2 * R) (at_ U) (fun q => c q +k applied (2 * R) (fun i j => applied n (at_ V) (fun k => at_ (Ainv U) k j) i) c q) i).
  { rewrite applied_add. f_equal. f_equal. rewrite (applied_assoc (2 * R) (2 * R)). reflexivity. }
  f_equal. apply applied_ext; [reflexivity|]. exact ESc.
Qed.
Lemma factors_base (M : mat K) R n U V : nr M = n -> nc M = n -> 0 < R -> R <= n -> woodbury_factors k0 k1 M R = Some (U, V) ->
  forall i j, i < n -> j < n -> at_ (msub ksub M (mmul U V)) i j = unbordered M R i j.
Proof.
  intros Hr Hc H0 HR HF i j Hi Hj. destruct (factors_value M R n Hr Hc H0 HR) as (U' & V' & HF' & HUr & HUc & HVr & HVc & HU & HV).
  rewrite HF in HF'. injection HF' as <- <-. rewrite <- (factors_product M R n i j) by assumption. cbn [msub at_]. f_equal. rewrite at_mmul, HUc.
  apply applied_ext; intros k Hk; [apply HU|apply HV]; assumption.
Qed.
Lemma inverses_columns n A B (f : nat -> nat -> K) : (forall x i, i < n -> applied n f x i = applied n A (fun k => applied n B x k) i) -> forall i j, i < n -> j < n -> f i j = applied n A (fun k => B k j) i.
Proof.
  intros H i j Hi Hj. rewrite <- (applied_delta_col n f j i Hj), H by assumption. apply applied_ext; [reflexivity|]. intros k Hk.
  apply applied_delta_col. exact Hj.
Qed.
Lemma schur n r M A U V Mi Ai : (forall i j, i < n -> j < n -> A i j = M i j -k applied r U (fun k => V k j) i) ->
  inverses k0 k1 kadd kmul n M Mi -> inverses k0 k1 kadd kmul n A Ai ->
  inverses k0 k1 kadd kmul r (fun i j => delta k0 k1 i j +k applied n V (fun k => applied n Ai (fun q => U q j) k) i)
                             (fun i j => delta k0 k1 i j -k applied n V (fun k => applied n Mi (fun q => U q j) k) i).
Proof.
  intros HA HM HAi.
  set (S := fun i j => delta k0 k1 i j +k applied n V (fun k => applied n Ai (fun q => U q j) k) i).
  set (T := fun i j => delta k0 k1 i j -k applied n V (fun k => applied n Mi (fun q => U q j) k) i).
  assert (HS : forall x i, i < r -> applied r S x i = x i +k applied n V (fun k => applied n Ai (fun q => applied r U x q) k) i).
  { intros x i Hi. unfold S. rewrite applied_add_m, applied_delta by assumption. f_equal. rewrite <- (applied_assoc n r).
    apply applied_ext; [reflexivity|]. intros k Hk. rewrite (applied_assoc n r). reflexivity. }
  assert (HT : forall x i, i < r -> applied r T x i = x i -k applied n V (fun k => applied n Mi (fun q => applied r U x q) k) i).
  { intros x i Hi. unfold T. rewrite applied_sub_m, applied_delta by assumption. f_equal. rewrite <- (applied_assoc n r).
    apply applied_ext; [reflexivity|]. intros k Hk. rewrite (applied_assoc n r). reflexivity. }
  assert (HAx : forall x i, i < n -> applied n A x i = applied n M x i -k applied r U (fun k => applied n V x k) i).
  { intros x i Hi. rewrite (applied_assoc r n), <- applied_sub_m. apply applied_ext; [|reflexivity]. intros j Hj. apply HA; assumption. }
  assert (HST : forall x i, i < r -> applied r S (fun k => applied r T x k) i = x i).
  { intros x i Hi. rewrite HS by assumption. set (y := fun k => applied n Mi (fun q => applied r U x q) k).
    assert (Ey : equation n M y (applied r U x)) by (apply inverses_solve; assumption).
    assert (Ey' : equation n A y (applied r U (fun k => applied r T x k))).
    { intros k Hk. rewrite HAx, (Ey k Hk) by assumption. rewrite <- applied_sub. apply applied_ext; [reflexivity|]. intros q Hq. symmetry. apply HT. exact Hq. }
    rewrite HT by assumption. fold y.
    rewrite (applied_ext n V V (fun k => applied n Ai (fun q => applied r U (fun k0 => applied r T x k0) q) k) y i); [ring|reflexivity|].
    intros k Hk. symmetry. apply (inverses_unique n A Ai y _ HAi Ey' k Hk). }
  assert (HTS : forall x i, i < r -> applied r T (fun k => applied r S x k) i = x i).
  { intros x i Hi. rewrite HT by assumption. set (z := fun k => applied n Ai (fun q => applied r U x q) k).
    assert (Ez : equation n A z (applied r U x)) by (apply inverses_solve; assumption).
    assert (Ez' : equation n M z (applied r U (fun k => applied r S x k))).
    { intros k Hk. transitivity (applied n A z k +k applied r U (fun k => applied n V z k) k); [rewrite HAx by assumption; ring|].
      rewrite (Ez k Hk), <- applied_add. apply applied_ext; [reflexivity|]. intros q Hq. symmetry. apply HS. exact Hq. }
    rewrite HS by assumption. fold z.
    rewrite (applied_ext n V V (fun k => applied n Mi (fun q => applied r U (fun k0 => applied r S x k0) q) k) z i); [ring|reflexivity|].
    intros k Hk. symmetry. apply (inverses_unique n M Mi z _ HM Ez' k Hk). }
  intros i j Hi Hj. split.
  - rewrite <- (HST (fun k => delta k0 k1 k j) i Hi). apply applied_ext; [reflexivity|]. intros k Hk. symmetry. apply applied_delta_col. exact Hj.
  - rewrite <- (HTS (fun k => delta k0 k1 k j) i Hi). apply applied_ext; [reflexivity|]. intros k Hk. symmetry. apply applied_delta_col. exact Hj.
Qed.
Lemma inverses_ext n A A' B B' : (forall i j, i < n -> j < n -> A i j = A' i j) -> (forall i j, i < n -> j < n -> B i j = B' i j) ->
  inverses k0 k1 kadd kmul n A B -> inverses k0 k1 kadd kmul n A' B'.
Proof.
  intros HA HB H i j Hi Hj. destruct (H i j Hi Hj) as [H1 H2]. split; [rewrite <- H1|rewrite <- H2]; apply applied_ext; intros k Hk; symmetry; first [apply HA|apply HB]; assumption.
Qed.
Lemma woodbury_defined base inv (M : mat K) R n Mi Ai : nr M = n -> nc M = n -> 0 < R -> R <= n -> exact_base base ->
  (forall A B, nr A = n -> nc A = n -> inverses k0 k1 kadd kmul n (at_ A) B -> exists s, base A = Some s) ->
  (forall A B, nr A = 2 * R -> nc A = 2 * R -> inverses k0 k1 kadd kmul (2 * R) (at_ A) B -> exists C, inv A = Some C) ->
  inverses k0 k1 kadd kmul n (at_ M) Mi -> inverses k0 k1 kadd kmul n (unbordered M R) Ai ->
  exists w, woodbury_init k0 k1 kadd kmul ksub base inv M R = Some w.
Proof.
  intros Hr Hc H0 HR Hex Hb Hi HM HA. destruct (factors_value M R n Hr Hc H0 HR) as (U & V & HF & HUr & HUc & HVr & HVc & _ & _).
  pose proof (factors_base M R n U V Hr Hc H0 HR HF) as HAe. unfold woodbury_init. rewrite HF.
  destruct (Hb (msub ksub M (mmul U V)) Ai) as [s Es]; [exact Hr|exact Hc| |].
  { apply (inverses_ext n (unbordered M R) _ Ai Ai); [intros; symmetry; apply HAe; assumption|reflexivity|exact HA]. }
  rewrite Es. destruct (Hex _ _ Es U) as (HAr & HAc & HAs). { cbn [msub nr]. lia. }
  cbn [msub nr nc] in HAr, HAs. rewrite Hr in HAs. rewrite Hc in HAr, HAs. rewrite HUc in HAs.
  destruct (Hi (madd kadd (identity k0 k1 (2 * R)) (mmul V (s U))) (fun i j => delta k0 k1 i j -k applied n (at_ V) (fun k => applied n Mi (fun q => at_ U q j) k) i)) as [C EC]; [reflexivity|reflexivity| |rewrite EC; eexists; reflexivity].
  eapply inverses_ext; [| |apply (schur n (2 * R) (at_ M) (unbordered M R) (at_ U) (at_ V) Mi Ai)].
  - intros i j Hi' Hj. cbn [madd at_ identity]. unfold delta. f_equal. rewrite at_mmul, HVc. apply applied_ext; [reflexivity|]. intros k Hk.
    symmetry. apply (inverses_unique n (unbordered M R) Ai (fun k => at_ (s U) k j) (fun q => at_ U q j) HA); [|exact Hk].
    intros i' Hi''. rewrite <- (HAs j Hj i' Hi''). apply applied_ext; [|reflexivity]. intros j' Hj'. symmetry. apply HAe; assumption.
  - reflexivity.
  - intros i j Hi' Hj. rewrite <- HAe by assumption. cbn [msub at_]. rewrite at_mmul, HUc. reflexivity.
  - exact HM.
  - exact HA.
Qed.
Lemma woodbury_zero base inv (M : mat K) n : nr M = n -> nc M = n -> 0 < n -> woodbury_init k0 k1 kadd kmul ksub base inv M 0 = None.
Proof.
  intros Hr Hc Hn. unfold woodbury_init, woodbury_factors, assign, get, upto, from, between, bounds, zeros, identity, clip. cbn [fst snd nr nc Z.of_nat Z.opp Z.ltb Z.compare Z.to_nat].
  rewrite Hr, Hc. cbn [Nat.mul Nat.add Nat.min Nat.max Nat.sub]. rewrite ?Nat.min_0_r. cbn [Nat.max Nat.sub]. unfold fits.
  destruct n as [|[|n]]; [lia| |]; cbn; rewrite ?Hc, ?Nat.eqb_refl; reflexivity.
Qed.
Lemma woodbury_large base inv (M : mat K) R n : nr M = n -> nc M = n -> n < R -> 0 < n -> woodbury_init k0 k1 kadd kmul ksub base inv M R = None.
Proof.
  intros Hr Hc Hn H1. unfold woodbury_init, woodbury_factors.
  assert (assign (zeros k0 (nr M) (2 * R)) (upto (Z.of_nat R)) (upto (Z.of_nat R)) (identity k0 k1 R) = None) as ->; [|reflexivity].
  unfold assign, upto, bounds, zeros, identity, clip, fits. cbn [fst snd nr nc]. rewrite Hr. destruct (Z.ltb_spec (Z.of_nat R) 0); [lia|]. rewrite Nat2Z.id.
  destruct (Nat.eqb_spec R (Nat.max 0 (Nat.min n R) - 0)); [lia|]. destruct (Nat.eqb_spec R 1); [lia|reflexivity].
Qed.
(** ** Eigenvalues *)
Lemma shifted_applied n A B sg x i : nc A = n -> applied n (at_ (shifted kmul ksub A B sg)) x i = applied n (at_ A) x i -k sg *k applied n (at_ B) x i.
Proof. intros Hn. unfold shifted. cbn [msub mscale at_]. rewrite <- applied_scale_m, <- applied_sub_m. reflexivity. Qed.
Lemma conj_sub : conjugation k0 k1 kadd kmul conj -> forall a b, conj (a -k b) = conj a -k conj b.
Proof.
  intros (Ha & _) a b. assert (E : conj (a -k b) +k conj b = conj a) by (rewrite <- Ha; f_equal; ring).
  rewrite <- E. ring.
Qed.
Section Eigs.
Context (n : nat) (A B : mat K) (sg : K) (HA : nc A = n) (HB : nc B = n) (HBr : nr B = n).
Context (ms : mat K -> (vec K -> vec K) * (vec K -> vec K)).
Let C := shifted kmul ksub A B sg.
Context (Hms : forall v, equation n (at_ C) (fst (ms C) v) v) (HmsH : forall v, equation n (adjoint (at_ C)) (snd (ms C) v) v).
Lemma right_sound mu x : mu <> k0 -> (forall i, i < n -> right_operator k0 kadd kmul ksub ms A B sg x i = mu *k x i) ->
  eigenpair k0 kadd kmul n (at_ A) (at_ B) (kdiv k1 mu +k sg) x.
Proof using Hf HA HB Hms.
  intros Hmu Hx i Hi. pose proof (Hms (matvec k0 kadd kmul B x)) as HC.
  assert (E : mu *k applied n (at_ C) x i = applied n (at_ B) x i).
  { transitivity (matvec k0 kadd kmul B x i); [|unfold matvec; rewrite HB; reflexivity]. rewrite <- (HC i Hi), <- applied_scale. apply applied_ext; [reflexivity|].
    intros j Hj. symmetry. apply Hx. exact Hj. }
  unfold C in E. rewrite (shifted_applied n) in E by exact HA.
  apply (f_equal (fun t => kdiv t mu)) in E. transitivity (kdiv (mu *k (applied n (at_ A) x i -k sg *k applied n (at_ B) x i)) mu +k sg *k applied n (at_ B) x i); [field; exact Hmu|].
  rewrite E. field. exact Hmu.
Qed.
Lemma right_complete lambda x : lambda <> sg -> (exists Ci, inverses k0 k1 kadd kmul n (at_ C) Ci) -> eigenpair k0 kadd kmul n (at_ A) (at_ B) lambda x ->
  forall i, i < n -> right_operator k0 kadd kmul ksub ms A B sg x i = kdiv k1 (lambda -k sg) *k x i.
Proof using Hf HA HB Hms.
  intros Hl [Ci HCi] Hx i Hi. assert (Hd : lambda -k sg <> k0). { intros E. apply Hl. transitivity ((lambda -k sg) +k sg); [ring|]. rewrite E. ring. }
  pose proof (Hms (matvec k0 kadd kmul B x)) as HC. unfold right_operator. fold C.
  rewrite (inverses_unique n (at_ C) Ci _ _ HCi HC i Hi).
  assert (E : equation n (at_ C) (fun k => kdiv k1 (lambda -k sg) *k x k) (matvec k0 kadd kmul B x)).
  { intros j Hj. rewrite applied_scale. unfold C. rewrite (shifted_applied n) by exact HA. rewrite (Hx j Hj). unfold matvec. rewrite HB.
    change (msum k0 kadd n (fun k => at_ B j k *k x k)) with (applied n (at_ B) x j). field. exact Hd. }
  symmetry. apply (inverses_unique n (at_ C) Ci _ _ HCi E i Hi).
Qed.
Lemma left_sound (Hc : conjugation k0 k1 kadd kmul conj) nu x : nu <> k0 -> (forall i, i < n -> left_operator k0 kadd kmul ksub conj ms A B sg x i = nu *k x i) ->
  eigenpair k0 kadd kmul n (adjoint (at_ A)) (adjoint (at_ B)) (kdiv k1 nu +k conj sg) x.
Proof using Hf HA HB HBr HmsH.
  intros Hnu Hx i Hi. pose proof (HmsH (matvec k0 kadd kmul (transpose (mconj conj B)) x)) as HC. pose proof Hc as (Hca & Hcm & _).
  assert (E : nu *k applied n (adjoint (at_ C)) x i = applied n (adjoint (at_ B)) x i).
  { transitivity (matvec k0 kadd kmul (transpose (mconj conj B)) x i); [|unfold matvec; cbn [transpose mconj nc nr at_]; rewrite HBr; reflexivity]. rewrite <- (HC i Hi), <- applied_scale. apply applied_ext; [reflexivity|].
    intros j Hj. symmetry. apply Hx. exact Hj. }
  assert (E2 : applied n (adjoint (at_ C)) x i = applied n (adjoint (at_ A)) x i -k conj sg *k applied n (adjoint (at_ B)) x i).
  { rewrite <- applied_scale_m, <- applied_sub_m. apply applied_ext; [|reflexivity]. intros j Hj. unfold MatSolvers_Spec.adjoint, C, shifted. cbn [msub mscale at_].
    rewrite conj_sub by exact Hc. rewrite Hcm. reflexivity. }
  rewrite E2 in E. apply (f_equal (fun t => kdiv t nu)) in E.
  transitivity (kdiv (nu *k (applied n (adjoint (at_ A)) x i -k conj sg *k applied n (adjoint (at_ B)) x i)) nu +k conj sg *k applied n (adjoint (at_ B)) x i); [field; exact Hnu|].
  rewrite E. field. exact Hnu.
Qed.
End Eigs.
(** Left and right eigenvectors of different eigenvalues are orthogonal. *)
Definition form (n : nat) (y : nat -> K) (B : nat -> nat -> K) (x : nat -> K) : K := total n (fun i => conj (y i) *k applied n B x i).
Lemma form_adjoint n y B x : conjugation k0 k1 kadd kmul conj -> form n y B x = total n (fun j => conj (applied n (adjoint B) y j) *k x j).
Proof.
  intros Hc. pose proof Hc as (Hca & Hcm & Hci & _). unfold form, MatSolvers_Spec.applied.
  rewrite (total_ext n _ (fun i => total n (fun j => conj (y i) *k (B i j *k x j)))) by (intros; rewrite total_mul_l; reflexivity).
  rewrite total_swap. apply total_ext. intros j Hj. rewrite total_conj by exact Hc. rewrite <- total_mul_r. apply total_ext. intros i Hi.
  unfold MatSolvers_Spec.adjoint. rewrite Hcm, Hci. ring.
Qed.
Lemma form_scale n c y B x : (forall i, i < n -> applied n B x i = c *k applied n B x i) -> form n y B x = c *k form n y B x.
Proof. intros H. unfold form. rewrite <- total_mul_l. apply total_ext. intros i Hi. rewrite (H i Hi) at 1. ring. Qed.
Lemma orthogonal n A B l l' x y : conjugation k0 k1 kadd kmul conj -> eigenpair k0 kadd kmul n A B l x ->
  eigenpair k0 kadd kmul n (adjoint A) (adjoint B) (conj l') y -> l <> l' -> form n y B x = k0.
Proof.
  intros Hc Hx Hy Hne. pose proof Hc as (Hca & Hcm & Hci & _).
  assert (E1 : form n y A x = l *k form n y B x).
  { unfold form. rewrite <- total_mul_l. apply total_ext. intros i Hi. rewrite (Hx i Hi). ring. }
  assert (E2 : form n y A x = l' *k form n y B x).
  { rewrite !form_adjoint by exact Hc. rewrite <- total_mul_l. apply total_ext. intros i Hi. rewrite (Hy i Hi), Hcm, Hci. ring. }
  assert (Hd : l -k l' <> k0). { intros E. apply Hne. transitivity ((l -k l') +k l'); [ring|]. rewrite E. ring. }
  assert (E : (l -k l') *k form n y B x = k0). { transitivity (l *k form n y B x -k l' *k form n y B x); [ring|]. rewrite <- E1, <- E2. ring. }
  transitivity (kdiv ((l -k l') *k form n y B x) (l -k l')); [field; exact Hd|]. rewrite E. field. exact Hd.
Qed.
Lemma conj_div a b : conjugation k0 k1 kadd kmul conj -> b <> k0 -> conj (kdiv a b) = kdiv (conj a) (conj b).
Proof.
  intros (Ha & Hm & Hi & H0 & H1) Hb. assert (Hb' : conj b <> k0). { intros E. apply Hb. rewrite <- (Hi b), E, H0. reflexivity. }
  assert (E : conj (kdiv a b) *k conj b = conj a). { rewrite <- Hm. f_equal. field. exact Hb. }
  rewrite <- E. field. exact Hb'.
Qed.
Lemma form_ext n y y' B B' x x' : (forall i, i < n -> y i = y' i) -> (forall i j, i < n -> j < n -> B i j = B' i j) -> (forall i, i < n -> x i = x' i) -> form n y B x = form n y' B' x'.
Proof. intros Hy HB Hx. unfold form. apply total_ext. intros i Hi. rewrite (Hy i Hi). f_equal. apply applied_ext; [intros; apply HB|]; assumption. Qed.
(** [y^H (A B x)] with the product of the adjoint taken first. *)
Lemma form_assoc n m y A B x : conjugation k0 k1 kadd kmul conj ->
  total n (fun p => conj (applied m (adjoint (fun k p => applied m A (fun q => B q p) k)) y p) *k x p) = total m (fun k => conj (y k) *k applied m A (fun q => applied n B x q) k).
Proof.
  intros Hc. pose proof Hc as (Hca & Hcm & Hci & _).
  rewrite (total_ext n _ (fun p => total m (fun k => conj (y k) *k (applied m A (fun q => B q p) k *k x p)))).
  - rewrite total_swap. apply total_ext. intros k Hk. rewrite total_mul_l. f_equal. rewrite (applied_assoc m n). reflexivity.
  - intros p Hp. unfold MatSolvers_Spec.applied at 1. rewrite total_conj by exact Hc. rewrite <- total_mul_r. apply total_ext. intros k Hk.
    unfold MatSolvers_Spec.adjoint. rewrite Hcm, Hci. ring.
Qed.
Section EVP.
Context (n m : nat) (sp : subproblem K) (L M : nat -> nat -> K) (Hconj : conjugation k0 k1 kadd kmul conj).
(** The reduced matrices are the preconditioned full ones. *)
Context (HLs : nr (L_min sp) = m /\ nc (L_min sp) = m) (HMs : nr (M_min sp) = m /\ nc (M_min sp) = m)
  (Hpl : nr (pre_left sp) = m /\ nc (pre_left sp) = n) (Hpr : nr (pre_right sp) = n /\ nc (pre_right sp) = m)
  (Hpp : nr (pre_right_pinv sp) = m /\ nc (pre_right_pinv sp) = n).
Notation reduced := (MatSolvers_Spec.preconditioned k0 kadd kmul n sp).
Context (HL : forall i j, i < m -> j < m -> at_ (L_min sp) i j = reduced L i j) (HM : forall i j, i < m -> j < m -> at_ (M_min sp) i j = reduced M i j).
Lemma reduced_applied A x i : applied m (reduced A) x i = applied n (at_ (pre_left sp)) (fun k => applied n A (fun q => applied m (at_ (pre_right sp)) x q) k) i.
Proof using Hf.
  unfold MatSolvers_Spec.preconditioned. rewrite <- (applied_assoc n m). apply applied_ext; [reflexivity|]. intros k Hk. rewrite (applied_assoc n m). reflexivity.
Qed.
Lemma opp_applied A x i : applied m (at_ (mopp kopp A)) x i = kopp (applied m (at_ A) x i).
Proof using Hf.
  cbn [mopp at_]. transitivity (kopp k1 *k applied m (at_ A) x i); [|ring]. rewrite <- applied_scale_m. apply applied_ext; [intros; ring|reflexivity].
Qed.
Lemma evp_right lambda rv j : eigenpair k0 kadd kmul m (at_ (fst (pencil kopp sp))) (at_ (snd (pencil kopp sp))) lambda (fun i => at_ rv i j) ->
  forall i, i < m -> applied n (at_ (pre_left sp)) (fun k => applied n (fun p q => L p q +k lambda *k M p q) (fun q => at_ (right_eigenvectors k0 kadd kmul sp rv) q j) k) i = k0.
Proof using Hf HL HM Hpr.
  intros He i Hi. specialize (He i Hi). cbn [pencil fst snd] in He. rewrite opp_applied in He.
  rewrite (applied_ext m (at_ (L_min sp)) (reduced L) _ (fun i => at_ rv i j) i) in He by (first [reflexivity|intros; apply HL; assumption]).
  rewrite (applied_ext m (at_ (M_min sp)) (reduced M) _ (fun i => at_ rv i j) i) in He by (first [reflexivity|intros; apply HM; assumption]).
  rewrite !reduced_applied in He.
  set (x := fun q => applied m (at_ (pre_right sp)) (fun i => at_ rv i j) q) in He.
  transitivity (applied n (at_ (pre_left sp)) (fun k => applied n L x k +k lambda *k applied n M x k) i).
  - apply applied_ext; [reflexivity|]. intros k Hk. rewrite <- applied_scale_m, <- applied_add_m. apply applied_ext; [reflexivity|].
    intros q Hq. unfold right_eigenvectors. rewrite at_mmul. unfold x. destruct Hpr as [_ ->]. reflexivity.
  - rewrite applied_add, applied_scale. assert (He' : applied n (at_ (pre_left sp)) (applied n L x) i = lambda *k kopp (applied n (at_ (pre_left sp)) (applied n M x) i)) by exact He.
    change (applied n (at_ (pre_left sp)) (applied n L x) i +k lambda *k applied n (at_ (pre_left sp)) (applied n M x) i = k0). rewrite He'. ring.
Qed.
Lemma conj_opp a : conj (kopp a) = kopp (conj a).
Proof using Hconj Hf.
  transitivity (conj (k0 -k a)); [f_equal; ring|]. rewrite conj_sub by exact Hconj. destruct Hconj as (_ & _ & _ & H0 & _). rewrite H0. ring.
Qed.
Lemma left_form lambda lv j : eigenpair k0 kadd kmul m (adjoint (at_ (fst (pencil kopp sp)))) (adjoint (at_ (snd (pencil kopp sp)))) (conj lambda) (fun i => at_ lv i j) ->
  forall x, form m (fun i => at_ lv i j) (reduced L) x +k lambda *k form m (fun i => at_ lv i j) (reduced M) x = k0.
Proof using Hf HL HM Hconj.
  intros He x. pose proof Hconj as (Hca & Hcm & Hci & _).
  rewrite <- (form_ext m (fun i => at_ lv i j) _ (at_ (L_min sp)) (reduced L) x x), <- (form_ext m (fun i => at_ lv i j) _ (at_ (M_min sp)) (reduced M) x x) by (try reflexivity; assumption).
  rewrite !form_adjoint by exact Hconj. rewrite <- total_mul_l, <- total_add. apply total_zero. intros i Hi. specialize (He i Hi). cbn [pencil fst snd] in He.
  assert (E : applied m (adjoint (at_ (mopp kopp (M_min sp)))) (fun i => at_ lv i j) i = kopp (applied m (adjoint (at_ (M_min sp))) (fun i => at_ lv i j) i)).
  { rewrite <- (opp_applied (Mat m m (adjoint (at_ (M_min sp))))). cbn [mopp at_]. apply applied_ext; [|reflexivity]. intros k Hk. unfold MatSolvers_Spec.adjoint. cbn [mopp at_]. apply conj_opp. }
  rewrite E in He. rewrite He, Hcm, Hci, conj_opp. ring.
Qed.
Lemma left_unscaled lv j p : nr lv = m -> at_ (mmul (transpose (mconj conj (pre_left sp))) lv) p j = applied m (adjoint (at_ (pre_left sp))) (fun i => at_ lv i j) p.
Proof using Hpl. intros Hlv. rewrite at_mmul. cbn [transpose mconj nc nr]. destruct Hpl as [-> _]. reflexivity. Qed.
Lemma left_plain lambda lv j x : nr lv = m -> eigenpair k0 kadd kmul m (adjoint (at_ (fst (pencil kopp sp)))) (adjoint (at_ (snd (pencil kopp sp)))) (conj lambda) (fun i => at_ lv i j) ->
  total n (fun p => conj (applied m (adjoint (at_ (pre_left sp))) (fun i => at_ lv i j) p) *k applied n (fun p q => L p q +k lambda *k M p q) (fun q => applied m (at_ (pre_right sp)) x q) p) = k0.
Proof using Hf HL HM Hconj.
  intros Hlv He. etransitivity; [|exact (left_form lambda lv j He x)]. unfold form.
  rewrite (total_ext n _ (fun p => conj (applied m (adjoint (at_ (pre_left sp))) (fun i => at_ lv i j) p) *k applied n L (fun q => applied m (at_ (pre_right sp)) x q) p
     +k lambda *k (conj (applied m (adjoint (at_ (pre_left sp))) (fun i => at_ lv i j) p) *k applied n M (fun q => applied m (at_ (pre_right sp)) x q) p))).
  2:{ intros p Hp. rewrite applied_add_m, applied_scale_m. ring. }
  rewrite total_add, total_mul_l.
  assert (E : forall A, total n (fun p => conj (applied m (adjoint (at_ (pre_left sp))) (fun i => at_ lv i j) p) *k applied n A (fun q => applied m (at_ (pre_right sp)) x q) p)
                        = total m (fun i => conj (at_ lv i j) *k applied m (reduced A) x i)).
  { intros A. rewrite (total_ext m _ (fun i => conj (at_ lv i j) *k applied n (at_ (pre_left sp)) (fun k => applied n A (fun q => applied m (at_ (pre_right sp)) x q) k) i)).
    2:{ intros i Hi. rewrite reduced_applied. reflexivity. }
    pose proof Hconj as (Hca & Hcm & Hci & _).
    rewrite (total_ext n _ (fun p => total m (fun i => conj (at_ lv i j) *k (at_ (pre_left sp) i p *k applied n A (fun q => applied m (at_ (pre_right sp)) x q) p)))).
    - rewrite total_swap. apply total_ext. intros i Hi. rewrite total_mul_l. reflexivity.
    - intros p Hp. unfold MatSolvers_Spec.applied at 1. rewrite total_conj by exact Hconj. rewrite <- total_mul_r. apply total_ext. intros i Hi.
      unfold MatSolvers_Spec.adjoint. rewrite Hcm, Hci. ring. }
  rewrite !E. reflexivity.
Qed.
Lemma norms_form lv rv i : nr lv = m -> norms k0 kadd kmul conj sp lv rv i = form m (fun k => at_ lv k i) (at_ (M_min sp)) (fun k => at_ rv k i).
Proof using Hf HMs.
  intros Hlv. unfold norms. rewrite at_mmul. cbn [MatSolvers_Model.mmul nc transpose mconj nr]. destruct HMs as [_ ->]. unfold MatSolvers_Spec.applied at 1.
  unfold form. rewrite (total_ext m _ (fun q => total m (fun k => conj (at_ lv k i) *k (at_ (M_min sp) k q *k at_ rv q i)))).
  - rewrite total_swap. apply total_ext. intros k Hk. rewrite total_mul_l. reflexivity.
  - intros q Hq. rewrite at_mmul. cbn [transpose mconj nc nr at_]. rewrite Hlv. unfold MatSolvers_Spec.applied. rewrite <- total_mul_r. apply total_ext. intros k Hk. ring.
Qed.
Lemma evp_left lambda lv rv j (normalize : bool) x : nr lv = m -> (normalize = true -> norms k0 kadd kmul conj sp lv rv j <> k0) ->
  eigenpair k0 kadd kmul m (adjoint (at_ (fst (pencil kopp sp)))) (adjoint (at_ (snd (pencil kopp sp)))) (conj lambda) (fun i => at_ lv i j) ->
  total n (fun p => conj (at_ (left_eigenvectors k0 kadd kmul kdiv conj sp normalize lv rv) p j) *k applied n (fun p q => L p q +k lambda *k M p q) (fun q => applied m (at_ (pre_right sp)) x q) p) = k0.
Proof using Hf HL HM HMs Hconj Hpl.
  intros Hlv Hn He. pose proof (left_plain lambda lv j x Hlv He) as E. unfold left_eigenvectors. destruct normalize.
  - specialize (Hn eq_refl). cbn [divide_columns at_]. set (d := norms k0 kadd kmul conj sp lv rv j) in *. pose proof Hconj as (Hca & Hcm & Hci & H0 & _).
    assert (Hd : conj d <> k0). { intros E'. apply Hn. rewrite <- (Hci d), E', H0. reflexivity. }
    transitivity (kdiv k1 d *k k0); [|ring]. etransitivity; [|exact (f_equal (fun t => kdiv k1 d *k t) E)]. rewrite <- total_mul_l. apply total_ext. intros p Hp. rewrite left_unscaled by exact Hlv.
    rewrite conj_div by assumption. rewrite Hci. field. exact Hn.
  - etransitivity; [|exact E]. apply total_ext. intros p Hp. rewrite left_unscaled by exact Hlv. reflexivity.
Qed.
Lemma evp_biorthonormal (evals : nat -> K) lv rv i j : nr lv = m -> norms k0 kadd kmul conj sp lv rv i <> k0 ->
  (forall a b, a < m -> b < m -> applied n (at_ (pre_right_pinv sp)) (fun k => at_ (pre_right sp) k b) a = delta k0 k1 a b) ->
  (i <> j -> evals i <> evals j) ->
  eigenpair k0 kadd kmul m (at_ (fst (pencil kopp sp))) (at_ (snd (pencil kopp sp))) (evals j) (fun k => at_ rv k j) ->
  eigenpair k0 kadd kmul m (adjoint (at_ (fst (pencil kopp sp)))) (adjoint (at_ (snd (pencil kopp sp)))) (conj (evals i)) (fun k => at_ lv k i) ->
  total n (fun p => conj (at_ (modified_left_eigenvectors k0 kadd kmul kdiv conj sp true lv rv) p i) *k at_ (right_eigenvectors k0 kadd kmul sp rv) p j) = delta k0 k1 i j.
Proof using Hf HMs Hconj Hpl Hpr Hpp.
  intros Hlv Hn Hpinv Hdist Hr Hl. pose proof Hconj as (Hca & Hcm & Hci & H0 & _). set (d := norms k0 kadd kmul conj sp lv rv i) in *.
  assert (Hd : conj d <> k0). { intros E'. apply Hn. rewrite <- (Hci d), E', H0. reflexivity. }
  assert (E : total n (fun p => conj (at_ (modified_left_eigenvectors k0 kadd kmul kdiv conj sp true lv rv) p i) *k at_ (right_eigenvectors k0 kadd kmul sp rv) p j)
              = kdiv k1 d *k form m (fun k => at_ lv k i) (at_ (M_min sp)) (fun k => at_ rv k j)).
  { transitivity (kdiv k1 d *k total n (fun p => conj (applied m (adjoint (fun k p => applied m (at_ (M_min sp)) (fun q => at_ (pre_right_pinv sp) q p) k)) (fun k => at_ lv k i) p) *k applied m (at_ (pre_right sp)) (fun k => at_ rv k j) p)).
    - rewrite <- total_mul_l. apply total_ext. intros p Hp. unfold modified_left_eigenvectors, right_eigenvectors. cbn [divide_columns at_]. fold d.
      rewrite conj_div by assumption. rewrite Hci, (at_mmul (pre_right sp) rv), (at_mmul _ lv). cbn [transpose mconj MatSolvers_Model.mmul nc nr at_].
      destruct Hpr as [_ Epr]. destruct HMs as [Em1 Em2]. rewrite Epr, Em1, Em2.
      change (fun k j0 => conj (msum k0 kadd m (fun k2 => at_ (M_min sp) j0 k2 *k at_ (pre_right_pinv sp) k2 k))) with (adjoint (fun k p => applied m (at_ (M_min sp)) (fun q => at_ (pre_right_pinv sp) q p) k)).
      field. exact Hn.
    - f_equal. rewrite form_assoc by exact Hconj. unfold form. apply total_ext. intros k Hk. f_equal. apply applied_ext; [reflexivity|]. intros q Hq.
      etransitivity; [exact (applied_assoc n m (at_ (pre_right_pinv sp)) (at_ (pre_right sp)) (fun k2 => at_ rv k2 j) q)|]. transitivity (applied m (delta k0 k1) (fun k => at_ rv k j) q); [|exact (applied_delta m (fun k => at_ rv k j) q Hq)].
      apply applied_ext; [intros b Hb; apply Hpinv; assumption|reflexivity]. }
  rewrite E. unfold delta. destruct (Nat.eqb_spec i j) as [->|Hne].
  - subst d. rewrite norms_form in * by exact Hlv. field. exact Hn.
  - specialize (Hdist Hne). pose proof (orthogonal m _ _ (evals j) (evals i) _ _ Hconj Hr Hl (not_eq_sym Hdist)) as EO. cbn [pencil fst snd] in EO.
    assert (E2 : form m (fun k => at_ lv k i) (at_ (M_min sp)) (fun k => at_ rv k j) = k0).
    { transitivity (kopp (form m (fun k => at_ lv k i) (at_ (mopp kopp (M_min sp))) (fun k => at_ rv k j))); [|rewrite EO; ring].
      unfold form. transitivity (total m (fun q => kopp k1 *k (conj (at_ lv q i) *k applied m (at_ (mopp kopp (M_min sp))) (fun k => at_ rv k j) q))); [|rewrite total_mul_l; ring].
      apply total_ext. intros q Hq. rewrite opp_applied. ring. }
    rewrite E2. ring.
Qed.
End EVP.

(** ** Newton *)
Lemma newton_eq solve F dF subs d X s n : In s subs -> (forall v, equation n (at_ (dF X s)) (solve (dF X s) v) v) ->
  forall i, i < n -> applied n (at_ (dF X s)) (fun j => X s j -k newton_iteration k0 kmul ksub solve F dF subs d X s j) i = d *k F X s i.
Proof.
  intros Hs Hsolve i Hi. unfold newton_iteration. assert (existsb (Nat.eqb s) subs = true) as -> by (apply existsb_exists; exists s; split; [exact Hs|apply Nat.eqb_refl]).
  rewrite <- (Hsolve (F X s) i Hi), <- applied_scale. apply applied_ext; [reflexivity|]. intros j Hj. ring.
Qed.
Lemma newton_affine_step solve F dF subs d J b n X : (forall s v, In s subs -> equation (n s) (at_ (J s)) (solve (J s) v) v) ->
  (forall X s, In s subs -> dF X s = J s) -> (forall X s i, In s subs -> i < n s -> F X s i = applied (n s) (at_ (J s)) (X s) i -k b s i) ->
  forall s i, In s subs -> i < n s -> F (newton_iteration k0 kmul ksub solve F dF subs d X) s i = (k1 -k d) *k F X s i.
Proof.
  intros Hsolve HdF HF s i Hs Hi. rewrite HF by assumption.
  assert (E := newton_eq solve F dF subs d X s (n s) Hs). rewrite (HdF X s Hs) in E. specialize (E (fun v => Hsolve s v Hs) i Hi).
  rewrite applied_sub in E. transitivity (applied (n s) (at_ (J s)) (X s) i -k (applied (n s) (at_ (J s)) (X s) i -k applied (n s) (at_ (J s)) (newton_iteration k0 kmul ksub solve F dF subs d X s) i) -k b s i); [ring|].
  etransitivity; [apply f_equal2; [apply f_equal2; [reflexivity|exact E]|reflexivity]|]. rewrite (HF X s i) by assumption. ring.
Qed.
End Field.

(** ** Scattering *)
Lemma scatter_app {K} (l : list (nat * nat)) (v state : nat -> K) p :
  fold_left (fun s ki => fun p => if p =? snd ki then v (fst ki) else s p) l state p
  = match find (fun ki => p =? snd ki) (rev l) with Some ki => v (fst ki) | None => state p end.
Proof.
  revert state. induction l as [|ki l IH] using rev_ind; intros state; [reflexivity|]. rewrite fold_left_app, rev_app_distr. cbn [fold_left rev app find].
  destruct (p =? snd ki) eqn:E; [reflexivity|]. apply IH.
Qed.
Lemma combine_seq (idxs : list nat) k' p b : In (k', p) (combine (seq b (length idxs)) idxs) -> b <= k' /\ nth_error idxs (k' - b) = Some p.
Proof.
  revert b. induction idxs as [|q idxs IH]; intros b Hb; cbn [length seq combine In] in Hb; [tauto|]. destruct Hb as [E|Hb].
  - injection E as -> ->. split; [lia|]. rewrite Nat.sub_diag. reflexivity.
  - apply IH in Hb. destruct Hb as [Hb1 Hb2]. split; [lia|]. replace (k' - b) with (S (k' - S b)) by lia. exact Hb2.
Qed.
Lemma scatter_in {K} idxs (v state : nat -> K) k p : NoDup idxs -> nth_error idxs k = Some p -> scatter idxs v state p = v k.
Proof.
  intros Hnd Hk. unfold scatter. rewrite scatter_app.
  assert (Hin : In (k, p) (combine (seq 0 (length idxs)) idxs)).
  { assert (Hlt : k < length idxs) by (apply nth_error_Some; rewrite Hk; discriminate).
    replace (k, p) with (nth k (combine (seq 0 (length idxs)) idxs) (0, 0)).
    - apply nth_In. rewrite combine_length, seq_length. lia.
    - rewrite combine_nth by apply seq_length. rewrite seq_nth by exact Hlt. f_equal. apply nth_error_nth. exact Hk. }
  destruct (find _ _) as [[k' p']|] eqn:Ef.
  - apply find_some in Ef. destruct Ef as [Hin' Ep]. apply in_rev in Hin'. cbn [fst snd] in *. apply Nat.eqb_eq in Ep. subst p'.
    assert (Hk' : nth_error idxs k' = Some p).
    { apply combine_seq in Hin'. destruct Hin' as [_ H']. rewrite Nat.sub_0_r in H'. exact H'. }
    f_equal. apply (NoDup_nth_error idxs); [exact Hnd| |rewrite Hk, Hk'; reflexivity]. apply nth_error_Some. rewrite Hk'. discriminate.
  - exfalso. assert (E := find_none _ _ Ef (k, p)). rewrite <- in_rev in E. specialize (E Hin). cbn [snd] in E. rewrite Nat.eqb_refl in E. discriminate.
Qed.
Lemma scatter_out {K} idxs (v state : nat -> K) p : ~ In p idxs -> scatter idxs v state p = state p.
Proof.
  intros Hp. unfold scatter. rewrite scatter_app. destruct (find _ _) as [[k' p']|] eqn:Ef; [|reflexivity].
  apply find_some in Ef. destruct Ef as [Hin Ep]. apply in_rev in Hin. cbn [snd] in Ep. apply Nat.eqb_eq in Ep. subst p'. apply in_combine_r in Hin. contradiction.
Qed.

(** ** Histories of boundary value solves *)
Definition solve_call {K} solve (st : lbvp K) (c : call K) : lbvp K := lbvp_solve solve (c_matrices c) (c_rhs c) (c_selected c) (c_rebuild c) st.
Lemma build_in_force {K} (c : call K) old s : build (c_matrices c) (c_selected c) (c_rebuild c) old s =
  if existsb (Nat.eqb s) (c_selected c) then match old s with Some A => if c_rebuild c then Some (c_matrices c s) else Some A | None => Some (c_matrices c s) end else old s.
Proof.
  unfold build. destruct (c_rebuild c).
  - destruct (existsb _ _); [|reflexivity]. destruct (old s); reflexivity.
  - destruct (existsb (Nat.eqb s) (c_selected c)) eqn:E.
    + apply existsb_exists in E. destruct E as (s' & Hin & Es). apply Nat.eqb_eq in Es. subst s'. destruct (old s) eqn:Eo.
      * assert (existsb (Nat.eqb s) (filter (fun s => match old s with None => true | Some _ => false end) (c_selected c)) = false) as ->; [|reflexivity].
        apply not_true_is_false. intros H. apply existsb_exists in H. destruct H as (s' & H & Es). apply Nat.eqb_eq in Es. subst s'. apply filter_In in H. rewrite Eo in H. destruct H; discriminate.
      * assert (existsb (Nat.eqb s) (filter (fun s => match old s with None => true | Some _ => false end) (c_selected c)) = true) as ->; [|reflexivity].
        apply existsb_exists. exists s. split; [|apply Nat.eqb_refl]. apply filter_In. rewrite Eo. split; [exact Hin|reflexivity].
    + assert (existsb (Nat.eqb s) (filter (fun s => match old s with None => true | Some _ => false end) (c_selected c)) = false) as ->; [|reflexivity].
      apply not_true_is_false. intros H. apply existsb_exists in H. destruct H as (s' & H & Es). apply filter_In in H. destruct H as [H _].
      rewrite <- not_true_iff_false in E. apply E. apply existsb_exists. exists s'. split; assumption.
Qed.
Lemma cache_in_force {K} solve d (h : list (call K)) s : cache (fold_left (solve_call solve) h (lbvp_new d)) s = in_force (rev h) s.
Proof.
  induction h as [|c h IH] using rev_ind; [reflexivity|]. rewrite fold_left_app, rev_app_distr. cbn [fold_left rev app in_force].
  unfold solve_call at 1. unfold lbvp_solve. cbn [cache]. rewrite build_in_force, IH. reflexivity.
Qed.
Lemma fold_select {K} (g : nat -> option (mat K)) solve (F : nat -> vec K) sel (x : nat -> nat -> K) s :
  fold_left (fun x s => fun q => if q =? s then match g s with Some A => solve A (F s) | None => x q end else x q) sel x s
  = if existsb (Nat.eqb s) sel then match g s with Some A => solve A (F s) | None => x s end else x s.
Proof.
  revert x. induction sel as [|s' sel IH]; intros x; cbn [fold_left existsb]; [reflexivity|]. rewrite IH.
  destruct (Nat.eqb_spec s s') as [->|Hne]; cbn [orb].
  - destruct (existsb _ sel); destruct (g s'); reflexivity.
  - reflexivity.
Qed.
Lemma solve_data {K} solve (st : lbvp K) c s : data (solve_call solve st c) s =
  if existsb (Nat.eqb s) (c_selected c) then match cache (solve_call solve st c) s with Some A => solve A (c_rhs c s) | None => data st s end else data st s.
Proof. unfold solve_call, lbvp_solve. cbn [data cache]. apply fold_select. Qed.
