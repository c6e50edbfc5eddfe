(** Proofs about traces and transpositions in spin and regularity components. *)
From Coq Require Import List Arith Bool ZArith Reals Lia Lra Permutation.
From Coquelicot Require Import Complex.
Import ListNotations.
From Verif Require Import CSR_Model CSR_Spec CSR_Proofs MatSolvers_Model MatSolvers_Proofs Clenshaw_Model Clenshaw_Proofs TensorArith_Model TensorArith_Proofs TupleTools_Model TupleTools_Proofs TensorOps_Model TensorOps_Proofs
  Intertwiner_Model Intertwiner_Spec Intertwiner_Proofs Spin_Spec SphericalTensor_Model SphericalTensor_Spec.
Local Open Scope R_scope.
Notation total := (CSR_Spec.total 0 Rplus).
Notation comp n j := (nth j (components n) []).
Notation "| n |" := (List.length (components n)) (at level 30).

(** ** Sums *)
Lemma T_ext n f g : (forall j, (j < n)%nat -> f j = g j) -> total n f = total n g.
Proof. apply CSR_Proofs.total_ext. Qed.
Lemma T_scal n a f : total n (fun j => a * f j) = a * total n f.
Proof. unfold CSR_Spec.total. induction (seq 0 n) as [|j l IH]; cbn; [ring|]. rewrite IH. ring. Qed.
Lemma T_add n f g : total n (fun j => f j + g j) = total n f + total n g.
Proof. unfold CSR_Spec.total. induction (seq 0 n) as [|j l IH]; cbn; [ring|]. rewrite IH. ring. Qed.
Lemma T_swap n m f : total n (fun i => total m (fun j => f i j)) = total m (fun j => total n (fun i => f i j)).
Proof.
  unfold CSR_Spec.total at 1 4. induction (seq 0 n) as [|i l IH]; cbn [fold_right].
  - symmetry. rewrite <- (T_ext m (fun _ => 0 * 0)) by (intros; ring). rewrite T_scal. ring.
  - rewrite IH, <- T_add. reflexivity.
Qed.
Lemma T_single n i f : (i < n)%nat -> (forall j, (j < n)%nat -> j <> i -> f j = 0) -> total n f = f i.
Proof. apply (total_single 0 1 Rplus Rmult Rminus Rdiv Ropp Rinv RealField.Rfield). Qed.
Lemma T_prod n m f : total (n * m) f = total n (fun p => total m (fun q => f (p * m + q)%nat)).
Proof. apply (total_product 0 1 Rplus Rmult Rminus Rdiv Ropp Rinv RealField.Rfield). Qed.
Lemma T_list {A} (l : list A) (d : A) (F : A -> R) : total (List.length l) (fun j => F (nth j l d)) = rsum (map F l).
Proof.
  unfold CSR_Spec.total. rewrite <- (rev_involutive l). generalize (rev l). clear l. intros l. assert (X : forall (k : list A), map (fun j => F (nth j k d)) (seq 0 (List.length k)) = map F k).
  { intros k. apply (nth_ext _ _ 0 0); [rewrite !map_length, seq_length; reflexivity|]. intros i Hi. rewrite map_length, seq_length in Hi. rewrite (nth_indep _ 0 (F (nth 0 k d))) by (rewrite map_length, seq_length; exact Hi). rewrite (map_nth (fun j => F (nth j k d))), seq_nth by exact Hi. rewrite (nth_indep _ 0 (F d)) by (rewrite map_length; exact Hi). rewrite map_nth. reflexivity. }
  rewrite <- X. generalize (seq 0 (List.length (rev l))). intros q. unfold rsum. induction q as [|i q IH]; cbn; [reflexivity|]. rewrite IH. reflexivity.
Qed.
Lemma T_comp n F : total (|n|) (fun j => F (comp n j)) = tsum n F.
Proof. rewrite T_list. apply rsum_tsum. Qed.

(** ** Components *)
Lemma size_components n : (|n| = 3 ^ n)%nat.
Proof. unfold components. rewrite range_length. reflexivity. Qed.
Lemma comp_tup n j : (j < |n|)%nat -> tup n (comp n j).
Proof. intros H. apply in_components. apply nth_In. exact H. Qed.
Lemma comp_cons n a j : (a < 3)%nat -> (j < |n|)%nat -> comp (S n) (a * |n| + j) = nth a [(-1)%Z; 1%Z; 0%Z] 0%Z :: comp n j.
Proof.
  intros Ha Hj. unfold components in *. cbn [range flat_map]. rewrite app_nil_r. set (l := range [(-1)%Z; 1%Z; 0%Z] n) in *.
  assert (X : forall s, nth j (map (cons s) l) [] = s :: nth j l []) by (intros s; rewrite (nth_indep _ [] (s :: [])) by (rewrite map_length; exact Hj); apply (map_nth (cons s))).
  destruct a as [|[|[|a]]]; [..|lia]; cbn [Nat.mul Nat.add nth].
  - rewrite app_nth1 by (rewrite map_length; exact Hj). apply X.
  - rewrite Nat.add_0_r. rewrite app_nth2, map_length by (rewrite map_length; lia). rewrite app_nth1 by (rewrite map_length; lia). replace (List.length l + j - List.length l)%nat with j by lia. apply X.
  - rewrite app_nth2, map_length by (rewrite map_length; lia). rewrite app_nth2, map_length by (rewrite map_length; lia). replace (List.length l + (List.length l + 0) + j - List.length l - List.length l)%nat with j by lia. apply X.
Qed.
Lemma comp_find n t : tup n t -> exists j, (j < |n|)%nat /\ comp n j = t.
Proof. intros H. apply in_components in H. destruct (In_nth _ _ [] H) as (j & Hj & E). exists j. auto. Qed.

(** ** Regularity and spin components *)
Lemma spins_tsum ell n x s : spin_parts ell n x s = tsum n (fun r => Q ell r s * x r).
Proof. apply sum_tsum. Qed.
Lemma Q_absent ell n r s : (0 <= ell)%Z -> tup n r -> tup n s -> ~ spin_exists ell s \/ ~ regularity_exists ell r -> Q ell r s = 0.
Proof.
  intros H Hr Hs N. destruct n as [|n].
  - destruct r; [|destruct Hr]. destruct s; [|destruct Hs]. destruct N as [N|N]; exfalso; apply N; [unfold spin_exists; cbn; lia|]. intros [|] a b E; discriminate.
  - apply (entries_ ell n r s H); [apply in_components; assumption..|exact N].
Qed.
Lemma spins_absent ell n x s : (0 <= ell)%Z -> tup n s -> ~ spin_exists ell s -> spin_parts ell n x s = 0.
Proof. intros H Hs N. rewrite spins_tsum. apply tsum_zero. intros r Hr. rewrite (Q_absent ell n r s) by auto. ring. Qed.
(** Products with the columns are the regularity components, if spins that do not exist are absent. *)
Lemma regular ell n w : (0 <= ell)%Z -> (forall t, tup n t -> ~ spin_exists ell t -> w t = 0) -> regularity_parts ell n w (fun r => tsum n (fun s => Q ell r s * w s)).
Proof.
  intros H Hw. split.
  - intros t Ht. apply in_components in Ht. rewrite spins_tsum. rewrite (compose_delta n (fun s r => Q ell r s) (fun r s => Q ell r s) w t (fun s => ind ell (zsum s)) Ht).
    + unfold ind. destruct (ell <? Z.abs (zsum t))%Z eqn:F; [apply Z.ltb_lt in F|ring]. rewrite Hw; [ring|exact Ht|]. unfold spin_exists. rewrite sumZ_zsum. lia.
    + intros s Hs. rewrite (rows ell H n t s Ht Hs), teq_sym. destruct (list_eq_dec Z.eq_dec s t) as [->|N]; [reflexivity|]. rewrite (teq_false s t N). cbn. ring.
  - intros r Hr N. apply in_components in Hr. apply tsum_zero. intros s Hs. rewrite (Q_absent ell n r s) by auto. ring.
Qed.
Lemma unique ell n v y y' : (0 <= ell)%Z -> regularity_parts ell n v y -> regularity_parts ell n v y' -> forall r, In r (components n) -> y r = y' r.
Proof.
  intros H [A1 A2] [B1 B2] r Hr. pose proof Hr as Hr'. apply in_components in Hr'.
  assert (X : forall z, regularity_exists ell r -> tsum n (fun s => Q ell r s * spin_parts ell n z s) = z r).
  { intros z E. rewrite (tsum_ext n _ (fun s => Q ell r s * tsum n (fun q => Q ell q s * z q))) by (intros; rewrite spins_tsum; reflexivity).
    rewrite (compose_delta n (fun r s => Q ell r s) (fun s r => Q ell r s) z r (fun _ => 1) Hr'); [ring|]. intros s Hs. pose proof (proj1 (columns_ ell n r s H Hr (proj2 (in_components n s) Hs)) E) as C. rewrite sum_tsum, teq_dec in C. rewrite C, teq_sym. ring. }
  assert (D : regularity_exists ell r \/ ~ regularity_exists ell r) by (rewrite (exists_allowed ell n r H Hr'); destruct (allowed_dec ell r); tauto).
  destruct D as [E|N]; [|rewrite (A2 r Hr N), (B2 r Hr N); reflexivity]. rewrite <- (X y E), <- (X y' E). apply tsum_ext. intros s Hs. rewrite A1, B1 by (apply in_components; exact Hs). reflexivity.
Qed.

(** ** Matrices *)
Lemma applied_mmul (A B : rmat) c i : applied (product A B) c i = applied A (applied B c) i.
Proof.
  unfold applied. cbn [mmul nc at_]. change (msum 0 Rplus) with (CSR_Spec.total (K := R) 0 Rplus). rewrite (T_ext (nc B) _ (fun j => total (nc A) (fun k => at_ A i k * at_ B k j * c j))).
  - rewrite T_swap. apply T_ext. intros k _. rewrite <- T_scal. apply T_ext. intros; ring.
  - intros j _. rewrite Rmult_comm, <- T_scal. apply T_ext. intros; ring.
Qed.
Lemma applied_kron (M : rmat) n c i f : (f < n)%nat -> applied (rkron M (unit_matrix n)) c (i * n + f) = applied M (fun q => c (q * n + f)%nat) i.
Proof. intros H. unfold applied. cbn [skron nc identity]. exact (skron_apply 0 1 Rplus Rmult Rminus Rdiv Ropp Rinv RealField.Rfield M n i f c H). Qed.
Lemma applied_ext (M : rmat) c c' i : (forall j, (j < nc M)%nat -> c j = c' j) -> applied M c i = applied M c' i.
Proof. intros H. apply T_ext. intros j Hj. rewrite H by exact Hj. reflexivity. Qed.
Lemma applied_Q ell n c x i : (i < |n|)%nat -> (forall j, (j < |n|)%nat -> c j = x (comp n j)) -> applied (recombination_matrix ell n) c i = tsum n (fun r => Q ell r (comp n i) * x r).
Proof.
  intros Hi Hc. unfold applied, recombination_matrix. cbn [nc at_]. rewrite Q_row, map_length. rewrite <- T_comp. apply T_ext. intros j Hj. rewrite Hc by exact Hj. f_equal.
  rewrite (nth_indep _ [] ((fun s => map (fun r => Q ell r s) (components n)) [])) by (rewrite map_length; exact Hi). rewrite (map_nth (fun s => map (fun r => Q ell r s) (components n))).
  rewrite (nth_indep _ 0 ((fun r => Q ell r (comp n i)) [])) by (rewrite map_length; exact Hj). exact (map_nth (fun r => Q ell r (comp n i)) (components n) [] j).
Qed.
Lemma applied_QT ell n c w i : (i < |n|)%nat -> (forall j, (j < |n|)%nat -> c j = w (comp n j)) -> applied (MatSolvers_Model.transpose (recombination_matrix ell n)) c i = tsum n (fun s => Q ell (comp n i) s * w s).
Proof.
  intros Hi Hc. unfold applied, recombination_matrix. cbn [MatSolvers_Model.transpose nr nc at_]. rewrite Q_row, map_length. rewrite <- T_comp. apply T_ext. intros j Hj. rewrite Hc by exact Hj. f_equal.
  rewrite (nth_indep _ [] ((fun s => map (fun r => Q ell r s) (components n)) [])) by (rewrite map_length; exact Hj). rewrite (map_nth (fun s => map (fun r => Q ell r s) (components n))).
  rewrite (nth_indep _ 0 ((fun r => Q ell r (comp n j)) [])) by (rewrite map_length; exact Hi). exact (map_nth (fun r => Q ell r (comp n j)) (components n) [] i).
Qed.
(** *** Interleaving *)
Definition unit_at (N i : nat) : rmat := Mat N N (fun r c => if (r =? i)%nat && (c =? i)%nat then 1 else 0).
Lemma applied_unit (M : rmat) N a c i l : (l < N)%nat -> applied (rkron M (unit_at N a)) c (i * N + l) = if (l =? a)%nat then applied M (fun q => c (q * N + l)%nat) i else 0.
Proof.
  intros H. unfold applied. cbn [skron nc unit_at]. rewrite T_prod. destruct (Nat.eqb_spec l a) as [<-|E].
  - apply T_ext. intros q Hq. rewrite (T_single N l).
    + cbn [skron at_ nr nc unit_at]. rewrite !Nat.div_add_l, !Nat.div_small, !(Nat.add_comm (_ * _) l), !Nat.mod_add, !Nat.mod_small, !Nat.add_0_r, Nat.eqb_refl by lia. cbn [andb]. ring.
    + exact H.
    + intros b Hb Nb. cbn [skron at_ nr nc unit_at]. rewrite !(Nat.add_comm (_ * _) _), !Nat.mod_add, !Nat.mod_small by lia. rewrite (proj2 (Nat.eqb_neq b l) Nb), andb_false_r. ring.
  - rewrite <- (T_ext (nc M) (fun _ => 0 * 0)); [rewrite T_scal; ring|]. intros q Hq. rewrite <- (T_ext N (fun _ => 0 * 0)); [rewrite T_scal; ring|]. intros b Hb.
    cbn [skron at_ nr nc unit_at]. rewrite !(Nat.add_comm (_ * _) _), !Nat.mod_add, !Nat.mod_small by lia. rewrite (proj2 (Nat.eqb_neq l a) E). cbn [andb]. ring.
Qed.
Lemma applied_madd (A B : rmat) c i : nc B = nc A -> applied (madd Rplus A B) c i = applied A c i + applied B c i.
Proof. intros E. unfold applied. cbn [madd nc at_]. rewrite E, <- T_add. apply T_ext. intros; ring. Qed.
Lemma applied_fold N C c i l : (l < N)%nat -> forall Ms a init, nc init = (C * N)%nat -> (forall M, In M Ms -> nc M = C) ->
  applied (fold_left (fun sum p => madd Rplus sum (rkron (snd p) (unit_at N (fst p)))) (combine (seq a (List.length Ms)) Ms) init) c (i * N + l)
  = applied init c (i * N + l) + if (a <=? l)%nat && (l <? a + List.length Ms)%nat then applied (nth (l - a) Ms (Mat 0 0 (fun _ _ => 0))) (fun q => c (q * N + l)%nat) i else 0.
Proof.
  intros Hl. induction Ms as [|M Ms IH]; intros a init E H; cbn [List.length seq combine fold_left].
  - replace ((a <=? l)%nat && (l <? a + 0)%nat) with false by (symmetry; apply andb_false_iff; destruct (Nat.leb_spec a l); [right; apply Nat.ltb_ge; lia|left; reflexivity]). ring.
  - cbn [fst snd]. rewrite IH; [|cbn [madd nc]; exact E|intros M' HM; apply H; right; exact HM]. rewrite applied_madd by (cbn [skron nc unit_at]; rewrite E, (H M (or_introl eq_refl)); reflexivity). rewrite applied_unit by exact Hl. rewrite Rplus_assoc. f_equal.
    destruct (Nat.eqb_spec l a) as [->|N1].
    + replace (S a <=? a)%nat with false by (symmetry; apply Nat.leb_gt; lia). rewrite Nat.leb_refl. replace (a <? a + S (List.length Ms))%nat with true by (symmetry; apply Nat.ltb_lt; lia). rewrite Nat.sub_diag. cbn [andb nth]. ring.
    + destruct (Nat.leb_spec a l) as [C1|C1].
      * replace (S a <=? l)%nat with true by (symmetry; apply Nat.leb_le; lia). replace (a + S (List.length Ms))%nat with (S a + List.length Ms)%nat by lia. replace (l - a)%nat with (S (l - S a)) by lia. cbn [nth andb]. destruct (l <? S a + List.length Ms)%nat; ring.
      * replace (S a <=? l)%nat with false by (symmetry; apply Nat.leb_gt; lia). cbn [andb]. ring.
Qed.
Lemma interleaved Ms C l M : nth_error Ms l = Some M -> (forall M, In M Ms -> nc M = C) ->
  exists I, interleave_matrices Ms = Some I /\ nc I = (C * List.length Ms)%nat /\ (forall R0, (forall M, In M Ms -> nr M = R0) -> nr I = (R0 * List.length Ms)%nat)
  /\ forall c i, applied I c (i * List.length Ms + l) = applied M (fun q => c (q * List.length Ms + l)%nat) i.
Proof.
  intros Hl H. destruct Ms as [|M0 [|M1 Ms]]; [destruct l; discriminate| |].
  - destruct l as [|[|l]]; [|discriminate..]. injection Hl as <-. exists M0. cbn [interleave_matrices List.length]. split; [reflexivity|]. split; [rewrite (H M0 (or_introl eq_refl)); lia|]. split; [intros R0 HR; rewrite (HR M0 (or_introl eq_refl)); lia|].
    intros c i. rewrite Nat.mul_1_r, Nat.add_0_r. apply applied_ext. intros j _. rewrite Nat.mul_1_r, Nat.add_0_r. reflexivity.
  - assert (LN : (l < List.length (M0 :: M1 :: Ms))%nat) by (apply nth_error_Some; congruence). set (N := List.length (M0 :: M1 :: Ms)) in *. eexists. split; [reflexivity|]. fold N.
    assert (SH : forall L init, nc (fold_left (fun sum p => madd Rplus sum (rkron (snd p) (unit_at N (fst p)))) L init) = nc init /\ nr (fold_left (fun sum p => madd Rplus sum (rkron (snd p) (unit_at N (fst p)))) L init) = nr init) by (clear; induction L as [|p L IH]; intros init; [split; reflexivity|]; cbn [fold_left]; destruct (IH (madd Rplus init (rkron (snd p) (unit_at N (fst p))))) as [A B]; rewrite A, B; split; reflexivity).
    change (fun i : nat => Mat N N _) with (unit_at N). cbn beta. change (Mat N N _) with (unit_at N 0).
    split; [|split].
    + rewrite (proj1 (SH _ _)). cbn [skron nc unit_at]. rewrite (H M0 (or_introl eq_refl)). reflexivity.
    + intros R0 HR. rewrite (proj2 (SH _ _)). cbn [skron nr unit_at]. rewrite (HR M0 (or_introl eq_refl)). reflexivity.
    + intros c i. replace (N - 1)%nat with (List.length (M1 :: Ms)) by (subst N; cbn [List.length]; lia).
      rewrite (applied_fold N C c i l LN (M1 :: Ms) 1) by (try (cbn [skron nc unit_at]; rewrite (H M0 (or_introl eq_refl)); reflexivity); intros M' HM; apply H; right; exact HM).
      rewrite applied_unit by exact LN. destruct l as [|l].
      * injection Hl as <-. cbn. ring.
      * cbn [nth_error] in Hl. cbn [Nat.eqb]. replace ((1 <=? S l)%nat && (S l <? 1 + List.length (M1 :: Ms))%nat) with true by (symmetry; apply andb_true_iff; split; [reflexivity|apply Nat.ltb_lt; subst N; cbn [List.length] in *; lia]).
        replace (S l - 1)%nat with l by lia. rewrite (nth_error_nth _ _ _ Hl). ring.
Qed.

(** ** Degrees *)
Lemma ell_list_degree group m Lmax reversed : (match group with None => (Z.abs m <= Lmax)%Z | _ => True end) ->
  List.length (ell_list group m Lmax reversed) = degrees group m Lmax /\ forall l ell, degree group m Lmax reversed l ell <-> nth_error (ell_list group m Lmax reversed) l = Some ell.
Proof.
  intros H. destruct group as [g|]; cbn [ell_list degrees degree].
  - split; [reflexivity|]. intros l ell. split; [intros [-> ->]; reflexivity|]. destruct l as [|[|l]]; cbn; intros E; try discriminate. injection E as <-. auto.
  - set (n := Z.to_nat (Lmax + 1 - Z.abs m)). set (f := fun i => (Z.abs m + Z.of_nat i)%Z). assert (Len : List.length (map f (seq 0 n)) = n) by (rewrite map_length, seq_length; reflexivity).
    assert (X : forall l ell, nth_error (map f (seq 0 n)) l = Some ell <-> (l < n)%nat /\ ell = f l).
    { intros l ell. rewrite nth_error_map. destruct (Nat.lt_ge_cases l n) as [C|C].
      - rewrite (nth_error_nth' _ 0%nat) by (rewrite seq_length; exact C). rewrite seq_nth by exact C. cbn. split; [intros E; injection E as <-; auto|intros [_ ->]; reflexivity].
      - rewrite (proj2 (nth_error_None _ _)) by (rewrite seq_length; exact C). cbn. split; [discriminate|lia]. }
    destruct reversed.
    + split; [rewrite rev_length; exact Len|]. intros l ell. destruct (Nat.lt_ge_cases l n) as [C|C].
      * rewrite (nth_error_nth' _ 0%Z) by (rewrite rev_length, Len; exact C). rewrite rev_nth, Len by (rewrite Len; exact C).
        assert (E : nth (n - S l) (map f (seq 0 n)) 0%Z = f (n - S l)%nat) by (apply nth_error_nth, X; split; [lia|reflexivity]). rewrite E. unfold f. split; [intros [E1 E2]; f_equal; lia|intros E1; injection E1 as <-; lia].
      * rewrite (proj2 (nth_error_None _ _)) by (rewrite rev_length, Len; exact C). split; [intros [E1 E2]; lia|discriminate].
    + split; [exact Len|]. intros l ell. rewrite X. unfold f. lia.
Qed.
Lemma degree_nonneg group m Lmax reversed l ell : (match group with None => (Z.abs m <= Lmax)%Z | Some g => (0 <= g)%Z end) -> degree group m Lmax reversed l ell -> (0 <= ell)%Z.
Proof. destruct group; cbn; lia. Qed.

(** ** The matrix of a subproblem *)
Definition acts_as (T : rmat) (ri ro : nat) (W : (tuple -> R) -> tuple -> R) : Prop :=
  nr T = (|ro|)%nat /\ nc T = (|ri|)%nat /\ forall c v, (forall j, (j < |ri|)%nat -> c j = v (comp ri j)) -> forall k, (k < |ro|)%nat -> applied T c k = W v (comp ro k).
Lemma block_value T ri ro W ell c x i : acts_as T ri ro W -> (forall j, (j < |ri|)%nat -> c j = x (comp ri j)) -> (i < |ro|)%nat ->
  applied (product (product (MatSolvers_Model.transpose (recombination_matrix ell ro)) T) (recombination_matrix ell ri)) c i = tsum ro (fun t => Q ell (comp ro i) t * W (spin_parts ell ri x) t).
Proof.
  intros (_ & _ & HT) Hc Hi. rewrite !applied_mmul. apply applied_QT; [exact Hi|]. intros k Hk. apply HT; [|exact Hk]. intros j Hj. rewrite spins_tsum. apply applied_Q; [exact Hj|exact Hc].
Qed.
Lemma spherical_value real T ri ro W group m Lmax reversed n_size : acts_as T ri ro W -> (match group with None => (Z.abs m <= Lmax)%Z | Some g => (0 <= g)%Z end) ->
  (forall ell x t, (0 <= ell)%Z -> tup ro t -> ~ spin_exists ell t -> W (spin_parts ell ri x) t = 0) ->
  let n := n_size (match group with None => 0%Z | Some ell => ell end) in let L := degrees group m Lmax in
  exists M, spherical_matrix real T ri ro group m Lmax reversed n_size = Some M /\ nr M = (|ro| * parts real * L * n)%nat /\ nc M = (|ri| * parts real * L * n)%nat
  /\ forall c l ell p k, degree group m Lmax reversed l ell -> (p < parts real)%nat -> (k < n)%nat ->
     forall x, stored ri (parts real) L n p l k c x -> exists y, stored ro (parts real) L n p l k (applied M c) y /\ regularity_parts ell ro (W (spin_parts ell ri x)) y.
Proof.
  intros HT Hg HW n L. destruct (ell_list_degree group m Lmax reversed) as [Len Hd]; [destruct group; [exact I|exact Hg]|]. fold L in Len.
  set (block := fun ell => product (product (MatSolvers_Model.transpose (recombination_matrix ell ro)) T) (recombination_matrix ell ri)). set (full := fun ell => if real then rkron (block ell) (unit_matrix 2) else block ell).
  assert (ES : spherical_matrix real T ri ro group m Lmax reversed n_size = option_map (fun M => rkron M (unit_matrix n)) (interleave_matrices (map full (ell_list group m Lmax reversed)))) by reflexivity. rewrite ES. clear ES.
  assert (SZ : forall ell, nr (full ell) = (|ro| * parts real)%nat /\ nc (full ell) = (|ri| * parts real)%nat).
  { intros ell. unfold full, block, recombination_matrix. destruct real; cbn [skron mmul nr nc identity MatSolvers_Model.transpose parts]; rewrite !Q_row, !map_length; lia. }
  assert (NE : exists ell, nth_error (ell_list group m Lmax reversed) 0 = Some ell).
  { assert (P : (0 < L)%nat) by (subst L; destruct group; cbn [degrees]; lia). destruct (nth_error (ell_list group m Lmax reversed) 0) as [e|] eqn:E; [exists e; reflexivity|]. apply nth_error_None in E. lia. }
  assert (INT : forall l ell, nth_error (ell_list group m Lmax reversed) l = Some ell -> exists I, interleave_matrices (map full (ell_list group m Lmax reversed)) = Some I /\ nc I = (|ri| * parts real * L)%nat /\ nr I = (|ro| * parts real * L)%nat
    /\ forall c i, applied I c (i * L + l) = applied (full ell) (fun q => c (q * L + l)%nat) i).
  { intros l ell E. destruct (interleaved (map full (ell_list group m Lmax reversed)) (|ri| * parts real) l (full ell)) as (I & E1 & E2 & E3 & E4).
    - rewrite nth_error_map, E. reflexivity.
    - intros M HM. apply in_map_iff in HM. destruct HM as (e & <- & _). apply SZ.
    - rewrite map_length, Len in E2, E3, E4. exists I. split; [exact E1|]. split; [exact E2|]. split; [|exact E4]. apply E3. intros M HM. apply in_map_iff in HM. destruct HM as (e & <- & _). apply SZ. }
  destruct NE as [e0 E0]. destruct (INT _ _ E0) as (I & EI & C1 & C2 & _). rewrite EI. cbn [option_map]. eexists. split; [reflexivity|]. cbn [skron nr nc identity]. split; [rewrite C2; reflexivity|]. split; [rewrite C1; reflexivity|].
  intros c l ell p k Hl Hp Hk x Hx. pose proof (degree_nonneg _ _ _ _ _ _ Hg Hl) as H0. apply Hd in Hl. destruct (INT _ _ Hl) as (I' & EI' & _ & _ & V). rewrite EI in EI'. injection EI' as <-.
  exists (fun r => tsum ro (fun t => Q ell r t * W (spin_parts ell ri x) t)). split; [|apply regular; [exact H0|intros t Ht Nt; apply HW; assumption]].
  intros j t Hj. assert (Lj : (j < |ro|)%nat) by (apply nth_error_Some; congruence). apply (nth_error_nth _ _ []) in Hj. subst t. unfold place. rewrite applied_kron by exact Hk. rewrite V.
  assert (Hx' : forall q, (q < |ri|)%nat -> c (((q * parts real + p) * L + l) * n + k)%nat = x (comp ri q)) by (intros q Hq; apply (Hx q); apply nth_error_nth'; exact Hq).
  unfold full. destruct real; cbn [parts] in *.
  - rewrite applied_kron by exact Hp. apply (block_value T ri ro W ell _ x); assumption.
  - assert (p = 0%nat) by lia. subst p. rewrite Nat.mul_1_r, Nat.add_0_r. apply (block_value T ri ro W ell _ x); [exact HT| |exact Lj]. intros q Hq. specialize (Hx' q Hq). rewrite Nat.mul_1_r, Nat.add_0_r in Hx'. exact Hx'.
Qed.

(** ** Traces *)
Lemma spin_trace_acts rank : acts_as (rkron (ones_at 9 [1; 3; 8]%nat) (unit_matrix (3 ^ rank))) (S (S rank)) rank contracted.
Proof.
  rewrite <- size_components. split; [cbn [skron nr ones_at identity]; lia|]. split; [cbn [skron nc ones_at identity]; rewrite !size_components; cbn [Nat.pow]; lia|]. intros c v Hc k Hk.
  pose proof (applied_kron (ones_at 9 [1; 3; 8]%nat) (|rank|) c 0 k Hk) as E. cbn [Nat.mul Nat.add] in E. rewrite E. unfold applied. cbn [ones_at nc at_ CSR_Spec.total seq fold_right existsb Nat.eqb orb].
  assert (V : forall a b, (a < 3)%nat -> (b < 3)%nat -> c ((a * 3 + b) * |rank| + k)%nat = v (nth a [(-1)%Z; 1%Z; 0%Z] 0%Z :: nth b [(-1)%Z; 1%Z; 0%Z] 0%Z :: comp rank k)).
  { intros a b Ha Hb. assert (S2 : |S rank| = (3 * |rank|)%nat) by (rewrite !size_components; reflexivity). assert (S1 : (b * |rank| + k < |S rank|)%nat) by (rewrite S2; nia). assert (S3 : |S (S rank)| = (9 * |rank|)%nat) by (rewrite !size_components; cbn [Nat.pow]; lia).
    replace ((a * 3 + b) * |rank| + k)%nat with (a * |S rank| + (b * |rank| + k))%nat by (rewrite S2; lia). rewrite Hc by (rewrite S3; rewrite S2; nia). rewrite (comp_cons (S rank) a) by assumption. rewrite (comp_cons rank b) by assumption. reflexivity. }
  pose proof (V 0%nat 1%nat ltac:(lia) ltac:(lia)) as V1. pose proof (V 1%nat 0%nat ltac:(lia) ltac:(lia)) as V2. pose proof (V 2%nat 2%nat ltac:(lia) ltac:(lia)) as V3. unfold contracted. cbn [nth] in V1, V2, V3. rewrite <- V1, <- V2, <- V3. cbn [Nat.mul Nat.add]. ring.
Qed.
Lemma contracted_absent ell rank x t : (0 <= ell)%Z -> tup rank t -> ~ spin_exists ell t -> contracted (spin_parts ell (S (S rank)) x) t = 0.
Proof.
  intros H Ht N. unfold contracted. rewrite !(spins_absent ell (S (S rank))); [ring|..]; try exact H; try (cbn [tup]; unfold three; tauto); unfold spin_exists in *; cbn [sumZ fold_right] in *; fold (sumZ t) in *; lia.
Qed.
Lemma over_repeat cs n : over cs (repeat cs n) = true.
Proof. unfold over. apply forallb_forall. intros c Hc. apply repeat_spec in Hc. subst. apply Nat.eqb_refl. Qed.

(** ** Transpositions *)
Definition tuple_of (idx : list nat) : tuple := map (fun a => nth a [(-1)%Z; 1%Z; 0%Z] 0%Z) idx.
Lemma size_three n : CSR_Spec.size (repeat 3%nat n) = |n|.
Proof. rewrite size_components. induction n as [|n IH]; cbn; [reflexivity|]. rewrite IH. lia. Qed.
Lemma comp_flat n : forall idx, in_shape (repeat 3%nat n) idx -> comp n (flat (repeat 3%nat n) idx) = tuple_of idx.
Proof.
  induction n as [|n IH]; intros idx H; cbn [repeat] in *; inversion H as [|? a ? l Ha Hl]; subst; [reflexivity|]. cbn [flat]. rewrite size_three. rewrite comp_cons; [|exact Ha|rewrite <- size_three; apply flat_lt; exact Hl]. rewrite IH by exact Hl. reflexivity.
Qed.
Lemma tuple_arrange i j idx : (i < List.length idx)%nat -> (j < List.length idx)%nat -> tuple_of (arrange (swap i j) idx) = exchange i j (tuple_of idx).
Proof.
  intros Hi Hj. unfold tuple_of, arrange, exchange. rewrite map_map, map_length. apply map_ext_in. intros k Hk. apply in_seq in Hk. unfold swap. set (q := if (k =? i)%nat then j else if (k =? j)%nat then i else k).
  assert (C : (q < List.length idx)%nat) by (unfold q; destruct (k =? i)%nat, (k =? j)%nat; lia).
  rewrite (nth_indep (map _ idx) 0%Z (nth 0 [(-1)%Z; 1%Z; 0%Z] 0%Z)) by (rewrite map_length; exact C). rewrite (map_nth (fun a => nth a [(-1)%Z; 1%Z; 0%Z] 0%Z)). reflexivity.
Qed.
Lemma exchange_perm i j t : (i < List.length t)%nat -> (j < List.length t)%nat -> Permutation (exchange i j t) t.
Proof.
  intros Hi Hj. set (n := List.length t) in *. assert (S1 : symmetric n (swap i j)) by (apply swap_symmetric; assumption).
  assert (P : Permutation (map (swap i j) (seq 0 n)) (seq 0 n)).
  { apply NoDup_Permutation_bis; [apply symmetric_nodup; exact S1|rewrite map_length; lia|]. intros k Hk. apply in_map_iff in Hk. destruct Hk as (q & <- & Hq). apply in_seq in Hq. apply in_seq. destruct (S1 q ltac:(lia)). lia. }
  apply (Permutation_map (fun k => nth k t 0%Z)) in P. rewrite map_map in P. unfold exchange. fold n. etransitivity; [exact P|].
  assert (E : map (fun k => nth k t 0%Z) (seq 0 n) = t); [|rewrite E; reflexivity]. apply (nth_ext _ _ 0%Z 0%Z); [rewrite map_length, seq_length; reflexivity|]. intros k Hk. rewrite map_length, seq_length in Hk.
  rewrite (nth_indep _ 0%Z (nth 0 t 0%Z)) by (rewrite map_length, seq_length; exact Hk). rewrite (map_nth (fun k => nth k t 0%Z)), seq_nth by exact Hk. reflexivity.
Qed.
Lemma tup_forall n t : tup n t <-> List.length t = n /\ Forall three t.
Proof. revert t. induction n as [|n IH]; intros [|x t]; cbn; split; try tauto; try (intros [? ?]; discriminate); [intros _; split; [reflexivity|constructor]|intros [A B]; apply IH in B; destruct B as [<- B]; split; [reflexivity|constructor; assumption]|intros [A B]; inversion B; subst; split; [assumption|apply IH; split; [lia|assumption]]]. Qed.
Lemma exchange_tup n i j t : (i < n)%nat -> (j < n)%nat -> tup n t -> tup n (exchange i j t).
Proof.
  intros Hi Hj H. apply tup_forall in H. destruct H as [L F]. subst n. pose proof (exchange_perm i j t Hi Hj) as P. apply tup_forall. split; [apply Permutation_length; exact P|]. rewrite Forall_forall in *. intros x Hx. apply F. apply (Permutation_in _ P). exact Hx.
Qed.
Lemma exchange_sum i j t : (i < List.length t)%nat -> (j < List.length t)%nat -> sumZ (exchange i j t) = sumZ t.
Proof.
  intros Hi Hj. pose proof (exchange_perm i j t Hi Hj) as P. revert P. generalize (exchange i j t). intros l P. clear - P. unfold sumZ. induction P; cbn; lia.
Qed.
Lemma exchanged_absent ell rank i j x t : (i < rank)%nat -> (j < rank)%nat -> (0 <= ell)%Z -> tup rank t -> ~ spin_exists ell t -> spin_parts ell rank x (exchange i j t) = 0.
Proof.
  intros Hi Hj H Ht N. apply spins_absent; [exact H|apply exchange_tup; assumption|]. pose proof (proj1 (tup_forall _ _) Ht) as [L _]. unfold spin_exists in *. rewrite exchange_sum by (rewrite L; assumption). exact N.
Qed.
Lemma comp_unravel n k : (k < |n|)%nat -> comp n k = tuple_of (unravel (repeat 3%nat n) k) /\ in_shape (repeat 3%nat n) (unravel (repeat 3%nat n) k) /\ List.length (unravel (repeat 3%nat n) k) = n.
Proof.
  intros H. assert (H' : (k < CSR_Spec.size (repeat 3%nat n))%nat) by (rewrite size_three; exact H). pose proof (unravel_in _ _ H') as I. split; [|split; [exact I|]].
  - rewrite <- (comp_flat n) by exact I. rewrite flat_unravel by exact H'. reflexivity.
  - apply Forall2_length in I. rewrite repeat_length in I. lia.
Qed.
Lemma nth_repeat_lt {A} (a d : A) n : forall k, (k < n)%nat -> nth k (repeat a n) d = a.
Proof. induction n as [|n IH]; intros k H; [lia|]. destruct k; [reflexivity|]. apply IH. lia. Qed.
Lemma map_repeat {A B} (f : A -> B) a n : map f (repeat a n) = repeat (f a) n.
Proof. induction n as [|n IH]; cbn; [reflexivity|]. rewrite IH. reflexivity. Qed.
Lemma np_exchange {B} n i j (v : list nat -> B) order dim : (i < n)%nat -> (j < n)%nat -> order = map Z.of_nat (map (swap i j) (seq 0 (n + dim))) ->
  exists b, np_transpose (firstn n order) (repeat 3%nat n, v) = Some (repeat 3%nat n, b) /\ forall idx, List.length idx = n -> b idx = v (arrange (swap i j) idx).
Proof.
  intros Hi Hj ->. rewrite !firstn_map, firstn_seq. destruct (np_arrange n (swap i j) (repeat 3%nat n) v (repeat_length _ _) (swap_symmetric n i j Hi Hj)) as (b & -> & E).
  exists b. split; [|exact E]. rewrite arrange_same; [reflexivity|rewrite ?repeat_length; assumption..|]. rewrite !nth_repeat_lt by assumption. reflexivity.
Qed.
Lemma exchange_flat n i j k : (i < n)%nat -> (j < n)%nat -> (k < |n|)%nat -> let q := flat (repeat 3%nat n) (arrange (swap i j) (unravel (repeat 3%nat n) k)) in (q < |n|)%nat /\ comp n q = exchange i j (comp n k).
Proof.
  intros Hi Hj Hk q. destruct (comp_unravel n k Hk) as (E & I & L). pose proof (arrange_in (swap i j) _ _ I) as A. rewrite repeat_length in A. specialize (A (swap_symmetric n i j Hi Hj)).
  rewrite arrange_same in A by (rewrite ?repeat_length, ?nth_repeat_lt by assumption; auto). split; [unfold q; rewrite <- size_three; apply flat_lt; exact A|]. unfold q. rewrite comp_flat by exact A. rewrite tuple_arrange by (rewrite L; assumption). rewrite <- E. reflexivity.
Qed.
Lemma index_transpose_acts cs rank i j order dim : cs_dim cs = 3%nat -> (i < rank)%nat -> (j < rank)%nat -> order = map Z.of_nat (map (swap i j) (seq 0 (rank + dim))) ->
  exists T, index_transpose 0 1 (repeat cs rank) order = Some T /\ acts_as T rank rank (fun v t => v (exchange i j t)).
Proof.
  intros H3 Hi Hj Ho. unfold index_transpose. assert (D : dims (repeat cs rank) = repeat 3%nat rank) by (unfold dims; rewrite map_repeat, H3; reflexivity). rewrite D, repeat_length.
  destruct (np_exchange rank i j (flat (repeat 3%nat rank)) order dim Hi Hj Ho) as (b & -> & E). cbn [option_map fst snd]. eexists. split; [reflexivity|]. rewrite size_three. split; [reflexivity|]. split; [reflexivity|]. intros c v Hc k Hk.
  unfold applied. cbn [nc at_]. destruct (exchange_flat rank i j k Hi Hj Hk) as [Q1 Q2]. destruct (comp_unravel rank k Hk) as (_ & _ & L). rewrite E by exact L. set (q := flat _ _) in *. rewrite (T_single _ q); [|exact Q1|].
  - rewrite Nat.eqb_refl, Hc, Q2 by exact Q1. ring.
  - intros a _ Na. rewrite (proj2 (Nat.eqb_neq a q) Na). ring.
Qed.

(** ** Evaluation of transpositions *)
Lemma map_comp {A} n (F : tuple -> A) : map (fun j => F (comp n j)) (seq 0 (|n|)) = map F (components n).
Proof.
  set (l := components n). clearbody l. induction l as [|t l IH]; [reflexivity|]. cbn [List.length seq map nth]. f_equal. rewrite <- seq_shift, map_map. exact IH.
Qed.
Lemma transposed_value {point} cs rank i j order dim (data : point -> list R) : cs_dim cs = 3%nat -> (i < rank)%nat -> (j < rank)%nat -> order = map Z.of_nat (map (swap i j) (seq 0 (rank + dim))) ->
  exists f, transposed_data (repeat cs rank) order data = Some f /\ forall x v, data x = map v (components rank) -> f x = map (fun t => v (exchange i j t)) (components rank).
Proof.
  intros H3 Hi Hj Ho. unfold transposed_data. assert (D : dims (repeat cs rank) = repeat 3%nat rank) by (unfold dims; rewrite map_repeat, H3; reflexivity). rewrite D, repeat_length.
  destruct (np_exchange rank i j (fun idx x => nth (flat (repeat 3%nat rank) idx) (data x) 0) order dim Hi Hj Ho) as (b & -> & E). cbn [option_map fst snd]. eexists. split; [reflexivity|]. intros x v Hx. rewrite size_three.
  rewrite <- map_comp. apply map_ext_in. intros k Hk. apply in_seq in Hk. destruct (comp_unravel rank k ltac:(lia)) as (_ & _ & L). rewrite E by exact L. destruct (exchange_flat rank i j k Hi Hj ltac:(lia)) as [Q1 Q2]. set (q := flat _ _) in *.
  rewrite Hx. rewrite (nth_indep _ 0 (v [])) by (rewrite map_length; exact Q1). rewrite map_nth, Q2. reflexivity.
Qed.
Lemma order_of cs rank dim i j : (i < rank)%nat -> (j < rank)%nat -> i <> j -> TransposeComponents (repeat cs rank) dim (Z.of_nat i, Z.of_nat j) = Some (map Z.of_nat (map (swap i j) (seq 0 (rank + dim)))).
Proof.
  intros Hi Hj N. rewrite (transpose_order (repeat cs rank) dim i j cs).
  - rewrite repeat_length. reflexivity.
  - rewrite nth_error_repeat by exact Hi. reflexivity.
  - rewrite nth_error_repeat by exact Hj. reflexivity.
  - exact N.
Qed.
Lemma operate_value {point} cs rank dim i j (data : point -> list R) maps : cs_dim cs = 3%nat -> (i < rank)%nat -> (j < rank)%nat -> i <> j ->
  disjoint_maps maps -> (forall m, In m maps -> (0 <= fst m)%Z) -> (forall x, List.length (data x) = |rank|) ->
  exists out, spherical_transpose_operate (repeat cs rank) dim (Z.of_nat i, Z.of_nat j) false data maps = Some out
  /\ forall m x v, In m maps -> snd m x = true -> data x = map v (components rank) ->
     exists y, out x = map y (components rank) /\ regularity_parts (fst m) rank (fun t => spin_parts (fst m) rank v (exchange i j t)) y.
Proof.
  intros H3 Hi Hj N Hd Hm Hl. unfold spherical_transpose_operate. rewrite (order_of cs rank dim i j Hi Hj N). cbn [option_bind]. assert (HD : hd_error (repeat cs rank) = Some cs) by (destruct rank; [lia|reflexivity]). rewrite HD. cbn [option_bind]. rewrite over_repeat, repeat_length.
  destruct (proj2 (proj2 (cases_ data maps)) rank) as (_ & spins & _ & E1). rewrite E1.
  destruct (transposed_value cs rank i j _ dim spins H3 Hi Hj eq_refl) as (f & E2 & V). rewrite E2. cbn [option_bind]. destruct (proj2 (proj2 (cases_ f maps)) rank) as (out & _ & E3 & _). rewrite E3. exists out. split; [reflexivity|].
  assert (R0 : (0 < rank)%nat) by lia.
  intros m x v Im X Ev. pose proof (backward_ rank data spins maps Hd Hl R0 E1 m x Im X) as B. rewrite Ev in B. rewrite combine_map_r in B. rewrite (map_ext _ (fun s => spin_parts (fst m) rank v s)) in B by (intros s; rewrite map_map; reflexivity).
  pose proof (V x _ B) as F. set (w := fun t => spin_parts (fst m) rank v (exchange i j t)) in *.
  exists (fun r => tsum rank (fun s => Q (fst m) r s * w s)). split.
  - assert (Hlf : forall x, List.length (f x) = |rank|).
    { intros x'. assert (Ls : List.length (spins x') = |rank|) by (destruct (existsb (fun m => snd m x') maps) eqn:EX; [apply existsb_exists in EX; destruct EX as (m' & I' & X'); rewrite (backward_ rank data spins maps Hd Hl R0 E1 m' x' I' X'), map_length; reflexivity|]; destruct rank as [|rk]; [lia|]; cbn in E1; injection E1 as <-; rewrite (proj2 (fold_recombine _ (S rk) maps Hd data x')); [apply Hl|]; intros m' I'; destruct (snd m' x') eqn:X'; [|reflexivity]; rewrite <- EX; symmetry; apply existsb_exists; exists m'; auto).
      destruct (as_map rank (spins x') Ls) as [v' Ev']. rewrite (V x' v' Ev'), map_length. reflexivity. }
    rewrite (forward_ rank f out maps Hd Hlf R0 E3 m x Im X), F, combine_map_r. apply map_ext. intros r. rewrite map_map. apply sum_tsum.
  - apply regular; [apply Hm; exact Im|]. intros t Ht Nt. apply exchanged_absent; auto.
Qed.
Lemma grid_value {point} cs rank dim i j (data : point -> list R) maps : cs_dim cs = 3%nat -> (i < rank)%nat -> (j < rank)%nat -> i <> j ->
  exists out, spherical_transpose_operate (repeat cs rank) dim (Z.of_nat i, Z.of_nat j) true data maps = Some out /\ forall x v, data x = map v (components rank) -> out x = map (fun t => v (exchange i j t)) (components rank).
Proof.
  intros H3 Hi Hj N. unfold spherical_transpose_operate. rewrite (order_of cs rank dim i j Hi Hj N). cbn [option_bind]. assert (HD : hd_error (repeat cs rank) = Some cs) by (destruct rank; [lia|reflexivity]). rewrite HD. cbn [option_bind]. apply (transposed_value cs rank i j _ dim data H3 Hi Hj eq_refl).
Qed.
(** Indices from the end. *)
Lemma identity_acts cs rank order : cs_dim cs = 3%nat -> firstn rank order = map Z.of_nat (seq 0 rank) -> exists T, index_transpose 0 1 (repeat cs rank) order = Some T /\ acts_as T rank rank (fun v => v).
Proof.
  intros H3 Ho. unfold index_transpose. assert (D : dims (repeat cs rank) = repeat 3%nat rank) by (unfold dims; rewrite map_repeat, H3; reflexivity). rewrite D, repeat_length, Ho.
  assert (A : forall l, arrange (fun k => k) l = l) by (intros l; apply (nth_ext _ _ 0%nat 0%nat); [apply arrange_length|]; intros k Hk; rewrite arrange_length in Hk; apply nth_arrange; exact Hk).
  pose proof (np_arrange rank (fun k => k) (repeat 3%nat rank) (flat (repeat 3%nat rank)) (repeat_length _ _)) as X. rewrite map_id in X. destruct X as (b & -> & E); [intros k Hk; auto|]. rewrite A.
  cbn [option_map fst snd]. eexists. split; [reflexivity|]. rewrite size_three. split; [reflexivity|]. split; [reflexivity|]. intros c v Hc k Hk.
  unfold applied. cbn [nc at_]. destruct (comp_unravel rank k Hk) as (_ & I0 & L). rewrite E by exact L. rewrite A, flat_unravel by (rewrite size_three; exact Hk). rewrite (T_single _ k); [|exact Hk|].
  - rewrite Nat.eqb_refl, Hc by exact Hk. ring.
  - intros a _ Na. rewrite (proj2 (Nat.eqb_neq a k) Na). ring.
Qed.
Lemma negative_order_ cs rank dim : exists order, TransposeComponents (repeat cs (S (S rank))) (S (S dim)) (-2, -1)%Z = Some order /\ firstn (S (S rank)) order = map Z.of_nat (seq 0 (S (S rank))).
Proof.
  replace (repeat cs (S (S rank))) with (repeat cs rank ++ [cs; cs]) by (change [cs; cs] with (repeat cs 2); rewrite <- repeat_app; f_equal; lia).
  eexists. split; [apply negative_order|]. rewrite repeat_length. rewrite firstn_app, map_length, seq_length. replace (S (S rank) - (rank + 2 + dim))%nat with 0%nat by lia. rewrite firstn_O, app_nil_r, firstn_map. replace (rank + 2 + dim)%nat with (S (S rank) + dim)%nat by lia. rewrite firstn_seq. reflexivity.
Qed.

(** ** Polar traces *)
Lemma polar_value cs cs' rest n : let N := (CSR_Spec.size (dims rest) * n)%nat in exists M, polar_trace (cs :: cs' :: rest) n = Some M /\ nr M = N /\ nc M = (4 * N)%nat /\ forall c r, (r < N)%nat -> applied M c r = c (flat [2; 2; N]%nat [0; 1; r]%nat) + c (flat [2; 2; N]%nat [1; 0; r]%nat).
Proof.
  intros N. cbn [polar_trace]. assert (X : forall l, fold_right Nat.mul 1%nat l = CSR_Spec.size l) by (clear; induction l as [|x l IH]; cbn; congruence). rewrite X. fold N. eexists. split; [reflexivity|]. split; [cbn [skron nr ones_at identity]; lia|]. split; [reflexivity|]. intros c r Hr.
  pose proof (applied_kron (ones_at 4 [1; 2]%nat) N c 0 r Hr) as E. rewrite Nat.mul_0_l, Nat.add_0_l in E. rewrite E. unfold applied. cbn [ones_at nc at_ CSR_Spec.total seq fold_right existsb Nat.eqb orb].
  replace (flat [2; 2; N]%nat [0; 1; r]%nat) with (1 * N + r)%nat by (cbn [flat CSR_Spec.size]; lia). replace (flat [2; 2; N]%nat [1; 0; r]%nat) with (2 * N + r)%nat by (cbn [flat CSR_Spec.size]; lia). ring.
Qed.

(** ** Spin components and coordinates *)
Lemma transformed_plus {A} (e : A -> nat -> nat -> C) ps : forall ds (z z' : list nat -> C) s, Spin_Spec.transformed e ps ds (fun t => Cplus (z t) (z' t)) s = Cplus (Spin_Spec.transformed e ps ds z s) (Spin_Spec.transformed e ps ds z' s).
Proof.
  induction ps as [|p ps IH]; intros [|d ds] z z' [|s0 s]; cbn [Spin_Spec.transformed]; try reflexivity.
  unfold CSR_Spec.total. induction (seq 0 d) as [|j l IHl]; cbn [fold_right]; [symmetry; apply Cplus_0_l|]. rewrite IHl. rewrite (IH ds (fun t => z (j :: t)) (fun t => z' (j :: t)) s). ring.
Qed.
Lemma two_roots : (RtoC (/ sqrt 2) * RtoC (/ sqrt 2) = RtoC (/ 2))%C.
Proof. rewrite <- RtoC_mult. f_equal. rewrite <- Rinv_mult. f_equal. apply sqrt_sqrt. lra. Qed.

Lemma pair_trace (h : C) (A B D E : C) : (h * h = RtoC (/ 2))%C ->
  (((- Ci * h) * ((Ci * h) * A + h * B) + h * ((Ci * h) * D + h * E)) + ((Ci * h) * ((- Ci * h) * A + h * B) + h * ((- Ci * h) * D + h * E)) = A + E)%C.
Proof.
  intros H. assert (I2 : (Ci * Ci = - RtoC 1)%C) by (apply injective_projections; cbn; ring). assert (H2 : (RtoC 2 * (h * h) = RtoC 1)%C) by (rewrite H; apply injective_projections; cbn; field).
  transitivity (- (Ci * Ci) * (RtoC 2 * (h * h)) * A + (RtoC 2 * (h * h)) * E)%C.
  - replace (RtoC 2) with (RtoC 1 + RtoC 1)%C by (apply injective_projections; cbn; ring). ring.
  - rewrite I2, H2. ring.
Qed.
Lemma spin_trace_3 ps ds z s : let c a b := Spin_Spec.spin_components (Some 0%nat :: Some 0%nat :: ps) (3%nat :: 3%nat :: ds) z (a :: b :: s) in
  Cplus (Cplus (c 0%nat 1%nat) (c 1%nat 0%nat)) (c 2%nat 2%nat) = Spin_Spec.spin_components ps ds (fun t => Cplus (Cplus (z (0 :: 0 :: t)%nat) (z (1 :: 1 :: t)%nat)) (z (2 :: 2 :: t)%nat)) s.
Proof.
  intros c. unfold c, Spin_Spec.spin_components. rewrite !transformed_plus. cbn [Spin_Spec.transformed CSR_Spec.total seq fold_right Spin_Spec.spin_entry Nat.eqb Nat.add]. set (h := (RtoC 1 / RtoC (sqrt 2))%C).
  replace (- Ci / RtoC (sqrt 2))%C with (- Ci * h)%C by (unfold h, Cdiv; ring). replace (Ci / RtoC (sqrt 2))%C with (Ci * h)%C by (unfold h, Cdiv; ring).
  assert (Hh : (h * h = RtoC (/ 2))%C) by (unfold h, Cdiv; rewrite <- RtoC_inv by (apply Rgt_not_eq, sqrt_lt_R0; lra); rewrite !Cmult_1_l; apply two_roots).
  rewrite <- (pair_trace h (Spin_Spec.transformed Spin_Spec.spin_entry ps ds (fun t => z (0 :: 0 :: t)%nat) s) (Spin_Spec.transformed Spin_Spec.spin_entry ps ds (fun t => z (0 :: 1 :: t)%nat) s) (Spin_Spec.transformed Spin_Spec.spin_entry ps ds (fun t => z (1 :: 0 :: t)%nat) s) (Spin_Spec.transformed Spin_Spec.spin_entry ps ds (fun t => z (1 :: 1 :: t)%nat) s) Hh). ring.
Qed.
Lemma spin_trace_2 ps ds z s : let c a b := Spin_Spec.spin_components (Some 0%nat :: Some 0%nat :: ps) (2%nat :: 2%nat :: ds) z (a :: b :: s) in
  Cplus (c 0%nat 1%nat) (c 1%nat 0%nat) = Spin_Spec.spin_components ps ds (fun t => Cplus (z (0 :: 0 :: t)%nat) (z (1 :: 1 :: t)%nat)) s.
Proof.
  intros c. unfold c, Spin_Spec.spin_components. rewrite !transformed_plus. cbn [Spin_Spec.transformed CSR_Spec.total seq fold_right Spin_Spec.spin_entry Nat.eqb Nat.add]. set (h := (RtoC 1 / RtoC (sqrt 2))%C).
  replace (- Ci / RtoC (sqrt 2))%C with (- Ci * h)%C by (unfold h, Cdiv; ring). replace (Ci / RtoC (sqrt 2))%C with (Ci * h)%C by (unfold h, Cdiv; ring).
  assert (Hh : (h * h = RtoC (/ 2))%C) by (unfold h, Cdiv; rewrite <- RtoC_inv by (apply Rgt_not_eq, sqrt_lt_R0; lra); rewrite !Cmult_1_l; apply two_roots).
  rewrite <- (pair_trace h (Spin_Spec.transformed Spin_Spec.spin_entry ps ds (fun t => z (0 :: 0 :: t)%nat) s) (Spin_Spec.transformed Spin_Spec.spin_entry ps ds (fun t => z (0 :: 1 :: t)%nat) s) (Spin_Spec.transformed Spin_Spec.spin_entry ps ds (fun t => z (1 :: 0 :: t)%nat) s) (Spin_Spec.transformed Spin_Spec.spin_entry ps ds (fun t => z (1 :: 1 :: t)%nat) s) Hh). ring.
Qed.
