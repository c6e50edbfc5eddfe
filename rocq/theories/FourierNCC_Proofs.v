(** Proofs about products with Fourier modes. *)
From Coq Require Import List ZArith Reals Bool Lia Lra Field Sorted.
Import ListNotations.
From Coquelicot Require Import Coquelicot.
From Verif Require MatSolvers_Proofs.
From Verif Require Import MatSolvers_Model CSR_Spec AffineCOV_Model AffineCOV_Props FourierCalc_Model FourierCalc_Spec FourierCalc_Proofs FourierCalc_Series FourierNCC_Model FourierNCC_Spec.

(** ** Intersections *)
Definition before (p q : Z * nat) : Prop := (fst p < fst q)%Z \/ fst p = fst q /\ (snd p < snd q)%nat.
Lemma insert_in p x l : In x (insert p l) <-> x = p \/ In x l.
Proof.
  induction l as [|q t IH]; cbn [insert In]; [split; intros [H|H]; auto; contradiction|].
  destruct (fst p <=? fst q)%Z; cbn [In]; [split; intros [H|H]; auto|]. rewrite IH. tauto.
Qed.
Lemma insert_sorted p l : StronglySorted before l -> (forall q, In q l -> (snd p < snd q)%nat) -> StronglySorted before (insert p l).
Proof.
  intros H. induction H as [|q t H IH Hq]; intros Hp; cbn [insert]; [repeat constructor|].
  destruct (Z.leb_spec (fst p) (fst q)) as [E|E].
  - constructor; [constructor; assumption|]. apply Forall_forall. intros x Hx. assert (Hs := Hp x Hx). destruct Hx as [<-|Hx]; [unfold before; lia|].
    rewrite Forall_forall in Hq. specialize (Hq x Hx). unfold before in *. lia.
  - constructor; [apply IH; intros x Hx; apply Hp; right; exact Hx|]. apply Forall_forall. intros x Hx. apply insert_in in Hx. destruct Hx as [->|Hx]; [left; exact E|].
    rewrite Forall_forall in Hq. apply Hq. exact Hx.
Qed.
Lemma places_spec l s : let L := fold_right insert [] (combine l (seq s (length l))) in
  StronglySorted before L /\ forall v i, In (v, i) L <-> (s <= i)%nat /\ nth_error l (i - s) = Some v.
Proof.
  revert s. induction l as [|a l IH]; intros s; cbn [length seq combine fold_right].
  - split; [constructor|]. intros v i. split; [intros []|intros [_ H]; destruct (i - s)%nat; discriminate].
  - destruct (IH (S s)) as [Hs Hi]. split.
    + apply insert_sorted; [exact Hs|]. intros [v i] H. apply Hi in H. cbn. lia.
    + intros v i. rewrite insert_in, Hi. split.
      * intros [E|[H1 H2]]; [injection E as -> ->; split; [lia|rewrite Nat.sub_diag; reflexivity]|]. split; [lia|]. replace (i - s)%nat with (S (i - S s)) by lia. exact H2.
      * intros [H1 H2]. destruct (Nat.eq_dec i s) as [->|Hne]; [rewrite Nat.sub_diag in H2; cbn in H2; injection H2 as ->; left; reflexivity|].
        right. split; [lia|]. replace (i - s)%nat with (S (i - S s)) in H2 by lia. exact H2.
Qed.
Lemma neighbours_spec L i j : StronglySorted before L ->
  In (i, j) (neighbours L) <-> exists v, In (v, i) L /\ In (v, j) L /\ (i < j)%nat /\ forall k, In (v, k) L -> ~ (i < k < j)%nat.
Proof.
  induction L as [|p [|q t] IH]; intros H.
  - split; [intros []|intros (v & [] & _)].
  - split; [intros []|]. intros (v & [H1|[]] & [H2|[]] & H3 & _). rewrite H1 in H2. injection H2 as ->. lia.
  - apply StronglySorted_inv in H. destruct H as [Ht Hp]. pose proof (StronglySorted_inv Ht) as [_ Hq]. rewrite Forall_forall in Hp, Hq. specialize (IH Ht). destruct p as [vp ip]. destruct q as [vq iq].
    change (neighbours ((vp, ip) :: (vq, iq) :: t)) with ((if (vp =? vq)%Z then ((ip, iq) :: nil) else []) ++ neighbours ((vq, iq) :: t)). rewrite in_app_iff. split.
    + intros [Hh|Hh].
      * destruct (Z.eqb_spec vp vq) as [->|]; [|destruct Hh]. destruct Hh as [E|[]]. injection E as <- <-. exists vq. split; [left; reflexivity|]. split; [right; left; reflexivity|].
        pose proof (Hp (vq, iq) ltac:(left; reflexivity)) as Hpq. unfold before in Hpq. cbn in Hpq. split; [lia|]. intros k [E|[E|Hk]] Hb; [injection E as <-; lia|injection E as <-; lia|].
        specialize (Hq _ Hk). unfold before in Hq. cbn in Hq. lia.
      * apply IH in Hh. destruct Hh as (v & H1 & H2 & H3 & H4). exists v. split; [right; exact H1|]. split; [right; exact H2|]. split; [exact H3|]. intros k [E|Hk] Hb; [|apply (H4 k Hk Hb)].
        injection E as -> ->. specialize (Hp _ H1). unfold before in Hp. cbn in Hp. lia.
    + intros (v & H1 & H2 & H3 & H4). destruct H1 as [E|H1].
      * injection E as -> ->. destruct H2 as [E|H2]; [injection E as ->; lia|]. left.
        pose proof (Hp (vq, iq) ltac:(left; reflexivity)) as Hpq. unfold before in Hpq. cbn in Hpq.
        assert (Hqj : (vq, iq) = (v, j) \/ before (vq, iq) (v, j)) by (destruct H2 as [E|H2]; [left; exact E|right; apply Hq; exact H2]).
        destruct Hqj as [E|Hqj]; [injection E as -> ->; rewrite Z.eqb_refl; left; reflexivity|]. exfalso. unfold before in Hqj. cbn in Hqj.
        assert (v = vq) as <- by lia. apply (H4 iq); [right; left; reflexivity|lia].
      * right. apply IH. destruct H2 as [E|H2]; [injection E as -> ->; specialize (Hp _ H1); unfold before in Hp; cbn in Hp; lia|].
        exists v. repeat split; try assumption. intros k Hk. apply H4. right. exact Hk.
Qed.
Lemma neighbours_nodup L : StronglySorted before L -> (forall v v' i, In (v, i) L -> In (v', i) L -> v = v') -> NoDup (neighbours L).
Proof.
  induction L as [|p [|q t] IH]; intros H Hf; [constructor|constructor|]. apply StronglySorted_inv in H. destruct H as [Ht Hp]. rewrite Forall_forall in Hp.
  change (neighbours (p :: q :: t)) with ((if (fst p =? fst q)%Z then ((snd p, snd q) :: nil) else []) ++ neighbours (q :: t)).
  assert (Hn : NoDup (neighbours (q :: t))) by (apply IH; [exact Ht|intros v v' i H1 H2; apply (Hf v v' i); right; assumption]).
  destruct (fst p =? fst q)%Z; [|exact Hn]. constructor; [|exact Hn]. intros Hh. apply (neighbours_spec _ _ _ Ht) in Hh. destruct Hh as (v & H1 & _).
  assert (v = fst p) by (apply (Hf v (fst p) (snd p)); [right; exact H1|left; destruct p; reflexivity]). subst v. replace (fst p, snd p) with p in H1 by (destruct p; reflexivity).
  specialize (Hp p H1). unfold before in Hp. lia.
Qed.
Lemma nth_error_nth_iff (l : list Z) i v : nth_error l i = Some v <-> (i < length l)%nat /\ nth i l 0%Z = v.
Proof.
  split.
  - intros H. split; [apply nth_error_Some; rewrite H; discriminate|apply nth_error_nth; exact H].
  - intros [H <-]. apply nth_error_nth'. exact H.
Qed.
Lemma nth_inj (l : list Z) i j : NoDup l -> (i < length l)%nat -> (j < length l)%nat -> nth i l 0%Z = nth j l 0%Z -> i = j.
Proof. intros H. apply (proj1 (NoDup_nth l 0%Z) H). Qed.
Lemma intersect_spec a1 a2 r c : NoDup a1 -> NoDup a2 ->
  In (r, c) (intersect1d a1 a2) <-> exists i j, r = Z.of_nat i /\ c = Z.of_nat j /\ (i < length a1)%nat /\ (j < length a2)%nat /\ nth i a1 0%Z = nth j a2 0%Z.
Proof.
  intros H1 H2. unfold intersect1d, sorted_places. destruct (places_spec (a1 ++ a2) 0) as [Hs Hi]. set (L := fold_right _ _ _) in *.
  assert (Hi' : forall v i, In (v, i) L <-> (i < length a1)%nat /\ nth i a1 0%Z = v \/ (length a1 <= i < length a1 + length a2)%nat /\ nth (i - length a1) a2 0%Z = v).
  { intros v i. rewrite Hi, Nat.sub_0_r, nth_error_nth_iff, app_length. destruct (Nat.lt_ge_cases i (length a1)) as [Hl|Hl]; [rewrite app_nth1 by exact Hl|rewrite app_nth2 by lia]; lia. }
  rewrite in_map_iff. split.
  - intros ([i j] & E & Hn). cbn [fst snd] in E. apply (neighbours_spec _ _ _ Hs) in Hn. destruct Hn as (v & Hvi & Hvj & Hij & Hb). injection E as <- <-.
    apply Hi' in Hvi. apply Hi' in Hvj. destruct Hvi as [[Ha Ea]|[Ha Ea]], Hvj as [[Hb' Eb]|[Hb' Eb]].
    + exfalso. assert (i = j) by (apply (nth_inj a1); try assumption; congruence). lia.
    + exists i, (j - length a1)%nat. split; [reflexivity|]. split; [lia|]. split; [exact Ha|]. split; [lia|congruence].
    + lia.
    + exfalso. assert (i - length a1 = j - length a1)%nat by (apply (nth_inj a2); try assumption; try lia; congruence). lia.
  - intros (i & j & -> & -> & Hia & Hja & E). exists (i, (j + length a1)%nat). cbn [fst snd]. split; [f_equal; lia|]. apply (neighbours_spec _ _ _ Hs). exists (nth i a1 0%Z).
    split; [apply Hi'; left; split; [exact Hia|reflexivity]|]. split; [apply Hi'; right; split; [lia|replace (j + length a1 - length a1)%nat with j by lia; congruence]|]. split; [lia|].
    intros k Hk Hb. apply Hi' in Hk. destruct Hk as [[Hk Ek]|[Hk Ek]].
    + assert (k = i) by (apply (nth_inj a1); assumption). lia.
    + assert (k - length a1 = j)%nat by (apply (nth_inj a2); try assumption; try lia; congruence). lia.
Qed.
Lemma intersect_nodup a1 a2 : NoDup (intersect1d a1 a2).
Proof.
  unfold intersect1d, sorted_places. destruct (places_spec (a1 ++ a2) 0) as [Hs Hi]. set (L := fold_right _ _ _) in *. apply FinFun.Injective_map_NoDup.
  - intros [i j] [i' j'] E. injection E as E1 E2. f_equal; lia.
  - apply neighbours_nodup; [exact Hs|]. intros v v' i H1 H2. apply Hi in H1. apply Hi in H2. destruct H1 as [_ H1], H2 as [_ H2]. congruence.
Qed.

(** ** Columns of matrices of entries *)
Section Field.
Context {K : Type} (k0 k1 : K) (kadd kmul ksub kdiv : K -> K -> K) (kopp kinv : K -> K).
Context (Hf : field_theory k0 k1 kadd kmul ksub kopp kdiv kinv eq).
Add Field kfield : Hf.
Notation total := (CSR_Spec.total k0 kadd).
Notation total_ext := (MatSolvers_Proofs.total_ext k0 k1 kadd kmul ksub kdiv kopp kinv Hf).
Notation total_add := (MatSolvers_Proofs.total_add k0 k1 kadd kmul ksub kdiv kopp kinv Hf).
Notation total_zero := (MatSolvers_Proofs.total_zero k0 k1 kadd kmul ksub kdiv kopp kinv Hf).
Notation total_single := (MatSolvers_Proofs.total_single k0 k1 kadd kmul ksub kdiv kopp kinv Hf).
Definition in_range (n m : nat) (e : Z * Z * K) : Prop := let '(i, j, _) := e in (0 <= i < Z.of_nat n /\ 0 <= j < Z.of_nat m)%Z.
Lemma coo_some es n m : (forall e, In e es -> in_range n m e) -> exists M, coo_matrix k0 kadd es n m = Some M /\ nr M = n /\ nc M = m
  /\ forall i j, at_ M i j = fold_right (fun e s => let '(i', j', v) := e in if (i' =? Z.of_nat i)%Z && (j' =? Z.of_nat j)%Z then kadd v s else s) k0 es.
Proof.
  intros H. unfold coo_matrix. replace (forallb _ es) with true; [eexists; split; [reflexivity|repeat split]|]. symmetry. apply forallb_forall. intros [[i j] v] He. specialize (H _ He). cbn in H.
  rewrite !Bool.andb_true_iff, !Z.leb_le, !Z.ltb_lt. lia.
Qed.
Lemma coo_none es n m e : In e es -> ~ in_range n m e -> coo_matrix k0 kadd es n m = None.
Proof.
  intros He H. unfold coo_matrix. destruct (forallb _ es) eqn:E; [|reflexivity]. exfalso. apply H. rewrite forallb_forall in E. specialize (E _ He). destruct e as [[i j] v]. cbn.
  rewrite !Bool.andb_true_iff, !Z.leb_le, !Z.ltb_lt in E. lia.
Qed.
(** The sum of a column against a function of the rows. *)
Definition column (es : list (Z * Z * K)) (c : nat) (g : nat -> K) : K :=
  fold_right (fun e s => let '(i, j, v) := e in if (j =? Z.of_nat c)%Z then kadd (kmul v (g (Z.to_nat i))) s else s) k0 es.
Lemma column_cons i j v es c g : column ((i, j, v) :: es) c g = if (j =? Z.of_nat c)%Z then kadd (kmul v (g (Z.to_nat i))) (column es c g) else column es c g.
Proof. reflexivity. Qed.
Lemma column_total es n m c g : (forall e, In e es -> in_range n m e) ->
  total n (fun r => kmul (fold_right (fun e s => let '(i', j', v) := e in if (i' =? Z.of_nat r)%Z && (j' =? Z.of_nat c)%Z then kadd v s else s) k0 es) (g r)) = column es c g.
Proof.
  induction es as [|[[i j] v] es IH]; intros H.
  - apply total_zero. intros. cbn. ring.
  - rewrite column_cons. cbn [fold_right]. rewrite <- IH by (intros e He; apply H; right; exact He). pose proof (H (i, j, v) ltac:(left; reflexivity)) as Hr. cbn in Hr. destruct (Z.eqb_spec j (Z.of_nat c)) as [Ej|Ej].
    + assert (E : kmul v (g (Z.to_nat i)) = total n (fun r => if (i =? Z.of_nat r)%Z then kmul v (g r) else k0)).
      { rewrite (total_single n (Z.to_nat i)); [rewrite Z2Nat.id, Z.eqb_refl by lia; reflexivity|lia|].
        intros r Hr' Hne. replace (i =? Z.of_nat r)%Z with false by (symmetry; apply Z.eqb_neq; lia). reflexivity. }
      rewrite E, <- total_add. apply total_ext. intros r Hr'. rewrite Bool.andb_true_r. destruct (i =? Z.of_nat r)%Z; ring.
    + apply total_ext. intros r Hr'. rewrite Bool.andb_false_r. reflexivity.
Qed.
Lemma column_app es es' c g : column (es ++ es') c g = kadd (column es c g) (column es' c g).
Proof. induction es as [|[[i j] v] es IH]; [change (column [] c g) with k0; cbn [app]; ring|]. cbn [app]. rewrite !column_cons, IH. destruct (j =? Z.of_nat c)%Z; ring. Qed.
Lemma column_other rowf colf (v : K) l c g : (forall p, In p l -> colf (snd p) <> Z.of_nat c) -> column (entries rowf colf v l) c g = k0.
Proof.
  induction l as [|p l IH]; intros H; [reflexivity|]. change (entries rowf colf v (p :: l)) with ((rowf (fst p), colf (snd p), v) :: entries rowf colf v l). rewrite column_cons. replace (colf (snd p) =? Z.of_nat c)%Z with false by (symmetry; apply Z.eqb_neq, H; left; reflexivity).
  apply IH. intros q Hq. apply H. right. exact Hq.
Qed.
Lemma column_once rowf colf (v : K) l c g i n : NoDup l -> In (i, n) l -> (forall i', In (i', n) l -> i' = i) -> (forall n', colf n' = Z.of_nat c <-> n' = n) ->
  column (entries rowf colf v l) c g = kmul v (g (Z.to_nat (rowf i))).
Proof.
  induction l as [|p l IH]; intros Hn Hin Hu Hc; [destruct Hin|]. change (entries rowf colf v (p :: l)) with ((rowf (fst p), colf (snd p), v) :: entries rowf colf v l). rewrite column_cons. inversion Hn as [|? ? Hp Hn']; subst. destruct Hin as [->|Hin].
  - cbn [fst snd]. rewrite (proj2 (Hc n) eq_refl), Z.eqb_refl. rewrite column_other; [ring|]. intros [i' n'] Hq E. cbn in E. apply Hc in E. subst n'. assert (i' = i) by (apply Hu; right; exact Hq). subst i'. contradiction.
  - replace (colf (snd p) =? Z.of_nat c)%Z with false; [apply IH; try assumption; intros i' Hi'; apply Hu; right; exact Hi'|]. symmetry. apply Z.eqb_neq. intros E. apply Hc in E. destruct p as [i' n']. cbn in E. subst n'.
    assert (i' = i) by (apply Hu; left; reflexivity). subst i'. contradiction.
Qed.
Lemma column_intersect rowf colf (v : K) a1 a2 c g n (G : Z -> K) : NoDup a1 -> NoDup a2 -> (n < length a2)%nat -> (forall n', colf n' = Z.of_nat c <-> n' = Z.of_nat n) ->
  (forall i, (i < length a1)%nat -> g (Z.to_nat (rowf (Z.of_nat i))) = G (nth i a1 0%Z)) ->
  column (entries rowf colf v (intersect1d a1 a2)) c g = if in_dec Z.eq_dec (nth n a2 0%Z) a1 then kmul v (G (nth n a2 0%Z)) else k0.
Proof.
  intros H1 H2 Hn Hc HG. destruct (in_dec Z.eq_dec (nth n a2 0%Z) a1) as [Hin|Hout].
  - destruct (In_nth _ _ 0%Z Hin) as (i & Hi & Ei). rewrite <- Ei, <- HG by exact Hi. apply (column_once rowf colf v (intersect1d a1 a2) c g (Z.of_nat i) (Z.of_nat n)).
    + apply intersect_nodup.
    + apply intersect_spec; try assumption. exists i, n. auto.
    + intros i' Hi'. apply intersect_spec in Hi'; try assumption. destruct Hi' as (i1 & j1 & -> & Ej & Hi1 & Hj1 & E). apply Nat2Z.inj in Ej. subst j1. f_equal. apply (nth_inj a1); try assumption. congruence.
    + exact Hc.
  - apply column_other. intros [i' n'] Hq E. cbn in E. apply Hc in E. subst n'. apply intersect_spec in Hq; try assumption. destruct Hq as (i1 & j1 & -> & Ej & Hi1 & Hj1 & E). apply Nat2Z.inj in Ej. subst j1.
    apply Hout. rewrite <- E. apply nth_In. exact Hi1.
Qed.
End Field.

(** ** Mode numbers *)
Lemma Int_part_IZR z : Int_part (IZR z) = z.
Proof.
  destruct (base_Int_part (IZR z)) as [H1 H2]. apply le_IZR in H1. assert (H3 : IZR z < IZR (Int_part (IZR z) + 1)) by (rewrite plus_IZR; lra). apply lt_IZR in H3. lia.
Qed.
Lemma np_round_IZR z : np_round (IZR z) = z.
Proof. unfold np_round. rewrite Int_part_IZR. destruct (Rlt_dec _ _) as [_|H]; [reflexivity|]. exfalso. apply H. lra. Qed.
Lemma mode_numbers_of c ks : stretch c <> 0 -> mode_numbers (IZR 1 / stretch c) (wavenumbers c ks) = ks.
Proof.
  intros H. unfold mode_numbers, wavenumbers. rewrite map_map. rewrite <- (map_id ks) at 2. apply map_ext. intros k. replace (IZR k / stretch c / (IZR 1 / stretch c))%R with (IZR k) by (field; exact H). apply np_round_IZR.
Qed.
Lemma wavenumbers_nth c ks i : (i < length ks)%nat -> nth_error (wavenumbers c ks) i = Some (IZR (nth i ks 0%Z) / stretch c)%R.
Proof. intros H. unfold wavenumbers. rewrite nth_error_map, (nth_error_nth' ks 0%Z H). reflexivity. Qed.
Lemma evens_repeat2 {A} (l : list A) : evens (repeat2 l) = l.
Proof. induction l as [|a l IH]; [reflexivity|]. change (repeat2 (a :: l)) with (a :: a :: repeat2 l). cbn [evens]. rewrite IH. reflexivity. Qed.
Lemma evens_tail {A} (l : list A) : evens (skipn 2 (repeat2 l)) = tl l.
Proof. destruct l as [|a l]; [reflexivity|]. change (repeat2 (a :: l)) with (a :: a :: repeat2 l). cbn [skipn tl]. apply evens_repeat2. Qed.

(** ** Truncations *)
Local Open Scope R_scope.
Notation Ctotal_add := (MatSolvers_Proofs.total_add (RtoC 0) (RtoC 1) Cplus Cmult Cminus Cdiv Copp Cinv Cf).
Notation Ctotal_sub := (MatSolvers_Proofs.total_sub (RtoC 0) (RtoC 1) Cplus Cmult Cminus Cdiv Copp Cinv Cf).
Notation Ctotal_swap := (MatSolvers_Proofs.total_swap (RtoC 0) (RtoC 1) Cplus Cmult Cminus Cdiv Copp Cinv Cf).
Notation Ctotal_mul_l := (MatSolvers_Proofs.total_mul_l (RtoC 0) (RtoC 1) Cplus Cmult Cminus Cdiv Copp Cinv Cf).
Notation Ctotal_mul_r := (MatSolvers_Proofs.total_mul_r (RtoC 0) (RtoC 1) Cplus Cmult Cminus Cdiv Copp Cinv Cf).
Notation Rtotal_sub := (MatSolvers_Proofs.total_sub 0 1 Rplus Rmult Rminus Rdiv Ropp Rinv Rf).
Notation Rtotal_swap := (MatSolvers_Proofs.total_swap 0 1 Rplus Rmult Rminus Rdiv Ropp Rinv Rf).
Notation Rtotal_mul_l := (MatSolvers_Proofs.total_mul_l 0 1 Rplus Rmult Rminus Rdiv Ropp Rinv Rf).
Notation Rtotal_mul_r := (MatSolvers_Proofs.total_mul_r 0 1 Rplus Rmult Rminus Rdiv Ropp Rinv Rf).
Section Interval.
Context (l r : R).
Lemma phase_add k k' x : phase l r (k + k') x = phase l r k x + phase l r k' x.
Proof. unfold phase. rewrite plus_IZR. unfold Rdiv. ring. Qed.
Lemma phase_sub k k' x : phase l r (k - k') x = phase l r k x - phase l r k' x.
Proof. unfold phase. rewrite minus_IZR. unfold Rdiv. ring. Qed.
Lemma mode_product k k' x : (complex_mode l r k x * complex_mode l r k' x = complex_mode l r (k' + k) x)%C.
Proof. unfold complex_mode. rewrite phase_add, cos_plus, sin_plus. unfold Cmult. cbn. f_equal; ring. Qed.
Lemma c_outside_ext ks f g : (forall x, f x = g x) -> complex_outside l r ks f -> complex_outside l r ks g.
Proof. intros E (rest & H1 & H2). exists rest. split; [exact H1|]. intros x. rewrite <- E. apply H2. Qed.
Lemma c_outside_zero ks : complex_outside l r ks (fun _ => RtoC 0).
Proof. exists []. split; [intros k v []|reflexivity]. Qed.
Lemma c_outside_mode ks k v : ~ In k ks -> complex_outside l r ks (fun x => v * complex_mode l r k x)%C.
Proof. intros H. exists ((k, v) :: nil). split; [intros k' v' [E|[]]; injection E as <- <-; exact H|]. intros x. cbn [fold_right fst snd]. rewrite Cplus_0_r. reflexivity. Qed.
Lemma c_outside_add ks f g : complex_outside l r ks f -> complex_outside l r ks g -> complex_outside l r ks (fun x => f x + g x)%C.
Proof.
  intros (r1 & A1 & B1) (r2 & A2 & B2). exists (r1 ++ r2). split; [intros k v H; apply in_app_iff in H; destruct H; eauto|]. intros x. rewrite B1, B2, fold_right_app.
  generalize (fold_right (fun t s => snd t * complex_mode l r (fst t) x + s)%C (RtoC 0) r2) as w. intros w. clear. induction r1 as [|t r1 IH]; cbn [fold_right]; [apply Cplus_0_l|]. rewrite <- IH. ring.
Qed.
Lemma c_outside_scale ks f a : complex_outside l r ks f -> complex_outside l r ks (fun x => a * f x)%C.
Proof.
  intros (r1 & A1 & B1). exists (map (fun t => (fst t, a * snd t)%C) r1). split; [intros k v H; apply in_map_iff in H; destruct H as ([k' v'] & E & H); injection E as <- _; apply (A1 _ _ H)|].
  intros x. rewrite B1. clear. induction r1 as [|t r1 IH]; cbn [fold_right map]; [apply Cmult_0_r|]. rewrite <- IH. cbn [fst snd]. ring.
Qed.
Lemma c_outside_total ks n (f : nat -> R -> C) : (forall j, (j < n)%nat -> complex_outside l r ks (f j)) -> complex_outside l r ks (fun x => Ctotal n (fun j => f j x)).
Proof.
  induction n as [|n IH]; intros H; [apply c_outside_zero|]. apply c_outside_ext with (fun x => Ctotal n (fun j => f j x) + f n x)%C; [intros x; rewrite Ctotal_S; reflexivity|].
  apply c_outside_add; [apply IH; intros; apply H; lia|apply H; lia].
Qed.
Lemma c_columns ks M (f : R -> C) (h : nat -> R -> C) u : nr M = length ks ->
  (forall x, f x = Ctotal (nc M) (fun n => u n * h n x)%C) ->
  (forall n, (n < nc M)%nat -> complex_outside l r ks (fun x => h n x - Ctotal (length ks) (fun j => at_ M j n * complex_mode l r (nth j ks 0%Z) x))%C) ->
  complex_truncation l r ks f (matvec (RtoC 0) Cplus Cmult M u).
Proof.
  intros Hr Hf Hn. unfold complex_truncation.
  apply c_outside_ext with (fun x => Ctotal (nc M) (fun n => u n * (h n x - Ctotal (length ks) (fun j => at_ M j n * complex_mode l r (nth j ks 0%Z) x)))%C).
  - intros x. rewrite Hf. rewrite (Ctotal_ext (nc M) _ (fun n => u n * h n x - u n * Ctotal (length ks) (fun j => at_ M j n * complex_mode l r (nth j ks 0%Z) x))%C) by (intros; ring). rewrite Ctotal_sub. f_equal.
    unfold complex_series. rewrite (Ctotal_ext (nc M) _ (fun n => Ctotal (length ks) (fun j => u n * (at_ M j n * complex_mode l r (nth j ks 0%Z) x))%C)) by (intros; rewrite Ctotal_mul_l; reflexivity).
    rewrite Ctotal_swap. apply Ctotal_ext. intros j Hj. unfold matvec. change (msum (RtoC 0) Cplus) with Ctotal. rewrite <- Ctotal_mul_r. apply Ctotal_ext. intros. ring.
  - apply c_outside_total. intros n H. apply c_outside_scale, Hn. exact H.
Qed.

Lemma r_outside_ext ks f g : (forall x, f x = g x) -> real_outside l r ks f -> real_outside l r ks g.
Proof. intros E (rest & H1 & H2). exists rest. split; [exact H1|]. intros x. rewrite <- E. apply H2. Qed.
Lemma r_outside_zero ks : real_outside l r ks (fun _ => 0).
Proof. exists []. split; [intros k a b []|reflexivity]. Qed.
Lemma r_outside_mode ks k a b : (0 <= k)%Z -> ~ In k ks -> real_outside l r ks (fun x => a * cos (phase l r k x) + b * sin (phase l r k x)).
Proof. intros Hk H. exists ((k, a, b) :: nil). split; [intros k' a' b' [E|[]]; injection E as <- <- <-; split; assumption|]. intros x. cbn [fold_right]. ring. Qed.
Lemma r_outside_add ks f g : real_outside l r ks f -> real_outside l r ks g -> real_outside l r ks (fun x => f x + g x).
Proof.
  intros (r1 & A1 & B1) (r2 & A2 & B2). exists (r1 ++ r2). split; [intros k a b H; apply in_app_iff in H; destruct H; eauto|]. intros x. rewrite B1, B2, fold_right_app.
  match goal with |- _ + ?w = _ => generalize w end. intros w. clear. induction r1 as [|[[k a] b] r1 IH]; cbn [fold_right]; [ring|]. rewrite <- IH. ring.
Qed.
Lemma r_outside_scale ks f a : real_outside l r ks f -> real_outside l r ks (fun x => a * f x).
Proof.
  intros (r1 & A1 & B1). exists (map (fun t => let '(k, p, q) := t in (k, a * p, a * q)) r1). split; [intros k p q H; apply in_map_iff in H; destruct H as ([[k' p'] q'] & E & H); injection E as <- _ _; apply (A1 _ _ _ H)|].
  intros x. rewrite B1. clear. induction r1 as [|[[k p] q] r1 IH]; cbn [fold_right map]; [ring|]. rewrite <- IH. ring.
Qed.
Lemma r_outside_total ks n (f : nat -> R -> R) : (forall j, (j < n)%nat -> real_outside l r ks (f j)) -> real_outside l r ks (fun x => Rtotal n (fun j => f j x)).
Proof.
  induction n as [|n IH]; intros H; [apply r_outside_zero|]. apply r_outside_ext with (fun x => Rtotal n (fun j => f j x) + f n x); [intros x; rewrite Rtotal_S; reflexivity|].
  apply r_outside_add; [apply IH; intros; apply H; lia|apply H; lia].
Qed.
Lemma r_columns ks M (f : R -> R) (h : nat -> R -> R) u : nr M = length ks ->
  (forall x, f x = Rtotal (nc M) (fun n => u n * h n x)) ->
  (forall n, (n < nc M)%nat -> real_outside l r ks (fun x => h n x - Rtotal (length ks) (fun j => at_ M j n * real_mode l r (nth j ks 0%Z) j x))) ->
  real_truncation l r ks f (matvec 0 Rplus Rmult M u).
Proof.
  intros Hr Hf Hn. unfold real_truncation.
  apply r_outside_ext with (fun x => Rtotal (nc M) (fun n => u n * (h n x - Rtotal (length ks) (fun j => at_ M j n * real_mode l r (nth j ks 0%Z) j x)))).
  - intros x. rewrite Hf. rewrite (Rtotal_ext (nc M) _ (fun n => u n * h n x - u n * Rtotal (length ks) (fun j => at_ M j n * real_mode l r (nth j ks 0%Z) j x))) by (intros; ring). rewrite Rtotal_sub. f_equal.
    unfold real_series. rewrite (Rtotal_ext (nc M) _ (fun n => Rtotal (length ks) (fun j => u n * (at_ M j n * real_mode l r (nth j ks 0%Z) j x)))) by (intros; rewrite Rtotal_mul_l; reflexivity).
    rewrite Rtotal_swap. apply Rtotal_ext. intros j Hj. unfold matvec. change (msum 0 Rplus) with Rtotal. rewrite <- Rtotal_mul_r. apply Rtotal_ext. intros. ring.
  - apply r_outside_total. intros n H. apply r_outside_scale, Hn. exact H.
Qed.
(** A wave of one wavenumber, and what a basis keeps of it. *)
Definition wave (k : Z) (a b x : R) : R := a * cos (phase l r k x) + b * sin (phase l r k x).
Definition kept (ps : list Z) (k : Z) (a b x : R) : R := if in_dec Z.eq_dec k ps then wave k a b x else 0.
Lemma dropped ps ks k a b : (forall k, In k ks <-> In k ps) -> (0 <= k)%Z -> real_outside l r ks (fun x => wave k a b x - kept ps k a b x).
Proof.
  intros Hi Hk. unfold kept. destruct (in_dec Z.eq_dec k ps) as [H|H].
  - apply r_outside_ext with (fun _ => 0); [intros; ring|apply r_outside_zero].
  - apply r_outside_ext with (fun x => wave k a b x); [intros; ring|]. apply r_outside_mode; [exact Hk|]. rewrite Hi. exact H.
Qed.
End Interval.

(** ** Real entries *)
Definition real_entries (cosine : bool) (m : Z) (po pa : list Z) : list (Z * Z * R) :=
  let p := intersect1d po (map (fun a => (m + a)%Z) pa) in
  let q := intersect1d po (map (fun a => (m - a)%Z) pa) in
  let mn := map (fun e => (fst e + 1, snd e)%Z) (intersect1d (tl po) (map (fun a => (a - m)%Z) pa)) in
  let c := fun n => (2 * n)%Z in
  let s := fun n => (2 * n + 1)%Z in
  if cosine then entries c c (1 / 2) p ++ entries c c (1 / 2) q ++ entries c c (1 / 2) mn ++ entries s s (1 / 2) p ++ entries s s (- (1 / 2)) q ++ entries s s (1 / 2) mn
  else entries s c (1 / 2) p ++ entries s c (1 / 2) q ++ entries s c (- (1 / 2)) mn ++ entries c s (- (1 / 2)) p ++ entries c s (1 / 2) q ++ entries c s (1 / 2) mn.
Lemma entries_shift (rowf colf : Z -> Z) (v : R) L : entries rowf colf v (map (fun e => (fst e + 1, snd e)%Z) L) = entries (fun z => rowf (z + 1)%Z) colf v L.
Proof. unfold entries. rewrite map_map. reflexivity. Qed.
Lemma shifted_nodup (f : Z -> Z) pa : (forall a b, f a = f b -> a = b) -> NoDup pa -> NoDup (map f pa).
Proof. intros Hi H. apply FinFun.Injective_map_NoDup; assumption. Qed.
Lemma map_nth_lt (f : Z -> Z) pa n : (n < length pa)%nat -> nth n (map f pa) 0%Z = f (nth n pa 0%Z).
Proof. intros H. rewrite (nth_indep _ 0%Z (f 0%Z)) by (rewrite map_length; exact H). apply map_nth. Qed.
Lemma nth_tl (po : list Z) i : nth i (tl po) 0%Z = nth (S i) po 0%Z.
Proof. destruct po; [destruct i; reflexivity|reflexivity]. Qed.
Lemma nodup_tl (po : list Z) : NoDup po -> NoDup (tl po).
Proof. intros H. destruct H; [constructor|assumption]. Qed.
Lemma entries_range rowf colf (v : R) a1 a2 n m : NoDup a1 -> NoDup a2 ->
  (forall i, (i < length a1)%nat -> (0 <= rowf (Z.of_nat i) < Z.of_nat n)%Z) -> (forall j, (j < length a2)%nat -> (0 <= colf (Z.of_nat j) < Z.of_nat m)%Z) ->
  forall e, In e (entries rowf colf v (intersect1d a1 a2)) -> in_range n m e.
Proof.
  intros H1 H2 Hr Hc e He. apply in_map_iff in He. destruct He as ([i j] & <- & Hij). apply intersect_spec in Hij; try assumption. destruct Hij as (i1 & j1 & -> & -> & Hi & Hj & _). cbn. split; [apply Hr|apply Hc]; assumption.
Qed.
Lemma real_range cosine m po pa : NoDup po -> NoDup pa -> forall e, In e (real_entries cosine m po pa) -> in_range (2 * length po) (2 * length pa) e.
Proof.
  intros Ho Ha e He.
  assert (Hp : NoDup (map (fun a => (m + a)%Z) pa)) by (apply shifted_nodup; [intros; lia|exact Ha]).
  assert (Hq : NoDup (map (fun a => (m - a)%Z) pa)) by (apply shifted_nodup; [intros; lia|exact Ha]).
  assert (Hm : NoDup (map (fun a => (a - m)%Z) pa)) by (apply shifted_nodup; [intros; lia|exact Ha]).
  assert (Ht : (length (tl po) < length po \/ length po = 0 /\ length (tl po) = 0)%nat) by (destruct po; cbn; lia).
  unfold real_entries in He. rewrite !entries_shift in He.
  destruct cosine; rewrite !in_app_iff in He; repeat (destruct He as [He|He]; [eapply entries_range in He; [exact He|try assumption; apply nodup_tl; assumption|assumption|intros; cbv beta; lia|rewrite map_length; intros; cbv beta; lia]|]);
    (eapply entries_range in He; [exact He|try assumption; apply nodup_tl; assumption|assumption|intros; cbv beta; lia|rewrite map_length; intros; cbv beta; lia]).
Qed.
Notation Rcolumn := (column 0 Rplus Rmult).
Notation Rcolumn_app := (column_app 0 1 Rplus Rmult Rminus Rdiv Ropp Rinv Rf).
Notation Rcolumn_intersect := (column_intersect 0 1 Rplus Rmult Rminus Rdiv Ropp Rinv Rf).
Notation Rcolumn_other := (column_other 0 Rplus Rmult).
Lemma tl_length (po : list Z) : length (tl po) = (length po - 1)%nat.
Proof. destruct po; cbn; lia. Qed.
(** The two ways to get the difference of wavenumbers. *)
Lemma difference_of (m k : Z) po (v w : R) : NoDup po -> nth 0 po 0%Z = 0%Z -> (forall k, In k po -> (0 <= k)%Z) ->
  (if in_dec Z.eq_dec (m - k)%Z po then v else 0) + (if in_dec Z.eq_dec (k - m)%Z (tl po) then w else 0)
  = if in_dec Z.eq_dec (Z.abs (m - k)) po then (if (k <=? m)%Z then v else w) else 0.
Proof.
  intros Ho H0 Hpos.
  destruct (Z.leb_spec k m) as [H|H].
  - destruct (in_dec Z.eq_dec (k - m)%Z (tl po)) as [Hin|_].
    + exfalso. destruct po as [|p0 t]; [destruct Hin|]. cbn in H0, Hin. subst p0. assert (k - m = 0)%Z as E by (specialize (Hpos (k - m)%Z ltac:(right; exact Hin)); lia). rewrite E in Hin. inversion Ho. contradiction.
    + rewrite Z.abs_eq by lia. destruct (in_dec Z.eq_dec (m - k)%Z po); ring.
  - destruct (in_dec Z.eq_dec (m - k)%Z po) as [Hin|_]; [specialize (Hpos _ Hin); lia|]. replace (Z.abs (m - k)) with (k - m)%Z by lia.
    destruct (in_dec Z.eq_dec (k - m)%Z (tl po)) as [Hin|Hout]; destruct (in_dec Z.eq_dec (k - m)%Z po) as [Hin'|Hout']; try ring; exfalso.
    + apply Hout'. destruct po; [destruct Hin|right; exact Hin].
    + apply Hout. destruct po as [|p0 t]; [destruct Hin'|]. cbn in H0. subst p0. destruct Hin' as [E|Hin']; [lia|exact Hin'].
Qed.
Section Column.
Context (l r x : R) (m : Z) (po pa : list Z) (n : nat) (Ho : NoDup po) (Ha : NoDup pa) (H0 : nth 0 po 0%Z = 0%Z) (Hpos : forall k, In k po -> (0 <= k)%Z) (Hn : (n < length pa)%nat).
Let g : nat -> R := fun j => real_mode l r (nth j (repeat2 po) 0%Z) j x.
Let k := nth n pa 0%Z.
Definition fits (rowf : Z -> Z) (a1 : list Z) (G : Z -> R) : Prop := forall i, (i < length a1)%nat -> g (Z.to_nat (rowf (Z.of_nat i))) = G (nth i a1 0%Z).
Lemma fits_c : fits (fun n => (2 * n)%Z) po (fun k => cos (phase l r k x)).
Proof.
  intros i Hi. cbv beta. unfold g. replace (Z.to_nat (2 * Z.of_nat i)) with (2 * i + 0)%nat by lia. rewrite repeat2_nth. unfold real_mode. destruct (even_pair i) as [-> _].
  replace ((2 * i + 0) / 2)%nat with i by (rewrite Nat.add_0_r, Nat.mul_comm, Nat.div_mul by lia; reflexivity). reflexivity.
Qed.
Lemma fits_s : fits (fun n => (2 * n + 1)%Z) po (fun k => - sin (phase l r k x)).
Proof.
  intros i Hi. cbv beta. unfold g. replace (Z.to_nat (2 * Z.of_nat i + 1)) with (2 * i + 1)%nat by lia. rewrite repeat2_nth. unfold real_mode. destruct (even_pair i) as [_ ->].
  replace ((2 * i + 1) / 2)%nat with i by (rewrite Nat.mul_comm, Nat.div_add_l by lia; cbn; lia). reflexivity.
Qed.
Lemma fits_tl rowf G : fits rowf po G -> fits (fun z => rowf (z + 1)%Z) (tl po) G.
Proof.
  intros H i Hi. cbv beta. replace (Z.of_nat i + 1)%Z with (Z.of_nat (S i)) by lia. rewrite nth_tl. apply H. rewrite tl_length in Hi. lia.
Qed.
Lemma column_p rowf colf v G c : fits rowf po G -> (forall n', colf n' = Z.of_nat c <-> n' = Z.of_nat n) ->
  Rcolumn (entries rowf colf v (intersect1d po (map (fun a => (m + a)%Z) pa))) c g = if in_dec Z.eq_dec (m + k)%Z po then v * G (m + k)%Z else 0.
Proof.
  intros HG Hc. rewrite (Rcolumn_intersect rowf colf v po _ c g n G); try assumption.
  - rewrite map_nth_lt by exact Hn. reflexivity.
  - apply shifted_nodup; [intros; lia|exact Ha].
  - rewrite map_length. exact Hn.
Qed.
Lemma column_m rowf colf v G c : fits rowf po G -> (forall n', colf n' = Z.of_nat c <-> n' = Z.of_nat n) ->
  Rcolumn (entries rowf colf v (intersect1d po (map (fun a => (m - a)%Z) pa))) c g = if in_dec Z.eq_dec (m - k)%Z po then v * G (m - k)%Z else 0.
Proof.
  intros HG Hc. rewrite (Rcolumn_intersect rowf colf v po _ c g n G); try assumption.
  - rewrite map_nth_lt by exact Hn. reflexivity.
  - apply shifted_nodup; [intros; lia|exact Ha].
  - rewrite map_length. exact Hn.
Qed.
Lemma column_mn rowf colf v G c : fits rowf po G -> (forall n', colf n' = Z.of_nat c <-> n' = Z.of_nat n) ->
  Rcolumn (entries rowf colf v (map (fun e => (fst e + 1, snd e)%Z) (intersect1d (tl po) (map (fun a => (a - m)%Z) pa)))) c g = if in_dec Z.eq_dec (k - m)%Z (tl po) then v * G (k - m)%Z else 0.
Proof.
  intros HG Hc. rewrite entries_shift. rewrite (Rcolumn_intersect _ colf v (tl po) _ c g n G); try assumption.
  - rewrite map_nth_lt by exact Hn. reflexivity.
  - apply nodup_tl. exact Ho.
  - apply shifted_nodup; [intros; lia|exact Ha].
  - rewrite map_length. exact Hn.
  - apply fits_tl. exact HG.
Qed.
Lemma other_parity (colf : Z -> Z) rowf v L c : (forall n', colf n' <> Z.of_nat c) -> Rcolumn (entries rowf colf v L) c g = 0.
Proof. intros H. apply Rcolumn_other. intros p _. apply H. Qed.
Lemma trig_c : cos (phase l r (Z.abs (m - k)) x) = cos (phase l r m x) * cos (phase l r k x) + sin (phase l r m x) * sin (phase l r k x).
Proof.
  destruct (Z.abs_spec (m - k)) as [[_ ->]|[_ ->]]; [rewrite phase_sub, cos_minus; ring|]. replace (- (m - k))%Z with (k - m)%Z by lia. rewrite phase_sub, cos_minus. ring.
Qed.
Lemma trig_s : sin (phase l r (Z.abs (m - k)) x) = (if (k <=? m)%Z then 1 else -1) * (sin (phase l r m x) * cos (phase l r k x) - cos (phase l r m x) * sin (phase l r k x)).
Proof.
  destruct (Z.leb_spec k m) as [H|H]; [rewrite Z.abs_eq by lia; rewrite phase_sub, sin_minus; ring|]. replace (Z.abs (m - k)) with (k - m)%Z by lia. rewrite phase_sub, sin_minus. ring.
Qed.
Definition sg : R := if (k <=? m)%Z then 1 else -1.
Lemma sg2 : sg * sg = 1. Proof. unfold sg. destruct (k <=? m)%Z; ring. Qed.
(** Products of modes are two waves, and the columns of the matrices keep what the basis holds. *)
Lemma real_column (cosine c_even : bool) : let i := if cosine then 0%nat else 1%nat in let c := (2 * n + if c_even then 0 else 1)%nat in
  let '(a, b, a', b') := match cosine, c_even with true, true => (1 / 2, 0, 1 / 2, 0) | true, false => (0, - (1 / 2), 0, sg / 2) | false, true => (0, - (1 / 2), 0, - sg / 2) | false, false => (- (1 / 2), 0, 1 / 2, 0) end in
  real_mode l r m i x * real_mode l r k c x = wave l r (m + k) a b x + wave l r (Z.abs (m - k)) a' b' x
  /\ Rcolumn (real_entries cosine m po pa) c g = kept l r po (m + k) a b x + kept l r po (Z.abs (m - k)) a' b' x.
Proof.
  pose proof fits_c as Fc. pose proof fits_s as Fs. pose proof sg2 as S2. destruct (even_pair n) as [E0 E1].
  destruct cosine, c_even; cbv zeta; unfold real_mode; rewrite ?E0, ?E1; change (Nat.even 0) with true; change (Nat.even 1) with false; cbv iota; unfold wave; rewrite trig_c, trig_s, phase_add, cos_plus, sin_plus; fold sg;
    (split; [solve [unfold sg; destruct (k <=? m)%Z; field]|]); unfold real_entries; rewrite !Rcolumn_app.
  all: try (rewrite (column_p (fun n => (2 * n)%Z) (fun n => (2 * n)%Z) _ _ _ Fc) by (intros; lia)).
  all: try (rewrite (column_m (fun n => (2 * n)%Z) (fun n => (2 * n)%Z) _ _ _ Fc) by (intros; lia)).
  all: try (rewrite (column_mn (fun n => (2 * n)%Z) (fun n => (2 * n)%Z) _ _ _ Fc) by (intros; lia)).
  all: try (rewrite (column_p (fun n => (2 * n + 1)%Z) (fun n => (2 * n)%Z) _ _ _ Fs) by (intros; lia)).
  all: try (rewrite (column_m (fun n => (2 * n + 1)%Z) (fun n => (2 * n)%Z) _ _ _ Fs) by (intros; lia)).
  all: try (rewrite (column_mn (fun n => (2 * n + 1)%Z) (fun n => (2 * n)%Z) _ _ _ Fs) by (intros; lia)).
  all: try (rewrite (column_p (fun n => (2 * n + 1)%Z) (fun n => (2 * n + 1)%Z) _ _ _ Fs) by (intros; lia)).
  all: try (rewrite (column_m (fun n => (2 * n + 1)%Z) (fun n => (2 * n + 1)%Z) _ _ _ Fs) by (intros; lia)).
  all: try (rewrite (column_mn (fun n => (2 * n + 1)%Z) (fun n => (2 * n + 1)%Z) _ _ _ Fs) by (intros; lia)).
  all: try (rewrite (column_p (fun n => (2 * n)%Z) (fun n => (2 * n + 1)%Z) _ _ _ Fc) by (intros; lia)).
  all: try (rewrite (column_m (fun n => (2 * n)%Z) (fun n => (2 * n + 1)%Z) _ _ _ Fc) by (intros; lia)).
  all: try (rewrite (column_mn (fun n => (2 * n)%Z) (fun n => (2 * n + 1)%Z) _ _ _ Fc) by (intros; lia)).
  all: rewrite ?(other_parity (fun n => (2 * n)%Z)) by (intros; lia).
  all: rewrite ?(other_parity (fun n => (2 * n + 1)%Z)) by (intros; lia).
  all: match goal with |- context [if in_dec Z.eq_dec (m + k)%Z po then ?a else 0] => match goal with |- context [if in_dec Z.eq_dec (m - k)%Z po then ?b else 0] => match goal with |- context [if in_dec Z.eq_dec (k - m)%Z (tl po) then ?d else 0] =>
    pose proof (difference_of m k po b d Ho H0 Hpos) as D; transitivity ((if in_dec Z.eq_dec (m + k)%Z po then a else 0) + ((if in_dec Z.eq_dec (m - k)%Z po then b else 0) + (if in_dec Z.eq_dec (k - m)%Z (tl po) then d else 0))); [ring|]; rewrite D; clear D end end end.
  all: unfold kept, wave; f_equal; destruct (in_dec _ _ _); try reflexivity; try field.
  all: unfold sg; destruct (Z.leb_spec k m) as [Hk|Hk]; [rewrite Z.abs_eq by lia|replace (Z.abs (m - k)) with (k - m)%Z by lia]; field.
Qed.
End Column.
