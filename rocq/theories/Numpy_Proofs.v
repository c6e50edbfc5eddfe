From stdpp Require Import list list_numbers.
From Coq Require Import ZArith Lia ZifyNat ZifyBool.
From Verif Require Import Numpy_Model.

Ltac slices := unfold slice_indices, slice_bounds, slice_len; repeat case_decide; try lia.

Lemma map_seq_ext f g n m : n = m -> (forall i, i < n -> f i = g i) -> map f (seq 0 n) = map (B:=nat) g (seq 0 m).
Proof.
  intros -> H. apply map_ext_in. intros i Hi. apply in_seq in Hi. apply H. lia.
Qed.

(** [x[a:b]] *)
Lemma slice_range a b n : a <= b -> b <= n ->
  slice_indices (Some (Z.of_nat a)) (Some (Z.of_nat b)) 1 n = map (fun i => a + i) (seq 0 (b - a)).
Proof.
  intros. slices; apply map_seq_ext; try (intros; lia); rewrite ?Z.div_1_r; lia.
Qed.
(** [x[a:]] *)
Lemma slice_from a n : a <= n ->
  slice_indices (Some (Z.of_nat a)) None 1 n = map (fun i => a + i) (seq 0 (n - a)).
Proof.
  intros. slices; apply map_seq_ext; try (intros; lia); rewrite ?Z.div_1_r; lia.
Qed.
Lemma slice_from_ge a n : n <= a -> slice_indices (Some (Z.of_nat a)) None 1 n = [].
Proof. intros. slices. done. Qed.
(** [x[-k:]] *)
Lemma slice_last k n : 0 < k -> k <= n ->
  slice_indices (Some (- Z.of_nat k)%Z) None 1 n = map (fun i => n - k + i) (seq 0 k).
Proof.
  intros. slices; apply map_seq_ext; try (intros; lia); rewrite ?Z.div_1_r; lia.
Qed.
(** [x[a:-k]] *)
Lemma slice_mid a k n : 0 < k -> a + k <= n ->
  slice_indices (Some (Z.of_nat a)) (Some (- Z.of_nat k)%Z) 1 n = map (fun i => a + i) (seq 0 (n - k - a)).
Proof.
  intros. slices; apply map_seq_ext; try (intros; lia); rewrite ?Z.div_1_r; lia.
Qed.
(** [x[a:0]] *)
Lemma slice_to_0 a n : slice_indices (Some (Z.of_nat a)) (Some 0%Z) 1 n = [].
Proof. slices. done. Qed.
(** [x[-1:-(k+1):-1]] *)
Lemma slice_rev k n : k < n ->
  slice_indices (Some (-1)%Z) (Some (- (Z.of_nat k + 1))%Z) (-1) n = map (fun i => n - 1 - i) (seq 0 k).
Proof.
  intros. slices; apply map_seq_ext; try (intros; lia); rewrite ?Z.div_1_r; lia.
Qed.
(** [x[a:a+2m:2]] and [x[a:a+2m-1:2]] *)
Lemma slice_step2 a b m n : (b = a + 2 * m \/ b + 1 = a + 2 * m) -> a <= b + 1 -> b <= n ->
  slice_indices (Some (Z.of_nat a)) (Some (Z.of_nat b)) 2 n = map (fun i => a + 2 * i) (seq 0 m).
Proof.
  intros Hb Hab Hn. slices; apply map_seq_ext; try (intros; lia).
Qed.

Section arrays.
  Context {A : Type}.
  Implicit Types x v : list A.

  Lemma write_all_length idxs : forall v x, length (write_all idxs v x) = length x.
  Proof.
    induction idxs as [|i is IH]; intros [|w v] x; simpl; try done. by rewrite IH, insert_length.
  Qed.
  Lemma write_all_out idxs : forall v x j, j ∉ idxs -> write_all idxs v x !! j = x !! j.
  Proof.
    induction idxs as [|i is IH]; intros [|w v] x j Hj; simpl; try done.
    apply not_elem_of_cons in Hj as [? ?]. rewrite IH by done. by rewrite list_lookup_insert_ne.
  Qed.
  Lemma write_all_in idxs : NoDup idxs -> forall v x i j w, idxs !! i = Some j -> v !! i = Some w ->
    j < length x -> write_all idxs v x !! j = Some w.
  Proof.
    induction 1 as [|k is Hk Hnd IH]; intros v x i j w Hi Hv Hj; [done|].
    destruct v as [|u v]; [done|]. destruct i as [|i]; simpl in *.
    - simplify_eq. rewrite write_all_out by done. by apply list_lookup_insert.
    - eapply IH; eauto. by rewrite insert_length.
  Qed.

  Lemma np_get_map x (f : nat -> nat) m (g : nat -> A) :
    (forall i, i < m -> x !! f i = Some (g i)) -> np_get (map f (seq 0 m)) x = map g (seq 0 m).
  Proof.
    unfold np_get. intros H. assert (forall l, (forall i, i ∈ l -> i < m) -> omap (fun i => x !! i) (map f l) = map g l) as E.
    { induction l as [|i l IH]; intros Hl; simpl; [done|].
      rewrite H by (apply Hl, elem_of_cons; auto). f_equal. apply IH. intros. apply Hl, elem_of_cons; auto. }
    apply E. intros i Hi%elem_of_seq. lia.
  Qed.
End arrays.

Section by_function.
  Context {A : Type}.

  (** Assignment through an injective index map, values [h 0 .. h (m-1)]. *)
  Lemma write_map_in (x : list A) (f : nat -> nat) (h : nat -> A) m i :
    (forall i j, i < m -> j < m -> f i = f j -> i = j) -> i < m -> f i < length x ->
    write_all (map f (seq 0 m)) (map h (seq 0 m)) x !! f i = Some (h i).
  Proof.
    intros Hinj Hi Hf. eapply (write_all_in _ _ _ _ i).
    - rewrite list_lookup_fmap, lookup_seq_lt by done. done.
    - rewrite list_lookup_fmap, lookup_seq_lt by done. done.
    - done.
    Unshelve.
    apply NoDup_alt. intros a b y Ha Hb. rewrite list_lookup_fmap in Ha, Hb.
    destruct (decide (a < m)); [|rewrite lookup_seq_ge in Ha by lia; done].
    destruct (decide (b < m)); [|rewrite lookup_seq_ge in Hb by lia; done].
    rewrite lookup_seq_lt in Ha, Hb by done. simpl in *. simplify_eq. apply Hinj; auto.
  Qed.
  Lemma write_map_out (x : list A) (f : nat -> nat) (v : list A) m j :
    (forall i, i < m -> f i <> j) -> write_all (map f (seq 0 m)) v x !! j = x !! j.
  Proof.
    intros H. apply write_all_out. intros (i & Hi & Hs)%elem_of_list_fmap. apply elem_of_seq in Hs.
    symmetry in Hi. eapply H; [|exact Hi]. lia.
  Qed.
  Lemma np_set_map (x : list A) (f : nat -> nat) (h : nat -> A) m :
    np_set (map f (seq 0 m)) (map h (seq 0 m)) x = Some (write_all (map f (seq 0 m)) (map h (seq 0 m)) x).
  Proof. unfold np_set. rewrite decide_True; [done|]. by rewrite !map_length. Qed.
  Lemma np_fill_map (x : list A) (f : nat -> nat) (v : A) m :
    np_fill (map f (seq 0 m)) v x = write_all (map f (seq 0 m)) (map (fun _ => v) (seq 0 m)) x.
  Proof.
    unfold np_fill. f_equal. rewrite map_length, seq_length. generalize 0.
    induction m as [|m IH]; intros s; simpl; [done|]. by rewrite <- IH.
  Qed.
End by_function.

Section lookups.
  Context {A : Type}.
  Implicit Types x : list A.

  (** Assignment to a contiguous run. *)
  Lemma write_range x a m h j : a + m <= length x ->
    write_all (map (fun i => a + i) (seq 0 m)) (map h (seq 0 m)) x !! j
    = if decide (a <= j /\ j < a + m) then Some (h (j - a)) else x !! j.
  Proof.
    intros Hl. case_decide as Hj.
    - pose proof (write_map_in x (fun i => a + i) h m (j - a)) as H. cbv beta in H.
      replace (a + (j - a)) with j in H by lia. apply H; lia.
    - apply write_map_out. lia.
  Qed.
  (** Assignment to every second element. *)
  Lemma write_step2 x a m h j : a + 2 * m <= length x + 1 ->
    write_all (map (fun i => a + 2 * i) (seq 0 m)) (map h (seq 0 m)) x !! j
    = if decide (a <= j /\ (j - a) mod 2 = 0 /\ (j - a) / 2 < m) then Some (h ((j - a) / 2)) else x !! j.
  Proof.
    intros Hl. case_decide as Hj.
    - pose proof (write_map_in x (fun i => a + 2 * i) h m ((j - a) / 2)) as H. cbv beta in H.
      pose proof (Nat.div_mod_eq (j - a) 2).
      replace (a + 2 * ((j - a) / 2)) with j in H by lia. apply H; lia.
    - apply write_map_out. intros i Hi E. apply Hj. subst j. replace (a + 2 * i - a) with (i * 2) by lia.
      rewrite Nat.mod_mul, Nat.div_mul by lia. lia.
  Qed.
  (** Assignment to the last elements in reverse order. *)
  Lemma write_rev x n m h j : length x = n -> m < n ->
    write_all (map (fun i => n - 1 - i) (seq 0 m)) (map h (seq 0 m)) x !! j
    = if decide (n - m <= j /\ j < n) then Some (h (n - 1 - j)) else x !! j.
  Proof.
    intros Hl Hm. case_decide as Hj.
    - pose proof (write_map_in x (fun i => n - 1 - i) h m (n - 1 - j)) as H. cbv beta in H.
      replace (n - 1 - (n - 1 - j)) with j in H by lia. apply H; lia.
    - apply write_map_out. lia.
  Qed.
  Lemma np_get_at x d (f : nat -> nat) m : (forall i, i < m -> f i < length x) ->
    np_get (map f (seq 0 m)) x = map (fun i => default d (x !! f i)) (seq 0 m).
  Proof.
    intros H. apply np_get_map. intros i Hi. destruct (lookup_lt_is_Some_2 x (f i) (H i Hi)) as [y ->]. done.
  Qed.
End lookups.
