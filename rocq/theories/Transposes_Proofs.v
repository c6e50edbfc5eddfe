From stdpp Require Import list list_numbers.
From Coq Require Import Lia ZifyBool ZifyNat.
From Verif Require Import Blocks_Model Blocks_Proofs Transposes_Model.

(** ** Blocks *)
Lemma ends_starts N P r : ends N P r = starts N P (S r).
Proof. unfold ends, starts. by rewrite Nat.add_1_r. Qed.
Lemma starts_0 N P : starts N P 0 = 0.
Proof. unfold starts. by rewrite Nat.mul_0_r. Qed.
Lemma starts_P N P : 0 < P -> starts N P P = N.
Proof. intros H. unfold starts. pose proof (cdiv_ge N P H). lia. Qed.
Lemma starts_mono N P r : starts N P r <= starts N P (S r).
Proof.
  unfold starts. assert (cdiv N P * r <= cdiv N P * S r) by (apply Nat.mul_le_mono_l; lia). lia.
Qed.
Lemma counts_alt N P r : starts N P (S r) = starts N P r + counts N P r.
Proof. unfold counts. rewrite ends_starts. pose proof (starts_mono N P r). lia. Qed.

Lemma block_of N P i : 0 < P -> i < N -> exists r, r < P /\ starts N P r <= i /\ i < ends N P r.
Proof.
  intros HP Hi. assert (forall k, k <= P -> i < starts N P k -> exists r, r < k /\ starts N P r <= i /\ i < ends N P r) as H.
  { induction k as [|k IH]; intros Hk Hs.
    - rewrite starts_0 in Hs. lia.
    - destruct (decide (i < starts N P k)) as [Hl|Hl].
      + destruct (IH ltac:(lia) Hl) as (r & ? & ?). exists r. split; [lia|done].
      + exists k. rewrite ends_starts. split; [lia|]. split; [lia|done]. }
  apply (H P); [done|]. by rewrite starts_P.
Qed.

Lemma fftw_layout N C P r : 0 < C -> Nat.divide C N ->
  fftw_starts N C P r = C * ax_lo N C false P r /\ fftw_ends N C P r = C * ax_hi N C false P r.
Proof.
  intros HC [k ->]. unfold fftw_starts, fftw_ends, ax_lo, ax_hi. rewrite (Nat.mul_comm k C), cdiv_exact by done.
  rewrite <- !Nat.mul_min_distr_l, !Nat.mul_assoc, !(Nat.min_comm (C * k)). done.
Qed.

(** ** Lists *)
Lemma flat_map_length_const {X Y} (f : X -> list Y) l n : (forall x, length (f x) = n) ->
  length (flat_map f l) = length l * n.
Proof. intros H. induction l as [|x l IH]; simpl; [done|]. rewrite app_length, H, IH. done. Qed.

Lemma box_length r0 r1 r2 r3 :
  length (box r0 r1 r2 r3) = length r0 * (length r1 * (length r2 * length r3)).
Proof.
  unfold box. apply flat_map_length_const. intros. apply flat_map_length_const. intros.
  apply flat_map_length_const. intros. by rewrite map_length.
Qed.

Lemma flat_map_map {X Y Z} (f : Y -> list Z) (g : X -> Y) l : flat_map f (map g l) = flat_map (fun x => f (g x)) l.
Proof. induction l; simpl; congruence. Qed.
Lemma map_flat_map {X Y Z} (h : Y -> Z) (f : X -> list Y) l : map h (flat_map f l) = flat_map (fun x => map h (f x)) l.
Proof. induction l as [|x l IH]; simpl; [done|]. by rewrite map_app, IH. Qed.
Lemma flat_map_ext' {X Y} (f g : X -> list Y) l : (forall x, x ∈ l -> f x = g x) -> flat_map f l = flat_map g l.
Proof.
  induction l as [|x l IH]; intros H; simpl; [done|]. f_equal.
  - apply H. apply elem_of_cons; auto.
  - apply IH. intros y Hy. apply H. apply elem_of_cons; auto.
Qed.

Lemma box_shift1 a r0 r1 r2 r3 :
  box r0 (map (Nat.add a) r1) r2 r3 = map (fun '(n0, n1, n2, n3) => (n0, a + n1, n2, n3)) (box r0 r1 r2 r3).
Proof.
  unfold box. rewrite map_flat_map. apply flat_map_ext'. intros n0 _.
  rewrite flat_map_map, map_flat_map. apply flat_map_ext'. intros n1 _.
  rewrite map_flat_map. apply flat_map_ext'. intros n2 _. rewrite map_map. done.
Qed.
Lemma box_shift2 a r0 r1 r2 r3 :
  box r0 r1 (map (Nat.add a) r2) r3 = map (fun '(n0, n1, n2, n3) => (n0, n1, a + n2, n3)) (box r0 r1 r2 r3).
Proof.
  unfold box. rewrite map_flat_map. apply flat_map_ext'. intros n0 _.
  rewrite map_flat_map. apply flat_map_ext'. intros n1 _.
  rewrite flat_map_map, map_flat_map. apply flat_map_ext'. intros n2 _. rewrite map_map. done.
Qed.
Lemma elem_of_flat_map {X Y} (f : X -> list Y) l y : y ∈ flat_map f l <-> exists x, x ∈ l /\ y ∈ f x.
Proof.
  rewrite elem_of_list_In, in_flat_map. split; intros (x & ? & ?); exists x;
    rewrite ?elem_of_list_In in *; rewrite <- ?elem_of_list_In in *; auto.
Qed.
Lemma elem_of_box n0 n1 n2 n3 r0 r1 r2 r3 :
  (n0, n1, n2, n3) ∈ box r0 r1 r2 r3 <-> n0 ∈ r0 /\ n1 ∈ r1 /\ n2 ∈ r2 /\ n3 ∈ r3.
Proof.
  unfold box. split.
  - intros (x0 & H0 & H)%elem_of_flat_map. apply elem_of_flat_map in H as (x1 & H1 & H).
    apply elem_of_flat_map in H as (x2 & H2 & H). apply elem_of_list_fmap in H as (x3 & E & H3).
    simplify_eq. auto.
  - intros (H0 & H1 & H2 & H3). apply elem_of_flat_map. exists n0. split; [done|].
    apply elem_of_flat_map. exists n1. split; [done|]. apply elem_of_flat_map. exists n2. split; [done|].
    apply elem_of_list_fmap. eauto.
Qed.
Lemma range_seq a b : range a b = map (Nat.add a) (seq 0 (b - a)).
Proof. unfold range. symmetry. rewrite fmap_add_seq. by rewrite Nat.add_0_r. Qed.

Section writes.
  Context {A : Type} (f : nat -> list A) (D : nat -> nat).
  Context (D0 : D 0 = 0) (DS : forall p, D (S p) = D p + length (f p)).

  Lemma flat_len k : length (flat_map f (seq 0 k)) = D k.
  Proof.
    induction k as [|k IH]; [done|]. rewrite seq_S, flat_map_app, app_length, IH. simpl.
    rewrite app_nil_r, DS. done.
  Qed.
  Lemma D_mono k : forall m, D k <= D (k + m).
  Proof. induction m; [by rewrite Nat.add_0_r|]. rewrite Nat.add_succ_r, DS. lia. Qed.

  Lemma foldl_write buf k : D k <= length buf ->
    foldl (fun b p => write (D p) (f p) b) buf (seq 0 k) = flat_map f (seq 0 k) ++ drop (D k) buf.
  Proof.
    induction k as [|k IH]; intros Hk.
    - simpl. rewrite D0. done.
    - rewrite seq_S, foldl_app, flat_map_app. simpl. rewrite app_nil_r.
      rewrite IH by (pose proof (D_mono k 1); replace (k + 1) with (S k) in * by lia; lia).
      unfold write. pose proof (flat_len k) as HL.
      rewrite take_app_alt by lia. rewrite <- app_assoc. f_equal. f_equal.
      rewrite drop_app_ge by lia. rewrite HL, drop_drop, DS. f_equal. lia.
  Qed.

  Lemma section P q : q < P -> take (length (f q)) (drop (D q) (flat_map f (seq 0 P))) = f q.
  Proof.
    intros Hq. replace P with (q + S (P - S q)) by lia.
    rewrite seq_app, flat_map_app. rewrite drop_app_alt by (by rewrite flat_len).
    simpl. apply take_app_alt. done.
  Qed.
End writes.

Section combine.
  Context {A : Type}.
  Lemma combine_into_map (g : idx4 -> A) order : forall a i,
    combine_into order (map g order) a i = if decide (i ∈ order) then g i else a i.
  Proof.
    induction order as [|o os IH]; intros a i; simpl.
    - destruct (decide (i ∈ [])) as [H|]; [inversion H|done].
    - rewrite IH. destruct (decide (i ∈ os)) as [H|H].
      + rewrite decide_True by (apply elem_of_cons; auto). done.
      + destruct (decide (i = o)) as [->|Hne].
        * rewrite decide_True by (apply elem_of_cons; auto). done.
        * rewrite decide_False; [done|]. intros [?|?]%elem_of_cons; auto.
  Qed.
End combine.

Section correctness.
  Context {A : Type} (N0 N1 N2 N3 P : nat) (HP : 0 < P).
  Implicit Types G : idx4 -> A.

  Definition RL_ok G (RL : nat -> idx4 -> A) : Prop := forall p n0 n1 n2 n3,
    p < P -> n0 < N0 -> n1 < counts N1 P p -> n2 < N2 -> n3 < N3 ->
    RL p (n0, n1, n2, n3) = G (n0, starts N1 P p + n1, n2, n3).
  Definition CL_ok G (CL : nat -> idx4 -> A) : Prop := forall q n0 n1 n2 n3,
    q < P -> n0 < N0 -> n1 < N1 -> n2 < counts N2 P q -> n3 < N3 ->
    CL q (n0, n1, n2, n3) = G (n0, n1, starts N2 P q + n2, n3).

  Lemma ends_le N r : ends N P r <= N.
  Proof. unfold ends. lia. Qed.

  (** sections exchanged between [p] (rows) and [q] (columns) *)
  Lemma sec_cols_len p q (RL : nat -> idx4 -> A) :
    length (map (RL p) (box (seq 0 N0) (seq 0 (counts N1 P p))
        (range (starts N2 P q) (ends N2 P q)) (seq 0 N3))) = RL_counts N0 N1 N2 N3 P p q.
  Proof.
    rewrite map_length, box_length. unfold range. rewrite !seq_length. unfold RL_counts, counts. lia.
  Qed.
  Lemma sec_rows_len p q (CL : nat -> idx4 -> A) :
    length (map (CL q) (box (seq 0 N0) (range (starts N1 P p) (ends N1 P p))
        (seq 0 (counts N2 P q)) (seq 0 N3))) = CL_counts N0 N1 N2 N3 P q p.
  Proof.
    rewrite map_length, box_length. unfold range. rewrite !seq_length. unfold CL_counts, counts. lia.
  Qed.

  Lemma RL_displs_S p q : RL_displs N0 N1 N2 N3 P p (S q) = RL_displs N0 N1 N2 N3 P p q + RL_counts N0 N1 N2 N3 P p q.
  Proof. unfold RL_displs, RL_counts. rewrite counts_alt. lia. Qed.
  Lemma CL_displs_S p q : CL_displs N0 N1 N2 N3 P p (S q) = CL_displs N0 N1 N2 N3 P p q + CL_counts N0 N1 N2 N3 P p q.
  Proof. unfold CL_displs, CL_counts. rewrite counts_alt. lia. Qed.
  Lemma counts_match p q : RL_counts N0 N1 N2 N3 P p q = CL_counts N0 N1 N2 N3 P q p.
  Proof. clear HP. unfold RL_counts, CL_counts. lia. Qed.
  Lemma CL_displs_P q : CL_displs N0 N1 N2 N3 P q P = CL_size N0 N1 N2 N3 P q.
  Proof. unfold CL_displs, CL_size. rewrite starts_P by done. lia. Qed.
  Lemma RL_displs_P q : RL_displs N0 N1 N2 N3 P q P = RL_size N0 N1 N2 N3 P q.
  Proof. unfold RL_displs, RL_size. rewrite starts_P by done. lia. Qed.

  Lemma box_nil1 r0 r2 r3 : box r0 [] r2 r3 = [].
  Proof. apply nil_length_inv. rewrite box_length. simpl. lia. Qed.
  Lemma box_nil2 r0 r1 r3 : box r0 r1 [] r3 = [].
  Proof.
    apply nil_length_inv. rewrite box_length. simpl. lia.
  Qed.

  (** What rank [p] sends to [q] when moving to column-local data. *)
  Lemma sent_cols RL RLbuf p q : q < P ->
    take (RL_counts N0 N1 N2 N3 P p q) (drop (RL_displs N0 N1 N2 N3 P p q)
      (if decide (0 < counts N1 P p) then split (col_order N0 N1 N2 N3 P p) (RL p) else (RLbuf p : list A)))
    = map (RL p) (box (seq 0 N0) (seq 0 (counts N1 P p)) (range (starts N2 P q) (ends N2 P q)) (seq 0 N3)).
  Proof.
    intros Hq. destruct (decide (0 < counts N1 P p)) as [Hc|Hc].
    - unfold split, col_order. rewrite map_flat_map.
      pose proof (section
        (fun proc => map (RL p) (box (seq 0 N0) (seq 0 (counts N1 P p)) (range (starts N2 P proc) (ends N2 P proc)) (seq 0 N3)))
        (RL_displs N0 N1 N2 N3 P p)) as HS.
      rewrite <- (sec_cols_len p q RL) at 1. apply HS; [| |done].
      + unfold RL_displs. by rewrite starts_0, Nat.mul_0_r.
      + intros r. rewrite sec_cols_len. apply RL_displs_S.
    - assert (counts N1 P p = 0) as E by lia. unfold RL_counts. rewrite E. simpl seq.
      rewrite box_nil1. simpl. rewrite Nat.mul_0_r, !Nat.mul_0_l. done.
  Qed.
  Lemma sent_rows CL CLbuf p q : p < P ->
    take (CL_counts N0 N1 N2 N3 P q p) (drop (CL_displs N0 N1 N2 N3 P q p)
      (if decide (0 < counts N2 P q) then split (row_order N0 N1 N2 N3 P q) (CL q) else (CLbuf q : list A)))
    = map (CL q) (box (seq 0 N0) (range (starts N1 P p) (ends N1 P p)) (seq 0 (counts N2 P q)) (seq 0 N3)).
  Proof.
    intros Hq. destruct (decide (0 < counts N2 P q)) as [Hc|Hc].
    - unfold split, row_order. rewrite map_flat_map.
      pose proof (section
        (fun proc => map (CL q) (box (seq 0 N0) (range (starts N1 P proc) (ends N1 P proc)) (seq 0 (counts N2 P q)) (seq 0 N3)))
        (CL_displs N0 N1 N2 N3 P q)) as HS.
      rewrite <- (sec_rows_len p q CL) at 1. apply HS; [| |done].
      + unfold CL_displs. by rewrite starts_0, Nat.mul_0_r.
      + intros r. rewrite sec_rows_len. apply CL_displs_S.
    - assert (counts N2 P q = 0) as E by lia. unfold CL_counts. rewrite E. simpl seq.
      rewrite box_nil2. simpl. rewrite Nat.mul_0_r, !Nat.mul_0_l. done.
  Qed.

  Lemma foldl_ext_in {X} (f g : list A -> X -> list A) l b :
    (forall b x, x ∈ l -> f b x = g b x) -> foldl f b l = foldl g b l.
  Proof.
    revert b; induction l as [|x l IH]; intros b H; simpl; [done|].
    rewrite H by (apply elem_of_cons; auto). apply IH. intros. apply H. apply elem_of_cons; auto.
  Qed.

  Lemma recv_cols RL RLbuf CLbuf q : q < P -> length (CLbuf q) = CL_size N0 N1 N2 N3 P q ->
    alltoallv P (fun p => if decide (0 < counts N1 P p) then split (col_order N0 N1 N2 N3 P p) (RL p) else (RLbuf p : list A))
      (RL_counts N0 N1 N2 N3 P) (RL_displs N0 N1 N2 N3 P) CLbuf (CL_displs N0 N1 N2 N3 P) q
    = flat_map (fun p => map (RL p) (box (seq 0 N0) (seq 0 (counts N1 P p))
          (range (starts N2 P q) (ends N2 P q)) (seq 0 N3))) (seq 0 P).
  Proof.
    intros Hq HL. unfold alltoallv.
    rewrite (foldl_ext_in _ (fun b p => write (CL_displs N0 N1 N2 N3 P q p)
       (map (RL p) (box (seq 0 N0) (seq 0 (counts N1 P p)) (range (starts N2 P q) (ends N2 P q)) (seq 0 N3))) b)).
    2:{ intros b p Hp. by rewrite sent_cols. }
    rewrite (foldl_write (fun p => map (RL p) (box (seq 0 N0) (seq 0 (counts N1 P p)) (range (starts N2 P q) (ends N2 P q)) (seq 0 N3)))).
    - rewrite CL_displs_P, drop_ge by lia. by rewrite app_nil_r.
    - unfold CL_displs. by rewrite starts_0, Nat.mul_0_r.
    - intros p. rewrite sec_cols_len, counts_match. apply CL_displs_S.
    - rewrite CL_displs_P. lia.
  Qed.
  Lemma recv_rows CL CLbuf RLbuf p : p < P -> length (RLbuf p) = RL_size N0 N1 N2 N3 P p ->
    alltoallv P (fun q => if decide (0 < counts N2 P q) then split (row_order N0 N1 N2 N3 P q) (CL q) else (CLbuf q : list A))
      (CL_counts N0 N1 N2 N3 P) (CL_displs N0 N1 N2 N3 P) RLbuf (RL_displs N0 N1 N2 N3 P) p
    = flat_map (fun q => map (CL q) (box (seq 0 N0) (range (starts N1 P p) (ends N1 P p))
           (seq 0 (counts N2 P q)) (seq 0 N3))) (seq 0 P).
  Proof.
    intros Hq HL. unfold alltoallv.
    rewrite (foldl_ext_in _ (fun b q => write (RL_displs N0 N1 N2 N3 P p q)
       (map (CL q) (box (seq 0 N0) (range (starts N1 P p) (ends N1 P p)) (seq 0 (counts N2 P q)) (seq 0 N3))) b)).
    2:{ intros b q Hp. by rewrite sent_rows. }
    rewrite (foldl_write (fun q => map (CL q) (box (seq 0 N0) (range (starts N1 P p) (ends N1 P p)) (seq 0 (counts N2 P q)) (seq 0 N3)))).
    - rewrite RL_displs_P, drop_ge by lia. by rewrite app_nil_r.
    - unfold RL_displs. by rewrite starts_0, Nat.mul_0_r.
    - intros q. rewrite sec_rows_len, <- counts_match. apply RL_displs_S.
    - rewrite RL_displs_P. lia.
  Qed.

  Lemma localize_columns_ok G RL RLbuf CLbuf CL :
    RL_ok G RL -> (forall q, q < P -> length (CLbuf q) = CL_size N0 N1 N2 N3 P q) ->
    CL_ok G (localize_columns N0 N1 N2 N3 P RL RLbuf CLbuf CL).
  Proof.
    intros HRL HB q n0 n1 n2 n3 Hq H0 H1 H2 H3. unfold localize_columns.
    rewrite decide_True by lia. rewrite recv_cols by auto.
    assert (flat_map (fun p => map (RL p) (box (seq 0 N0) (seq 0 (counts N1 P p))
          (range (starts N2 P q) (ends N2 P q)) (seq 0 N3))) (seq 0 P)
      = map (fun '(n0, n1, n2, n3) => G (n0, n1, starts N2 P q + n2, n3)) (row_order N0 N1 N2 N3 P q)) as ->.
    { unfold row_order. rewrite map_flat_map. apply flat_map_ext'. intros p Hp. apply elem_of_seq in Hp.
      rewrite !range_seq, box_shift1, box_shift2, !map_map.
      fold (counts N1 P p) (counts N2 P q).
      apply map_ext_in. intros [[[m0 m1] m2] m3] Hin. apply elem_of_list_In, elem_of_box in Hin.
      destruct Hin as (M0 & M1 & M2 & M3). rewrite elem_of_seq in M0, M1, M2, M3.
      apply HRL; [lia|lia|lia| |lia]. pose proof (ends_le N2 q). unfold counts in M2. lia. }
    rewrite combine_into_map. rewrite decide_True; [done|].
    unfold row_order. apply elem_of_flat_map. destruct (block_of N1 P n1 HP H1) as (p & Hp & Hs & He).
    exists p. split; [apply elem_of_seq; lia|]. apply elem_of_box. unfold range. rewrite !elem_of_seq. lia.
  Qed.

  Lemma localize_rows_ok G CL CLbuf RLbuf RL :
    CL_ok G CL -> (forall p, p < P -> length (RLbuf p) = RL_size N0 N1 N2 N3 P p) ->
    RL_ok G (localize_rows N0 N1 N2 N3 P CL CLbuf RLbuf RL).
  Proof.
    intros HCL HB p n0 n1 n2 n3 Hp H0 H1 H2 H3. unfold localize_rows.
    rewrite decide_True by lia. rewrite recv_rows by auto.
    assert (flat_map (fun q => map (CL q) (box (seq 0 N0) (range (starts N1 P p) (ends N1 P p))
           (seq 0 (counts N2 P q)) (seq 0 N3))) (seq 0 P)
      = map (fun '(n0, n1, n2, n3) => G (n0, starts N1 P p + n1, n2, n3)) (col_order N0 N1 N2 N3 P p)) as ->.
    { unfold col_order. rewrite map_flat_map. apply flat_map_ext'. intros q Hq. apply elem_of_seq in Hq.
      rewrite !range_seq, box_shift1, box_shift2, !map_map.
      fold (counts N1 P p) (counts N2 P q).
      apply map_ext_in. intros [[[m0 m1] m2] m3] Hin. apply elem_of_list_In, elem_of_box in Hin.
      destruct Hin as (M0 & M1 & M2 & M3). rewrite elem_of_seq in M0, M1, M2, M3.
      apply HCL; [lia|lia| |lia|lia]. pose proof (ends_le N1 p). unfold counts in M1. lia. }
    rewrite combine_into_map. rewrite decide_True; [done|].
    unfold col_order. apply elem_of_flat_map. destruct (block_of N2 P n2 HP H2) as (q & Hq & Hs & He).
    exists q. split; [apply elem_of_seq; lia|]. apply elem_of_box. unfold range. rewrite !elem_of_seq. lia.
  Qed.

  Lemma starts_counts_lt N p n : n < counts N P p -> starts N P p + n < N.
  Proof. intros H. pose proof (ends_le N p). unfold counts in H. lia. Qed.

  (** Any row-local data is the row-local view of some global array. *)
  Lemma RL_global RL : 0 < P -> exists G, RL_ok G RL.
  Proof.
    intros _. set (owner i := i / cdiv N1 P).
    exists (fun '(n0, n1, n2, n3) => RL (owner n1) (n0, n1 - starts N1 P (owner n1), n2, n3)).
    intros p n0 n1 n2 n3 Hp H0 H1 H2 H3.
    assert (owner (starts N1 P p + n1) = p) as ->.
    { unfold owner. unfold counts, ends, starts in *.
      assert (cdiv N1 P <> 0) by (intros E; rewrite E in H1; lia).
      assert (cdiv N1 P * p < N1 \/ N1 <= cdiv N1 P * p) as [Hl|Hl] by lia; [|nia].
      rewrite Nat.min_l in * by lia. symmetry. apply (Nat.div_unique _ _ _ n1); nia. }
    f_equal. f_equal. f_equal. f_equal. lia.
  Qed.
End correctness.

(** ** Groups *)
Section group.
  Context {K C : Type} `{EqDecision K} (plan : K -> option (list C -> list C)).
  (** A plan moves each component independently (see [localize_columns_ok]: the index [n0]
      enumerating components is never mixed). *)
  Context (t : K -> C -> C) (Hplan : forall k p, plan k = Some p -> forall cs, p cs = map (t k) cs).

  Lemma split_comps_map (f : C -> C) (gs : list (list C)) :
    split_comps (map length gs) (map f (concat gs)) = map (map f) gs.
  Proof.
    induction gs as [|g gs IH]; simpl; [done|]. rewrite map_app.
    rewrite take_app_alt by (by rewrite map_length). rewrite drop_app_alt by (by rewrite map_length).
    by rewrite IH.
  Qed.

  Definition target (lbl lbln : nat) (f : fld K C) : fld K C :=
    match plan (key f) with
    | Some p => Fld (key f) (p (comps f)) lbl
    | None => Fld (key f) (comps f) lbln
    end.

  Lemma foldl_alter (is : list nat) (h : nat -> fld K C -> fld K C) : NoDup is -> forall (fs : list (fld K C)) i,
    foldl (fun fs i => alter (h i) i fs) fs is !! i =
    if decide (i ∈ is) then h i <$> fs !! i else fs !! i.
  Proof.
    induction 1 as [|j is Hj Hnd IH]; intros fs i; simpl.
    - destruct (decide (i ∈ [])) as [H|]; [inversion H|done].
    - rewrite IH. destruct (decide (i = j)) as [->|Hne].
      + rewrite decide_False by done. rewrite decide_True by (apply elem_of_cons; auto).
        apply list_lookup_alter.
      + rewrite list_lookup_alter_ne by done.
        destruct (decide (i ∈ is)).
        * rewrite decide_True by (apply elem_of_cons; auto). done.
        * rewrite decide_False; [done|]. intros [?|?]%elem_of_cons; auto.
  Qed.

  Lemma zip_map_foldl (is : list nat) (outs : nat -> list C) lbl : forall fs : list (fld K C),
    foldl (fun fs ic => alter (fun f => Fld (key f) ic.2 lbl) ic.1 fs) fs (zip is (map outs is))
    = foldl (fun fs i => alter (fun f => Fld (key f) (outs i) lbl) i fs) fs is.
  Proof. induction is as [|i is IH]; intros fs; simpl; [done|]. apply IH. Qed.

  (** The members of a group exist and have its key. *)
  Definition good (fs : list (fld K C)) (k : K) (is : list nat) : Prop :=
    NoDup is /\ forall i, i ∈ is -> exists f, fs !! i = Some f /\ key f = k.

  Lemma move_group_ok lbl lbln k is fs i : good fs k is ->
    move_group plan lbl lbln k is fs !! i =
    if decide (i ∈ is) then target lbl lbln <$> fs !! i else fs !! i.
  Proof.
    intros [Hnd Hg]. unfold move_group. destruct (plan k) as [p|] eqn:Hp.
    - set (outs := fun i => default [] ((fun f => p (comps f)) <$> fs !! i)).
      assert (split_comps (map (fun f => length (comps f)) (omap (fun i => fs !! i) is))
         (p (concat (map comps (omap (fun i => fs !! i) is)))) = map outs is) as ->.
      { rewrite (Hplan k p Hp).
        assert (map (fun f : fld K C => length (comps f)) (omap (fun i => fs !! i) is)
          = map length (map comps (omap (fun i => fs !! i) is))) as -> by (rewrite map_map; done).
        rewrite split_comps_map. clear Hnd. induction is as [|j is IH]; simpl; [done|].
        destruct (Hg j) as (f & Hf & _); [apply elem_of_cons; auto|].
        unfold outs at 1. rewrite Hf. simpl. rewrite (Hplan k p Hp). f_equal. apply IH.
        intros i' Hi'. apply Hg. apply elem_of_cons; auto. }
      rewrite zip_map_foldl.
      rewrite (foldl_alter is (fun i f => Fld (key f) (outs i) lbl) Hnd).
      destruct (decide (i ∈ is)) as [Hi|]; [|done].
      destruct (Hg i Hi) as (f & Hf & Hk). unfold outs. rewrite Hf. simpl. unfold target.
      rewrite Hk, Hp. done.
    - rewrite (foldl_alter is (fun _ f => Fld (key f) (comps f) lbln) Hnd).
      destruct (decide (i ∈ is)) as [Hi|]; [|done].
      destruct (Hg i Hi) as (f & Hf & Hk). rewrite Hf. simpl. unfold target. rewrite Hk, Hp. done.
  Qed.

  Definition members (gs : list (K * list nat)) : list nat := concat (map snd gs).

  Lemma add_group_members k i gs x : x ∈ members (add_group k i gs) <-> x = i \/ x ∈ members gs.
  Proof.
    unfold members. induction gs as [|[k' is'] gs IH]; simpl.
    - rewrite elem_of_list_singleton. split; [auto|]. intros [?|H]; [done|]. inversion H.
    - destruct (decide (k = k')); simpl; rewrite !elem_of_app.
      + rewrite elem_of_list_singleton. naive_solver.
      + rewrite IH. naive_solver.
  Qed.

  Lemma add_group_nodup k i gs : i ∉ members gs -> NoDup (members gs) -> NoDup (members (add_group k i gs)).
  Proof.
    unfold members. induction gs as [|[k' is'] gs IH]; simpl; intros Hi Hnd.
    - repeat constructor. inversion 1.
    - rewrite elem_of_app in Hi. apply NoDup_app in Hnd as (H1 & H2 & H3).
      destruct (decide (k = k')); simpl; apply NoDup_app.
      + split; [|split; [|done]].
        * apply NoDup_app. split; [done|]. split; [|repeat constructor; inversion 1].
          intros x Hx ->%elem_of_list_singleton. naive_solver.
        * intros x [Hx| ->%elem_of_list_singleton]%elem_of_app; naive_solver.
      + split; [done|]. split; [|apply IH; naive_solver].
        intros x Hx Hx'. apply (add_group_members k i gs x) in Hx' as [->|Hx']; naive_solver.
  Qed.

  Lemma add_group_good fs k i gs f : fs !! i = Some f -> key f = k -> i ∉ members gs ->
    (forall k' is', (k', is') ∈ gs -> good fs k' is') ->
    forall k' is', (k', is') ∈ add_group k i gs -> good fs k' is'.
  Proof.
    intros Hf Hk. unfold members. induction gs as [|[k0 is0] gs IH]; simpl; intros Hi HG k' is' Hin.
    - apply elem_of_list_singleton in Hin. simplify_eq. split.
      + repeat constructor. inversion 1.
      + intros j ->%elem_of_list_singleton. eauto.
    - rewrite elem_of_app in Hi. destruct (decide (k = k0)) as [->|Hne].
      + apply elem_of_cons in Hin as [E|Hin].
        * simplify_eq. destruct (HG (key f) is0) as [H1 H2]; [apply elem_of_cons; auto|]. split.
          { apply NoDup_app. split; [done|]. split; [|repeat constructor; inversion 1].
            intros x Hx ->%elem_of_list_singleton. naive_solver. }
          { intros j [?| ->%elem_of_list_singleton]%elem_of_app; eauto. }
        * apply HG. apply elem_of_cons; auto.
      + apply elem_of_cons in Hin as [E|Hin].
        * simplify_eq. apply HG. apply elem_of_cons; auto.
        * apply IH; auto. intros. apply HG. apply elem_of_cons; auto.
  Qed.

  Lemma group_keys_ok (fs : list (fld K C)) :
    let gs := group_keys fs in
    NoDup (members gs) /\ (forall i, i ∈ members gs <-> i < length fs) /\
    (forall k is, (k, is) ∈ gs -> good fs k is).
  Proof.
    unfold group_keys.
    assert (forall n, n <= length fs ->
      let gs := foldl (fun gs i => match fs !! i with Some f => add_group (key f) i gs | None => gs end) [] (seq 0 n) in
      NoDup (members gs) /\ (forall i, i ∈ members gs <-> i < n) /\
      (forall k is, (k, is) ∈ gs -> good fs k is)) as H; [|by apply H].
    induction n as [|n IH]; intros Hn gs.
    - unfold gs. simpl. split; [constructor|]. split.
      + intros i. split; [inversion 1|lia].
      + intros k is H. inversion H.
    - unfold gs. rewrite seq_S, foldl_app. simpl.
      destruct (IH ltac:(lia)) as (H1 & H2 & H3). clear IH.
      set (gs0 := foldl _ [] (seq 0 n)) in *.
      destruct (lookup_lt_is_Some_2 fs n ltac:(lia)) as [f Hf]. rewrite Hf.
      assert (n ∉ members gs0) as Hni by (rewrite H2; lia).
      split; [|split].
      + by apply add_group_nodup.
      + intros i. rewrite add_group_members, H2. lia.
      + eapply add_group_good; eauto.
  Qed.

  Lemma target_key lbl lbln f : key (target lbl lbln f) = key f.
  Proof. unfold target. by destruct (plan (key f)). Qed.

  Lemma move_groups_ok lbl lbln gs : NoDup (members gs) -> forall fs,
    (forall k is, (k, is) ∈ gs -> good fs k is) -> forall i,
    foldl (fun fs g => move_group plan lbl lbln g.1 g.2 fs) fs gs !! i =
    if decide (i ∈ members gs) then target lbl lbln <$> fs !! i else fs !! i.
  Proof.
    induction gs as [|[k is] gs IH]; intros Hnd fs HG i; unfold members; simpl.
    - destruct (decide (i ∈ [])) as [H|]; [inversion H|done].
    - unfold members in Hnd. simpl in Hnd. apply NoDup_app in Hnd as (H1 & H2 & H3).
      pose proof (HG k is ltac:(apply elem_of_cons; auto)) as Hg.
      rewrite IH; [|done|].
      + rewrite move_group_ok by done. unfold members.
        destruct (decide (i ∈ is)) as [Hi|Hi].
        * rewrite decide_False by (intros Hx; eapply H2; eauto).
          rewrite decide_True by (apply elem_of_app; auto). done.
        * destruct (decide (i ∈ concat (map snd gs))).
          { rewrite decide_True by (apply elem_of_app; auto). done. }
          { rewrite decide_False; [done|]. intros [?|?]%elem_of_app; auto. }
      + intros k' is' Hin. destruct (HG k' is' ltac:(apply elem_of_cons; auto)) as [G1 G2].
        split; [done|]. intros j Hj. rewrite move_group_ok by done.
        destruct (G2 j Hj) as (f & Hf & Hk). rewrite Hf. simpl.
        destruct (decide (j ∈ is)); eexists; split; try done. by rewrite target_key.
  Qed.

  Lemma groups_ok lbl lbln fs :
    foldl (fun fs g => move_group plan lbl lbln g.1 g.2 fs) fs (group_keys fs) = map (target lbl lbln) fs.
  Proof.
    destruct (group_keys_ok fs) as (H1 & H2 & H3).
    apply list_eq. intros i. rewrite move_groups_ok by done.
    change (map (target lbl lbln) fs) with (target lbl lbln <$> fs).
    rewrite list_lookup_fmap. destruct (decide _) as [|Hn]; [done|].
    rewrite H2 in Hn. rewrite lookup_ge_None_2 by lia. done.
  Qed.
End group.
