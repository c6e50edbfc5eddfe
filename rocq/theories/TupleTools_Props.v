(** Enumeration of tuples and tensor operators: C60, C67. *)
From Coq Require Import List Arith Bool ZArith Lia Permutation FinFun.
Import ListNotations.
From Verif Require Import TupleTools_Model TupleTools_Spec TupleTools_Proofs.
Local Open Scope nat_scope.

(** [tuple2index] numbers the tuples of a rank from 0, each once, ... *)
Theorem index_bounds indexing rank t : good indexing -> tuples indexing rank t -> exists i, tuple2index t indexing = Ok i /\ i < List.length indexing ^ rank.
Proof. intros Hg Ht. destruct (index_of_tuple _ _ _ Hg Ht) as (i & E & L & _). exists i. split; assumption. Qed.
Theorem index_onto indexing rank i : good indexing -> i < List.length indexing ^ rank -> exists t, tuples indexing rank t /\ tuple2index t indexing = Ok i.
Proof.
  intros Hg Hi. destruct (nth_error (range indexing rank) i) as [t|] eqn:E; [|apply nth_error_None in E; rewrite range_length in E; lia]. exists t. eapply range_index; eassumption.
Qed.
Theorem index_injective indexing rank s t i : good indexing -> tuples indexing rank s -> tuples indexing rank t -> tuple2index s indexing = Ok i -> tuple2index t indexing = Ok i -> s = t.
Proof.
  intros Hg Hs Ht Ei Ej. destruct (index_of_tuple _ _ _ Hg Hs) as (i' & E & _ & N). destruct (index_of_tuple _ _ _ Hg Ht) as (j' & E' & _ & N'). congruence.
Qed.
(** ... in lexicographic order. *)
Theorem index_order indexing rank s t i j : good indexing -> tuples indexing rank s -> tuples indexing rank t -> tuple2index s indexing = Ok i -> tuple2index t indexing = Ok j ->
  (i < j <-> before indexing s t).
Proof.
  intros Hg [Ls Hs] [Lt Ht] Ei Ej. split; [|apply lex_value; try assumption; congruence]. intros L. destruct (lex_total indexing s t (proj1 Hg)) as [->|[H|H]]; try assumption; try congruence; [rewrite Ei in Ej; injection Ej; lia|].
  assert (j < i) by (eapply (lex_value indexing t s); try eassumption; congruence). lia.
Qed.
Theorem index_unknown indexing t : Exists (fun s => ~ In s indexing) t -> tuple2index t indexing = Raises ValueError.
Proof.
  intros H. unfold tuple2index. replace (all _ t) with (@Raises (list (list nat)) ValueError); [reflexivity|]. symmetry. induction H as [s t H|s t H IH]; cbn [all].
  - replace (find_index indexing s) with (@Raises nat ValueError); [reflexivity|]. symmetry. clear t. induction indexing as [|x l IHl]; [reflexivity|]. cbn. destruct (Z.eqb_spec x s) as [->|N]; [exfalso; apply H; left; reflexivity|]. rewrite IHl by (intros Hi; apply H; right; exact Hi). reflexivity.
  - destruct (find_index indexing s) as [i|e] eqn:E; cbn [bind]; [rewrite IH; reflexivity|]. clear - E. revert e E. induction indexing as [|x l IHl]; intros e E; cbn in E; [injection E as <-; reflexivity|].
    destruct (x =? s)%Z; [discriminate|]. destruct (find_index l s); cbn in E; [discriminate|]. injection E as <-. apply (IHl e0). reflexivity.
Qed.
(** With more than ten entries the decimal numerals run together. *)
Theorem index_eleven_refuted : exists indexing t i, NoDup indexing /\ List.length indexing = 11 /\ tuples indexing 1 t /\ tuple2index t indexing = Ok i /\ List.length indexing ^ 1 <= i.
Proof.
  exists (map Z.of_nat (seq 0 11)), [10%Z], 11. split; [apply Injective_map_NoDup; [intros a b; apply Nat2Z.inj|apply seq_NoDup]|]. split; [reflexivity|]. split; [split; [reflexivity|repeat constructor; cbn; tauto]|]. split; [reflexivity|cbn; lia].
Qed.
(** [index2tuple] fails for all arguments, since its module does not import numpy. *)
Theorem index2tuple_refuted index rank indexing : index2tuple index rank indexing = Raises NameError.
Proof. reflexivity. Qed.
(** With the import it would be the inverse. *)
Theorem index2tuple_inverse indexing rank : good indexing ->
  (forall i, i < List.length indexing ^ rank -> exists t, index2tuple_with true i rank indexing = Ok t /\ tuples indexing rank t /\ tuple2index t indexing = Ok i)
  /\ (forall t i, tuples indexing rank t -> tuple2index t indexing = Ok i -> index2tuple_with true i rank indexing = Ok t).
Proof.
  intros Hg. assert (A : forall i, i < List.length indexing ^ rank -> exists t, index2tuple_with true i rank indexing = Ok t /\ tuples indexing rank t /\ tuple2index t indexing = Ok i).
  { intros i Hi. destruct (index2tuple_value indexing rank i Hg Hi) as (ds & t & E & D & L & V). exists t. split; [exact E|]. split; [|rewrite (index_value _ _ _ Hg D), V; reflexivity]. split; [rewrite <- L; symmetry; eapply digits_length; exact D|].
    clear - D. induction D; constructor; [eapply nth_error_In; eassumption|assumption]. }
  split; [exact A|]. intros t i Ht Hi. destruct (index_bounds _ _ _ Hg Ht) as (i' & E' & L). rewrite Hi in E'. injection E' as <-. destruct (A i L) as (u & E & Hu & Eu). rewrite E. f_equal. eapply index_injective; eassumption.
Qed.

(** Entries of a tuple are taken by their positions from the left, or from the right for negative positions. *)
Theorem apply_positions {A} (t : list A) (p : list Z) (d : A) : let n := Z.of_nat (List.length t) in
  (Forall (fun i => - n <= i < n)%Z p -> apply p t = Ok (map (fun i => nth (Z.to_nat (i mod n)) t d) p))
  /\ (Exists (fun i => i < - n \/ n <= i)%Z p -> apply p t = Raises IndexError).
Proof.
  intros n. assert (E : forall i, (- n <= i < n)%Z -> item t i = Ok (nth (Z.to_nat (i mod n)) t d)).
  { intros i Hi. unfold item. fold n. assert (M : (if (i <? 0)%Z then (i + n)%Z else i) = (i mod n)%Z).
    { destruct (Z.ltb_spec i 0); [rewrite <- (Z.mod_small (i + n) n) by lia; rewrite <- (Z.mul_1_l n) at 1; apply Z.mod_add; lia|symmetry; apply Z.mod_small; lia]. }
    rewrite M. assert (0 <= i mod n < n)%Z by (apply Z.mod_pos_bound; lia). destruct (Z.ltb_spec (i mod n) 0); [lia|]. rewrite (nth_error_nth' t d); [reflexivity|]. unfold n in *. lia. }
  assert (F : forall i, (i < - n \/ n <= i)%Z -> item t i = Raises IndexError).
  { intros i Hi. unfold item. fold n. destruct (Z.ltb_spec i 0).
    - destruct (Z.ltb_spec (i + n) 0); [reflexivity|lia].
    - destruct (Z.ltb_spec i 0); [lia|]. replace (nth_error t (Z.to_nat i)) with (@None A); [reflexivity|]. symmetry. apply nth_error_None. unfold n in *. lia. }
  unfold apply. split; intros H.
  - induction H as [|i p Hi H IH]; cbn [all map]; [reflexivity|]. rewrite E by exact Hi. cbn [bind]. rewrite IH. reflexivity.
  - induction p as [|i p IH]; [inversion H|]. cbn [all]. destruct (Z_lt_dec i (- n)); [rewrite F by lia; reflexivity|]. destruct (Z_lt_dec i n); [|rewrite F by lia; reflexivity].
    rewrite E by lia. cbn [bind]. inversion H; subst; [lia|]. rewrite IH by assumption. reflexivity.
Qed.
Example apply_positions_example : apply [-1; 0; -2]%Z [5; 6; 7]%Z = Ok [7; 5; 6]%Z /\ apply [3]%Z [5; 6; 7]%Z = Raises IndexError.
Proof. split; reflexivity. Qed.

(** ** Operators.  The matrix has the entries of the operator at the indices of the tuples, ... *)
Theorem array_entries indexing (call : nat -> result (list (list Z))) (e : entry) (f : tuple -> tuple -> Z) rank0 rank1 s t : call rank1 = array indexing e rank0 rank1 -> good indexing -> (forall s t, tuples indexing rank0 s -> tuples indexing rank1 t -> e s t = Ok (f s t)) ->
  tuples indexing rank0 s -> tuples indexing rank1 t -> getitem indexing call s t = Ok (f s t).
Proof.
  intros Hcall Hg He Hs Ht. unfold getitem. rewrite (proj1 Ht), Hcall. destruct (index_of_tuple _ _ _ Hg Hs) as (i & Ei & Li & Ni). destruct (index_of_tuple _ _ _ Hg Ht) as (j & Ej & Lj & Nj). rewrite Ei, Ej. cbn [bind]. rewrite (array_value indexing e f) by exact He. cbn [bind].
  destruct (item_nth (map (fun s => map (f s) (range indexing rank1)) (range indexing rank0)) i) as (row & R1 & R2); [rewrite map_length, range_length; exact Li|]. rewrite R2. cbn [bind]. rewrite nth_error_map, Ni in R1. injection R1 as <-.
  destruct (item_nth (map (f s) (range indexing rank1)) j) as (x & X1 & X2); [rewrite map_length, range_length; exact Lj|]. rewrite X2. rewrite nth_error_map, Nj in X1. injection X1 as <-. reflexivity.
Qed.
(** ... so that operators on tensors are what they are said to be. *)
Theorem identity_acts indexing rank v : good indexing -> exists T, identity_call indexing rank = Ok T /\ acts indexing rank rank T v v.
Proof.
  intros Hg. eexists. split; [apply (array_value indexing identity_entry (fun s t => int (tuple_eqb s t))); reflexivity|]. apply acts_array; [exact Hg|]. intros s Hs.
  apply (select indexing rank (fun t => t) s s v (proj1 Hg) Hs); [reflexivity|]. intros u _ E. symmetry. exact E.
Qed.
Definition symmetric (indexing : list Z) : Prop := forall s, In s indexing -> In (- s)%Z indexing.
Theorem metric_acts indexing rank v : good indexing -> symmetric indexing -> exists T, metric_call indexing rank = Ok T /\ acts indexing rank rank T v (fun s => v (map Z.opp s)).
Proof.
  intros Hg Hs. eexists. split; [apply (array_value indexing metric_entry (fun s t => int (tuple_eqb s (dual t)))); reflexivity|]. apply acts_array; [exact Hg|]. intros s Ht. change (map Z.opp s) with (dual s).
  apply (select indexing rank dual s (dual s) v (proj1 Hg)); [apply tuples_dual; assumption|symmetry; apply dual_dual|]. intros u _ ->. symmetry. apply dual_dual.
Qed.
Theorem transpose_acts indexing rank q v w : good indexing -> Permutation q (seq 0 rank) -> (forall t, tuples indexing rank t -> w (permuted q t) = v t) ->
  exists T, transpose_call (map Z.of_nat q) indexing rank = Ok T /\ acts indexing rank rank T v w.
Proof.
  intros Hg Hq Hw. eexists. split.
  - apply (array_value indexing (transpose_entry (map Z.of_nat q)) (fun s t => int (tuple_eqb s (permuted q t)))). intros s t _ [Lt _]. unfold transpose_entry. rewrite apply_value; [reflexivity|]. apply Forall_forall. intros i Hi. rewrite Lt. apply (perm_in _ _ Hq). exact Hi.
  - apply acts_array; [exact Hg|]. intros s Hs. destruct (permuted_surj indexing rank q (proj1 Hg) Hq s Hs) as (t & Ht & E). rewrite E, (Hw t Ht). rewrite <- E. apply (select indexing rank (permuted q) s t v (proj1 Hg) Ht E).
    intros u Hu Eu. apply (permuted_inj rank q Hq); [apply Hu|apply Ht|congruence].
Qed.
(** But a permutation of fewer indices, such as the default one for tensors of higher rank, gives zero. *)
Theorem transpose_rank_refuted indexing rank q v : good indexing -> Forall (fun i => i < rank) q -> List.length q < rank ->
  exists T, transpose_call (map Z.of_nat q) indexing rank = Ok T /\ acts indexing rank rank T v (fun _ => 0%Z).
Proof.
  intros Hg Hq HL. eexists. split.
  - apply (array_value indexing (transpose_entry (map Z.of_nat q)) (fun s t => int (tuple_eqb s (permuted q t)))). intros s t _ [Lt _]. unfold transpose_entry. rewrite apply_value; [reflexivity|]. rewrite Lt. exact Hq.
  - apply acts_array; [exact Hg|]. intros s [Ls _]. apply zsum_zero. intros t Ht. destruct (tuple_eqb s (permuted q t)) eqn:E; [|reflexivity]. apply tuple_eqb_spec in E. exfalso. rewrite E in Ls. unfold permuted in Ls. rewrite map_length in Ls. lia.
Qed.
(** The trace over the places [j] and [j + 1 + m]: the sum of the components with opposite entries there. *)
Theorem trace_acts indexing j m rank v : good indexing -> symmetric indexing -> j + 1 + m < rank ->
  exists T, trace_call [Z.of_nat j; Z.of_nat (j + 1 + m)] indexing rank = Ok T /\ acts indexing rank (rank - 2) T v (fun s => zsum (map (fun a => v (inserted j a m (- a)%Z s)) indexing)).
Proof.
  intros Hg Hs HL. unfold trace_call. cbn [List.length]. set (ks := [Z.of_nat j; Z.of_nat (j + 1 + m)]). eexists. split.
  - apply (array_value indexing (trace_entry ks) (fun s t => int (tuple_eqb s (remove ks t) && (sum_ ks t =? 0)%Z))). reflexivity.
  - apply acts_array; [exact Hg|]. intros s [Ls Fs]. destruct (split_at s j m) as (pre & mid & post & E & L1 & L2); [lia|]. subst s. rewrite !app_length in Ls.
    set (h := fun a => pre ++ a :: mid ++ (- a)%Z :: post). set (F := fun t => (int (tuple_eqb (pre ++ mid ++ post) (remove ks t) && (sum_ ks t =? 0)%Z) * v t)%Z).
    assert (R : forall a b, remove ks (pre ++ a :: mid ++ b :: post) = pre ++ mid ++ post) by (intros a b; unfold ks; rewrite <- L1, <- L2; apply remove_two).
    assert (SM : forall a b, sum_ ks (pre ++ a :: mid ++ b :: post) = (a + b)%Z) by (intros a b; unfold ks; rewrite <- L1, <- L2; apply sum_two).
    assert (I : forall a b, inserted j a m b (pre ++ mid ++ post) = pre ++ a :: mid ++ b :: post) by (intros a b; rewrite <- L1, <- L2; apply inserted_app).
    apply Forall_app in Fs. destruct Fs as [F1 F2]. apply Forall_app in F2. destruct F2 as [F2 F3].
    rewrite (zsum_image h (range indexing rank) indexing (range_nodup _ _ (proj1 Hg)) (proj1 Hg)).
    + apply zsum_ext. intros a Ha. unfold F, h. rewrite R, SM, I.
      replace (tuple_eqb (pre ++ mid ++ post) (pre ++ mid ++ post)) with true by (symmetry; apply tuple_eqb_spec; reflexivity). replace (a + - a =? 0)%Z with true by (symmetry; apply Z.eqb_eq; ring). cbn [andb int]. ring.
    + intros a b E. unfold h in E. apply app_inv_head in E. injection E as E _. exact E.
    + intros a Ha. apply in_range. unfold h. split; [rewrite app_length; cbn; rewrite app_length; cbn; lia|]. apply Forall_app. split; [exact F1|]. constructor; [exact Ha|]. apply Forall_app. split; [exact F2|]. constructor; [apply Hs; exact Ha|exact F3].
    + intros t Ht Nt. unfold F. destruct (tuple_eqb (pre ++ mid ++ post) (remove ks t) && (sum_ ks t =? 0)%Z) eqn:E; [|reflexivity]. exfalso. apply Nt. apply andb_true_iff in E. destruct E as [E1 E2]. apply tuple_eqb_spec in E1. apply Z.eqb_eq in E2.
      apply in_range in Ht. destruct Ht as [Lt Ft]. destruct (split_two t j m) as (pre' & a & mid' & b & post' & -> & L3 & L4); [lia|].
      assert (R' : remove ks (pre' ++ a :: mid' ++ b :: post') = pre' ++ mid' ++ post') by (unfold ks; rewrite <- L3, <- L4; apply remove_two). rewrite R' in E1.
      assert (S' : sum_ ks (pre' ++ a :: mid' ++ b :: post') = (a + b)%Z) by (unfold ks; rewrite <- L3, <- L4; apply sum_two). rewrite S' in E2.
      apply app_eq_app_ in E1; [|congruence]. destruct E1 as [-> E1]. apply app_eq_app_ in E1; [|congruence]. destruct E1 as [-> ->].
      apply in_map_iff. exists a. split; [unfold h; replace b with (- a)%Z by lia; reflexivity|]. apply Forall_app in Ft. destruct Ft as [_ Ft]. inversion Ft; assumption.
Qed.
(** The product with a basis tensor. *)
Theorem left_product_acts indexing element rank v : good indexing -> Forall (fun s => In s indexing) element ->
  exists T, left_product_call element indexing rank = Ok T /\ forall w, (forall s, tuples indexing rank s -> w (element ++ s) = v s) ->
    (forall s, (forall u, s <> element ++ u) -> w s = 0%Z) -> acts indexing rank (rank + List.length element) T v w.
Proof.
  intros Hg He. eexists. split; [apply (array_value indexing (left_product_entry element) (fun s t => int (tuple_eqb s (element ++ t)))); reflexivity|]. intros w W1 W2. apply acts_array; [exact Hg|]. intros s [Ls Fs].
  destruct (list_eq_dec Z.eq_dec (firstn (List.length element) s) element) as [E|N].
  - rewrite <- (firstn_skipn (List.length element) s) in Ls, Fs |- *. rewrite E in Ls, Fs |- *. set (u := skipn (List.length element) s) in *. rewrite app_length in Ls. apply Forall_app in Fs. destruct Fs as [_ Fs].
    assert (Hu : tuples indexing rank u) by (split; [lia|exact Fs]). rewrite W1 by exact Hu. apply (select indexing rank (fun t => element ++ t) (element ++ u) u v (proj1 Hg) Hu); [reflexivity|]. intros u' _ E'. apply app_inv_head in E'. symmetry. exact E'.
  - assert (Ns : forall u, s <> element ++ u) by (intros u ->; apply N; rewrite firstn_app, firstn_all, Nat.sub_diag; cbn; rewrite app_nil_r; reflexivity).
    rewrite W2 by exact Ns. apply zsum_zero. intros t _. destruct (tuple_eqb s (element ++ t)) eqn:E; [apply tuple_eqb_spec in E; exfalso; exact (Ns _ E)|reflexivity].
Qed.
Theorem right_product_acts indexing element rank v : good indexing -> Forall (fun s => In s indexing) element ->
  exists T, right_product_call element indexing rank = Ok T /\ forall w, (forall s, tuples indexing rank s -> w (s ++ element) = v s) ->
    (forall s, (forall u, s <> u ++ element) -> w s = 0%Z) -> acts indexing rank (rank + List.length element) T v w.
Proof.
  intros Hg He. eexists. split; [apply (array_value indexing (right_product_entry element) (fun s t => int (tuple_eqb s (t ++ element)))); reflexivity|]. intros w W1 W2. apply acts_array; [exact Hg|]. intros s [Ls Fs].
  destruct (list_eq_dec Z.eq_dec (skipn rank s) element) as [E|N].
  - rewrite <- (firstn_skipn rank s) in Fs |- *. rewrite E in Fs |- *. assert (Lu : List.length (firstn rank s) = rank) by (apply firstn_length_le; lia). set (u := firstn rank s) in *. apply Forall_app in Fs. destruct Fs as [Fs _].
    assert (Hu : tuples indexing rank u) by (split; [exact Lu|exact Fs]). rewrite W1 by exact Hu. apply (select indexing rank (fun t => t ++ element) (u ++ element) u v (proj1 Hg) Hu); [reflexivity|]. intros u' _ E'. apply app_inv_tail in E'. symmetry. exact E'.
  - assert (Ns : forall u, s <> u ++ element) by (intros u ->; apply N; rewrite app_length in Ls; replace rank with (List.length u) by lia; rewrite skipn_app, skipn_all, Nat.sub_diag; reflexivity).
    rewrite W2 by exact Ns. apply zsum_zero. intros t _. destruct (tuple_eqb s (t ++ element)) eqn:E; [apply tuple_eqb_spec in E; exfalso; exact (Ns _ E)|reflexivity].
Qed.

(** The orderings of the spin and regularity components meet the hypotheses. *)
Example orderings : good [(-1)%Z; 1%Z; 0%Z] /\ symmetric [(-1)%Z; 1%Z; 0%Z] /\ good [(-1)%Z; 1%Z] /\ symmetric [(-1)%Z; 1%Z]
  /\ tuple2index [1%Z; 0%Z; (-1)%Z] [(-1)%Z; 1%Z; 0%Z] = Ok 15 /\ index2tuple_with true 15 3 [(-1)%Z; 1%Z; 0%Z] = Ok [1%Z; 0%Z; (-1)%Z] /\ before [(-1)%Z; 1%Z; 0%Z] [1%Z; (-1)%Z] [1%Z; 0%Z].
Proof.
  repeat split; try reflexivity; try (cbn; lia); try (repeat constructor; cbn; intuition discriminate); try (intros s [<-|[<-|[<-|[]]]]; cbn; tauto); try (intros s [<-|[<-|[]]]; cbn; tauto).
  apply before_tail. apply (before_head _ _ _ _ _ 0 2); [reflexivity|reflexivity|lia].
Qed.
Example trace_rank_two : trace_call [0%Z; 1%Z] [(-1)%Z; 1%Z; 0%Z] 2 = Ok [[0; 1; 0; 1; 0; 0; 0; 0; 1]%Z]
  /\ transpose_call [1%Z; 0%Z] [(-1)%Z; 1%Z] 2 = Ok [[1; 0; 0; 0]; [0; 0; 1; 0]; [0; 1; 0; 0]; [0; 0; 0; 1]]%Z /\ Permutation [1; 0] (seq 0 2).
Proof. split; [reflexivity|]. split; [reflexivity|]. constructor. Qed.

Print Assumptions index_bounds.
Print Assumptions index_onto.
Print Assumptions index_injective.
Print Assumptions index_order.
Print Assumptions index_unknown.
Print Assumptions index_eleven_refuted.
Print Assumptions index2tuple_refuted.
Print Assumptions index2tuple_inverse.
Print Assumptions apply_positions.
Print Assumptions array_entries.
Print Assumptions identity_acts.
Print Assumptions metric_acts.
Print Assumptions transpose_acts.
Print Assumptions transpose_rank_refuted.
Print Assumptions trace_acts.
Print Assumptions left_product_acts.
Print Assumptions right_product_acts.
