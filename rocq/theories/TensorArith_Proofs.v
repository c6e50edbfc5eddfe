(** Proofs about products of tensors. *)
From Coq Require Import List ListDec Arith Bool ZArith Ascii String Lia Field.
Import ListNotations.
From Verif Require Import CSR_Model CSR_Spec CSR_Proofs CSRDense_Proofs MatSolvers_Model MatSolvers_Proofs Clenshaw_Model Clenshaw_Proofs TensorArith_Model TensorArith_Spec.
Local Open Scope nat_scope.

(** ** Lists *)
Lemma split_at {A} (l : list A) i : i < List.length l -> exists u x w, l = u ++ x :: w /\ List.length u = i.
Proof.
  intros H. destruct (nth_error l i) as [x|] eqn:E; [|apply nth_error_None in E; lia]. destruct (nth_error_split l i E) as (u & w & -> & Hu). exists u, x, w. split; [reflexivity|exact Hu].
Qed.
Lemma drop_app {A} (u w : list A) x : drop (List.length u) (u ++ x :: w) = u ++ w.
Proof. unfold drop. rewrite firstn_app, Nat.sub_diag, firstn_all. cbn [firstn]. rewrite app_nil_r. f_equal. rewrite skipn_app, skipn_all2 by lia. replace (S (List.length u) - List.length u) with 1 by lia. reflexivity. Qed.
Lemma put_app {A} (u w : list A) x : put (List.length u) x (u ++ w) = u ++ x :: w.
Proof. unfold put. rewrite firstn_app, skipn_app, Nat.sub_diag, firstn_all, skipn_all. cbn. rewrite app_nil_r. reflexivity. Qed.
Lemma split_put {A} i k (c : list A) : i <= List.length c -> exists u w, c = u ++ w /\ List.length u = i /\ put i k c = u ++ k :: w.
Proof. intros H. exists (firstn i c), (skipn i c). rewrite firstn_skipn, firstn_length. split; [reflexivity|]. split; [lia|reflexivity]. Qed.
Lemma in_shape_app s t a b : List.length s = List.length a -> (in_shape (s ++ t) (a ++ b) <-> in_shape s a /\ in_shape t b).
Proof.
  unfold in_shape. revert a. induction s as [|n s IH]; intros [|i a] H; cbn in H; try discriminate; cbn [app].
  - split; [intros X; split; [constructor|exact X]|tauto].
  - split.
    + intros X. inversion X; subst. apply IH in H5; [|lia]. destruct H5. split; [constructor; assumption|assumption].
    + intros [X Y]. inversion X; subst. constructor; [assumption|]. apply IH; [lia|]. split; assumption.
Qed.
Lemma in_shape_length s a : in_shape s a -> List.length s = List.length a.
Proof. unfold in_shape. apply Forall2_length. Qed.
Lemma unravel_in shape p : p < size shape -> in_shape shape (unravel shape p).
Proof.
  revert p. induction shape as [|n shape IH]; intros p H; cbn [unravel size] in *; [constructor|]. rewrite prod_size. assert (size shape <> 0) by lia. assert (n <> 0) by lia. constructor; [apply Nat.mod_upper_bound; assumption|].
  pose proof (Nat.div_mod p (size shape) H0) as D. rewrite D, Nat.mul_comm, unravel_add. apply IH. apply Nat.mod_upper_bound. assumption.
Qed.
Lemma flat_unravel shape p : p < size shape -> flat shape (unravel shape p) = p.
Proof.
  revert p. induction shape as [|n shape IH]; intros p H; cbn [unravel size flat] in *; [lia|]. rewrite prod_size. assert (size shape <> 0) by lia.
  pose proof (Nat.div_mod p (size shape) H0) as D. rewrite (Nat.mod_small (p / size shape)) by (apply Nat.div_lt_upper_bound; lia).
  rewrite D at 2. rewrite (Nat.mul_comm (size shape)), unravel_add, IH by (apply Nat.mod_upper_bound; assumption). lia.
Qed.

Lemma app_inj_len {A} (a b c d : list A) : List.length a = List.length c -> a ++ b = c ++ d -> a = c /\ b = d.
Proof. revert c. induction a as [|x a IH]; intros [|y c] H E; cbn in H; try discriminate; [split; [reflexivity|exact E]|]. injection E as -> E. destruct (IH c ltac:(lia) E) as [-> ->]. split; reflexivity. Qed.
Lemma NoDup_r_gone {A} (a b : list A) : NoDup (a ++ b) -> NoDup a.
Proof. induction a as [|x a IH]; cbn; intros H; [constructor|]. inversion H; subst. constructor; [rewrite in_app_iff in H2; tauto|apply IH; assumption]. Qed.
Lemma NoDup_l_gone {A} (a b : list A) : NoDup (a ++ b) -> NoDup b.
Proof. induction a as [|x a IH]; cbn; intros H; [exact H|]. inversion H; subst. apply IH. assumption. Qed.
(** ** Letters *)
Lemma ascii_eqb_eq a b : Ascii.eqb a b = true <-> a = b. Proof. apply Ascii.eqb_eq. Qed.
Lemma sreplace_other s c d : ~ In c s -> sreplace s c d = s.
Proof. unfold sreplace. intros H. rewrite <- (map_id s) at 2. apply map_ext_in. intros x Hx. destruct (Ascii.eqb x c) eqn:E; [apply ascii_eqb_eq in E; subst; tauto|reflexivity]. Qed.
Lemma sreplace_once u w c d : NoDup (u ++ c :: w) -> sreplace (u ++ c :: w) c d = u ++ d :: w.
Proof.
  intros H. apply NoDup_remove in H. destruct H as [_ H]. rewrite in_app_iff in H. unfold sreplace. rewrite map_app. cbn [map]. rewrite Ascii.eqb_refl.
  change (map (fun x => if Ascii.eqb x c then d else x) u) with (sreplace u c d). change (map (fun x => if Ascii.eqb x c then d else x) w) with (sreplace w c d). rewrite !sreplace_other by tauto. reflexivity.
Qed.
Lemma sremove_other s c : ~ In c s -> sremove s c = s.
Proof. unfold sremove. induction s as [|x s IH]; intros H; cbn; [reflexivity|]. cbn in H. destruct (Ascii.eqb x c) eqn:E; [apply ascii_eqb_eq in E; subst; tauto|]. cbn. rewrite IH by tauto. reflexivity. Qed.
Lemma sremove_app s t c : sremove (s ++ t) c = sremove s c ++ sremove t c. Proof. apply filter_app. Qed.
Lemma sremove_once u w c : ~ In c u -> ~ In c w -> sremove (u ++ c :: w) c = u ++ w.
Proof. intros Hu Hw. rewrite sremove_app, (sremove_other u) by assumption. unfold sremove at 1. cbn [filter]. rewrite Ascii.eqb_refl. cbn [negb]. fold (sremove w c). rewrite sremove_other by assumption. reflexivity. Qed.
Lemma alphabet_nodup : NoDup (alphabet ++ [z_]).
Proof. vm_compute. repeat (constructor; [cbn [In]; intuition discriminate|]). constructor. Qed.
Lemma assigned_other s idx x : ~ In x s -> assigned s idx x = 0.
Proof. revert idx. induction s as [|c s IH]; intros [|i idx] H; cbn; try reflexivity. cbn in H. unfold set. destruct (Ascii.eqb x c) eqn:E; [apply ascii_eqb_eq in E; subst; tauto|]. apply IH. tauto. Qed.
Lemma assigned_map s idx : NoDup s -> List.length s = List.length idx -> map (assigned s idx) s = idx.
Proof.
  intros ND. revert idx. induction ND as [|c s Hc ND IH]; intros [|i idx] H; cbn in H; try discriminate; [reflexivity|]. cbn [map assigned]. unfold set at 1. rewrite Ascii.eqb_refl. f_equal.
  rewrite <- (IH idx) at 2 by lia. apply map_ext_in. intros x Hx. unfold set. destruct (Ascii.eqb x c) eqn:E; [apply ascii_eqb_eq in E; subst; tauto|reflexivity].
Qed.
Lemma set_map e c v s : ~ In c s -> map (set e c v) s = map e s.
Proof. intros H. apply map_ext_in. intros x Hx. unfold set. destruct (Ascii.eqb x c) eqn:E; [apply ascii_eqb_eq in E; subst; tauto|reflexivity]. Qed.
Lemma read_map e s shape : List.length s = List.length shape -> in_shape shape (map e s) -> read e s shape = map e s.
Proof.
  unfold read. revert s. induction shape as [|n shape IH]; intros [|c s] H X; cbn in H; try discriminate; [reflexivity|]. inversion X; subst. cbn [combine map fst snd]. rewrite IH by (try assumption; lia). destruct (n =? 1) eqn:E; [apply Nat.eqb_eq in E; f_equal; lia|reflexivity].
Qed.
Lemma combine_fst {A B} (s : list A) (t : list B) : List.length s = List.length t -> map fst (combine s t) = s.
Proof. revert t. induction s as [|x s IH]; intros [|y t] H; cbn in H; try discriminate; cbn; [reflexivity|]. rewrite IH by lia. reflexivity. Qed.
Lemma combine_app_ {A B} (s s' : list A) (t t' : list B) : List.length s = List.length t -> combine (s ++ s') (t ++ t') = combine s t ++ combine s' t'.
Proof. revert t. induction s as [|x s IH]; intros [|y t] H; cbn in H; try discriminate; cbn; [reflexivity|]. rewrite IH by lia. reflexivity. Qed.
(** Lengths of labels. *)
Lemma len_other (l : list (ascii * nat)) c : ~ In c (map fst l) -> filter (fun p => Ascii.eqb (fst p) c) l = [].
Proof. induction l as [|p l IH]; intros H; cbn; [reflexivity|]. cbn in H. destruct (Ascii.eqb (fst p) c) eqn:E; [apply ascii_eqb_eq in E; tauto|]. apply IH. tauto. Qed.
Lemma len_once (l : list (ascii * nat)) c d : NoDup (map fst l) -> In (c, d) l -> filter (fun p => Ascii.eqb (fst p) c) l = [(c, d)].
Proof.
  induction l as [|[x y] l IH]; intros ND H; [destruct H|]. cbn in ND. inversion ND as [|? ? Hx ND']; subst. cbn [filter fst]. destruct H as [H|H].
  - injection H as -> ->. rewrite Ascii.eqb_refl, (len_other l c Hx). reflexivity.
  - destruct (Ascii.eqb x c) eqn:E; [|apply IH; assumption]. apply ascii_eqb_eq in E. subst x. exfalso. apply Hx. apply (in_map fst) in H. exact H.
Qed.

Section Field.
Context {K : Type} (k0 k1 : K) (kadd kmul ksub kdiv : K -> K -> K) (kopp kinv : K -> K).
Context (Hf : field_theory k0 k1 kadd kmul ksub kopp kdiv kinv eq).
Add Field Kf : Hf.
Notation total := (CSR_Spec.total k0 kadd).
Local Notation T_ext := (total_ext k0 k1 kadd kmul ksub kdiv kopp kinv Hf).
Local Notation T_zero := (total_zero k0 k1 kadd kmul ksub kdiv kopp kinv Hf).
Local Notation T_swap := (total_swap k0 k1 kadd kmul ksub kdiv kopp kinv Hf).
Local Notation T_single := (total_single k0 k1 kadd kmul ksub kdiv kopp kinv Hf).
Local Notation T_mul_l := (total_mul_l k0 k1 kadd kmul ksub kdiv kopp kinv Hf).
Local Notation T_mul_r := (total_mul_r k0 k1 kadd kmul ksub kdiv kopp kinv Hf).
Local Notation T_add := (total_add k0 k1 kadd kmul ksub kdiv kopp kinv Hf).
Local Notation T_prod := (total_product k0 k1 kadd kmul ksub kdiv kopp kinv Hf).

Lemma einsum_unfold s0 s1 out shape0 shape1 (A B : nat -> K) labels len : labels = combine s0 shape0 ++ combine s1 shape1 -> len = (fun c => fold_right max 1 (map snd (filter (fun p => Ascii.eqb (fst p) c) labels))) ->
  einsum k0 kadd kmul s0 s1 out shape0 shape1 A B = if forallb (fun p => (snd p =? 1) || (snd p =? len (fst p))) labels then
    Ok (fun idx => sum_over k0 kadd len (nodup ascii_dec (filter (fun c => negb (existsb (Ascii.eqb c) out)) (map fst labels))) (assigned out idx) (fun e => kmul (A (flat shape0 (read e s0 shape0))) (B (flat shape1 (read e s1 shape1)))))
  else Raises ValueError.
Proof. intros -> ->. reflexivity. Qed.
(** The subscripts of a dot product: letters [u0 c w0] and [u1 d w1] with the marked ones replaced. *)
Lemma einsum_dot u0 w0 u1 w1 a0 n b0 a1 n' b1 A B :
  NoDup ((u0 ++ w0) ++ (u1 ++ w1)) -> ~ In z_ ((u0 ++ w0) ++ (u1 ++ w1)) -> List.length u0 = List.length a0 -> List.length w0 = List.length b0 -> List.length u1 = List.length a1 -> List.length w1 = List.length b1 ->
  Forall (fun d => 1 <= d) (a0 ++ n :: b0) -> Forall (fun d => 1 <= d) (a1 ++ n' :: b1) ->
  let labels := combine (u0 ++ z_ :: w0) (a0 ++ n :: b0) ++ combine (u1 ++ z_ :: w1) (a1 ++ n' :: b1) in
  let len c := fold_right max 1 (map snd (filter (fun p => Ascii.eqb (fst p) c) labels)) in
  len z_ = max n n' /\ (forall p, In p (combine (u0 ++ w0) (a0 ++ b0) ++ combine (u1 ++ w1) (a1 ++ b1)) -> snd p = len (fst p))
  /\ (n = n' \/ n = 1 \/ n' = 1 -> exists f, einsum k0 kadd kmul (u0 ++ z_ :: w0) (u1 ++ z_ :: w1) ((u0 ++ w0) ++ (u1 ++ w1)) (a0 ++ n :: b0) (a1 ++ n' :: b1) A B = Ok f
      /\ forall x0 y0 x1 y1, in_shape a0 x0 -> in_shape b0 y0 -> in_shape a1 x1 -> in_shape b1 y1 ->
         f ((x0 ++ y0) ++ (x1 ++ y1)) = total (max n n') (fun k => kmul (A (flat (a0 ++ n :: b0) (x0 ++ (if n =? 1 then 0 else k) :: y0))) (B (flat (a1 ++ n' :: b1) (x1 ++ (if n' =? 1 then 0 else k) :: y1)))))
  /\ (n <> n' -> n <> 1 -> n' <> 1 -> einsum k0 kadd kmul (u0 ++ z_ :: w0) (u1 ++ z_ :: w1) ((u0 ++ w0) ++ (u1 ++ w1)) (a0 ++ n :: b0) (a1 ++ n' :: b1) A B = Raises ValueError).
Proof.
  intros ND Hz L1 L2 L3 L4 P0 P1 labels len.
  assert (EL : labels = combine u0 a0 ++ (z_, n) :: combine w0 b0 ++ combine u1 a1 ++ (z_, n') :: combine w1 b1).
  { unfold labels. rewrite !combine_app_ by assumption. cbn [combine]. rewrite <- !app_assoc. reflexivity. }
  rewrite Forall_app in P0, P1. destruct P0 as [P0 P0']. destruct P1 as [P1 P1']. inversion P0' as [|? ? Pn Pb0]; subst. inversion P1' as [|? ? Pn' Pb1]; subst.
  assert (Hz' : ~ In z_ u0 /\ ~ In z_ w0 /\ ~ In z_ u1 /\ ~ In z_ w1) by (rewrite !in_app_iff in Hz; tauto). destruct Hz' as (Z1 & Z2 & Z3 & Z4).
  assert (F : forall (P : ascii * nat -> bool), filter P labels = filter P (combine u0 a0) ++ filter P [(z_, n)] ++ filter P (combine w0 b0) ++ filter P (combine u1 a1) ++ filter P [(z_, n')] ++ filter P (combine w1 b1)).
  { intros P. rewrite EL. rewrite filter_app. change ((z_, n) :: combine w0 b0 ++ combine u1 a1 ++ (z_, n') :: combine w1 b1) with ([(z_, n)] ++ (combine w0 b0 ++ combine u1 a1 ++ ([(z_, n')] ++ combine w1 b1))). rewrite !filter_app. reflexivity. }
  assert (Lz : len z_ = max n n').
  { unfold len. rewrite F, (len_other (combine u0 a0)), (len_other (combine w0 b0)), (len_other (combine u1 a1)), (len_other (combine w1 b1)) by (rewrite combine_fst by assumption; assumption). cbn [filter fst]. rewrite Ascii.eqb_refl. cbn [app map snd fold_right]. lia. }
  assert (Lo : forall p, In p (combine (u0 ++ w0) (a0 ++ b0) ++ combine (u1 ++ w1) (a1 ++ b1)) -> snd p = len (fst p)).
  { intros [c d] Hp. cbn [fst snd].
    assert (Ec : c <> z_). { intros ->. apply in_app_iff in Hp. apply Hz. apply in_app_iff. destruct Hp as [Hp|Hp]; apply in_combine_l in Hp; tauto. }
    assert (E : filter (fun p => Ascii.eqb (fst p) c) labels = filter (fun p => Ascii.eqb (fst p) c) (combine (u0 ++ w0) (a0 ++ b0) ++ combine (u1 ++ w1) (a1 ++ b1))).
    { rewrite F, !combine_app_ by assumption. rewrite !filter_app. cbn [filter fst]. destruct (Ascii.eqb z_ c) eqn:E; [apply ascii_eqb_eq in E; congruence|]. cbn [app]. rewrite <- !app_assoc. reflexivity. }
    unfold len. rewrite E, (len_once _ c d); [cbn [map snd fold_right]| |exact Hp].
    - enough (1 <= d) by lia. apply in_app_iff in Hp. destruct Hp as [Hp|Hp]; apply in_combine_r in Hp; apply in_app_iff in Hp; rewrite !Forall_forall in *; destruct Hp as [Hp|Hp]; auto.
    - rewrite map_app, !combine_fst by (rewrite !app_length; lia). exact ND. }
  split; [exact Lz|]. split; [exact Lo|].
  assert (All : forall p, In p labels <-> p = (z_, n) \/ p = (z_, n') \/ In p (combine (u0 ++ w0) (a0 ++ b0) ++ combine (u1 ++ w1) (a1 ++ b1))).
  { intros p. rewrite EL, !combine_app_ by assumption. rewrite !in_app_iff. cbn [In]. rewrite !in_app_iff. cbn [In]. intuition congruence. }
  assert (Sm : nodup ascii_dec (filter (fun c => negb (existsb (Ascii.eqb c) ((u0 ++ w0) ++ u1 ++ w1))) (map fst labels)) = [z_]).
  { assert (G : forall l, incl l ((u0 ++ w0) ++ u1 ++ w1) -> filter (fun c => negb (existsb (Ascii.eqb c) ((u0 ++ w0) ++ u1 ++ w1))) l = []).
    { induction l as [|x l IH]; intros Hi; [reflexivity|]. cbn [filter]. assert (X : existsb (Ascii.eqb x) ((u0 ++ w0) ++ u1 ++ w1) = true) by (apply existsb_exists; exists x; split; [apply Hi; left; reflexivity|apply Ascii.eqb_refl]). rewrite X. cbn [negb]. apply IH. intros y Hy. apply Hi. right. exact Hy. }
    assert (X : existsb (Ascii.eqb z_) ((u0 ++ w0) ++ u1 ++ w1) = false) by (apply not_true_is_false; intros X; apply existsb_exists in X; destruct X as (y & Hy & E); apply ascii_eqb_eq in E; subst y; exact (Hz Hy)).
    rewrite EL, map_app. cbn [map fst]. rewrite !map_app. cbn [map fst]. rewrite !combine_fst by assumption. rewrite filter_app. cbn [filter]. rewrite X. cbn [negb]. rewrite !filter_app. cbn [filter]. rewrite X. cbn [negb].
    rewrite !G by (intros y Hy; rewrite !in_app_iff; tauto). cbn [app nodup]. destruct (in_dec ascii_dec z_ [z_]) as [_|N]; [reflexivity|exfalso; apply N; left; reflexivity]. }
  split.
  - intros Hn. assert (Ck : forallb (fun p => (snd p =? 1) || (snd p =? len (fst p))) labels = true).
    { apply forallb_forall. intros p Hp. apply All in Hp. destruct Hp as [->|[->|Hp]]; cbn [fst snd]; try (rewrite Lz; destruct Hn as [->|[->| ->]]; rewrite ?Nat.max_id, ?Nat.eqb_refl, ?orb_true_r; try reflexivity; rewrite orb_true_iff, !Nat.eqb_eq; lia).
      rewrite (Lo p Hp), Nat.eqb_refl, orb_true_r. reflexivity. }
    rewrite (einsum_unfold _ _ _ _ _ _ _ labels len eq_refl eq_refl). rewrite Ck, Sm. eexists. split; [reflexivity|].
    intros x0 y0 x1 y1 S0 S0' S1 S1'. cbn [sum_over]. rewrite Lz. apply T_ext. intros k Hk.
    assert (E : map (assigned ((u0 ++ w0) ++ u1 ++ w1) ((x0 ++ y0) ++ x1 ++ y1)) ((u0 ++ w0) ++ u1 ++ w1) = (x0 ++ y0) ++ x1 ++ y1).
    { apply assigned_map; [exact ND|]. apply in_shape_length in S0, S0', S1, S1'. rewrite !app_length. lia. }
    set (e := assigned ((u0 ++ w0) ++ u1 ++ w1) ((x0 ++ y0) ++ x1 ++ y1)) in *. pose proof (in_shape_length _ _ S0). pose proof (in_shape_length _ _ S0'). pose proof (in_shape_length _ _ S1). pose proof (in_shape_length _ _ S1').
    rewrite !map_app in E. apply app_inj_len in E; [|rewrite !app_length, ?map_length; lia]. destruct E as [E0 E1]. apply app_inj_len in E0; [|rewrite map_length; lia]. apply app_inj_len in E1; [|rewrite map_length; lia]. destruct E0 as [Ex0 Ey0], E1 as [Ex1 Ey1].
    assert (R : forall u w a m b x y, ~ In z_ u -> ~ In z_ w -> List.length u = List.length a -> List.length w = List.length b -> map e u = x -> map e w = y -> in_shape a x -> in_shape b y -> read (set e z_ k) (u ++ z_ :: w) (a ++ m :: b) = x ++ (if m =? 1 then 0 else k) :: y).
    { intros u w a m b x y Nu Nw Lu Lw Eu Ew Sx Sy. unfold read. rewrite combine_app_ by assumption. rewrite map_app. cbn [combine map fst snd]. f_equal; [|f_equal].
      - change (map (fun p => if snd p =? 1 then 0 else set e z_ k (fst p)) (combine u a)) with (read (set e z_ k) u a). rewrite read_map; rewrite ?set_map by assumption; [exact Eu|exact Lu|rewrite Eu; exact Sx].
      - change (map (fun p => if snd p =? 1 then 0 else set e z_ k (fst p)) (combine w b)) with (read (set e z_ k) w b). rewrite read_map; rewrite ?set_map by assumption; [exact Ew|exact Lw|rewrite Ew; exact Sy]. }
    rewrite (R u0 w0 a0 n b0 x0 y0), (R u1 w1 a1 n' b1 x1 y1) by assumption. reflexivity.
  - intros N1 N2 N3. rewrite (einsum_unfold _ _ _ _ _ _ _ labels len eq_refl eq_refl).
    replace (forallb (fun p => (snd p =? 1) || (snd p =? len (fst p))) labels) with false; [reflexivity|]. symmetry. apply not_true_is_false. intros Ck. rewrite forallb_forall in Ck.
    pose proof (Ck (z_, n) (proj2 (All _) (or_introl eq_refl))) as C1. pose proof (Ck (z_, n') (proj2 (All _) (or_intror (or_introl eq_refl)))) as C2. cbn [fst snd] in C1, C2. rewrite Lz, orb_true_iff, !Nat.eqb_eq in C1, C2. lia.
Qed.

Lemma app_cancel {A} (u w u' w' : list A) : u ++ w = u' ++ w' -> List.length u = List.length u' -> u = u' /\ w = w'.
Proof. intros E L. exact (app_inj_len u w u' w' L E). Qed.
Lemma check_position index rank i : position index rank i -> check_index index rank = Ok (Z.of_nat i).
Proof.
  intros [L H]. unfold check_index. replace ((Z.of_nat rank <? index)%Z || (index <? - Z.of_nat rank)%Z) with false by (symmetry; apply orb_false_iff; rewrite !Z.ltb_ge; lia).
  f_equal. destruct (Z.ltb_spec index 0); lia.
Qed.
Lemma check_out index rank : (Z.of_nat rank < index \/ index < - Z.of_nat rank)%Z -> check_index index rank = Raises ValueError.
Proof. intros H. unfold check_index. replace ((Z.of_nat rank <? index)%Z || (index <? - Z.of_nat rank)%Z) with true by (symmetry; apply orb_true_iff; rewrite !Z.ltb_lt; lia). reflexivity. Qed.
Lemma check_in index rank : ~ (Z.of_nat rank < index \/ index < - Z.of_nat rank)%Z -> (exists i, position index rank i) \/ index = Z.of_nat rank /\ check_index index rank = Ok (Z.of_nat rank).
Proof.
  intros H. destruct (Z.eq_dec index (Z.of_nat rank)) as [->|N].
  - right. split; [reflexivity|]. unfold check_index. rewrite Z.ltb_irrefl. replace (Z.of_nat rank <? - Z.of_nat rank)%Z with false by (symmetry; apply Z.ltb_ge; lia). replace (Z.of_nat rank <? 0)%Z with false by (symmetry; apply Z.ltb_ge; lia). reflexivity.
  - left. exists (Z.to_nat (if (index <? 0)%Z then index + Z.of_nat rank else index)). unfold position. destruct (Z.ltb_spec index 0); lia.
Qed.
Lemma put_length {A} i (v : A) r : i <= List.length r -> List.length (put i v r) = S (List.length r).
Proof. intros H. unfold put. rewrite app_length. cbn [List.length]. rewrite firstn_length, skipn_length. lia. Qed.
Lemma pop_ok {A} (l : list A) i : i < List.length l -> pop l i = Ok (drop i l).
Proof. intros H. unfold pop. apply Nat.ltb_lt in H. rewrite H. reflexivity. Qed.
Lemma pop_end {A} (l : list A) i : List.length l <= i -> pop l i = Raises IndexError.
Proof. intros H. unfold pop. apply Nat.ltb_ge in H. rewrite H. reflexivity. Qed.
Lemma prefix_letters r0 r1 : r0 + r1 <= 25 -> let s := firstn r0 alphabet in let t := firstn r1 (skipn r0 alphabet) in List.length s = r0 /\ List.length t = r1 /\ NoDup (s ++ t) /\ ~ In z_ (s ++ t).
Proof.
  intros H s t. assert (L : List.length alphabet = 25) by reflexivity.
  assert (E : s ++ t ++ (skipn r1 (skipn r0 alphabet) ++ [z_]) = alphabet ++ [z_]) by (unfold s, t; rewrite (app_assoc (firstn r1 _)), firstn_skipn, app_assoc, firstn_skipn; reflexivity).
  split; [unfold s; rewrite firstn_length; lia|]. split; [unfold t; rewrite firstn_length, skipn_length; lia|]. pose proof alphabet_nodup as ND. rewrite <- E, app_assoc in ND. split.
  - apply NoDup_r_gone in ND. exact ND.
  - intros Hz. apply in_split in Hz. destruct Hz as (l1 & l2 & El). rewrite El, <- app_assoc in ND. cbn [app] in ND. apply NoDup_remove in ND. apply (proj2 ND). rewrite !in_app_iff. right. right. right. left. reflexivity.
Qed.
Lemma dot_built sig0 sig1 i0 i1 i j : List.length sig0 + List.length sig1 <= 25 -> position i0 (List.length sig0) i -> position i1 (List.length sig1) j ->
  exists u0 w0 u1 w1, DotProduct sig0 sig1 (i0, i1) = Ok {| dp_indices := (i, j); dp_sig := drop i sig0 ++ drop j sig1; dp_0 := u0 ++ z_ :: w0; dp_1 := u1 ++ z_ :: w1; dp_out := (u0 ++ w0) ++ (u1 ++ w1) |}
    /\ List.length u0 = i /\ S (List.length u0 + List.length w0) = List.length sig0 /\ List.length u1 = j /\ S (List.length u1 + List.length w1) = List.length sig1 /\ NoDup ((u0 ++ w0) ++ (u1 ++ w1)) /\ ~ In z_ ((u0 ++ w0) ++ (u1 ++ w1)).
Proof.
  intros R H0 H1. destruct (prefix_letters _ _ R) as (L0 & L1 & ND & Hz).
  set (s := firstn (List.length sig0) alphabet) in *. set (t := firstn (List.length sig1) (skipn (List.length sig0) alphabet)) in *.
  destruct (split_at s i) as (u0 & c & w0 & Es & Lu0); [rewrite L0; apply H0|]. destruct (split_at t j) as (u1 & d & w1 & Et & Lu1); [rewrite L1; apply H1|].
  exists u0, w0, u1, w1.
  assert (N0 : NoDup s) by (apply NoDup_r_gone in ND; exact ND). assert (N1 : NoDup t) by (apply NoDup_l_gone in ND; exact ND).
  rewrite Es in N0, L0. rewrite Et in N1, L1. rewrite app_length in L0, L1. cbn [List.length] in L0, L1. rewrite Es, Et in ND, Hz.
  assert (Hz' : ~ In z_ u0 /\ ~ In z_ w0 /\ ~ In z_ u1 /\ ~ In z_ w1) by (rewrite !in_app_iff in Hz; cbn in Hz; tauto).
  split; [|split; [exact Lu0|split; [lia|split; [exact Lu1|split; [lia|split]]]]].
  - unfold DotProduct, check_indices. cbn [fst snd]. rewrite (check_position _ _ _ H0). cbn [bind]. rewrite (check_position _ _ _ H1). cbn [bind fst snd]. rewrite !Nat2Z.id. rewrite pop_ok by apply H0. cbn [bind]. rewrite pop_ok by apply H1. cbn [bind].
    fold s. fold t. rewrite Es, Et. unfold char_at. rewrite <- Lu0, nth_error_app2, Nat.sub_diag by lia. cbn [nth_error bind]. rewrite <- Lu1, nth_error_app2, Nat.sub_diag by lia. cbn [nth_error bind].
    rewrite !sreplace_once by assumption. rewrite sremove_app, !sremove_once by tauto. reflexivity.
  - rewrite <- app_assoc in ND. cbn [app] in ND. rewrite <- app_assoc. assert (X : NoDup (u0 ++ w0 ++ u1 ++ d :: w1)) by (apply NoDup_remove_1 in ND; exact ND). rewrite !app_assoc in X |- *. apply NoDup_remove_1 in X. rewrite app_assoc in *. exact X.
  - rewrite !in_app_iff. tauto.
Qed.

Lemma dims_app s t : dims (s ++ t) = dims s ++ dims t. Proof. apply map_app. Qed.
Lemma split_sig i v (r : tensorsig) : i <= List.length r -> exists u w, r = u ++ w /\ List.length u = i /\ put i v r = u ++ v :: w.
Proof. apply split_put. Qed.
Lemma split_index (u w : tensorsig) c : in_shape (dims (u ++ w)) c -> exists x y, c = x ++ y /\ in_shape (dims u) x /\ in_shape (dims w) y /\ (forall k, put (List.length u) k c = x ++ k :: y).
Proof.
  intros H. pose proof (in_shape_length _ _ H) as L. unfold dims in L. rewrite map_length, app_length in L. exists (firstn (List.length u) c), (skipn (List.length u) c).
  split; [symmetry; apply firstn_skipn|]. rewrite <- (firstn_skipn (List.length u) c), dims_app in H. apply in_shape_app in H; [|unfold dims; rewrite map_length, firstn_length; lia]. split; [apply H|]. split; [apply H|]. reflexivity.
Qed.
Lemma dot_values i0 i1 i j v w (r0 r1 : tensorsig) A B : List.length r0 + List.length r1 <= 23 -> i <= List.length r0 -> j <= List.length r1 -> position i0 (S (List.length r0)) i -> position i1 (S (List.length r1)) j -> positive (put i v r0) -> positive (put j w r1) ->
  exists p, DotProduct (put i v r0) (put j w r1) (i0, i1) = Ok p /\ dp_sig p = r0 ++ r1 /\ dp_indices p = (i, j)
  /\ (cs_dim v = cs_dim w \/ cs_dim v = 1 \/ cs_dim w = 1 -> exists f, dot_operate k0 kadd kmul p (put i v r0) (put j w r1) A B = Ok f /\ forall c0 c1, in_shape (dims r0) c0 -> in_shape (dims r1) c1 ->
       f (c0 ++ c1) = total (max (cs_dim v) (cs_dim w)) (fun k => kmul (component (put i v r0) A (put i (if cs_dim v =? 1 then 0 else k) c0)) (component (put j w r1) B (put j (if cs_dim w =? 1 then 0 else k) c1))))
  /\ (cs_dim v <> cs_dim w -> cs_dim v <> 1 -> cs_dim w <> 1 -> dot_operate k0 kadd kmul p (put i v r0) (put j w r1) A B = Raises ValueError).
Proof.
  intros R Hi Hj P0 P1 Q0 Q1. pose proof (put_length i v r0 Hi) as L0. pose proof (put_length j w r1 Hj) as L1.
  destruct (dot_built (put i v r0) (put j w r1) i0 i1 i j) as (u0 & w0 & u1 & w1 & E & X1 & X2 & X3 & X4 & ND & Hz); try (rewrite ?L0, ?L1; assumption || lia). rewrite L0 in X2. rewrite L1 in X4.
  destruct (split_sig i v r0 Hi) as (a0 & b0 & Er0 & La0 & Ep0). destruct (split_sig j w r1 Hj) as (a1 & b1 & Er1 & La1 & Ep1).
  eexists. split; [exact E|]. cbn [dp_sig dp_indices]. rewrite Ep0, Ep1 in *. split; [rewrite <- La0 at 1; rewrite <- La1 at 1; rewrite !drop_app; congruence|]. split; [reflexivity|].
  subst r0 r1. rewrite app_length in *. unfold dot_operate. cbn [dp_0 dp_1 dp_out]. rewrite !dims_app. change (dims (v :: b0)) with (cs_dim v :: dims b0). change (dims (w :: b1)) with (cs_dim w :: dims b1).
  assert (Pd : forall sg, positive sg -> Forall (fun d => 1 <= d) (dims sg)) by (intros sg; unfold positive, dims; rewrite Forall_map; tauto).
  assert (Ld : forall sg, List.length (dims sg) = List.length sg) by (intros sg; apply map_length).
  apply Pd in Q0, Q1. rewrite dims_app in Q0, Q1. change (dims (v :: b0)) with (cs_dim v :: dims b0) in Q0. change (dims (w :: b1)) with (cs_dim w :: dims b1) in Q1.
  destruct (einsum_dot u0 w0 u1 w1 (dims a0) (cs_dim v) (dims b0) (dims a1) (cs_dim w) (dims b1) A B ND Hz) as (_ & _ & V & M); try (rewrite Ld; lia); try assumption.
  split; [|exact M]. intros Hd. destruct (V Hd) as (f & Ef & Hv). exists f. split; [exact Ef|]. intros c0 c1 S0 S1.
  rewrite <- dims_app in S0, S1. destruct (split_index _ _ _ S0) as (x0 & y0 & -> & Sx0 & Sy0 & Z0). destruct (split_index _ _ _ S1) as (x1 & y1 & -> & Sx1 & Sy1 & Z1). rewrite La0 in Z0. rewrite La1 in Z1.
  rewrite (Hv x0 y0 x1 y1 Sx0 Sy0 Sx1 Sy1). apply T_ext. intros k Hk. unfold component. rewrite Z0, Z1, !dims_app. reflexivity.
Qed.
(** Failing constructions. *)
Lemma dot_failures sig0 sig1 i0 i1 : let out i r := (Z.of_nat r < i \/ i < - Z.of_nat r)%Z in
  (out i0 (List.length sig0) \/ out i1 (List.length sig1) -> DotProduct sig0 sig1 (i0, i1) = Raises ValueError)
  /\ (~ out i0 (List.length sig0) -> ~ out i1 (List.length sig1) -> i0 = Z.of_nat (List.length sig0) \/ i1 = Z.of_nat (List.length sig1) -> DotProduct sig0 sig1 (i0, i1) = Raises IndexError).
Proof.
  intros out. unfold DotProduct, check_indices. cbn [fst snd]. split.
  - intros [H|H]; [rewrite check_out by exact H; reflexivity|]. rewrite (check_out i1) by exact H. destruct (check_index i0 (List.length sig0)) as [x|e] eqn:E; [reflexivity|]. unfold check_index in E. destruct (_ || _); [injection E as <-; reflexivity|discriminate].
  - intros H0 H1 H. destruct (check_in _ _ H0) as [[i Hi]|[E0 C0]].
    + rewrite (check_position _ _ _ Hi). cbn [bind]. destruct (check_in _ _ H1) as [[j Hj]|[E1 C1]].
      * exfalso. destruct Hi as [? ?], Hj as [? ?]. lia.
      * rewrite C1. cbn [bind fst snd]. rewrite !Nat2Z.id, pop_ok by apply Hi. cbn [bind]. rewrite pop_end by lia. reflexivity.
    + rewrite C0. cbn [bind]. destruct (check_in _ _ H1) as [[j Hj]|[E1 C1]]; [rewrite (check_position _ _ _ Hj)|rewrite C1]; cbn [bind fst snd]; rewrite Nat2Z.id, pop_end by lia; reflexivity.
Qed.
(** ** Products of all components *)
Lemma broadcast_app s t a b : List.length s = List.length a -> broadcast (s ++ t) (a ++ b) = broadcast s a ++ broadcast t b.
Proof. intros H. unfold broadcast. rewrite combine_app_ by exact H. apply map_app. Qed.
Lemma broadcast_in s a : in_shape s a -> broadcast s a = a.
Proof. induction 1 as [|n i s a H F IH]; [reflexivity|]. unfold broadcast in *. cbn [combine map fst snd]. rewrite IH. destruct (n =? 1) eqn:E; [apply Nat.eqb_eq in E; f_equal; lia|reflexivity]. Qed.
Lemma broadcast_ones m a : List.length a = m -> broadcast (repeat 1 m) a = repeat 0 m.
Proof. revert a. induction m as [|m IH]; intros [|x a] H; cbn in H; try discriminate; [reflexivity|]. unfold broadcast in *. cbn [repeat combine map fst snd]. rewrite IH by lia. reflexivity. Qed.
Lemma size_ones m : size (repeat 1 m) = 1. Proof. induction m as [|m IH]; cbn [repeat size]; lia. Qed.
Lemma flat_zeros m : flat (repeat 1 m) (repeat 0 m) = 0. Proof. induction m as [|m IH]; cbn [repeat flat]; lia. Qed.
Lemma size_app_ s t : size (s ++ t) = size s * size t. Proof. induction s as [|n s IH]; cbn [app size]; [lia|]. rewrite IH. lia. Qed.
Lemma flat_app_ s t a b : List.length s = List.length a -> flat (s ++ t) (a ++ b) = flat s a * size t + flat t b.
Proof. revert a. induction s as [|n s IH]; intros [|i a] H; cbn in H; try discriminate; cbn [app flat]; [lia|]. rewrite IH, size_app_ by lia. lia. Qed.
Lemma multiply_values (sig0 sig1 : tensorsig) (A B : nat -> K) c0 c1 : in_shape (dims sig0) c0 -> in_shape (dims sig1) c1 -> multiply_operate kmul sig0 sig1 A B (c0 ++ c1) = kmul (component sig0 A c0) (component sig1 B c1).
Proof.
  intros H0 H1. pose proof (in_shape_length _ _ H0) as L0. pose proof (in_shape_length _ _ H1) as L1. unfold dims in L0, L1. rewrite map_length in L0, L1. unfold multiply_operate, component. f_equal.
  - f_equal. rewrite broadcast_app by (unfold dims; rewrite map_length; exact L0). rewrite (broadcast_in _ _ H0), broadcast_ones by lia. rewrite flat_app_ by (unfold dims; rewrite map_length; exact L0). rewrite size_ones, flat_zeros. lia.
  - f_equal. rewrite broadcast_app by (rewrite repeat_length; exact L0). rewrite (broadcast_in _ _ H1), broadcast_ones by lia. rewrite flat_app_ by (rewrite !repeat_length; reflexivity). rewrite flat_zeros. lia.
Qed.

(** ** Bilinear maps *)
Lemma total_image N n (g : nat -> nat) f : (forall k, k < n -> g k < N) -> (forall k l, k < n -> l < n -> g k = g l -> k = l) -> (forall x, x < N -> (exists k, k < n /\ x = g k) \/ f x = k0) -> total N f = total n (fun k => f (g k)).
Proof.
  intros Hg Hi Ho. transitivity (total N (fun x => total n (fun k => if g k =? x then f x else k0))).
  - apply T_ext. intros x Hx. destruct (Ho x Hx) as [(k & Hk & ->)|E].
    + rewrite (T_single n k); [rewrite Nat.eqb_refl; reflexivity|exact Hk|]. intros l Hl N1. destruct (Nat.eqb_spec (g l) (g k)) as [E|]; [exfalso; apply N1; apply Hi; assumption|reflexivity].
    + rewrite E. symmetry. apply T_zero. intros k _. destruct (_ =? _); reflexivity.
  - rewrite T_swap. apply T_ext. intros k Hk. rewrite (T_single N (g k)); [rewrite Nat.eqb_refl; reflexivity|apply Hg; exact Hk|]. intros x _ N1. destruct (Nat.eqb_spec (g k) x); [congruence|reflexivity].
Qed.
Lemma same_true l m : same l m = true <-> l = m. Proof. unfold same. destruct (list_eq_dec _ _ _); split; congruence. Qed.
Lemma same_refl l : same l l = true. Proof. apply same_true. reflexivity. Qed.
Lemma flat_put_inj a n b x y k l : in_shape a x -> in_shape b y -> k < n -> l < n -> flat (a ++ n :: b) (x ++ k :: y) = flat (a ++ n :: b) (x ++ l :: y) -> k = l.
Proof.
  intros Hx Hy Hk Hl E. rewrite !flat_app_ in E by (apply in_shape_length; exact Hx). cbn [flat] in E. pose proof (flat_lt b y Hy). assert (size b <> 0) by lia. assert (k * size b = l * size b) by lia. apply Nat.mul_cancel_r in H1; assumption.
Qed.
Lemma in_shape_mid a n b x k y : in_shape a x -> k < n -> in_shape b y -> in_shape (a ++ n :: b) (x ++ k :: y).
Proof. intros Hx Hk Hy. apply in_shape_app; [apply in_shape_length; exact Hx|]. split; [exact Hx|constructor; assumption]. Qed.
(** An index of shape [a n b] that is not [x k y] for any [k] has other remaining indices. *)
Lemma index_cases a n b p : p < size (a ++ n :: b) -> exists x k y, unravel (a ++ n :: b) p = x ++ k :: y /\ in_shape a x /\ k < n /\ in_shape b y /\ List.length x = List.length a.
Proof.
  intros H. pose proof (unravel_in _ _ H) as S. set (c := unravel (a ++ n :: b) p) in *. pose proof (in_shape_length _ _ S) as L. rewrite app_length in L. cbn in L. destruct (split_at c (List.length a)) as (x & k & y & E & Lx); [lia|]. exists x, k, y. split; [exact E|]. rewrite E in S. apply in_shape_app in S; [|lia]. destruct S as [S1 S2]. inversion S2; subst. repeat split; assumption || lia.
Qed.
Lemma gamma_dot_bilinear (u0 u1 w0 w1 : tensorsig) v w A B x0 y0 x1 y1 : cs_dim v = cs_dim w -> in_shape (dims u0) x0 -> in_shape (dims w0) y0 -> in_shape (dims u1) x1 -> in_shape (dims w1) y1 ->
  bilinear k0 kadd kmul (size (dims (u0 ++ v :: w0))) (size (dims (u1 ++ w :: w1))) (gamma_dot k0 k1 (List.length u0, List.length u1) (u0 ++ v :: w0) (u1 ++ w :: w1) ((u0 ++ w0) ++ (u1 ++ w1))) A B (flat (dims ((u0 ++ w0) ++ (u1 ++ w1))) ((x0 ++ y0) ++ (x1 ++ y1)))
  = total (cs_dim v) (fun k => kmul (component (u0 ++ v :: w0) A (x0 ++ k :: y0)) (component (u1 ++ w :: w1) B (x1 ++ k :: y1))).
Proof.
  intros Ed H0 H0' H1 H1'. unfold bilinear, component, gamma_dot. cbn [fst snd]. rewrite !dims_app. change (dims (v :: w0)) with (cs_dim v :: dims w0). change (dims (w :: w1)) with (cs_dim w :: dims w1). rewrite <- Ed. set (n := cs_dim v) in *. clearbody n.
  assert (L0 : List.length (dims u0) = List.length u0) by apply map_length. assert (L1 : List.length (dims u1) = List.length u1) by apply map_length. rewrite <- L0, <- L1.
  revert H0 H0' H1 H1'. generalize (dims u0) (dims w0) (dims u1) (dims w1). clear - Hf. intros a0 b0 a1 b1 H0 H0' H1 H1'.
  pose proof (in_shape_length _ _ H0). pose proof (in_shape_length _ _ H0'). pose proof (in_shape_length _ _ H1). pose proof (in_shape_length _ _ H1').
  assert (Sc : in_shape ((a0 ++ b0) ++ a1 ++ b1) ((x0 ++ y0) ++ x1 ++ y1)) by (apply in_shape_app; [rewrite !app_length; lia|]; split; apply in_shape_app; try lia; split; assumption).
  rewrite (unravel_flat _ _ Sc).
  assert (U0 : forall k, k < n -> unravel (a0 ++ n :: b0) (flat (a0 ++ n :: b0) (x0 ++ k :: y0)) = x0 ++ k :: y0) by (intros k Hk; apply unravel_flat, in_shape_mid; assumption).
  assert (U1 : forall k, k < n -> unravel (a1 ++ n :: b1) (flat (a1 ++ n :: b1) (x1 ++ k :: y1)) = x1 ++ k :: y1) by (intros k Hk; apply unravel_flat, in_shape_mid; assumption).
  rewrite (total_image _ n (fun k => flat (a0 ++ n :: b0) (x0 ++ k :: y0))).
  - apply T_ext. intros k Hk. rewrite (T_single _ (flat (a1 ++ n :: b1) (x1 ++ k :: y1))).
    + rewrite U0, U1 by exact Hk. replace (List.length a0) with (List.length x0) by lia. replace (List.length a1) with (List.length x1) by lia. rewrite !drop_app, !app_nth2, !Nat.sub_diag by lia. cbn [nth]. rewrite Nat.eqb_refl, same_refl. cbn [andb]. ring.
    + apply flat_lt, in_shape_mid; assumption.
    + intros q Hq Nq. rewrite U0 by exact Hk. destruct (index_cases _ _ _ _ Hq) as (x & l & y & E & Sx & Sl & Sy & Lx). rewrite E. rewrite <- Lx. replace (List.length a0) with (List.length x0) by lia. rewrite !drop_app, !app_nth2, !Nat.sub_diag by lia. cbn [nth].
      destruct (Nat.eqb_spec k l) as [<-|]; cbn [andb]; [|ring]. destruct (same ((x0 ++ y0) ++ x ++ y) ((x0 ++ y0) ++ x1 ++ y1)) eqn:Es; [|ring]. exfalso. apply same_true in Es. apply app_cancel in Es; [|reflexivity]. destruct Es as [_ Es]. apply app_cancel in Es; [|lia]. destruct Es as [-> ->]. apply Nq. rewrite <- E. symmetry. apply flat_unravel. exact Hq.
  - intros k Hk. apply flat_lt, in_shape_mid; assumption.
  - intros k l Hk Hl. apply flat_put_inj; assumption.
  - intros p Hp. destruct (index_cases _ _ _ _ Hp) as (x & k & y & E & Sx & Sk & Sy & Lx). destruct (list_eq_dec Nat.eq_dec (x ++ y) (x0 ++ y0)) as [Exy|Nxy].
    + left. exists k. split; [exact Sk|]. apply app_cancel in Exy; [|lia]. destruct Exy as [-> ->]. rewrite <- E. symmetry. apply flat_unravel. exact Hp.
    + right. apply T_zero. intros q Hq. rewrite E, <- Lx, drop_app. destruct (same _ _) eqn:Es; [|rewrite andb_false_r; ring]. exfalso. apply same_true in Es. apply app_cancel in Es; [apply Nxy, Es|]. rewrite !app_length. pose proof (in_shape_length _ _ Sy). lia.
Qed.
Lemma gamma_multiply_bilinear (s0 s1 : tensorsig) A B c0 c1 : in_shape (dims s0) c0 -> in_shape (dims s1) c1 ->
  bilinear k0 kadd kmul (size (dims s0)) (size (dims s1)) (gamma_multiply k0 k1 s0 s1 (s0 ++ s1)) A B (flat (dims (s0 ++ s1)) (c0 ++ c1)) = kmul (component s0 A c0) (component s1 B c1).
Proof.
  intros H0 H1. unfold bilinear, component, gamma_multiply. rewrite !dims_app. revert H0 H1. generalize (dims s0) (dims s1). clear - Hf. intros a b H0 H1.
  pose proof (in_shape_length _ _ H0). pose proof (in_shape_length _ _ H1).
  assert (Sc : in_shape (a ++ b) (c0 ++ c1)) by (apply in_shape_app; [assumption|split; assumption]). rewrite (unravel_flat _ _ Sc).
  rewrite (T_single _ (flat a c0)).
  - rewrite (T_single _ (flat b c1)).
    + rewrite !unravel_flat by assumption. rewrite same_refl. ring.
    + apply flat_lt. exact H1.
    + intros q Hq Nq. destruct (same _ _) eqn:E; [|ring]. exfalso. apply same_true in E. apply app_cancel in E; [|pose proof (in_shape_length _ _ (unravel_in _ _ (flat_lt _ _ H0))); lia]. apply Nq. destruct E as [_ <-]. symmetry. apply flat_unravel. exact Hq.
  - apply flat_lt. exact H0.
  - intros p Hp Np. apply T_zero. intros q Hq. destruct (same _ _) eqn:E; [|ring]. exfalso. apply same_true in E. apply app_cancel in E; [|pose proof (in_shape_length _ _ (unravel_in _ _ Hp)); lia]. apply Np. destruct E as [<- _]. symmetry. apply flat_unravel. exact Hp.
Qed.
Lemma gamma_cross_bilinear cs A B c : c < 3 -> bilinear k0 kadd kmul 3 3 (gamma_cross k0 k1 kmul kopp cs) A B c = cross_component kmul ksub kopp (right_handed cs) A B c.
Proof.
  intros H. unfold bilinear, cross_component, gamma_cross. destruct c as [|[|[|c]]]; [| | |lia]; destruct (right_handed cs); cbn; ring.
Qed.
Lemma cross_values cs A B c : c < 3 -> nth c (cross_operate kmul ksub cs A B) k0 = cross_component kmul ksub kopp (right_handed cs) A B c.
Proof. intros H. unfold cross_operate, cross_component. destruct c as [|[|[|c]]]; [| | |lia]; destruct (right_handed cs); cbn; ring. Qed.

(** ** Changes of components *)
Lemma bilinear_ext na nb G A B A' B' c : (forall i, i < na -> A i = A' i) -> (forall i, i < nb -> B i = B' i) -> bilinear k0 kadd kmul na nb G A B c = bilinear k0 kadd kmul na nb G A' B' c.
Proof. intros HA HB. unfold bilinear. apply T_ext. intros a Ha. apply T_ext. intros b Hb. rewrite HA, HB by assumption. reflexivity. Qed.
Lemma divmod3 nb nc a b c : b < nb -> c < nc -> ((a * nb + b) * nc + c) / nc = a * nb + b /\ ((a * nb + b) * nc + c) mod nc = c /\ (a * nb + b) / nb = a /\ (a * nb + b) mod nb = b /\ ((a * nb + b) * nc + c) / (nb * nc) = a.
Proof.
  intros Hb Hc. assert (X : ((a * nb + b) * nc + c) / nc = a * nb + b) by (rewrite (Nat.add_comm _ c), Nat.div_add by lia; rewrite Nat.div_small by lia; lia).
  assert (Y : (a * nb + b) / nb = a) by (rewrite (Nat.add_comm _ b), Nat.div_add by lia; rewrite Nat.div_small by lia; lia).
  split; [exact X|]. split; [rewrite (Nat.add_comm _ c), Nat.mod_add by lia; apply Nat.mod_small; lia|]. split; [exact Y|]. split; [rewrite (Nat.add_comm _ b), Nat.mod_add by lia; apply Nat.mod_small; lia|].
  rewrite (Nat.mul_comm nb nc), <- Nat.div_div, X, Y by lia. reflexivity.
Qed.
Lemma Gamma_step na nb nc_ G0 bA bB fC Qs ia ib ic : square na bA -> square nb bB -> square nc_ fC -> ia < na -> ib < nb -> ic < nc_ ->
  Gamma k0 kadd kmul na nb nc_ G0 ((bA, bB, fC) :: Qs) ia ib ic
  = total na (fun a => total nb (fun b => total nc_ (fun c => kmul (kmul (kmul (at_ bA a ia) (at_ bB b ib)) (at_ fC ic c)) (Gamma k0 kadd kmul na nb nc_ G0 Qs a b c)))).
Proof.
  intros [A1 A2] [B1 B2] [C1 C2] Ha Hb Hc. cbn [Gamma]. rewrite !T_prod. apply T_ext. intros a La. apply T_ext. intros b Lb. apply T_ext. intros c Lc.
  unfold skron, transpose_. cbn [at_ nr nc]. rewrite ?A1, ?A2, ?B1, ?B2, ?C1, ?C2. clear A1 A2 B1 B2 C1 C2.
  destruct (divmod3 nb nc_ a b c Lb Lc) as (E1 & E2 & E3 & E4 & E5). destruct (divmod3 nb nc_ ia ib ic Hb Hc) as (F1 & F2 & F3 & F4 & F5). rewrite E1, E2, E3, E4, E5, F1, F2, F3, F4. reflexivity.
Qed.
Lemma Gamma_bilinear_step na nb nc_ G0 bA bB fC Qs A B ic : square na bA -> square nb bB -> square nc_ fC -> ic < nc_ ->
  bilinear k0 kadd kmul na nb (Gamma k0 kadd kmul na nb nc_ G0 ((bA, bB, fC) :: Qs)) A B ic
  = act k0 kadd kmul nc_ fC (bilinear k0 kadd kmul na nb (Gamma k0 kadd kmul na nb nc_ G0 Qs) (act k0 kadd kmul na bA A) (act k0 kadd kmul nb bB B)) ic.
Proof.
  intros SA SB SC Hc. unfold bilinear at 1.
  transitivity (total na (fun ia => total nb (fun ib => total na (fun a => total nb (fun b => total nc_ (fun c => kmul (kmul (at_ fC ic c) (Gamma k0 kadd kmul na nb nc_ G0 Qs a b c)) (kmul (kmul (at_ bA a ia) (A ia)) (kmul (at_ bB b ib) (B ib))))))))).
  { apply T_ext. intros ia Ha. apply T_ext. intros ib Hb. rewrite Gamma_step by assumption. rewrite <- T_mul_r. apply T_ext. intros a _. rewrite <- T_mul_r. apply T_ext. intros b _. rewrite <- T_mul_r. apply T_ext. intros c _. ring. }
  unfold act, bilinear.
  transitivity (total na (fun a => total nb (fun b => total nc_ (fun c => kmul (kmul (at_ fC ic c) (Gamma k0 kadd kmul na nb nc_ G0 Qs a b c)) (kmul (total na (fun ia => kmul (at_ bA a ia) (A ia))) (total nb (fun ib => kmul (at_ bB b ib) (B ib)))))))).
  - transitivity (total na (fun ia => total na (fun a => total nb (fun ib => total nb (fun b => total nc_ (fun c => kmul (kmul (at_ fC ic c) (Gamma k0 kadd kmul na nb nc_ G0 Qs a b c)) (kmul (kmul (at_ bA a ia) (A ia)) (kmul (at_ bB b ib) (B ib))))))))); [apply T_ext; intros ia _; apply T_swap|]. rewrite T_swap. apply T_ext. intros a _.
    transitivity (total na (fun ia => total nb (fun b => total nb (fun ib => total nc_ (fun c => kmul (kmul (at_ fC ic c) (Gamma k0 kadd kmul na nb nc_ G0 Qs a b c)) (kmul (kmul (at_ bA a ia) (A ia)) (kmul (at_ bB b ib) (B ib)))))))); [apply T_ext; intros ia _; apply T_swap|]. rewrite T_swap. apply T_ext. intros b _.
    transitivity (total na (fun ia => total nc_ (fun c => total nb (fun ib => kmul (kmul (at_ fC ic c) (Gamma k0 kadd kmul na nb nc_ G0 Qs a b c)) (kmul (kmul (at_ bA a ia) (A ia)) (kmul (at_ bB b ib) (B ib))))))); [apply T_ext; intros ia _; apply T_swap|]. rewrite T_swap. apply T_ext. intros c _.
    rewrite <- T_mul_r, <- T_mul_l. apply T_ext. intros ia _. rewrite <- T_mul_l, <- T_mul_l. reflexivity.
  - transitivity (total na (fun a => total nc_ (fun c => total nb (fun b => kmul (kmul (at_ fC ic c) (Gamma k0 kadd kmul na nb nc_ G0 Qs a b c)) (kmul (total na (fun ia => kmul (at_ bA a ia) (A ia))) (total nb (fun ib => kmul (at_ bB b ib) (B ib)))))))); [apply T_ext; intros a _; apply T_swap|]. rewrite T_swap. apply T_ext. intros c _.
    rewrite <- T_mul_l. apply T_ext. intros a _. rewrite <- T_mul_l. apply T_ext. intros b _. ring.
Qed.
Lemma act_inverse n back forw A i : inverse k0 k1 kadd kmul n back forw -> i < n -> act k0 kadd kmul n back (act k0 kadd kmul n forw A) i = A i.
Proof.
  intros H Hi. unfold act. transitivity (total n (fun l => total n (fun j => kmul (kmul (at_ back i l) (at_ forw l j)) (A j)))); [apply T_ext; intros l _; rewrite <- T_mul_l; apply T_ext; intros j _; ring|].
  rewrite T_swap. transitivity (total n (fun j => kmul (if i =? j then k1 else k0) (A j))); [apply T_ext; intros j Hj; rewrite T_mul_r, (H i j Hi Hj); reflexivity|].
  rewrite (T_single n i _ Hi); [rewrite Nat.eqb_refl; ring|]. intros j _ N. destruct (Nat.eqb_spec i j); [congruence|ring].
Qed.
Lemma Gamma_transforms na nb nc_ G0 (axes : list (@frames K)) A B c : Forall (proper k0 k1 kadd kmul na nb nc_) axes -> c < nc_ ->
  bilinear k0 kadd kmul na nb (Gamma k0 kadd kmul na nb nc_ G0 (map (fun q => (backwardA q, backwardB q, forwardC q)) axes)) (transform k0 kadd kmul na forwardA axes A) (transform k0 kadd kmul nb forwardB axes B) c
  = transform k0 kadd kmul nc_ forwardC axes (bilinear k0 kadd kmul na nb G0 A B) c.
Proof.
  intros H. revert c. induction H as [|q axes (SA & SB & SC & IA & IB) H IH]; intros c Hc; [reflexivity|]. cbn [map]. rewrite Gamma_bilinear_step by assumption. unfold act at 1. change (transform k0 kadd kmul nc_ forwardC (q :: axes) (bilinear k0 kadd kmul na nb G0 A B) c) with (total nc_ (fun j => kmul (at_ (forwardC q) c j) (transform k0 kadd kmul nc_ forwardC axes (bilinear k0 kadd kmul na nb G0 A B) j))).
  apply T_ext. intros j Hj. rewrite <- (IH j Hj). f_equal. apply bilinear_ext; intros i Hi; apply act_inverse; assumption.
Qed.
(** ** Matrices of products *)
Lemma act_mode n_arg cols rows (front P : mat K) x c r : nr P = rows -> nc P = cols -> r < rows ->
  total (n_arg * cols) (fun j => kmul (at_ (skron kmul front P) (c * rows + r) j) (x j)) = total n_arg (fun b => kmul (at_ front c b) (act k0 kadd kmul cols P (fun q => x (b * cols + q)) r)).
Proof.
  intros Er Ec Hr. rewrite T_prod. apply T_ext. intros b Hb. unfold act. rewrite <- T_mul_l. apply T_ext. intros q Hq. unfold skron. cbn [at_]. rewrite Er, Ec.
  rewrite (Nat.add_comm (c * rows)), Nat.div_add, Nat.mod_add, Nat.div_small, Nat.mod_small by lia. rewrite (Nat.add_comm (b * cols) q), Nat.div_add, Nat.mod_add, Nat.div_small, Nat.mod_small by lia. cbn [Nat.add]. ring.
Qed.
Lemma ncc_applied first G n_ncc n_arg n_out modes data big shape pms rows cols x c r :
  (forall mode, In mode modes -> nr (cartesian_mode_matrix k0 k1 kmul shape pms mode) = rows /\ nc (cartesian_mode_matrix k0 k1 kmul shape pms mode) = cols) -> r < rows ->
  act k0 kadd kmul (n_arg * cols) (build_cartesian_ncc_matrix k0 k1 kadd kmul first G n_ncc n_arg n_out modes data big shape pms rows cols) x (c * rows + r)
  = sum_list k0 kadd (fun mode => let operand := fun b => act k0 kadd kmul cols (cartesian_mode_matrix k0 k1 kmul shape pms mode) (fun q => x (b * cols + q)) r in
      if big (fun a => data a mode) then (if first then bilinear k0 kadd kmul n_ncc n_arg G (fun a => data a mode) operand c else bilinear k0 kadd kmul n_arg n_ncc G operand (fun a => data a mode) c) else k0) modes.
Proof.
  intros HM Hr. unfold build_cartesian_ncc_matrix. cbv zeta.
  match goal with |- act _ _ _ _ (fold_left ?step _ _) _ _ = sum_list _ _ ?g _ => set (st := step); set (F := g) end.
  assert (Gn : forall ms M, (forall mode, In mode ms -> In mode modes) -> act k0 kadd kmul (n_arg * cols) (fold_left st ms M) x (c * rows + r) = kadd (act k0 kadd kmul (n_arg * cols) M x (c * rows + r)) (sum_list k0 kadd F ms)).
  { induction ms as [|mode ms IH]; intros M Hi; cbn [fold_left sum_list fold_right]; [ring|]. rewrite IH by (intros m Hm; apply Hi; right; exact Hm). change (fold_right (fun x0 s0 => kadd (F x0) s0) k0 ms) with (sum_list k0 kadd F ms).
    assert (E : act k0 kadd kmul (n_arg * cols) (st M mode) x (c * rows + r) = kadd (act k0 kadd kmul (n_arg * cols) M x (c * rows + r)) (F mode)).
    { unfold st, F. destruct (big (fun a => data a mode)); [|ring]. destruct (HM mode (Hi mode (or_introl eq_refl))) as [Er Ec]. unfold act at 1. unfold madd. cbn [at_].
      transitivity (total (n_arg * cols) (fun j => kadd (kmul (at_ M (c * rows + r) j) (x j)) (kmul (at_ (skron kmul (Mat n_out n_arg (fun c0 b => total n_ncc (fun a => kmul (if first then G a b c0 else G b a c0) (data a mode)))) (cartesian_mode_matrix k0 k1 kmul shape pms mode)) (c * rows + r) j) (x j)))); [apply T_ext; intros; ring|].
      rewrite T_add, (act_mode n_arg cols rows) by assumption. f_equal. cbn [at_]. unfold bilinear.
      destruct first.
      - rewrite T_swap. apply T_ext. intros b _. rewrite <- T_mul_r. apply T_ext. intros a _. ring.
      - apply T_ext. intros b _. rewrite <- T_mul_r. apply T_ext. intros a _. ring. }
    rewrite E. ring. }
  rewrite Gn by tauto. replace (act k0 kadd kmul (n_arg * cols) _ x (c * rows + r)) with k0; [ring|]. symmetry. apply T_zero. intros j _. cbn [at_]. ring.
Qed.
Lemma skron_fold Ms : forall M i j rs cs, in_shape (map (@nr K) Ms) rs -> in_shape (map (@nc K) Ms) cs ->
  nr (fold_left (skron kmul) Ms M) = nr M * size (map (@nr K) Ms) /\ nc (fold_left (skron kmul) Ms M) = nc M * size (map (@nc K) Ms)
  /\ at_ (fold_left (skron kmul) Ms M) (i * size (map (@nr K) Ms) + flat (map (@nr K) Ms) rs) (j * size (map (@nc K) Ms) + flat (map (@nc K) Ms) cs)
     = kmul (at_ M i j) (times_all k1 kmul (map (fun p => at_ (fst (fst p)) (snd (fst p)) (snd p)) (combine (combine Ms rs) cs))).
Proof.
  induction Ms as [|P Ms IH]; intros M i j rs cs Hr Hc; cbn [map fold_left].
  - cbn. inversion Hr; subst. inversion Hc; subst. cbn. rewrite !Nat.mul_1_r, !Nat.add_0_r. split; [reflexivity|]. split; [reflexivity|]. ring.
  - inversion Hr as [|? r ? rs' Lr Hr']; subst. inversion Hc as [|? q ? cs' Lq Hc']; subst. destruct (IH (skron kmul M P) (i * nr P + r) (j * nc P + q) rs' cs' Hr' Hc') as (E1 & E2 & E3). cbn [size flat combine map fst snd times_all fold_right].
    split; [rewrite E1; cbn [nr skron]; lia|]. split; [rewrite E2; cbn [nc skron]; lia|].
    replace (i * (nr P * size (map (@nr K) Ms)) + (r * size (map (@nr K) Ms) + flat (map (@nr K) Ms) rs')) with ((i * nr P + r) * size (map (@nr K) Ms) + flat (map (@nr K) Ms) rs') by lia.
    replace (j * (nc P * size (map (@nc K) Ms)) + (q * size (map (@nc K) Ms) + flat (map (@nc K) Ms) cs')) with ((j * nc P + q) * size (map (@nc K) Ms) + flat (map (@nc K) Ms) cs') by lia. rewrite E3. unfold skron at 1. cbn [at_].
    rewrite (Nat.add_comm (i * nr P)), Nat.div_add, Nat.mod_add, Nat.div_small, Nat.mod_small by lia. rewrite (Nat.add_comm (j * nc P) q), Nat.div_add, Nat.mod_add, Nat.div_small, Nat.mod_small by lia. cbn [Nat.add]. fold (times_all k1 kmul (map (fun p => at_ (fst (fst p)) (snd (fst p)) (snd p)) (combine (combine Ms rs') cs'))). ring.
Qed.
Lemma mode_matrix (axes : list (nat * option (nat -> mat K) * nat)) rs cs : axes <> [] -> in_shape (map axis_rows axes) rs -> in_shape (map axis_cols axes) cs ->
  let M := cartesian_mode_matrix k0 k1 kmul (map (fun ax => fst (fst ax)) axes) (map (fun ax => snd (fst ax)) axes) (map snd axes) in
  nr M = size (map axis_rows axes) /\ nc M = size (map axis_cols axes)
  /\ at_ M (flat (map axis_rows axes) rs) (flat (map axis_cols axes) cs) = times_all k1 kmul (map (fun p => axis_entry k0 k1 (fst (fst p)) (snd (fst p)) (snd p)) (combine (combine axes rs) cs)).
Proof.
  intros Hne Hr Hc M. pose (mt := fun ax : nat * option (nat -> mat K) * nat => axis_matrix k0 k1 (fst (fst ax)) (snd (fst ax)) (snd ax)).
  assert (El : map (fun p => axis_matrix k0 k1 (fst (fst p)) (snd (fst p)) (snd p)) (combine (combine (map (fun ax => fst (fst ax)) axes) (map (fun ax => snd (fst ax)) axes)) (map snd axes)) = map mt axes).
  { clear. induction axes as [|ax axes IH]; cbn [map combine]; [reflexivity|]. rewrite IH. reflexivity. }
  assert (Rw : forall ax, nr (mt ax) = axis_rows ax) by (intros [[n [P|]] m]; reflexivity). assert (Cl : forall ax, nc (mt ax) = axis_cols ax) by (intros [[n [P|]] m]; reflexivity). assert (En : forall ax r c, at_ (mt ax) r c = axis_entry k0 k1 ax r c) by (intros [[n [P|]] m] r c; reflexivity).
  unfold M, cartesian_mode_matrix. rewrite El. clear M El. destruct axes as [|ax axes]; [congruence|]. cbn [map]. inversion Hr as [|? r ? rs' Lr Hr']; subst. inversion Hc as [|? q ? cs' Lq Hc']; subst.
  assert (Er : map (@nr K) (map mt axes) = map axis_rows axes) by (rewrite map_map; apply map_ext; exact Rw). assert (Ec : map (@nc K) (map mt axes) = map axis_cols axes) by (rewrite map_map; apply map_ext; exact Cl).
  destruct (skron_fold (map mt axes) (mt ax) r q rs' cs') as (E1 & E2 & E3); rewrite ?Er, ?Ec in *; try assumption. cbn [size flat combine map fst snd times_all fold_right].
  split; [rewrite E1, Rw; reflexivity|]. split; [rewrite E2, Cl; reflexivity|]. rewrite E3, En. f_equal. unfold times_all. f_equal. clear - En. revert rs' cs'. induction axes as [|a axes IH]; intros [|x rs] [|y cs]; cbn [map combine]; try reflexivity. rewrite IH. cbn [fst snd]. rewrite En. reflexivity.
Qed.
End Field.
