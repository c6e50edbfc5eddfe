(** Proofs about Clenshaw summation. *)
From Coq Require Import List Arith Bool Reals Lia Field Setoid Morphisms.
Import ListNotations.
From Verif Require Import MatSolvers_Model CSR_Spec MatSolvers_Spec MatSolvers_Proofs Clenshaw_Model Clenshaw_Spec.
Local Open Scope nat_scope.

(** ** In any ring, not commutative, up to an equivalence *)
Section Ring.
Context {M : Type} (eqv : M -> M -> Prop) (Heq : Equivalence eqv) (z : M) (add mul : M -> M -> M).
Context (Ha : Proper (eqv ==> eqv ==> eqv) add) (Hm : Proper (eqv ==> eqv ==> eqv) mul).
Infix "==" := eqv (at level 70). Infix "+r" := add (at level 50, left associativity). Infix "*r" := mul (at level 40, left associativity).
Context (Acomm : forall a b, a +r b == b +r a) (Aassoc : forall a b c, a +r (b +r c) == a +r b +r c) (A0 : forall a, z +r a == a).
Context (Massoc : forall a b c, a *r (b *r c) == a *r b *r c) (Dl : forall a b c, a *r (b +r c) == a *r b +r a *r c) (Dr : forall a b c, (a +r b) *r c == a *r c +r b *r c).
Context (M0 : forall a, z *r a == z) (M0r : forall a, a *r z == z).
Existing Instance Heq. Existing Instance Ha. Existing Instance Hm.
Lemma shuffle4 a b c d e : a +r (b +r c +r d) +r e == a +r b +r (c +r e) +r d.
Proof. rewrite !Aassoc. rewrite <- (Aassoc _ d e), (Acomm d e), Aassoc. reflexivity. Qed.

Fixpoint series (n : nat) (f c : nat -> M) : M := match n with 0 => z | S n => series n f c +r f n *r c n end.
Definition before (f : nat -> M) (n : nat) : M := match n with 0 => z | S n => f n end.
Definition loop (c A B : nat -> M) (ns : list nat) (s : M * M) : M * M :=
  fold_left (fun s n => (c n +r A n *r fst s +r B (n + 1) *r snd s, fst s)) ns s.
Lemma rev_seq_S n : rev (seq 0 (S n)) = n :: rev (seq 0 n).
Proof. rewrite seq_S, rev_app_distr. reflexivity. Qed.
Lemma loop_invariant (f c A B : nat -> M) n b b' : (forall k, k < n -> f (S k) == f k *r A k +r before f k *r B k) ->
  f 0 *r fst (loop c A B (rev (seq 0 n)) (b, b')) == series n f c +r f n *r b +r before f n *r (B n *r b').
Proof.
  revert b b'. induction n as [|n IH]; intros b b' Hr.
  - cbn. rewrite M0, A0, (Acomm _ z), A0. reflexivity.
  - rewrite rev_seq_S. cbn [loop fold_left fst snd]. change (fold_left _ (rev (seq 0 n)) ?s) with (loop c A B (rev (seq 0 n)) s).
    rewrite IH by (intros; apply Hr; lia). cbn [series before]. rewrite (Hr n) by lia. rewrite !Dl, !Dr.
    rewrite shuffle4. rewrite !Massoc. replace (n + 1) with (S n) by lia. reflexivity.
Qed.
Lemma loop_series (f c A B : nat -> M) n : (forall k, k + 1 < n -> f (S k) == f k *r A k +r before f k *r B k) ->
  f 0 *r fst (loop c A B (rev (seq 0 n)) (z, z)) == series n f c.
Proof.
  intros Hr. destruct n as [|n].
  - cbn. apply M0r.
  - rewrite rev_seq_S. cbn [loop fold_left fst snd]. change (fold_left _ (rev (seq 0 n)) ?s) with (loop c A B (rev (seq 0 n)) s).
    rewrite loop_invariant by (intros; apply Hr; lia). cbn [series]. rewrite !M0r, !(Acomm _ z), !A0. reflexivity.
Qed.
Lemma loop_ext (c A B c' A' B' : nat -> M) ns s s' : (forall n, In n ns -> c n == c' n /\ A n == A' n /\ B (n + 1) == B' (n + 1)) ->
  fst s == fst s' -> snd s == snd s' -> fst (loop c A B ns s) == fst (loop c' A' B' ns s').
Proof.
  revert s s'. induction ns as [|n ns IH]; intros s s' Hn H1 H2; [exact H1|]. cbn [loop fold_left].
  destruct (Hn n) as (Hc & HA & HB); [left; reflexivity|].
  apply IH; [intros; apply Hn; right; assumption| |exact H1]. cbn [fst snd]. rewrite Hc, HA, HB, H1, H2. reflexivity.
Qed.
(** From the recursion with factors on the left to the one with factors on the right. *)
Definition comm (a b : M) : Prop := a *r b == b *r a.
Lemma comm_recursion (f A B : nat -> M) N : (forall k, k < N -> f (S k) == A k *r f k +r B k *r before f k) ->
  (forall k l, k < N -> l < N -> comm (A k) (A l) /\ comm (A k) (B l) /\ comm (B k) (B l)) ->
  (forall k, k < N -> comm (A k) (f 0) /\ comm (B k) (f 0)) ->
  forall k, k < N -> f (S k) == f k *r A k +r before f k *r B k.
Proof.
  intros Hr Hc H0.
  assert (Hall : forall n k, n <= N -> k < N -> (comm (A k) (f n) /\ comm (B k) (f n)) /\ (comm (A k) (before f n) /\ comm (B k) (before f n))).
  { unfold comm in *. induction n as [|n IH]; intros k Hn Hk.
    - split; [apply H0; exact Hk|]. cbn. split; rewrite M0, M0r; reflexivity.
    - destruct (IH k ltac:(lia) Hk) as [[H1 H2] [H3 H4]]. split; [|split; assumption]. split.
      + rewrite (Hr n) by lia. rewrite Dl, Dr, !Massoc. destruct (Hc k n Hk ltac:(lia)) as (E1 & E2 & _).
        rewrite E1, E2, <- !Massoc, H1, H3. reflexivity.
      + rewrite (Hr n) by lia. rewrite Dl, Dr, !Massoc. destruct (Hc n k ltac:(lia) Hk) as (_ & E2 & E3). rewrite <- E2, <- E3, <- !Massoc, H2, H4. reflexivity. }
  intros k Hk. rewrite (Hr k Hk). destruct (Hall k k ltac:(lia) Hk) as [[H1 H2] [H3 H4]]. unfold comm in *. rewrite H1, H4. reflexivity.
Qed.
End Ring.

Section Field.
Context {K : Type} (k0 k1 : K) (kadd kmul ksub kdiv : K -> K -> K) (kopp kinv : K -> K) (mag : K -> R).
Context (Hf : field_theory k0 k1 kadd kmul ksub kopp kdiv kinv eq).
Add Field Kf : Hf.
Notation "a +k b" := (kadd a b) (at level 50, left associativity).
Notation "a *k b" := (kmul a b) (at level 40, left associativity).
Notation "a -k b" := (ksub a b) (at level 50, left associativity).
Notation total := (CSR_Spec.total k0 kadd).
Notation applied := (applied k0 kadd kmul).
Notation identity := (identity k0 k1).
Notation mmul := (mmul k0 kadd kmul).
Notation madd := (madd kadd).
Notation msub := (msub ksub).
Notation mscale := (mscale kmul).
Notation total_S := (total_S k0 k1 kadd kmul ksub kdiv kopp kinv Hf).
Notation total_ext := (total_ext k0 k1 kadd kmul ksub kdiv kopp kinv Hf).

(** ** Scalars *)
Lemma scalar_loop_ok c (A B : sequence K) a b ns s : (forall n, In n ns -> A n = Some (a n) /\ B (n + 1) = Some (b (n + 1))) ->
  scalar_loop kadd kmul c A B ns (Some s) = Some (loop kadd kmul c a b ns s).
Proof.
  revert s. induction ns as [|n ns IH]; intros [b0 b1] H; [reflexivity|]. cbn [scalar_loop loop fold_left fst snd].
  destruct (H n) as [-> ->]; [left; reflexivity|]. apply IH. intros k Hk. apply H. right. exact Hk.
Qed.
Lemma scalar_loop_none c (A B : sequence K) ns : scalar_loop kadd kmul c A B ns None = None.
Proof. induction ns as [|n ns IH]; [reflexivity|]. exact IH. Qed.
Lemma scalar_loop_fails c (A B : sequence K) n ns s : A n = None \/ B (n + 1) = None -> scalar_loop kadd kmul c A B (n :: ns) s = None.
Proof.
  intros H. cbn [scalar_loop fold_left]. destruct s as [[b0 b1]|]; [|apply scalar_loop_none].
  destruct H as [-> | ->]; [apply scalar_loop_none|]. destruct (A n); apply scalar_loop_none.
Qed.
Lemma series_total n f c : series k0 kadd kmul n f c = total n (fun k => c k *k f k).
Proof. induction n as [|n IH]; [reflexivity|]. rewrite total_S, <- IH. cbn [series]. ring. Qed.
Lemma scalar_series n c (A B : sequence K) a b f : (forall k, k < n -> A k = Some (a k) /\ B (k + 1) = Some (b (k + 1))) ->
  (forall k, k + 1 < n -> f (S k) = a k *k f k +k b k *k before k0 f k) ->
  scalar_clenshaw k0 kadd kmul n c A B (f 0) = Some (total n (fun k => c k *k f k)).
Proof.
  intros HA Hr. unfold scalar_clenshaw. rewrite (scalar_loop_ok _ _ _ a b) by (intros k Hk; apply HA; rewrite <- in_rev, in_seq in Hk; lia).
  destruct (loop _ _ _ _ _ _ _) as [b0 b1] eqn:E. f_equal. rewrite <- series_total.
  etransitivity; [|apply (loop_series eq _ k0 kadd kmul _ _)]; try (intros; ring).
  - rewrite E. cbn. ring.
  - intros k Hk. rewrite Hr by exact Hk. ring.
Qed.

(** ** Square matrices with [m] rows *)
Section Square.
Context (m : nat).
Definition meq (A B : nat -> nat -> K) : Prop := forall i j, i < m -> j < m -> A i j = B i j.
Definition zero : nat -> nat -> K := fun _ _ => k0.
Definition plus (A B : nat -> nat -> K) : nat -> nat -> K := fun i j => A i j +k B i j.
Definition times (A B : nat -> nat -> K) : nat -> nat -> K := fun i j => applied m A (fun k => B k j) i.
Lemma meq_equiv : Equivalence meq.
Proof.
  split; [intros A i j _ _; reflexivity|intros A B H i j Hi Hj; symmetry; apply H; assumption|].
  intros A B C H1 H2 i j Hi Hj. rewrite H1, H2 by assumption. reflexivity.
Qed.
Lemma plus_proper : Proper (meq ==> meq ==> meq) plus.
Proof. intros A A' HA B B' HB i j Hi Hj. unfold plus. rewrite HA, HB by assumption. reflexivity. Qed.
Lemma times_proper : Proper (meq ==> meq ==> meq) times.
Proof. intros A A' HA B B' HB i j Hi Hj. apply (applied_ext k0 k1 kadd kmul ksub kdiv kopp kinv Hf); intros k Hk; [apply HA|apply HB]; assumption. Qed.
Lemma times_assoc A B C : meq (times A (times B C)) (times (times A B) C).
Proof. intros i j Hi Hj. unfold times. apply (applied_assoc k0 k1 kadd kmul ksub kdiv kopp kinv Hf m m A B (fun k => C k j) i). Qed.
Lemma times_plus A B C : meq (times A (plus B C)) (plus (times A B) (times A C)).
Proof. intros i j _ _. apply (applied_add k0 k1 kadd kmul ksub kdiv kopp kinv Hf m A (fun k => B k j) (fun k => C k j) i). Qed.
Lemma plus_times A B C : meq (times (plus A B) C) (plus (times A C) (times B C)).
Proof. intros i j _ _. apply (applied_add_m k0 k1 kadd kmul ksub kdiv kopp kinv Hf m A B (fun k => C k j) i). Qed.
Lemma zero_times A : meq (times zero A) zero.
Proof. intros i j _ _. apply (total_zero k0 k1 kadd kmul ksub kdiv kopp kinv Hf). intros k _. unfold zero. ring. Qed.
Lemma times_zero A : meq (times A zero) zero.
Proof. intros i j _ _. apply (total_zero k0 k1 kadd kmul ksub kdiv kopp kinv Hf). intros k _. unfold zero. ring. Qed.
Lemma mat_loop_series (f c A B : nat -> nat -> nat -> K) n : (forall k, k + 1 < n -> meq (f (S k)) (plus (times (f k) (A k)) (times (before zero f k) (B k)))) ->
  meq (times (f 0) (fst (loop plus times c A B (rev (seq 0 n)) (zero, zero)))) (series zero plus times n f c).
Proof.
  apply (loop_series meq meq_equiv zero plus times plus_proper times_proper).
  - intros a b i j _ _. unfold plus. ring.
  - intros a b d i j _ _. unfold plus. ring.
  - intros a i j _ _. unfold plus, zero. ring.
  - intros. apply times_assoc.
  - intros. apply times_plus.
  - intros. apply plus_times.
  - intros. apply zero_times.
  - intros. apply times_zero.
Qed.
Lemma mat_comm_recursion (f A B : nat -> nat -> nat -> K) n : (forall k, k < n -> meq (f (S k)) (plus (times (A k) (f k)) (times (B k) (before zero f k)))) ->
  (forall k l, k < n -> l < n -> comm meq times (A k) (A l) /\ comm meq times (A k) (B l) /\ comm meq times (B k) (B l)) ->
  (forall k, k < n -> comm meq times (A k) (f 0) /\ comm meq times (B k) (f 0)) ->
  forall k, k < n -> meq (f (S k)) (plus (times (f k) (A k)) (times (before zero f k) (B k))).
Proof.
  apply (comm_recursion meq meq_equiv zero plus times plus_proper times_proper).
  - intros. apply times_assoc.
  - intros. apply times_plus.
  - intros. apply plus_times.
  - intros. apply zero_times.
  - intros. apply times_zero.
Qed.
Lemma series_entry (f c : nat -> nat -> nat -> K) n i j : series zero plus times n f c i j = total n (fun k => times (f k) (c k) i j).
Proof. induction n as [|n IH]; [reflexivity|]. rewrite total_S, <- IH. reflexivity. Qed.

(** The loop over matrices of the model. *)
Lemma model_loop (upd : nat -> mat K -> mat K -> mat K -> mat K -> mat K) (c al bl : nat -> nat -> nat -> K) (A B : sequence (mat K)) a b ns :
  (forall n b0 b1, In n ns -> square m b0 -> square m b1 -> square m (upd n (a n) (b (n + 1)) b0 b1)
     /\ meq (at_ (upd n (a n) (b (n + 1)) b0 b1)) (plus (plus (c n) (times (al n) (at_ b0))) (times (bl (n + 1)) (at_ b1)))) ->
  (forall n, In n ns -> A n = Some (a n) /\ B (n + 1) = Some (b (n + 1))) ->
  forall b0 b1 s, square m b0 -> square m b1 -> meq (at_ b0) (fst s) -> meq (at_ b1) (snd s) ->
  exists r0 r1, fold_left (fun s n => match s, A n, B (n + 1) with
    | Some (b0, b1), Some a, Some b => Some (upd n a b b0 b1, b0) | _, _, _ => None end) ns (Some (b0, b1)) = Some (r0, r1)
   /\ square m r0 /\ square m r1 /\ meq (at_ r0) (fst (loop plus times c al bl ns s)).
Proof.
  pose proof meq_equiv as Heq.
  induction ns as [|n ns IH]; intros Hu HA b0 b1 s H0 H1 E0 E1.
  - exists b0, b1. cbn. repeat split; try apply H0; try apply H1. exact E0.
  - cbn [fold_left loop]. destruct (HA n) as [-> ->]; [left; reflexivity|].
    destruct (Hu n b0 b1) as [Hs Hv]; [left; reflexivity|assumption|assumption|].
    apply IH; [intros; apply Hu; [right|..]; assumption|intros; apply HA; right; assumption|exact Hs|exact H0| |exact E0].
    cbn [fst snd]. intros i j Hi Hj. rewrite Hv by assumption. unfold plus. f_equal; [f_equal|]; apply times_proper; try assumption; intros p q _ _; reflexivity.
Qed.
Lemma times_identity A (c : K) i j : j < m -> times A (fun i j => c *k (if i =? j then k1 else k0)) i j = c *k A i j.
Proof.
  intros Hj. unfold times. rewrite (applied_scale k0 k1 kadd kmul ksub kdiv kopp kinv Hf m A c (fun k => if k =? j then k1 else k0) i).
  f_equal. apply (applied_delta_col k0 k1 kadd kmul ksub kdiv kopp kinv Hf m A j i Hj).
Qed.
Lemma at_mmul_times A B i j : nc A = m -> at_ (mmul A B) i j = times (at_ A) (at_ B) i j.
Proof. intros E. unfold times. rewrite (at_mmul k0 kadd kmul A B i j), E. reflexivity. Qed.
Lemma matrix_series n (cutoff : R) (c : nat -> K) (A B : sequence (mat K)) a b (f0 : mat K) (f : nat -> nat -> nat -> K) : square m f0 ->
  (forall k, k < n -> A k = Some (a k) /\ B (k + 1) = Some (b (k + 1)) /\ square m (a k) /\ square m (b (k + 1))) ->
  meq (f 0) (at_ f0) -> (forall k, k + 1 < n -> meq (f (S k)) (plus (times (f k) (at_ (a k))) (times (before zero f k) (at_ (b k))))) ->
  exists r, matrix_clenshaw k0 k1 kadd kmul mag n c A B f0 cutoff = Some r /\ square m r
    /\ forall i j, i < m -> j < m -> at_ r i j = total n (fun k => kept k0 (mag (c k)) cutoff (c k) *k f k i j).
Proof.
  intros Hf0 HA H0 Hr. unfold matrix_clenshaw, matrix_loop.
  set (I := identity (nr f0)).
  assert (HI : square m I) by (split; apply Hf0).
  set (cc := fun k i j => kept k0 (mag (c k)) cutoff (c k) *k (if i =? j then k1 else k0)).
  destruct (model_loop (fun n a b b0 b1 => if above (mag (c n)) cutoff then madd (madd (mscale (c n) I) (mmul a b0)) (mmul b b1) else madd (mmul a b0) (mmul b b1))
    cc (fun k => at_ (a k)) (fun k => at_ (b k)) A B a b (rev (seq 0 n))) with (b0 := mscale k0 I) (b1 := mscale k0 I) (s := (zero, zero)) as (r0 & r1 & E & Hs0 & Hs1 & Ev).
  - intros k b0 b1 Hk Hb0 Hb1. rewrite <- in_rev, in_seq in Hk. destruct (HA k ltac:(lia)) as (_ & _ & Ha & Hb). unfold above, cc, kept. split.
    + destruct (Rlt_dec cutoff (mag (c k))); split; cbn; try apply HI; try apply Ha; try apply Hb0.
    + intros i j Hi Hj. unfold plus. destruct (Rlt_dec cutoff (mag (c k))); cbn [madd mscale at_ MatSolvers_Model.madd MatSolvers_Model.mscale MatSolvers_Model.at_]; rewrite !at_mmul_times by (apply Ha || apply Hb); unfold I, identity; cbn [MatSolvers_Model.at_]; ring.
  - intros k Hk. rewrite <- in_rev, in_seq in Hk. destruct (HA k ltac:(lia)) as (E1 & E2 & _). split; assumption.
  - exact HI.
  - exact HI.
  - intros i j _ _. cbn. unfold zero. ring.
  - intros i j _ _. cbn. unfold zero. ring.
  - assert (E' : matrix_loop k0 kadd kmul mag I cutoff c A B (rev (seq 0 n)) (Some (mscale k0 I, mscale k0 I)) = Some (r0, r1)) by exact E.
    unfold matrix_loop in E'. rewrite E'. exists (mmul f0 r0). split; [reflexivity|]. split; [split; [apply Hf0|apply Hs0]|].
    intros i j Hi Hj. rewrite at_mmul_times by apply Hf0.
    transitivity (series zero plus times n f cc i j).
    + transitivity (times (f 0) (fst (loop plus times cc (fun k => at_ (a k)) (fun k => at_ (b k)) (rev (seq 0 n)) (zero, zero))) i j).
      * apply times_proper; [intros p q Hp Hq; symmetry; apply H0; assumption|exact Ev|assumption|assumption].
      * apply mat_loop_series; assumption.
    + rewrite series_entry. apply total_ext. intros k _. unfold cc. apply times_identity. exact Hj.
Qed.
Lemma matrix_loop_none I cutoff c (A B : sequence (mat K)) ns : matrix_loop k0 kadd kmul mag I cutoff c A B ns None = None.
Proof. induction ns as [|n ns IH]; [reflexivity|]. exact IH. Qed.
Lemma matrix_loop_fails I cutoff c (A B : sequence (mat K)) n ns s : A n = None \/ B (n + 1) = None -> matrix_loop k0 kadd kmul mag I cutoff c A B (n :: ns) s = None.
Proof.
  intros H. cbn [matrix_loop fold_left]. destruct s as [[b0 b1]|]; [|apply matrix_loop_none].
  destruct H as [-> | ->]; [apply matrix_loop_none|]. destruct (A n); apply matrix_loop_none.
Qed.
End Square.

(** ** Kronecker products *)
Lemma total_product n m' g : total (n * m') g = total n (fun p => total m' (fun q => g (p * m' + q))).
Proof.
  induction n as [|n IH]; [reflexivity|]. rewrite total_S, <- IH. replace (S n * m') with (n * m' + m') by lia. generalize (n * m'). intros p.
  generalize m'. induction m'0 as [|q IHq].
  - rewrite Nat.add_0_r. change (total 0 _) with k0. ring.
  - replace (p + S q) with (S (p + q)) by lia. rewrite !total_S, IHq. ring.
Qed.
Section Kron.
Context (cl : bool) (m0 m1 : nat).
Definition place (p q : nat) : nat := if cl then q * m0 + p else p * m1 + q.
Definition xi (i : nat) : nat := if cl then i mod m0 else i / m1.
Definition ci (i : nat) : nat := if cl then i / m0 else i mod m1.
Lemma place_lt p q : p < m0 -> q < m1 -> place p q < m0 * m1.
Proof. unfold place. destruct cl; nia. Qed.
Lemma xi_place p q : p < m0 -> q < m1 -> xi (place p q) = p.
Proof.
  unfold xi, place. intros Hp Hq. destruct cl.
  - rewrite Nat.add_comm, Nat.mod_add, Nat.mod_small; lia.
  - rewrite Nat.div_add_l, Nat.div_small; lia.
Qed.
Lemma ci_place p q : p < m0 -> q < m1 -> ci (place p q) = q.
Proof.
  unfold ci, place. intros Hp Hq. destruct cl.
  - rewrite Nat.div_add_l, Nat.div_small; lia.
  - rewrite Nat.add_comm, Nat.mod_add, Nat.mod_small; lia.
Qed.
Lemma placed i : i < m0 * m1 -> xi i < m0 /\ ci i < m1 /\ place (xi i) (ci i) = i.
Proof.
  intros H. unfold xi, ci, place. assert (m0 <> 0) by nia. assert (m1 <> 0) by nia. destruct cl.
  - split; [apply Nat.mod_upper_bound; lia|]. split; [apply Nat.div_lt_upper_bound; lia|]. rewrite (Nat.mul_comm (i / m0)). symmetry. apply Nat.div_mod; lia.
  - split; [apply Nat.div_lt_upper_bound; nia|]. split; [apply Nat.mod_upper_bound; lia|]. rewrite (Nat.mul_comm (i / m1)). symmetry. apply Nat.div_mod; lia.
Qed.
Lemma total_place g : total (m0 * m1) g = total m0 (fun p => total m1 (fun q => g (place p q))).
Proof.
  unfold place. destruct cl; [|apply total_product].
  rewrite Nat.mul_comm, total_product. apply (total_swap k0 k1 kadd kmul ksub kdiv kopp kinv Hf m1 m0 (fun q p => g (q * m0 + p))).
Qed.
Definition kr (X C : nat -> nat -> K) : nat -> nat -> K := fun i j => X (xi i) (xi j) *k C (ci i) (ci j).
Lemma at_kron (X C : mat K) i j : square m0 X -> square m1 C -> at_ (kron kmul cl X C) i j = kr (at_ X) (at_ C) i j.
Proof. intros [E1 E2] [E3 E4]. unfold kron, skron, kr, xi, ci. destruct cl; cbn [at_]; rewrite ?E1, ?E2, ?E3, ?E4; ring. Qed.
Lemma kron_square (X C : mat K) : square m0 X -> square m1 C -> square (m0 * m1) (kron kmul cl X C).
Proof. intros [E1 E2] [E3 E4]. unfold kron, skron. destruct cl; split; cbn; rewrite ?E1, ?E2, ?E3, ?E4; lia. Qed.
Lemma kr_times X C X' C' i j : i < m0 * m1 -> j < m0 * m1 -> times (m0 * m1) (kr X C) (kr X' C') i j = kr (times m0 X X') (times m1 C C') i j.
Proof.
  intros Hi Hj. unfold times. unfold MatSolvers_Spec.applied at 1. rewrite total_place. unfold kr.
  transitivity (total m0 (fun p => X (xi i) p *k X' p (xi j) *k total m1 (fun q => C (ci i) q *k C' q (ci j)))).
  - apply total_ext. intros p Hp. rewrite <- (total_mul_l k0 k1 kadd kmul ksub kdiv kopp kinv Hf). apply total_ext. intros q Hq.
    rewrite xi_place, ci_place by assumption. ring.
  - rewrite (total_mul_r k0 k1 kadd kmul ksub kdiv kopp kinv Hf). reflexivity.
Qed.
Lemma kr_identity X i j : i < m0 * m1 -> j < m0 * m1 -> forall C, times m1 C (fun i j => if i =? j then k1 else k0) (ci i) (ci j) = C (ci i) (ci j) /\ times m0 X (fun i j => if i =? j then k1 else k0) (xi i) (xi j) = X (xi i) (xi j).
Proof.
  intros Hi Hj C. destruct (placed j Hj) as (H1 & H2 & _). split.
  - apply (applied_delta_col k0 k1 kadd kmul ksub kdiv kopp kinv Hf m1 C (ci j) (ci i) H2).
  - apply (applied_delta_col k0 k1 kadd kmul ksub kdiv kopp kinv Hf m0 X (xi j) (xi i) H1).
Qed.
Definition I_ : nat -> nat -> K := fun i j => if i =? j then k1 else k0.
Lemma kronecker_series n (cutoff : R) (val_c : nat -> mat K) (norm_c : nat -> R) (A B : sequence (mat K)) a b (f0 : mat K) (f : nat -> nat -> nat -> K) : square m0 f0 ->
  (forall k, k < n \/ k = 0 -> square m1 (val_c k)) ->
  (forall k, k < n -> A k = Some (a k) /\ B (k + 1) = Some (b (k + 1)) /\ square m0 (a k) /\ square m0 (b (k + 1))) ->
  meq m0 (f 0) (at_ f0) -> (forall k, k + 1 < n -> meq m0 (f (S k)) (plus (times m0 (f k) (at_ (a k))) (times m0 (before zero f k) (at_ (b k))))) ->
  exists r, kronecker_clenshaw k0 k1 kadd kmul n val_c norm_c A B f0 cutoff cl = Some r /\ square (m0 * m1) r
    /\ forall p q p' q', p < m0 -> q < m1 -> p' < m0 -> q' < m1 ->
       at_ r (place p q) (place p' q') = total n (fun k => f k p p' *k kept k0 (norm_c k) cutoff (at_ (val_c k) q q')).
Proof.
  intros Hf0 Hc HA H0 Hr. unfold kronecker_clenshaw, kronecker_loop.
  set (I0 := identity (nr f0)). set (I1 := identity (nr (val_c 0))).
  assert (HI0 : square m0 I0) by (split; apply Hf0).
  assert (HI1 : square m1 I1) by (split; apply Hc; right; reflexivity).
  set (cc := fun k => kr (at_ I0) (fun i j => kept k0 (norm_c k) cutoff (at_ (val_c k) i j))).
  destruct (model_loop (m0 * m1) (fun n a b b0 b1 =>
      let b0 := madd (mmul (kron kmul cl a I1) b0) (mmul (kron kmul cl b I1) b1) in
      if above (norm_c n) cutoff then madd b0 (kron kmul cl I0 (val_c n)) else b0)
    cc (fun k => kr (at_ (a k)) (at_ I1)) (fun k => kr (at_ (b k)) (at_ I1)) A B a b (rev (seq 0 n)))
    with (b0 := mscale k0 (kron kmul cl I0 (val_c 0))) (b1 := mscale k0 (kron kmul cl I0 (val_c 0))) (s := (zero, zero)) as (r0 & r1 & E & Hs0 & Hs1 & Ev).
  - intros k b0 b1 Hk Hb0 Hb1. rewrite <- in_rev, in_seq in Hk. destruct (HA k ltac:(lia)) as (_ & _ & Ha & Hb).
    assert (Hck : square m1 (val_c k)) by (apply Hc; lia).
    pose proof (kron_square _ _ Ha HI1) as Hka. pose proof (kron_square _ _ Hb HI1) as Hkb. pose proof (kron_square _ _ HI0 Hck) as Hkc.
    cbv zeta. unfold above, cc, kept, kr. split.
    + destruct (Rlt_dec cutoff (norm_c k)); split; cbn; try apply Hka; apply Hb0.
    + intros i j Hi Hj. unfold plus.
      assert (Ea : at_ (mmul (kron kmul cl (a k) I1) b0) i j = times (m0 * m1) (kr (at_ (a k)) (at_ I1)) (at_ b0) i j).
      { rewrite (at_mmul_times (m0 * m1)) by apply Hka. apply times_proper; [intros x y _ _; apply at_kron; assumption|intros x y _ _; reflexivity|assumption..]. }
      assert (Eb : at_ (mmul (kron kmul cl (b (k + 1)) I1) b1) i j = times (m0 * m1) (kr (at_ (b (k + 1))) (at_ I1)) (at_ b1) i j).
      { rewrite (at_mmul_times (m0 * m1)) by apply Hkb. apply times_proper; [intros x y _ _; apply at_kron; assumption|intros x y _ _; reflexivity|assumption..]. }
      unfold kr in Ea, Eb. destruct (Rlt_dec cutoff (norm_c k)); cbn [at_ MatSolvers_Model.madd]; unfold MatSolvers_Model.madd; cbn [at_]; rewrite ?Ea, ?Eb, ?at_kron by assumption; unfold kr; ring.
  - intros k Hk. rewrite <- in_rev, in_seq in Hk. destruct (HA k ltac:(lia)) as (E1 & E2 & _). split; assumption.
  - split; cbn; apply kron_square; try assumption; apply Hc; right; reflexivity.
  - split; cbn; apply kron_square; try assumption; apply Hc; right; reflexivity.
  - intros i j _ _. cbn. unfold zero. ring.
  - intros i j _ _. cbn. unfold zero. ring.
  - cbv zeta in E. rewrite E. exists (mmul (kron kmul cl f0 I1) r0). split; [reflexivity|].
    assert (HI1k : meq m1 (at_ I1) I_) by (intros x y _ _; reflexivity).
    split; [split; [apply (kron_square _ _ Hf0 HI1)|apply Hs0]|].
    intros p q p' q' Hp Hq Hp' Hq'. pose proof (place_lt p q Hp Hq) as Hi. pose proof (place_lt p' q' Hp' Hq') as Hj.
    set (i := place p q) in *. set (j := place p' q') in *.
    rewrite (at_mmul_times (m0 * m1)) by apply (kron_square _ _ Hf0 HI1).
    set (F := fun k => kr (f k) I_).
    transitivity (series zero plus (times (m0 * m1)) n F cc i j).
    + transitivity (times (m0 * m1) (F 0) (fst (loop plus (times (m0 * m1)) cc (fun k => kr (at_ (a k)) (at_ I1)) (fun k => kr (at_ (b k)) (at_ I1)) (rev (seq 0 n)) (zero, zero))) i j).
      * apply times_proper; [|exact Ev|assumption|assumption]. intros x y Hx Hy. rewrite at_kron by assumption. unfold F, kr.
        destruct (placed x Hx) as (? & ? & _). destruct (placed y Hy) as (? & ? & _). rewrite H0 by assumption. reflexivity.
      * apply mat_loop_series; [|assumption..]. intros k Hk x y Hx Hy.
        destruct (placed x Hx) as (Hx0 & Hx1 & _). destruct (placed y Hy) as (Hy0 & Hy1 & _).
        transitivity (kr (plus (times m0 (f k) (at_ (a k))) (times m0 (before zero f k) (at_ (b k)))) I_ x y); [unfold F, kr; rewrite Hr by assumption; reflexivity|].
        assert (E1 : times (m0 * m1) (F k) (kr (at_ (a k)) (at_ I1)) x y = kr (times m0 (f k) (at_ (a k))) I_ x y).
        { unfold F. rewrite kr_times by assumption. unfold kr. f_equal. apply (applied_delta_col k0 k1 kadd kmul ksub kdiv kopp kinv Hf m1 I_ (ci y) (ci x) Hy1). }
        assert (E2 : times (m0 * m1) (before zero F k) (kr (at_ (b k)) (at_ I1)) x y = kr (times m0 (before zero f k) (at_ (b k))) I_ x y).
        { destruct k as [|k]; cbn [before].
          - rewrite zero_times by assumption. unfold kr. rewrite (zero_times m0 (at_ (b 0)) (xi x) (xi y)) by assumption. unfold zero. ring.
          - unfold F. rewrite kr_times by assumption. unfold kr. f_equal. apply (applied_delta_col k0 k1 kadd kmul ksub kdiv kopp kinv Hf m1 I_ (ci y) (ci x) Hy1). }
        unfold plus at 2. rewrite E1, E2. unfold kr, plus. ring.
    + rewrite series_entry. apply total_ext. intros k Hk. unfold F, cc. rewrite kr_times by assumption. unfold kr. f_equal.
      * unfold i, j. rewrite !xi_place by assumption. apply (applied_delta_col k0 k1 kadd kmul ksub kdiv kopp kinv Hf m0 (f k) p' p Hp').
      * unfold i, j. rewrite !ci_place by assumption. apply (applied_delta k0 k1 kadd kmul ksub kdiv kopp kinv Hf m1 (fun z => kept k0 (norm_c k) cutoff (at_ (val_c k) z q')) q Hq).
Qed.
End Kron.

(** ** The recursion of a Jacobi matrix *)
Lemma deferred_some {A} (e : nat -> A) size n : n < size -> deferred e size n = Some (e n).
Proof. intros H. unfold deferred. destruct (Nat.leb_spec size n); [lia|reflexivity]. Qed.
Lemma deferred_none {A} (e : nat -> A) size n : size <= n -> deferred e size n = None.
Proof. intros H. unfold deferred. destruct (Nat.leb_spec size n); [reflexivity|lia]. Qed.
Lemma jacobi_scalar N J x f : jacobi_functions k0 kadd kmul N J x f -> (forall n, n + 1 < N -> J n (n + 1) <> k0) ->
  forall n, n + 1 < N -> f (S n) = scalar_A k0 k1 kmul ksub kdiv N J x n *k f n +k scalar_B k0 k1 kmul kdiv kopp N J n *k before k0 f n.
Proof.
  intros Hj Hn n Hlt. specialize (Hj n Hlt). unfold scalar_A, scalar_B. destruct (Nat.ltb_spec n (N - 1)); [|lia]. specialize (Hn n Hlt).
  destruct n as [|n]; cbn [before below] in *.
  - cbn [Nat.ltb Nat.leb andb] in *. change (0 + 1) with 1 in *. rewrite <- (Nat.add_1_r 0) in *. cbn [plus Nat.add] in *.
    transitivity (kdiv (x *k f 0 -k J 0 0 *k f 0) (J 0 1)); [rewrite Hj; field; exact Hn|field; exact Hn].
  - cbn [Nat.ltb Nat.leb andb]. replace (S n - 1) with n by lia. replace (S (S n)) with (S n + 1) by lia.
    transitivity (kdiv (x *k f (S n) -k J (S n) (S n) *k f (S n) -k J (S n) n *k f n) (J (S n) (S n + 1))); [rewrite Hj; field; exact Hn|field; exact Hn].
Qed.
Lemma jacobi_matrix_ok N m J (X f0 : mat K) f : square m X -> jacobi_functions_matrix k0 kadd kmul N m J X f -> (forall n, n + 1 < N -> J n (n + 1) <> k0) ->
  meq m (f 0) (at_ f0) -> commute k0 kadd kmul m X f0 ->
  forall n, n + 1 < N -> meq m (f (S n)) (plus (times m (f n) (at_ (compute_A k0 k1 kmul ksub kdiv N J X n))) (times m (before zero f n) (at_ (compute_B k0 k1 kmul kdiv kopp N J X n)))).
Proof.
  intros [Hx1 Hx2] Hj Hn H0 Hc.
  assert (HX : forall n, n < N -> meq m (times m (at_ X) (f n)) (times m (f n) (at_ X)) /\ meq m (times m (at_ X) (before zero f n)) (times m (before zero f n) (at_ X))).
  { pose proof (meq_equiv m) as Heq. pose proof (times_proper m) as Htp. induction n as [|n IH]; intros Hlt.
    - cbn [before]. split; [|rewrite times_zero, zero_times; reflexivity].
      rewrite H0. intros i j Hi Hj'. apply Hc; assumption.
    - cbn [before]. destruct (IH ltac:(lia)) as [E1 E2]. split; [|exact E1].
      assert (Hne : J n (n + 1) <> k0) by (apply Hn; lia).
      assert (Ef : meq m (f (S n)) (fun i j => kdiv k1 (J n (n + 1)) *k (times m (at_ X) (f n) i j -k J n n *k f n i j -k match n with 0 => k0 | S p => J n p end *k before zero f n i j))).
      { intros i j Hi Hj'. unfold times. rewrite (Hj n i j) by (assumption || lia). replace (S n) with (n + 1) by lia. destruct n; cbn [below before]; unfold zero; field; exact Hne. }
      set (al := kdiv k1 (J n (n + 1))) in *. set (be := J n n) in *. set (ga := match n with 0 => k0 | S p => J n p end) in *.
      rewrite Ef. intros i j Hi Hj'. unfold times.
      pose proof (applied_scale k0 k1 kadd kmul ksub kdiv kopp kinv Hf m (at_ X) al (fun k => times m (at_ X) (f n) k j -k be *k f n k j -k ga *k before zero f n k j) i) as S1.
      pose proof (applied_sub k0 k1 kadd kmul ksub kdiv kopp kinv Hf m (at_ X) (fun k => times m (at_ X) (f n) k j -k be *k f n k j) (fun k => ga *k before zero f n k j) i) as S2.
      pose proof (applied_sub k0 k1 kadd kmul ksub kdiv kopp kinv Hf m (at_ X) (fun k => times m (at_ X) (f n) k j) (fun k => be *k f n k j) i) as S3.
      pose proof (applied_scale k0 k1 kadd kmul ksub kdiv kopp kinv Hf m (at_ X) be (fun k => f n k j) i) as S4.
      pose proof (applied_scale k0 k1 kadd kmul ksub kdiv kopp kinv Hf m (at_ X) ga (fun k => before zero f n k j) i) as S5.
      etransitivity; [exact S1|]. etransitivity; [apply f_equal; exact S2|]. rewrite S3, S4, S5.
      pose proof (applied_scale_m k0 k1 kadd kmul ksub kdiv kopp kinv Hf m (fun i k => times m (at_ X) (f n) i k -k be *k f n i k -k ga *k before zero f n i k) al (fun k => at_ X k j) i) as T1.
      pose proof (applied_sub_m k0 k1 kadd kmul ksub kdiv kopp kinv Hf m (fun i k => times m (at_ X) (f n) i k -k be *k f n i k) (fun i k => ga *k before zero f n i k) (fun k => at_ X k j) i) as T2.
      pose proof (applied_sub_m k0 k1 kadd kmul ksub kdiv kopp kinv Hf m (fun i k => times m (at_ X) (f n) i k) (fun i k => be *k f n i k) (fun k => at_ X k j) i) as T3.
      pose proof (applied_scale_m k0 k1 kadd kmul ksub kdiv kopp kinv Hf m (f n) be (fun k => at_ X k j) i) as T4.
      pose proof (applied_scale_m k0 k1 kadd kmul ksub kdiv kopp kinv Hf m (before zero f n) ga (fun k => at_ X k j) i) as T5.
      symmetry. etransitivity; [exact T1|]. etransitivity; [apply f_equal; exact T2|]. rewrite T3, T4, T5.
      assert (U1 : applied m (at_ X) (fun k => times m (at_ X) (f n) k j) i = applied m (fun i k => times m (at_ X) (f n) i k) (fun k => at_ X k j) i).
      { transitivity (times m (at_ X) (times m (at_ X) (f n)) i j); [reflexivity|]. transitivity (times m (at_ X) (times m (f n) (at_ X)) i j); [apply times_proper; [reflexivity|exact E1|assumption|assumption]|].
        apply times_assoc; assumption. }
      pose proof (E1 i j Hi Hj') as U2. pose proof (E2 i j Hi Hj') as U3. unfold times in U2, U3.
      rewrite U1, U2, U3. reflexivity. }
  intros n Hlt i j Hi Hj'. destruct (HX n ltac:(lia)) as [E1 _]. specialize (E1 i j Hi Hj'). specialize (Hj n i j Hlt Hi Hj'). specialize (Hn n Hlt).
  unfold plus, compute_A, compute_B. destruct (Nat.ltb_spec n (N - 1)); [|lia].
  assert (TA : times m (f n) (at_ (mscale (kdiv k1 (J n (n + 1))) (msub X (mscale (J n n) (identity (nr X)))))) i j = kdiv k1 (J n (n + 1)) *k (times m (f n) (at_ X) i j -k J n n *k f n i j)).
  { unfold times. cbn [MatSolvers_Model.mscale MatSolvers_Model.msub at_ MatSolvers_Model.identity]. unfold MatSolvers_Model.mscale, MatSolvers_Model.msub, MatSolvers_Model.identity. cbn [at_].
    rewrite (applied_scale k0 k1 kadd kmul ksub kdiv kopp kinv Hf m (f n) (kdiv k1 (J n (n + 1))) (fun k => at_ X k j -k J n n *k (if k =? j then k1 else k0)) i). f_equal.
    rewrite (applied_sub k0 k1 kadd kmul ksub kdiv kopp kinv Hf m (f n) (fun k => at_ X k j) (fun k => J n n *k (if k =? j then k1 else k0)) i). f_equal.
    apply (times_identity m (f n) (J n n) i j Hj'). }
  rewrite TA, <- E1. unfold times at 1. rewrite Hj. replace (S n) with (n + 1) by lia.
  destruct n as [|n]; cbn [before below].
  - rewrite (zero_times m _ i j Hi Hj'). unfold zero. field. exact Hn.
  - cbn [Nat.ltb Nat.leb andb]. unfold MatSolvers_Model.mscale at 1, MatSolvers_Model.identity at 1. cbn [at_].
    rewrite (times_identity m (f n)) by exact Hj'. replace (S n - 1) with n by lia. field. exact Hn.
Qed.
End Field.
