(** Proofs about vector calculus in balls and shells. *)
From Coq Require Import List ZArith Reals Bool Lia Lra Permutation.
From Coquelicot Require Import Coquelicot.
Import ListNotations.
From Verif Require Import TupleTools_Model MatSolvers_Model CSR_Spec MatSolvers_Proofs Codomain_Proofs JacobiCalc_Spec JacobiCalc_Proofs Intertwiner_Model Intertwiner_Spec Intertwiner_Proofs Intertwiner_Props Radial_Model Radial_Spec Radial_Proofs Radial_Props SphericalVec_Model SphericalVec_Spec.
Local Open Scope R_scope.
Notation Ctotal := (CSR_Spec.total (RtoC 0) Cplus).
Notation Rtotal := (CSR_Spec.total 0 Rplus).

(** ** Sums *)
Lemma csum_ext {A} (l : list A) f g : (forall a, In a l -> f a = g a) -> csum l f = csum l g.
Proof. intros H. unfold csum. f_equal. apply map_ext_in, H. Qed.
Lemma csum_app {A} (l l' : list A) f : csum (l ++ l') f = Cplus (csum l f) (csum l' f).
Proof. unfold csum. rewrite map_app, fold_right_app. induction (map f l) as [|c m IH]; cbn; [|rewrite IH]; ring. Qed.
Lemma csum_zero {A} (l : list A) f : (forall a, In a l -> f a = RtoC 0) -> csum l f = RtoC 0.
Proof. induction l as [|a l IH]; intros H; [reflexivity|]. unfold csum in *. cbn. rewrite (H a (or_introl eq_refl)), IH by (intros b Hb; apply H; right; exact Hb). ring. Qed.
Lemma csum_single {A} (l : list A) f a : NoDup l -> In a l -> (forall b, In b l -> b <> a -> f b = RtoC 0) -> csum l f = f a.
Proof.
  induction l as [|b l IH]; intros HN Hin Hz; [destruct Hin|]. inversion HN as [|? ? Hb HN']; subst. change (csum (b :: l) f) with (Cplus (f b) (csum l f)). destruct Hin as [<-|Hin].
  - rewrite (csum_zero l f); [ring|]. intros c Hc. apply Hz; [right; exact Hc|]. intros ->. contradiction.
  - rewrite IH; [|exact HN'|exact Hin|intros c Hc; apply Hz; right; exact Hc]. rewrite (Hz b (or_introl eq_refl)); [ring|]. intros ->. contradiction.
Qed.
Lemma csum_two {A} (l : list A) f a b : NoDup l -> In a l -> In b l -> a <> b -> (forall c, In c l -> c <> a -> c <> b -> f c = RtoC 0) -> csum l f = Cplus (f a) (f b).
Proof.
  intros HN Ha Hb Hab Hz. apply in_split in Ha. destruct Ha as (l1 & l2 & ->). assert (Hb' : In b (l1 ++ l2)) by (apply in_app_iff in Hb; apply in_app_iff; destruct Hb as [H|[H|H]]; [left|contradiction|right]; assumption).
  pose proof (NoDup_remove _ _ _ HN) as [HN' Hn]. rewrite csum_app. unfold csum at 2. cbn [map fold_right]. fold (csum l2 f).
  assert (E : csum (l1 ++ l2) f = f b). { apply csum_single; [exact HN'|exact Hb'|]. intros c Hc Hcb. apply Hz; [apply in_app_iff in Hc; apply in_app_iff; destruct Hc; [left|right; right]; assumption| |exact Hcb]. intros ->. contradiction. }
  rewrite csum_app in E. rewrite <- E. ring.
Qed.
Lemma csum_map {A B} (g : A -> B) l f : csum (map g l) f = csum l (fun a => f (g a)).
Proof. unfold csum. rewrite map_map. reflexivity. Qed.
Lemma csum_flat {A B} (g : A -> list B) l f : csum (flat_map g l) f = csum l (fun a => csum (g a) f).
Proof. induction l as [|a l IH]; [reflexivity|]. cbn [flat_map]. rewrite csum_app, IH. reflexivity. Qed.
Lemma csum_seq n f : csum (seq 0 n) f = Ctotal n f.
Proof. unfold csum, CSR_Spec.total. induction (seq 0 n) as [|a l IH]; cbn; [reflexivity|rewrite IH; reflexivity]. Qed.

(** ** Components *)
Lemma equal_index_iff i j : equal_index i j = true <-> i = j.
Proof. unfold equal_index. destruct (list_eq_dec Nat.eq_dec i j); split; congruence. Qed.
Lemma equal_index_refl i : equal_index i i = true. Proof. apply equal_index_iff. reflexivity. Qed.
Lemma equal_index_ne i j : i <> j -> equal_index i j = false. Proof. intros H. destruct (equal_index i j) eqn:E; [apply equal_index_iff in E; contradiction|reflexivity]. Qed.
Lemma indices_in rank i : In i (indices rank) <-> is_component rank i.
Proof.
  revert i. induction rank as [|rank IH]; intros i; cbn [indices].
  - split; [intros [<-|[]]; split; [reflexivity|constructor]|]. intros [H _]. destruct i; [left; reflexivity|discriminate].
  - rewrite in_flat_map. split.
    + intros (a & Ha & Hi). apply in_map_iff in Hi. destruct Hi as (r & <- & Hr). apply IH in Hr. destruct Hr as [H1 H2]. split; [cbn; lia|]. constructor; [|exact H2]. cbn in Ha. lia.
    + intros [H1 H2]. destruct i as [|a r]; [discriminate|]. inversion H2; subst. exists a. split; [cbn; lia|]. apply in_map. apply IH. split; [cbn in H1; lia|assumption].
Qed.
Lemma indices_nodup rank : NoDup (indices rank).
Proof.
  induction rank as [|rank IH]; cbn [indices]; [repeat constructor; intros []|]. cbn [flat_map]. rewrite app_nil_r.
  assert (M : forall a : nat, NoDup (map (cons a) (indices rank))) by (intros a; apply FinFun.Injective_map_NoDup; [intros x y E; congruence|exact IH]).
  assert (D : forall (a b : nat), a <> b -> forall x, In x (map (cons a) (indices rank)) -> ~ In x (map (cons b) (indices rank))) by (intros a b Hab x H1 H2; apply in_map_iff in H1, H2; destruct H1 as (? & <- & _), H2 as (? & E & _); congruence).
  assert (App : forall (l l' : list index), NoDup l -> NoDup l' -> (forall x, In x l -> ~ In x l') -> NoDup (l ++ l')).
  { intros l l' H1 H2 H3. induction H1 as [|x l Hx H1 IH']; [exact H2|]. cbn. constructor; [rewrite in_app_iff; intros [H|H]; [contradiction|exact (H3 x (or_introl eq_refl) H)]|]. apply IH'. intros y Hy. apply H3. right. exact Hy. }
  apply App; [apply M|apply App; [apply M|apply M|apply D; lia]|]. intros x H1 H2. apply in_app_iff in H2. destruct H2 as [H2|H2]; [exact (D 0%nat 1%nat ltac:(lia) x H1 H2)|exact (D 0%nat 2%nat ltac:(lia) x H1 H2)].
Qed.
Lemma reg_value a : (a < 3)%nat -> nth a ordering 0%Z = value a.
Proof. intros H. destruct a as [|[|[|a]]]; [reflexivity|reflexivity|reflexivity|lia]. Qed.
Lemma regs_value rank i : is_component rank i -> regularities i = map value i.
Proof. intros [_ H]. unfold regularities. induction H as [|a i Ha H IH]; [reflexivity|]. cbn [map]. rewrite reg_value, IH by exact Ha. reflexivity. Qed.
Lemma fold_add l : forall s, fold_left Z.add l s = (s + sumZ l)%Z.
Proof. induction l as [|a l IH]; intros s; cbn; [lia|]. rewrite IH. unfold sumZ. lia. Qed.
Lemma regtotal_degree rank ell i : is_component rank i -> (ell + regtotal i)%Z = degree ell i.
Proof. intros H. unfold regtotal, degree. rewrite fold_add, (regs_value rank i H). lia. Qed.
Lemma tail_component rank a i : is_component (S rank) (a :: i) -> (a < 3)%nat /\ is_component rank i.
Proof. intros [H1 H2]. inversion H2; subst. split; [assumption|]. split; [cbn in H1; lia|assumption]. Qed.
Lemma cons_component rank a i : (a < 3)%nat -> is_component rank i -> is_component (S rank) (a :: i).
Proof. intros Ha [H1 H2]. split; [cbn; lia|constructor; assumption]. Qed.
Lemma degree_cons ell a i : degree ell (a :: i) = (degree ell i + value a)%Z.
Proof. unfold degree, sumZ. cbn [map fold_right]. lia. Qed.
Lemma components_in rank i : is_component rank i -> In (map value i) (components rank).
Proof.
  intros [H1 H2]. apply in_components. revert rank H1. induction H2 as [|a i Ha H2 IH]; intros rank H1; destruct rank as [|rank]; cbn in *; try lia; try exact I. split; [|apply IH; lia]. unfold three. destruct a as [|[|[|a]]]; cbn; tauto.
Qed.
Lemma allowed_present rank ell i : (0 <= ell)%Z -> is_component rank i -> (allowed ell i = true <-> present ell i).
Proof. intros He Hi. unfold allowed, present. rewrite (regs_value rank i Hi). exact (proj1 (tests_ ell rank _ He (components_in rank i Hi))). Qed.
Lemma allowed_cons_iff rank ell a i : (0 <= ell)%Z -> is_component (S rank) (a :: i) -> (allowed ell (a :: i) = true <-> allowed ell i = true /\ (degree ell i = 0 -> a = 1%nat)%Z).
Proof.
  intros He H. destruct (tail_component rank a i H) as [Ha Hi]. assert (E : forall rank i, is_component rank i -> (allowed ell i = true <-> Intertwiner_Proofs.allowed ell (map value i))).
  { intros n j Hj. rewrite (allowed_present n ell j He Hj). unfold present. apply exists_allowed with (n := n); [exact He|]. apply in_components, components_in, Hj. }
  rewrite (E _ _ H), (E _ _ Hi). cbn [map]. rewrite (Intertwiner_Proofs.allowed_cons ell He). 2:{ unfold three. destruct a as [|[|[|a]]]; cbn; tauto. }
  assert (Ed : (ell + zsum (map value i))%Z = degree ell i) by (unfold degree, zsum; rewrite fold_add; lia). rewrite Ed.
  assert (Ea : value a = 1%Z <-> a = 1%nat) by (destruct a as [|[|[|a]]]; cbn; split; lia). rewrite Ea. tauto.
Qed.
Lemma allowed_degree rank ell i : (0 <= ell)%Z -> is_component rank i -> allowed ell i = true -> (0 <= degree ell i)%Z.
Proof.
  intros He Hi H. apply (allowed_present rank ell i He Hi) in H. unfold present in H. apply (exists_allowed ell rank) in H; [|exact He|apply in_components, components_in, Hi]. apply (allowed_nonneg ell He) in H. unfold degree. unfold zsum in H. rewrite fold_add in H. lia.
Qed.

(** ** Real matrices on complex vectors *)
Lemma Ctotal_ext n f g : (forall i, (i < n)%nat -> f i = g i) -> Ctotal n f = Ctotal n g.
Proof. exact (total_ext (RtoC 0) (RtoC 1) Cplus Cmult Cminus Cdiv Copp Cinv C_field_theory n f g). Qed.
Definition imgC (M : mat R) (x : nat -> C) (n : nat) : C := Ctotal (nc M) (fun q => Cmult (RtoC (at_ M n q)) (x q)).
Lemma Ctotal_parts n f : Ctotal n f = (Rtotal n (fun q => Re (f q)), Rtotal n (fun q => Im (f q))).
Proof. unfold CSR_Spec.total. induction (seq 0 n) as [|a l IH]; [reflexivity|]. cbn [fold_right]. rewrite IH. reflexivity. Qed.
Lemma imgC_parts M x n : imgC M x n = (image M (fun q => Re (x q)) n, image M (fun q => Im (x q)) n).
Proof. unfold imgC. rewrite Ctotal_parts. unfold image. f_equal; apply Rtotal_ext; intros q _; destruct (x q); cbn; ring. Qed.
Lemma imgC_ext M x y n : (forall q, (q < nc M)%nat -> x q = y q) -> imgC M x n = imgC M y n.
Proof. intros H. apply Ctotal_ext. intros q Hq. rewrite H by exact Hq. reflexivity. Qed.
Lemma imgC_linear M s t x y n : imgC M (fun q => Cplus (Cmult s (x q)) (Cmult t (y q))) n = Cplus (Cmult s (imgC M x n)) (Cmult t (imgC M y n)).
Proof.
  unfold imgC, CSR_Spec.total. induction (seq 0 (nc M)) as [|a l IH]; cbn [fold_right]; [ring|]. rewrite IH. ring.
Qed.
Lemma imgC_zero M n : imgC M (fun _ => RtoC 0) n = RtoC 0.
Proof. pose proof (imgC_linear M (RtoC 0) (RtoC 0) (fun _ => RtoC 0) (fun _ => RtoC 0) n) as E. etransitivity; [|etransitivity; [exact E|ring]]. apply imgC_ext. intros. ring. Qed.
Lemma imgC_scale M s x n : imgC M (fun q => Cmult s (x q)) n = Cmult s (imgC M x n).
Proof. pose proof (imgC_linear M s (RtoC 0) x (fun _ => RtoC 0) n) as E. etransitivity; [|etransitivity; [exact E|ring]]. apply imgC_ext. intros. ring. Qed.
Lemma applied_times s M x n B : times_matrix s (Some M) = Some B -> applied B x n = Cmult s (imgC M x n).
Proof. intros E. injection E as <-. unfold applied. cbn [nc at_]. rewrite <- imgC_scale. apply Ctotal_ext. intros q _. ring. Qed.

(** ** The loop over components *)
Definition term (A : index -> index -> option (mat C)) (outs : index -> list index) (ell : Z) (x : vectors) (j : index) (n : nat) (i : index) : C :=
  if existsb (equal_index j) (outs i) && (allowed ell i && allowed ell j) then match A i j with Some M => applied M (x i) n | None => RtoC 0 end else RtoC 0.
Lemma outs_loop A ell x i outs : NoDup outs -> (forall j, In j outs -> allowed ell i = true -> allowed ell j = true -> A i j <> None) ->
  forall out, exists out', fold_left (step A ell x i) outs (Some out) = Some out' /\ forall j n, out' j n = Cplus (out j n) (term A (fun _ => outs) ell x j n i).
Proof.
  induction outs as [|j outs IH]; intros HN HA out; [exists out; split; [reflexivity|]; intros; unfold term; cbn; ring|]. inversion HN as [|? ? Hj HN']; subst. cbn [fold_left]. unfold step at 2. cbn [obind].
  assert (X : exists out1, (if allowed ell i && allowed ell j then obind (A i j) (fun M => Some (fun j' n => if equal_index j' j then Cplus (out j' n) (applied M (x i) n) else out j' n)) else Some out) = Some out1
    /\ forall j' n, out1 j' n = if equal_index j' j then Cplus (out j' n) (term A (fun _ => [j]) ell x j' n i) else out j' n).
  { destruct (allowed ell i && allowed ell j) eqn:E.
    - apply andb_true_iff in E. destruct E as [E1 E2]. destruct (A i j) as [M|] eqn:EA; [|exfalso; exact (HA j (or_introl eq_refl) E1 E2 EA)]. cbn [obind]. eexists. split; [reflexivity|]. intros j' n. cbv beta. destruct (equal_index j' j) eqn:Ej; [|reflexivity]. apply equal_index_iff in Ej. subst j'. unfold term. cbn [existsb]. rewrite equal_index_refl, E1, E2, EA. reflexivity.
    - exists out. split; [reflexivity|]. intros j' n. destruct (equal_index j' j) eqn:Ej; [|reflexivity]. apply equal_index_iff in Ej. subst j'. unfold term. rewrite E, andb_false_r. ring. }
  destruct X as (out1 & -> & X1). destruct (IH HN' ltac:(intros j' Hj'; apply HA; right; exact Hj') out1) as (out' & E' & X'). exists out'. split; [exact E'|]. intros j' n. rewrite X', X1. unfold term. cbn [existsb]. destruct (equal_index j' j) eqn:Ej; cbn [orb]; [|reflexivity].
  apply equal_index_iff in Ej. subst j'. replace (existsb (equal_index j) outs) with false; [cbn [orb andb]; ring|]. symmetry. apply not_true_iff_false. intros H. apply existsb_exists in H. destruct H as (z & Hz & Ez). apply equal_index_iff in Ez. subst z. contradiction.
Qed.
Lemma operate_value A outs rank ell x : (forall i, NoDup (outs i)) -> (forall i j, is_component rank i -> In j (outs i) -> allowed ell i = true -> allowed ell j = true -> A i j <> None) ->
  exists u, operate A outs rank ell x = Some u /\ forall j n, u j n = csum (indices rank) (term A outs ell x j n).
Proof.
  intros HN HA. unfold operate. assert (G : forall l out, (forall i, In i l -> is_component rank i) -> exists u, fold_left (fun out i => fold_left (step A ell x i) (outs i) out) l (Some out) = Some u /\ forall j n, u j n = Cplus (out j n) (csum l (term A outs ell x j n))).
  { induction l as [|i l IH]; intros out Hl; [exists out; split; [reflexivity|]; intros; unfold csum; cbn; ring|]. cbn [fold_left].
    destruct (outs_loop A ell x i (outs i) (HN i) ltac:(intros j Hj; apply HA; [apply Hl; left; reflexivity|exact Hj]) out) as (out1 & -> & X1). destruct (IH out1 ltac:(intros; apply Hl; right; assumption)) as (u & E & X). exists u. split; [exact E|]. intros j n. rewrite X, X1. unfold csum. cbn [map fold_right]. unfold term. ring. }
  destruct (G (indices rank) (fun _ _ => RtoC 0) (fun i Hi => proj1 (indices_in rank i) Hi)) as (u & E & X). exists u. split; [exact E|]. intros j n. rewrite X. ring.
Qed.

(** ** Radial matrices *)
Section Radial.
Context (mass : R -> R -> R) (Hm : mass_rules mass) (g : geometry) (N : nat) (HN : (1 <= N)%nat) (ell : Z).
Lemma radial_some k op reg : proper g k -> (0 <= ell + reg)%Z -> (op = Dminus -> 0 < ell + reg)%Z -> exists M, radial_operator g k op ell reg N = Some M /\ nr M = N /\ nc M = N.
Proof.
  intros Hp H0 H1. destruct g as [radius alpha|inner outer a b]; cbn [radial_operator proper] in *.
  - destruct Hp as [Hr Hk]. destruct op.
    + destruct (ball_D_plus mass Hm radius alpha Hr k Hk N HN ell reg (Z.to_nat (ell + reg)) ltac:(lia)) as (M & E & X & Y & _). exists M. tauto.
    + specialize (H1 eq_refl). destruct (ball_D_minus mass Hm radius alpha Hr k Hk N HN ell reg (Z.to_nat (ell + reg) - 1) ltac:(lia)) as (M & E & X & Y & _). exists M. tauto.
    + destruct (ball_laplacian mass Hm radius alpha Hr k Hk N HN ell reg (Z.to_nat (ell + reg)) ltac:(lia)) as (M & E & X & Y & _). exists M. tauto.
  - destruct Hp as (Hi & Ho & Ha & Hb). destruct op.
    + destruct (shell_D_degree mass Hm inner outer a b Ho Ha Hb k N HN true ell reg _ eq_refl) as (M & E & X & Y & _). exists M. tauto.
    + destruct (shell_D_degree mass Hm inner outer a b Ho Ha Hb k N HN false ell reg _ eq_refl) as (M & E & X & Y & _). exists M. tauto.
    + destruct (shell_laplacian mass Hm inner outer a b Ho Ha Hb k N HN ell reg _ eq_refl) as (M & E & X & Y & _). exists M. tauto.
Qed.
Lemma proper_S k : proper g k -> proper g (S k).
Proof. destruct g; cbn [proper]; [|tauto]. rewrite S_INR. intros [H1 H2]. split; [exact H1|lra]. Qed.
Definition matrix k op reg : mat R := match radial_operator g k op ell reg N with Some M => M | None => Mat N N (fun _ _ => 0) end.
Lemma matrix_some k op reg : proper g k -> (0 <= ell + reg)%Z -> (op = Dminus -> 0 < ell + reg)%Z -> radial_operator g k op ell reg N = Some (matrix k op reg) /\ nr (matrix k op reg) = N /\ nc (matrix k op reg) = N.
Proof. intros Hp H0 H1. destruct (radial_some k op reg Hp H0 H1) as (M & E & X & Y). unfold matrix. rewrite E. tauto. Qed.
Lemma imgC_factor L U D x n : (forall c, image L c n = image D (image U c) n) -> imgC L x n = imgC D (imgC U x) n.
Proof.
  intros H. rewrite !imgC_parts. rewrite !H. f_equal; unfold image at 1 3; apply Rtotal_ext; intros q _; rewrite imgC_parts; reflexivity.
Qed.
Lemma second_up k reg x n : proper g k -> (0 <= ell + reg)%Z -> (n < N)%nat -> imgC (matrix k Second reg) x n = imgC (matrix (S k) Dminus (reg + 1)) (imgC (matrix k Dplus reg) x) n.
Proof.
  intros Hp H0 Hn. apply imgC_factor. intros c. unfold matrix. destruct g as [radius alpha|inner outer a b]; cbn [radial_operator proper] in *.
  - destruct Hp as [Hr Hk]. destruct (ball_factors mass Hm radius alpha k N ell reg (Z.to_nat (ell + reg)) Hr Hk HN ltac:(lia)) as (L & U & D & -> & -> & -> & H & _). apply H, Hn.
  - destruct Hp as (Hi & Ho & Ha & Hb). destruct (shell_factors mass Hm inner outer a b k N ell reg Hi Ho Ha Hb HN) as (L & U & D & D' & U' & -> & -> & -> & _ & _ & H). apply H, Hn.
Qed.
Lemma second_down k reg x n : proper g k -> (0 < ell + reg)%Z -> (n < N)%nat -> imgC (matrix k Second reg) x n = imgC (matrix (S k) Dplus (reg - 1)) (imgC (matrix k Dminus reg) x) n.
Proof.
  intros Hp H0 Hn. apply imgC_factor. intros c. unfold matrix. destruct g as [radius alpha|inner outer a b]; cbn [radial_operator proper] in *.
  - destruct Hp as [Hr Hk]. destruct (ball_factors mass Hm radius alpha k N ell reg (Z.to_nat (ell + reg)) Hr Hk HN ltac:(lia)) as (L & U & D & -> & _ & _ & _ & X). destruct (X ltac:(lia)) as (D' & U' & -> & -> & H). apply H, Hn.
  - destruct Hp as (Hi & Ho & Ha & Hb). destruct (shell_factors mass Hm inner outer a b k N ell reg Hi Ho Ha Hb HN) as (L & U & D & D' & U' & -> & _ & _ & -> & -> & H). apply H, Hn.
Qed.
End Radial.

(** ** Values of the operators *)
Section Values.
Context (mass : R -> R -> R) (Hm : mass_rules mass) (g : geometry) (N : nat) (HN : (1 <= N)%nat) (ell : Z) (He : (0 <= ell)%Z).
Notation matrix := (matrix g N ell).
Notation X mu i := (RtoC (basis_xi mu (degree ell i))).
Definition above (i : index) : bool := (0 <? degree ell i)%Z.
Lemma regtotal_cons a i : regtotal (a :: i) = (regtotal i + nth a ordering 0)%Z.
Proof. unfold regtotal. rewrite !fold_add. cbn [regularities map]. change (sumZ (nth a ordering 0%Z :: map (fun j => nth j ordering 0%Z) i)) with (nth a ordering 0 + sumZ (regularities i))%Z. lia. Qed.
Lemma allowed_0 rank i : is_component rank i -> allowed ell (0%nat :: i) = allowed ell i && above i.
Proof.
  intros Hi. apply eq_true_iff_eq. rewrite (allowed_cons_iff rank ell 0 i He (cons_component rank 0 i ltac:(lia) Hi)), andb_true_iff. unfold above. rewrite Z.ltb_lt. split.
  - intros [H1 H2]. split; [exact H1|]. pose proof (allowed_degree rank ell i He Hi H1). destruct (Z.eq_dec (degree ell i) 0) as [E|E]; [specialize (H2 E); discriminate|lia].
  - intros [H1 H2]. split; [exact H1|lia].
Qed.
Lemma allowed_1 rank i : is_component rank i -> allowed ell (1%nat :: i) = allowed ell i.
Proof. intros Hi. apply eq_true_iff_eq. rewrite (allowed_cons_iff rank ell 1 i He (cons_component rank 1 i ltac:(lia) Hi)). tauto. Qed.
Lemma allowed_2 rank i : is_component rank i -> allowed ell (2%nat :: i) = allowed ell i && above i.
Proof.
  intros Hi. apply eq_true_iff_eq. rewrite (allowed_cons_iff rank ell 2 i He (cons_component rank 2 i ltac:(lia) Hi)), andb_true_iff. unfold above. rewrite Z.ltb_lt. split.
  - intros [H1 H2]. split; [exact H1|]. pose proof (allowed_degree rank ell i He Hi H1). destruct (Z.eq_dec (degree ell i) 0) as [E|E]; [specialize (H2 E); discriminate|lia].
  - intros [H1 H2]. split; [exact H1|lia].
Qed.
Lemma times_some s k op reg : proper g k -> (0 <= ell + reg)%Z -> (op = Dminus -> 0 < ell + reg)%Z -> exists B, times_matrix s (radial_operator g k op ell reg N) = Some B /\ forall x n, applied B x n = Cmult s (imgC (matrix k op reg) x n).
Proof.
  intros Hp H0 H1. destruct (matrix_some mass Hm g N HN ell k op reg Hp H0 H1) as (E & _). rewrite E. eexists. split; [reflexivity|]. intros x n. apply (applied_times s _ x n _ eq_refl).
Qed.
Lemma in_one (j k : index) : existsb (equal_index j) [k] = equal_index j k. Proof. cbn. apply orb_false_r. Qed.
Lemma in_two (j k l : index) : existsb (equal_index j) [k; l] = equal_index j k || equal_index j l. Proof. cbn. rewrite orb_false_r. reflexivity. Qed.

Theorem gradient_value k rank x : proper g k -> exists u, gradient g k N rank ell x = Some u /\ forall i n, is_component rank i ->
  u (0%nat :: i) n = (if allowed ell i && above i then Cmult (X (-1) i) (imgC (matrix k Dminus (regtotal i)) (x i) n) else RtoC 0)
  /\ u (1%nat :: i) n = (if allowed ell i then Cmult (X 1 i) (imgC (matrix k Dplus (regtotal i)) (x i) n) else RtoC 0)
  /\ u (2%nat :: i) n = RtoC 0.
Proof.
  intros Hp. assert (HA : forall i, is_component rank i -> allowed ell i = true ->
    (above i = true -> exists B, gradient_matrix g k N ell i (0%nat :: i) = Some B /\ forall x n, applied B x n = Cmult (X (-1) i) (imgC (matrix k Dminus (regtotal i)) x n))
    /\ exists B, gradient_matrix g k N ell i (1%nat :: i) = Some B /\ forall x n, applied B x n = Cmult (X 1 i) (imgC (matrix k Dplus (regtotal i)) x n)).
  { intros i Hi Ha. pose proof (allowed_degree rank ell i He Hi Ha) as Hd. rewrite <- (regtotal_degree rank ell i Hi) in *. cbn [gradient_matrix Nat.eqb negb andb]. rewrite equal_index_refl. split.
    - unfold above. intros H. apply Z.ltb_lt in H. rewrite <- (regtotal_degree rank ell i Hi) in H. apply times_some; [exact Hp|lia|lia].
    - apply times_some; [exact Hp|exact Hd|discriminate]. }
  destruct (operate_value (gradient_matrix g k N ell) gradient_out rank ell x) as (u & Eu & Hu).
  - intros i. unfold gradient_out. constructor; [intros [H|[]]; discriminate|repeat constructor; intros []].
  - intros i j Hi [<-|[<-|[]]] H1 H2; destruct (HA i Hi H1) as [B0 (B1 & E1 & _)]; [|congruence]. rewrite (allowed_0 rank i Hi), H1 in H2. destruct (B0 H2) as (B & E & _). congruence.
  - exists u. split; [exact Eu|]. intros i n Hi. rewrite !Hu.
    assert (Z : forall a j, In j (indices rank) -> j <> i -> term (gradient_matrix g k N ell) gradient_out ell x (a :: i) n j = RtoC 0).
    { intros a j _ Hj. unfold term, gradient_out. rewrite in_two, !equal_index_ne by congruence. reflexivity. }
    split; [|split].
    + rewrite (csum_single _ _ i (indices_nodup rank) (proj2 (indices_in rank i) Hi) (Z 0%nat)). unfold term, gradient_out. rewrite in_two, equal_index_refl, (allowed_0 rank i Hi). cbn [orb andb]. destruct (allowed ell i) eqn:Ea; [|reflexivity]. cbn [andb]. destruct (above i) eqn:Eb; [|reflexivity]. destruct (proj1 (HA i Hi Ea) Eb) as (B & -> & H). apply H.
    + rewrite (csum_single _ _ i (indices_nodup rank) (proj2 (indices_in rank i) Hi) (Z 1%nat)). unfold term, gradient_out. rewrite in_two, equal_index_refl, orb_true_r, (allowed_1 rank i Hi). cbn [andb]. destruct (allowed ell i) eqn:Ea; [|reflexivity]. cbn [andb]. destruct (proj2 (HA i Hi Ea)) as (B & -> & H). apply H.
    + apply csum_zero. intros j _. unfold term, gradient_out. rewrite in_two, !equal_index_ne by congruence. reflexivity.
Qed.
Theorem laplacian_value k rank x : proper g k -> exists u, laplacian g k N rank ell x = Some u /\ forall i n, is_component rank i -> u i n = (if allowed ell i then imgC (matrix k Second (regtotal i)) (x i) n else RtoC 0).
Proof.
  intros Hp. assert (HA : forall i, is_component rank i -> allowed ell i = true -> exists B, laplacian_matrix g k N ell i i = Some B /\ forall x n, applied B x n = Cmult (RtoC 1) (imgC (matrix k Second (regtotal i)) x n)).
  { intros i Hi Ha. pose proof (allowed_degree rank ell i He Hi Ha) as Hd. rewrite <- (regtotal_degree rank ell i Hi) in Hd. unfold laplacian_matrix. rewrite equal_index_refl. apply times_some; [exact Hp|exact Hd|discriminate]. }
  destruct (operate_value (laplacian_matrix g k N ell) same_out rank ell x) as (u & Eu & Hu).
  - intros i. repeat constructor; intros [].
  - intros i j Hi [<-|[]] H1 _. destruct (HA i Hi H1) as (B & E & _). congruence.
  - exists u. split; [exact Eu|]. intros i n Hi. rewrite Hu, (csum_single _ _ i (indices_nodup rank) (proj2 (indices_in rank i) Hi)).
    + unfold term, same_out. rewrite in_one, equal_index_refl. cbn [andb]. destruct (allowed ell i) eqn:Ea; [|reflexivity]. cbn [andb]. destruct (HA i Hi Ea) as (B & -> & H). rewrite H. ring.
    + intros j _ Hj. unfold term, same_out. rewrite in_one, equal_index_ne by congruence. reflexivity.
Qed.
Theorem divergence_value k rank x : proper g k -> exists u, divergence g k N rank ell x = Some u /\ forall i n, is_component rank i ->
  u i n = (if allowed ell i then Cplus (if above i then Cmult (X (-1) i) (imgC (matrix k Dplus (regtotal i - 1)) (x (0%nat :: i)) n) else RtoC 0) (Cmult (X 1 i) (imgC (matrix k Dminus (regtotal i + 1)) (x (1%nat :: i)) n)) else RtoC 0).
Proof.
  intros Hp. assert (HA : forall i, is_component rank i -> allowed ell i = true ->
    (above i = true -> exists B, divergence_matrix g k N ell (0%nat :: i) i = Some B /\ forall x n, applied B x n = Cmult (X (-1) i) (imgC (matrix k Dplus (regtotal i - 1)) x n))
    /\ exists B, divergence_matrix g k N ell (1%nat :: i) i = Some B /\ forall x n, applied B x n = Cmult (X 1 i) (imgC (matrix k Dminus (regtotal i + 1)) x n)).
  { intros i Hi Ha. pose proof (allowed_degree rank ell i He Hi Ha) as Hd. rewrite <- (regtotal_degree rank ell i Hi) in *. cbn [divergence_matrix Nat.eqb negb andb]. rewrite equal_index_refl, !regtotal_cons. cbn [ordering nth].
    replace (ell + (regtotal i + -1) + 1)%Z with (ell + regtotal i)%Z by lia. replace (ell + (regtotal i + 1) - 1)%Z with (ell + regtotal i)%Z by lia. replace (regtotal i + -1)%Z with (regtotal i - 1)%Z by lia. split.
    - unfold above. intros H. apply Z.ltb_lt in H. rewrite <- (regtotal_degree rank ell i Hi) in H. apply times_some; [exact Hp|lia|discriminate].
    - apply times_some; [exact Hp|lia|lia]. }
  destruct (operate_value (divergence_matrix g k N ell) divergence_out (S rank) ell x) as (u & Eu & Hu).
  - intros [|[|[|a]] i]; repeat constructor; intros [].
  - intros [|a i] j Hi Hj H1 H2; [destruct Hj|]. destruct (tail_component rank a i Hi) as [Ha Hi']. destruct a as [|[|a]]; [destruct Hj as [<-|[]]|destruct Hj as [<-|[]]|destruct Hj]; destruct (HA i Hi' H2) as [B0 (B1 & E1 & _)]; [|congruence].
    rewrite (allowed_0 rank i Hi') in H1. apply andb_true_iff in H1. destruct (B0 (proj2 H1)) as (B & E & _). congruence.
  - exists u. split; [exact Eu|]. intros i n Hi. rewrite Hu, (csum_two _ _ (0%nat :: i) (1%nat :: i) (indices_nodup (S rank))); [|apply indices_in, cons_component; [lia|exact Hi]|apply indices_in, cons_component; [lia|exact Hi]|discriminate|].
    + unfold term, divergence_out. rewrite in_one, equal_index_refl, (allowed_0 rank i Hi), (allowed_1 rank i Hi). cbn [andb]. destruct (allowed ell i) eqn:Ea; [|cbn; ring]. cbn [andb]. destruct (HA i Hi Ea) as [B0 (B1 & -> & H1)]. rewrite H1. f_equal. destruct (above i) eqn:Eb; [|reflexivity]. cbn [andb]. destruct (B0 eq_refl) as (B & -> & H). apply H.
    + intros [|[|[|a]] j] Hj N0 N1; try reflexivity; unfold term, divergence_out; rewrite in_one, equal_index_ne by congruence; reflexivity.
Qed.
Theorem curl_value k rank x : proper g k -> exists u, curl g k N rank ell x = Some u /\ forall i n, is_component rank i ->
  u (0%nat :: i) n = (if allowed ell i && above i then Cmult (Cmult (Copp Ci) (X 1 i)) (imgC (matrix k Dminus (regtotal i)) (x (2%nat :: i)) n) else RtoC 0)
  /\ u (1%nat :: i) n = (if allowed ell i && above i then Cmult (Cmult Ci (X (-1) i)) (imgC (matrix k Dplus (regtotal i)) (x (2%nat :: i)) n) else RtoC 0)
  /\ u (2%nat :: i) n = (if allowed ell i && above i then Cplus (Cmult (Cmult (Copp Ci) (X 1 i)) (imgC (matrix k Dplus (regtotal i - 1)) (x (0%nat :: i)) n)) (Cmult (Cmult Ci (X (-1) i)) (imgC (matrix k Dminus (regtotal i + 1)) (x (1%nat :: i)) n)) else RtoC 0).
Proof.
  intros Hp. assert (HA : forall i, is_component rank i -> allowed ell i && above i = true ->
    (exists B, curl_matrix g k N ell (0%nat :: i) (2%nat :: i) = Some B /\ forall x n, applied B x n = Cmult (Cmult (Copp Ci) (X 1 i)) (imgC (matrix k Dplus (regtotal i - 1)) x n))
    /\ (exists B, curl_matrix g k N ell (1%nat :: i) (2%nat :: i) = Some B /\ forall x n, applied B x n = Cmult (Cmult Ci (X (-1) i)) (imgC (matrix k Dminus (regtotal i + 1)) x n))
    /\ (exists B, curl_matrix g k N ell (2%nat :: i) (0%nat :: i) = Some B /\ forall x n, applied B x n = Cmult (Cmult (Copp Ci) (X 1 i)) (imgC (matrix k Dminus (regtotal i)) x n))
    /\ exists B, curl_matrix g k N ell (2%nat :: i) (1%nat :: i) = Some B /\ forall x n, applied B x n = Cmult (Cmult Ci (X (-1) i)) (imgC (matrix k Dplus (regtotal i)) x n)).
  { intros i Hi Ha. apply andb_true_iff in Ha. destruct Ha as [_ Ha]. unfold above in Ha. apply Z.ltb_lt in Ha. rewrite <- (regtotal_degree rank ell i Hi) in *. cbn [curl_matrix]. rewrite equal_index_refl, !regtotal_cons. cbn [ordering nth].
    replace (ell + (regtotal i + -1) + 1)%Z with (ell + regtotal i)%Z by lia. replace (ell + (regtotal i + 1) - 1)%Z with (ell + regtotal i)%Z by lia. replace (regtotal i + -1)%Z with (regtotal i - 1)%Z by lia. rewrite Z.add_0_r.
    repeat split; apply times_some; (exact Hp || lia || discriminate). }
  destruct (operate_value (curl_matrix g k N ell) curl_out (S rank) ell x) as (u & Eu & Hu).
  - intros [|[|[|a]] i]; repeat constructor; cbn; intuition congruence.
  - intros [|a i] j Hi Hj H1 H2; [destruct Hj|]. destruct (tail_component rank a i Hi) as [Ha Hi'].
    destruct a as [|[|[|a]]]; [destruct Hj as [<-|[]]|destruct Hj as [<-|[]]|destruct Hj as [<-|[<-|[]]]|lia]; rewrite (allowed_2 rank i Hi') in *; destruct (HA i Hi' ltac:(assumption)) as ((B1 & E1 & _) & (B2 & E2 & _) & (B3 & E3 & _) & (B4 & E4 & _)); congruence.
  - exists u. split; [exact Eu|]. intros i n Hi. assert (I : forall a, (a < 3)%nat -> In (a :: i) (indices (S rank))) by (intros a Ha; apply indices_in, cons_component; assumption). rewrite !Hu. split; [|split].
    + rewrite (csum_single _ _ (2%nat :: i) (indices_nodup (S rank)) (I 2%nat ltac:(lia))).
      * unfold term, curl_out. rewrite in_two, equal_index_refl, (allowed_0 rank i Hi), (allowed_2 rank i Hi). cbn [orb andb]. destruct (allowed ell i && above i) eqn:Ea; [|reflexivity]. cbn [andb]. destruct (HA i Hi Ea) as (_ & _ & (B & -> & H) & _). apply H.
      * intros [|[|[|a]] j] Hj Nj; try reflexivity; unfold term, curl_out; rewrite ?in_one, ?in_two, !equal_index_ne by (try congruence; intros E; apply Nj; injection E as <-; apply indices_in in Hj; destruct (tail_component rank _ _ Hj); f_equal; lia); reflexivity.
    + rewrite (csum_single _ _ (2%nat :: i) (indices_nodup (S rank)) (I 2%nat ltac:(lia))).
      * unfold term, curl_out. rewrite in_two, equal_index_refl, orb_true_r, (allowed_1 rank i Hi), (allowed_2 rank i Hi). cbn [andb]. destruct (allowed ell i) eqn:Ea; [|reflexivity]. cbn [andb]. rewrite andb_true_r. destruct (above i) eqn:Eb; [|reflexivity]. destruct (HA i Hi ltac:(rewrite Ea, Eb; reflexivity)) as (_ & _ & _ & (B & -> & H)). apply H.
      * intros [|[|[|a]] j] Hj Nj; try reflexivity; unfold term, curl_out; rewrite ?in_one, ?in_two, !equal_index_ne by (try congruence; intros E; apply Nj; injection E as <-; apply indices_in in Hj; destruct (tail_component rank _ _ Hj); f_equal; lia); reflexivity.
    + rewrite (csum_two _ _ (0%nat :: i) (1%nat :: i) (indices_nodup (S rank)) (I 0%nat ltac:(lia)) (I 1%nat ltac:(lia)) ltac:(discriminate)).
      * unfold term, curl_out. rewrite in_one, equal_index_refl, (allowed_0 rank i Hi), (allowed_1 rank i Hi), (allowed_2 rank i Hi). cbn [andb]. destruct (allowed ell i) eqn:Ea; [|cbn; ring]. cbn [andb]. destruct (above i) eqn:Eb; [|cbn; ring]. cbn [andb]. destruct (HA i Hi ltac:(rewrite Ea, Eb; reflexivity)) as ((B & -> & H) & (B' & -> & H') & _). rewrite H, H'. reflexivity.
      * intros [|[|[|a]] j] Hj N0 N1; try reflexivity; unfold term, curl_out; rewrite ?in_one, ?in_two, ?equal_index_ne by congruence; reflexivity.
Qed.
End Values.

(** ** Identities *)
Lemma lower_xi l : basis_xi (-1) l = lower l. Proof. unfold basis_xi, lower. replace (l + (-1 + 1) / 2)%Z with l by (change ((-1 + 1) / 2)%Z with 0%Z; lia). reflexivity. Qed.
Lemma upper_xi l : basis_xi 1 l = upper l. Proof. reflexivity. Qed.
Lemma lower_0 : lower 0 = 0. Proof. unfold lower, Rdiv. rewrite Rmult_0_l. apply sqrt_0. Qed.
Lemma upper_0 : upper 0 = 1. Proof. unfold upper. change (0 + 1)%Z with 1%Z. replace (1 / (2 * 0 + 1)) with 1 by field. apply sqrt_1. Qed.
Lemma lower_upper l : (0 <= l)%Z -> lower l * lower l + upper l * upper l = 1.
Proof. intros H. apply IZR_le in H. unfold lower, upper. rewrite plus_IZR. rewrite !sqrt_sqrt; [field; lra| |]; apply Rdiv_le_0_compat; lra. Qed.

Section Identities.
Context (mass : R -> R -> R) (Hm : mass_rules mass) (g : geometry) (N : nat) (HN : (1 <= N)%nat) (ell : Z) (He : (0 <= ell)%Z).
Notation matrix := (matrix g N ell).
Lemma xi_square rank i : is_component rank i -> allowed ell i = true -> Cplus (Cmult (RtoC (basis_xi (-1) (degree ell i))) (RtoC (basis_xi (-1) (degree ell i)))) (Cmult (RtoC (basis_xi 1 (degree ell i))) (RtoC (basis_xi 1 (degree ell i)))) = RtoC 1.
Proof. intros Hi Ha. rewrite lower_xi, upper_xi, <- !RtoC_mult, <- RtoC_plus, lower_upper by (eapply allowed_degree; eassumption). reflexivity. Qed.
Lemma not_above rank i : is_component rank i -> allowed ell i = true -> above ell i = false -> degree ell i = 0%Z.
Proof. intros Hi Ha H. pose proof (allowed_degree rank ell i He Hi Ha). unfold above in H. apply Z.ltb_ge in H. lia. Qed.
Lemma is_above i : above ell i = true -> (0 < degree ell i)%Z. Proof. apply Z.ltb_lt. Qed.

Lemma second_up' k reg s x n : proper g k -> (0 <= ell + reg)%Z -> (n < N)%nat -> imgC (matrix (S k) Dminus (reg + 1)) (fun q => Cmult s (imgC (matrix k Dplus reg) x q)) n = Cmult s (imgC (matrix k Second reg) x n).
Proof. intros. rewrite imgC_scale. f_equal. symmetry. apply (second_up mass Hm); assumption. Qed.
Lemma second_down' k reg s x n : proper g k -> (0 < ell + reg)%Z -> (n < N)%nat -> imgC (matrix (S k) Dplus (reg - 1)) (fun q => Cmult s (imgC (matrix k Dminus reg) x q)) n = Cmult s (imgC (matrix k Second reg) x n).
Proof. intros. rewrite imgC_scale. f_equal. symmetry. apply (second_down mass Hm); assumption. Qed.

Theorem divergence_gradient k rank x : proper g k -> exists u v w, gradient g k N rank ell x = Some u /\ divergence g (S k) N rank ell u = Some v /\ laplacian g k N rank ell x = Some w /\ agree rank N v w.
Proof.
  intros Hp. destruct (gradient_value mass Hm g N HN ell He k rank x Hp) as (u & Eu & Hu). destruct (divergence_value mass Hm g N HN ell He (S k) rank u (proper_S g k Hp)) as (v & Ev & Hv). destruct (laplacian_value mass Hm g N HN ell He k rank x Hp) as (w & Ew & Hw).
  exists u, v, w. split; [exact Eu|]. split; [exact Ev|]. split; [exact Ew|]. intros i Hi n Hn. rewrite (Hv i n Hi), (Hw i n Hi). destruct (allowed ell i) eqn:Ea; [|reflexivity].
  pose proof (regtotal_degree rank ell i Hi) as Hd. pose proof (allowed_degree rank ell i He Hi Ea) as H0.
  rewrite (imgC_ext _ (u (1%nat :: i)) (fun q => Cmult (RtoC (basis_xi 1 (degree ell i))) (imgC (matrix k Dplus (regtotal i)) (x i) q))) by (intros q _; rewrite (proj1 (proj2 (Hu i q Hi))), Ea; reflexivity).
  rewrite second_up' by (try exact Hp; try exact Hn; lia). destruct (above ell i) eqn:Eb.
  - pose proof (is_above i Eb). rewrite (imgC_ext _ (u (0%nat :: i)) (fun q => Cmult (RtoC (basis_xi (-1) (degree ell i))) (imgC (matrix k Dminus (regtotal i)) (x i) q))) by (intros q _; rewrite (proj1 (Hu i q Hi)), Ea, Eb; reflexivity).
    rewrite second_down' by (try exact Hp; try exact Hn; lia). pose proof (xi_square rank i Hi Ea) as X. transitivity (Cmult (Cplus (Cmult (RtoC (basis_xi (-1) (degree ell i))) (RtoC (basis_xi (-1) (degree ell i)))) (Cmult (RtoC (basis_xi 1 (degree ell i))) (RtoC (basis_xi 1 (degree ell i))))) (imgC (matrix k Second (regtotal i)) (x i) n)); [ring|]. rewrite X. ring.
  - rewrite (not_above rank i Hi Ea Eb), upper_xi, upper_0. ring.
Qed.
Theorem curl_gradient k rank x : proper g k -> exists u v, gradient g k N rank ell x = Some u /\ curl g (S k) N rank ell u = Some v /\ agree (S rank) N v (fun _ _ => RtoC 0).
Proof.
  intros Hp. destruct (gradient_value mass Hm g N HN ell He k rank x Hp) as (u & Eu & Hu). destruct (curl_value mass Hm g N HN ell He (S k) rank u (proper_S g k Hp)) as (v & Ev & Hv).
  exists u, v. split; [exact Eu|]. split; [exact Ev|]. intros [|a i] Hj n Hn; [destruct Hj; discriminate|]. destruct (tail_component rank a i Hj) as [Ha Hi].
  destruct (Hv i n Hi) as (H0 & H1 & H2). assert (Z : forall M m, imgC M (u (2%nat :: i)) m = RtoC 0) by (intros M m; rewrite (imgC_ext _ _ (fun _ => RtoC 0)) by (intros q _; apply (Hu i q Hi)); apply imgC_zero).
  destruct a as [|[|[|a]]]; [rewrite H0, Z; destruct (allowed ell i && above ell i); ring|rewrite H1, Z; destruct (allowed ell i && above ell i); ring| |lia].
  rewrite H2. destruct (allowed ell i && above ell i) eqn:E; [|reflexivity]. apply andb_true_iff in E. destruct E as [Ea Eb]. pose proof (regtotal_degree rank ell i Hi) as Hd. pose proof (is_above i Eb).
  rewrite (imgC_ext _ (u (1%nat :: i)) (fun q => Cmult (RtoC (basis_xi 1 (degree ell i))) (imgC (matrix k Dplus (regtotal i)) (x i) q))) by (intros q _; rewrite (proj1 (proj2 (Hu i q Hi))), Ea; reflexivity).
  rewrite (imgC_ext _ (u (0%nat :: i)) (fun q => Cmult (RtoC (basis_xi (-1) (degree ell i))) (imgC (matrix k Dminus (regtotal i)) (x i) q))) by (intros q _; rewrite (proj1 (Hu i q Hi)), Ea, Eb; reflexivity).
  rewrite second_up', second_down' by (try exact Hp; try exact Hn; lia). ring.
Qed.
Theorem divergence_curl k rank x : proper g k -> exists u v, curl g k N rank ell x = Some u /\ divergence g (S k) N rank ell u = Some v /\ agree rank N v (fun _ _ => RtoC 0).
Proof.
  intros Hp. destruct (curl_value mass Hm g N HN ell He k rank x Hp) as (u & Eu & Hu). destruct (divergence_value mass Hm g N HN ell He (S k) rank u (proper_S g k Hp)) as (v & Ev & Hv).
  exists u, v. split; [exact Eu|]. split; [exact Ev|]. intros i Hi n Hn. rewrite (Hv i n Hi). destruct (allowed ell i) eqn:Ea; [|reflexivity].
  pose proof (regtotal_degree rank ell i Hi) as Hd. destruct (above ell i) eqn:Eb.
  - pose proof (is_above i Eb). rewrite (imgC_ext _ (u (0%nat :: i)) (fun q => Cmult (Cmult (Copp Ci) (RtoC (basis_xi 1 (degree ell i)))) (imgC (matrix k Dminus (regtotal i)) (x (2%nat :: i)) q))) by (intros q _; rewrite (proj1 (Hu i q Hi)), Ea, Eb; reflexivity).
    rewrite (imgC_ext _ (u (1%nat :: i)) (fun q => Cmult (Cmult Ci (RtoC (basis_xi (-1) (degree ell i)))) (imgC (matrix k Dplus (regtotal i)) (x (2%nat :: i)) q))) by (intros q _; rewrite (proj1 (proj2 (Hu i q Hi))), Ea, Eb; reflexivity).
    rewrite second_up', second_down' by (try exact Hp; try exact Hn; lia). ring.
  - rewrite (imgC_ext _ _ (fun _ => RtoC 0)) by (intros q _; rewrite (proj1 (proj2 (Hu i q Hi))), Ea, Eb; reflexivity). rewrite imgC_zero. ring.
Qed.
Lemma Ci_square : Cmult Ci Ci = RtoC (-1). Proof. unfold Ci, Cmult, RtoC. cbn. f_equal; ring. Qed.
Theorem curl_curl k rank x : proper g k -> exists u v d gd w, curl g k N rank ell x = Some u /\ curl g (S k) N rank ell u = Some v
  /\ divergence g k N rank ell x = Some d /\ gradient g (S k) N rank ell d = Some gd /\ laplacian g k N (S rank) ell x = Some w /\ agree (S rank) N v (fun i n => Cminus (gd i n) (w i n)).
Proof.
  intros Hp. pose proof (proper_S g k Hp) as Hp'. destruct (curl_value mass Hm g N HN ell He k rank x Hp) as (u & Eu & Hu). destruct (curl_value mass Hm g N HN ell He (S k) rank u Hp') as (v & Ev & Hv).
  destruct (divergence_value mass Hm g N HN ell He k rank x Hp) as (d & Ed & Hd'). destruct (gradient_value mass Hm g N HN ell He (S k) rank d Hp') as (gd & Egd & Hgd). destruct (laplacian_value mass Hm g N HN ell He k (S rank) x Hp) as (w & Ew & Hw).
  exists u, v, d, gd, w. do 5 (split; [assumption|]). intros [|a i] Hj n Hn; [destruct Hj; discriminate|]. destruct (tail_component rank a i Hj) as [Ha Hi].
  pose proof (regtotal_degree rank ell i Hi) as Hd. rewrite (Hw _ n Hj). destruct (Hv i n Hi) as (V0 & V1 & V2). destruct (Hgd i n Hi) as (G0 & G1 & G2).
  set (xp := RtoC (basis_xi 1 (degree ell i))) in *. set (xm := RtoC (basis_xi (-1) (degree ell i))) in *.
  destruct a as [|[|[|a]]]; [rewrite V0, G0, (allowed_0 N HN ell He rank i Hi)|rewrite V1, G1, (allowed_1 N HN ell He rank i Hi)|rewrite V2, G2, (allowed_2 N HN ell He rank i Hi)|lia]; rewrite (regtotal_cons N HN); cbn [nth ordering];
    (destruct (allowed ell i) eqn:Ea; [|cbn [andb]; ring]); pose proof (xi_square rank i Hi Ea) as X; fold xp xm in X; cbn [andb]; destruct (above ell i) eqn:Eb; try ring.
  1,2: pose proof (is_above i Eb);
    rewrite (imgC_ext _ (u (2%nat :: i)) (fun q => Cplus (Cmult (Cmult (Copp Ci) xp) (imgC (matrix k Dplus (regtotal i - 1)) (x (0%nat :: i)) q)) (Cmult (Cmult Ci xm) (imgC (matrix k Dminus (regtotal i + 1)) (x (1%nat :: i)) q)))) by (intros q _; rewrite (proj2 (proj2 (Hu i q Hi))), Ea, Eb; reflexivity);
    rewrite (imgC_ext _ (d i) (fun q => Cplus (Cmult xm (imgC (matrix k Dplus (regtotal i - 1)) (x (0%nat :: i)) q)) (Cmult xp (imgC (matrix k Dminus (regtotal i + 1)) (x (1%nat :: i)) q)))) by (intros q _; rewrite (Hd' i q Hi), Ea, Eb; reflexivity);
    rewrite !imgC_linear.
  - change (regtotal i + -1)%Z with (regtotal i - 1)%Z. pose proof (second_up mass Hm g N HN ell k (regtotal i - 1) (x (0%nat :: i)) n Hp ltac:(lia) Hn) as S0. replace (regtotal i - 1 + 1)%Z with (regtotal i) in S0 by lia. rewrite <- S0.
    set (L := imgC (matrix k Second (regtotal i - 1)) (x (0%nat :: i)) n). set (P := imgC _ _ n). transitivity (Cplus (Cmult (Cmult Ci Ci) (Cmult (Cmult xp xp) L)) (Copp (Cmult (Cmult Ci Ci) (Cmult (Cmult xp xm) P)))); [ring|]. rewrite Ci_square.
    replace (Cmult xp xp) with (Cminus (RtoC 1) (Cmult xm xm)) by (rewrite <- X; ring). replace (RtoC (-1)) with (Copp (RtoC 1)) by (unfold RtoC, Copp; cbn; f_equal; ring). ring.
  - pose proof (second_down mass Hm g N HN ell k (regtotal i + 1) (x (1%nat :: i)) n Hp ltac:(lia) Hn) as S0. replace (regtotal i + 1 - 1)%Z with (regtotal i) in S0 by lia. rewrite <- S0.
    set (L := imgC (matrix k Second (regtotal i + 1)) (x (1%nat :: i)) n). set (P := imgC _ _ n). transitivity (Cplus (Cmult (Cmult Ci Ci) (Cmult (Cmult xm xm) L)) (Copp (Cmult (Cmult Ci Ci) (Cmult (Cmult xp xm) P)))); [ring|]. rewrite Ci_square.
    replace (Cmult xm xm) with (Cminus (RtoC 1) (Cmult xp xp)) by (rewrite <- X; ring). replace (RtoC (-1)) with (Copp (RtoC 1)) by (unfold RtoC, Copp; cbn; f_equal; ring). ring.
  - rewrite (imgC_ext _ (d i) (fun q => Cmult xp (imgC (matrix k Dminus (regtotal i + 1)) (x (1%nat :: i)) q))) by (intros q _; rewrite (Hd' i q Hi), Ea, Eb; fold xp; ring). rewrite imgC_scale.
    pose proof (not_above rank i Hi Ea Eb) as D0. pose proof (second_down mass Hm g N HN ell k (regtotal i + 1) (x (1%nat :: i)) n Hp ltac:(lia) Hn) as S0. replace (regtotal i + 1 - 1)%Z with (regtotal i) in S0 by lia. rewrite <- S0.
    unfold xp. rewrite D0, upper_xi, upper_0. ring.
  - pose proof (is_above i Eb). rewrite Z.add_0_r. rewrite (imgC_ext _ (u (0%nat :: i)) (fun q => Cmult (Cmult (Copp Ci) xp) (imgC (matrix k Dminus (regtotal i)) (x (2%nat :: i)) q))) by (intros q _; rewrite (proj1 (Hu i q Hi)), Ea, Eb; reflexivity).
    rewrite (imgC_ext _ (u (1%nat :: i)) (fun q => Cmult (Cmult Ci xm) (imgC (matrix k Dplus (regtotal i)) (x (2%nat :: i)) q))) by (intros q _; rewrite (proj1 (proj2 (Hu i q Hi))), Ea, Eb; reflexivity).
    rewrite second_up', second_down' by (try exact Hp; try exact Hn; lia). set (L := imgC _ _ n). transitivity (Cmult (Cmult Ci Ci) (Cmult (Cplus (Cmult xm xm) (Cmult xp xp)) L)); [ring|]. rewrite X, Ci_square. replace (RtoC (-1)) with (Copp (RtoC 1)) by (unfold RtoC, Copp; cbn; f_equal; ring). ring.
Qed.
End Identities.

(** ** Functions *)
Lemma series_ext N c c' phi r : (forall n, (n < N)%nat -> c n = c' n) -> series N c phi r = series N c' phi r.
Proof. intros H. unfold series. apply Rtotal_ext. intros n Hn. rewrite H by exact Hn. reflexivity. Qed.
Lemma series_linear N a b c c' phi r : series N (fun n => a * c n + b * c' n) phi r = a * series N c phi r + b * series N c' phi r.
Proof. unfold series, CSR_Spec.total. induction (seq 0 N) as [|n l IH]; cbn [fold_right]; [ring|]. rewrite IH. ring. Qed.
Lemma function_ext N c c' phi r : (forall n, (n < N)%nat -> c n = c' n) -> function_of N c phi r = function_of N c' phi r.
Proof. intros H. unfold function_of. f_equal; apply series_ext; intros n Hn; rewrite H by exact Hn; reflexivity. Qed.
Lemma function_linear N s t x y phi r : function_of N (fun n => Cplus (Cmult s (x n)) (Cmult t (y n))) phi r = Cplus (Cmult s (function_of N x phi r)) (Cmult t (function_of N y phi r)).
Proof.
  destruct s as [s1 s2], t as [t1 t2]. unfold function_of, Cplus, Cmult. cbn [fst snd Re Im]. f_equal.
  - rewrite (series_ext N _ (fun n => 1 * (s1 * fst (x n) + (- s2) * snd (x n)) + 1 * (t1 * fst (y n) + (- t2) * snd (y n)))) by (intros; unfold Re; cbn; ring). rewrite !series_linear. unfold Re, Im. ring.
  - rewrite (series_ext N _ (fun n => 1 * (s1 * snd (x n) + s2 * fst (x n)) + 1 * (t1 * snd (y n) + t2 * fst (y n)))) by (intros; unfold Im; cbn; ring). rewrite !series_linear. unfold Re, Im. ring.
Qed.
Lemma function_scale N s x phi r : function_of N (fun n => Cmult s (x n)) phi r = Cmult s (function_of N x phi r).
Proof. pose proof (function_linear N s (RtoC 0) x (fun _ => RtoC 0) phi r) as E. etransitivity; [|etransitivity; [exact E|ring]]. apply function_ext. intros; ring. Qed.
Lemma function_zero N phi r : function_of N (fun _ => RtoC 0) phi r = RtoC 0.
Proof. pose proof (function_scale N (RtoC 0) (fun _ => RtoC 0) phi r) as E. etransitivity; [|etransitivity; [exact E|ring]]. apply function_ext. intros; ring. Qed.
Lemma function_image N M x phi r : function_of N (imgC M x) phi r = (series N (image M (fun q => Re (x q))) phi r, series N (image M (fun q => Im (x q))) phi r).
Proof. unfold function_of. f_equal; apply series_ext; intros n _; rewrite imgC_parts; reflexivity. Qed.
Lemma derives_complex N M phi psi p x r : derives N (Some M) phi psi p -> 0 < r -> exists e, has_derivative (function_of N x phi) r e /\ function_of N (imgC M x) psi r = Cplus e (Cmult (RtoC (p r)) (function_of N x phi r)).
Proof.
  intros (A & E & _ & _ & H) Hr. injection E as <-. destruct (H (fun q => Re (x q)) r Hr) as (d1 & D1 & E1). destruct (H (fun q => Im (x q)) r Hr) as (d2 & D2 & E2).
  exists (d1, d2). split; [split; assumption|]. rewrite function_image, E1, E2. unfold function_of, Cplus, Cmult, RtoC. cbn [fst snd]. f_equal; ring.
Qed.
Lemma derives_twice_complex N M phi psi p q x : derives_twice N (Some M) phi psi p q -> exists f1, (forall r, 0 < r -> has_derivative (function_of N x phi) r (f1 r))
  /\ forall r, 0 < r -> exists e, has_derivative f1 r e /\ function_of N (imgC M x) psi r = Cplus (Cplus e (Cmult (RtoC (p r)) (f1 r))) (Cmult (RtoC (q r)) (function_of N x phi r)).
Proof.
  intros (A & E & _ & _ & H). injection E as <-. destruct (H (fun q => Re (x q))) as (f & Df & Hf). destruct (H (fun q => Im (x q))) as (h & Dh & Hh).
  exists (fun r => (f r, h r)). split; [intros r Hr; split; [apply Df|apply Dh]; exact Hr|]. intros r Hr. destruct (Hf r Hr) as (d1 & D1 & E1). destruct (Hh r Hr) as (d2 & D2 & E2).
  exists (d1, d2). split; [split; assumption|]. rewrite function_image, E1, E2. unfold function_of, Cplus, Cmult, RtoC. cbn [fst snd]. f_equal; ring.
Qed.
Section Functions.
Context (mass : R -> R -> R) (Hm : mass_rules mass) (g : geometry) (N : nat) (HN : (1 <= N)%nat) (ell : Z) (He : (0 <= ell)%Z).
Notation matrix := (matrix g N ell).
Notation modes := (modes mass g).
Notation f := (function_of N).
Lemma up_derives k reg : proper g k -> (0 <= ell + reg)%Z -> derives N (Some (matrix k Dplus reg)) (modes k (ell + reg)) (modes (S k) (ell + reg + 1)) (fun r => - IZR (ell + reg) / r).
Proof.
  intros Hp H0. destruct (matrix_some mass Hm g N HN ell k Dplus reg Hp H0 ltac:(discriminate)) as (<- & _). destruct g as [radius alpha|inner outer a b]; unfold SphericalVec_Spec.modes; cbn [radial_operator proper] in *.
  - destruct Hp as [Hr Hk]. replace (Z.to_nat (ell + reg + 1)) with (S (Z.to_nat (ell + reg))) by lia. replace (IZR (ell + reg)) with (INR (Z.to_nat (ell + reg))) by (rewrite INR_IZR_INZ; f_equal; lia). apply (ball_D_plus mass Hm radius alpha Hr k Hk N HN ell reg). lia.
  - destruct Hp as (Hi & Ho & Ha & Hb). apply (shell_D_degree mass Hm inner outer a b Ho Ha Hb k N HN true ell reg _ eq_refl).
Qed.
Lemma down_derives k reg : proper g k -> (0 < ell + reg)%Z -> derives N (Some (matrix k Dminus reg)) (modes k (ell + reg)) (modes (S k) (ell + reg - 1)) (fun r => (IZR (ell + reg) + 1) / r).
Proof.
  intros Hp H0. destruct (matrix_some mass Hm g N HN ell k Dminus reg Hp ltac:(lia) ltac:(lia)) as (<- & _). destruct g as [radius alpha|inner outer a b]; unfold SphericalVec_Spec.modes; cbn [radial_operator proper] in *.
  - destruct Hp as [Hr Hk]. replace (Z.to_nat (ell + reg)) with (S (Z.to_nat (ell + reg - 1))) by lia. replace (IZR (ell + reg)) with (INR (S (Z.to_nat (ell + reg - 1)))) by (rewrite INR_IZR_INZ; f_equal; lia). apply (ball_D_minus mass Hm radius alpha Hr k Hk N HN ell reg). lia.
  - destruct Hp as (Hi & Ho & Ha & Hb). apply (shell_D_degree mass Hm inner outer a b Ho Ha Hb k N HN false ell reg _ eq_refl).
Qed.
Lemma second_derives k reg : proper g k -> (0 <= ell + reg)%Z -> derives_twice N (Some (matrix k Second reg)) (modes k (ell + reg)) (modes (S (S k)) (ell + reg)) (fun r => 2 / r) (fun r => - (IZR (ell + reg) * (IZR (ell + reg) + 1)) / r ^ 2).
Proof.
  intros Hp H0. destruct (matrix_some mass Hm g N HN ell k Second reg Hp H0 ltac:(discriminate)) as (<- & _). destruct g as [radius alpha|inner outer a b]; unfold SphericalVec_Spec.modes; cbn [radial_operator proper] in *.
  - destruct Hp as [Hr Hk]. replace (IZR (ell + reg)) with (INR (Z.to_nat (ell + reg))) by (rewrite INR_IZR_INZ; f_equal; lia). apply (ball_laplacian mass Hm radius alpha Hr k Hk N HN ell reg). lia.
  - destruct Hp as (Hi & Ho & Ha & Hb). apply (shell_laplacian mass Hm inner outer a b Ho Ha Hb k N HN ell reg _ eq_refl).
Qed.
Lemma up_function k i rank x r : proper g k -> is_component rank i -> (0 <= degree ell i)%Z -> 0 < r ->
  exists e, has_derivative (f x (modes k (degree ell i))) r e /\ f (imgC (matrix k Dplus (regtotal i)) x) (modes (S k) (degree ell i + 1)) r = Cminus e (Cmult (RtoC (IZR (degree ell i) / r)) (f x (modes k (degree ell i)) r)).
Proof.
  intros Hp Hi H0 Hr. pose proof (regtotal_degree rank ell i Hi) as Hd. destruct (derives_complex N _ _ _ _ x r (up_derives k (regtotal i) Hp ltac:(lia)) Hr) as (e & De & Ee). rewrite Hd in *. exists e. split; [exact De|]. rewrite Ee. replace (- IZR (degree ell i) / r) with (- (IZR (degree ell i) / r)) by (field; lra). rewrite RtoC_opp. ring.
Qed.
Lemma down_function k i rank x r : proper g k -> is_component rank i -> (0 < degree ell i)%Z -> 0 < r ->
  exists e, has_derivative (f x (modes k (degree ell i))) r e /\ f (imgC (matrix k Dminus (regtotal i)) x) (modes (S k) (degree ell i - 1)) r = Cplus e (Cmult (RtoC ((IZR (degree ell i) + 1) / r)) (f x (modes k (degree ell i)) r)).
Proof.
  intros Hp Hi H0 Hr. pose proof (regtotal_degree rank ell i Hi) as Hd. destruct (derives_complex N _ _ _ _ x r (down_derives k (regtotal i) Hp ltac:(lia)) Hr) as (e & De & Ee). rewrite Hd in *. exists e. split; [exact De|exact Ee].
Qed.
Lemma derivative_unique h r e e' : has_derivative h r e -> has_derivative h r e' -> e = e'.
Proof.
  intros [A B] [A' B']. apply is_derive_unique in A, B, A', B'. destruct e as [a b], e' as [a' b']. cbn in *. congruence.
Qed.
Lemma has_some k i rank x r : proper g k -> is_component rank i -> (0 <= degree ell i)%Z -> 0 < r -> exists e, has_derivative (f x (modes k (degree ell i))) r e.
Proof. intros Hp Hi H0 Hr. destruct (up_function k i rank x r Hp Hi H0 Hr) as (e & De & _). exists e. exact De. Qed.

Theorem gradient_function k rank x : proper g k -> exists u, gradient g k N rank ell x = Some u
  /\ (forall i, is_component rank i -> present ell i -> let l := degree ell i in forall r, 0 < r -> exists e, has_derivative (f (x i) (modes k l)) r e
     /\ f (u (0%nat :: i)) (modes (S k) (l - 1)) r = Cmult (RtoC (lower l)) (Cplus e (Cmult (RtoC ((IZR l + 1) / r)) (f (x i) (modes k l) r)))
     /\ f (u (1%nat :: i)) (modes (S k) (l + 1)) r = Cmult (RtoC (upper l)) (Cminus e (Cmult (RtoC (IZR l / r)) (f (x i) (modes k l) r)))
     /\ forall n, u (2%nat :: i) n = RtoC 0)
  /\ forall i a n, is_component rank i -> ~ present ell i -> (a < 3)%nat -> u (a :: i) n = RtoC 0.
Proof.
  intros Hp. destruct (gradient_value mass Hm g N HN ell He k rank x Hp) as (u & Eu & Hu). exists u. split; [exact Eu|]. split.
  - intros i Hi Hpr l r Hr. pose proof (proj2 (allowed_present rank ell i He Hi) Hpr) as Ha. pose proof (allowed_degree rank ell i He Hi Ha) as H0. fold l in H0.
    destruct (up_function k i rank (x i) r Hp Hi H0 Hr) as (e & De & Ee). exists e. split; [exact De|]. split; [|split].
    + destruct (above ell i) eqn:Eb.
      * pose proof (is_above ell i Eb) as Hl. destruct (down_function k i rank (x i) r Hp Hi Hl Hr) as (e' & De' & Ee'). rewrite (derivative_unique _ _ _ _ De De'). fold l in Ee'. rewrite <- Ee', <- function_scale, <- lower_xi. apply function_ext. intros n _. rewrite (proj1 (Hu i n Hi)), Ha, Eb. reflexivity.
      * pose proof (not_above N HN ell He rank i Hi Ha Eb) as Hl. fold l in Hl. rewrite Hl at 2. rewrite lower_0, (function_ext _ _ (fun _ => RtoC 0)) by (intros n _; rewrite (proj1 (Hu i n Hi)), Ha, Eb; reflexivity). rewrite function_zero. ring.
    + fold l in Ee. rewrite <- Ee, <- function_scale, <- upper_xi. apply function_ext. intros n _. rewrite (proj1 (proj2 (Hu i n Hi))), Ha. reflexivity.
    + intros n. apply (Hu i n Hi).
  - intros i a n Hi Hpr Ha. assert (F : allowed ell i = false) by (destruct (allowed ell i) eqn:E; [destruct (Hpr (proj1 (allowed_present rank ell i He Hi) E))|reflexivity]). destruct (Hu i n Hi) as (H0 & H1 & H2). rewrite F in *. destruct a as [|[|[|a]]]; [exact H0|exact H1|exact H2|lia].
Qed.
Theorem laplacian_function k rank x : proper g k -> exists u, laplacian g k N rank ell x = Some u
  /\ (forall i, is_component rank i -> present ell i -> let l := degree ell i in exists f1, (forall r, 0 < r -> has_derivative (f (x i) (modes k l)) r (f1 r))
     /\ forall r, 0 < r -> exists e, has_derivative f1 r e /\ f (u i) (modes (S (S k)) l) r = Cplus (Cplus e (Cmult (RtoC (2 / r)) (f1 r))) (Cmult (RtoC (- (IZR l * (IZR l + 1)) / r ^ 2)) (f (x i) (modes k l) r)))
  /\ forall i n, is_component rank i -> ~ present ell i -> u i n = RtoC 0.
Proof.
  intros Hp. destruct (laplacian_value mass Hm g N HN ell He k rank x Hp) as (u & Eu & Hu). exists u. split; [exact Eu|]. split.
  - intros i Hi Hpr l. pose proof (proj2 (allowed_present rank ell i He Hi) Hpr) as Ha. pose proof (allowed_degree rank ell i He Hi Ha) as H0. pose proof (regtotal_degree rank ell i Hi) as Hd. fold l in H0, Hd.
    destruct (derives_twice_complex N _ _ _ _ _ (x i) (second_derives k (regtotal i) Hp ltac:(lia))) as (f1 & D1 & H1). rewrite Hd in *. exists f1. split; [exact D1|]. intros r Hr. destruct (H1 r Hr) as (e & De & Ee). exists e. split; [exact De|]. rewrite <- Ee. apply function_ext. intros n _. rewrite (Hu i n Hi), Ha. reflexivity.
  - intros i n Hi Hpr. rewrite (Hu i n Hi). destruct (allowed ell i) eqn:E; [destruct (Hpr (proj1 (allowed_present rank ell i He Hi) E))|reflexivity].
Qed.
Lemma deg0 i : degree ell (0%nat :: i) = (degree ell i - 1)%Z. Proof. rewrite degree_cons. cbn [value]. lia. Qed.
Lemma deg1 i : degree ell (1%nat :: i) = (degree ell i + 1)%Z. Proof. rewrite degree_cons. cbn [value]. lia. Qed.
Lemma deg2 i : degree ell (2%nat :: i) = degree ell i. Proof. rewrite degree_cons. cbn [value]. lia. Qed.
Lemma up_tail k i rank x r : proper g k -> is_component rank i -> (0 < degree ell i)%Z -> 0 < r ->
  exists e, has_derivative (f x (modes k (degree ell i - 1))) r e /\ f (imgC (matrix k Dplus (regtotal i - 1)) x) (modes (S k) (degree ell i)) r = Cminus e (Cmult (RtoC ((IZR (degree ell i) - 1) / r)) (f x (modes k (degree ell i - 1)) r)).
Proof.
  intros Hp Hi H0 Hr. destruct (up_function k (0%nat :: i) (S rank) x r Hp (cons_component rank 0 i ltac:(lia) Hi) ltac:(rewrite deg0; lia) Hr) as (e & De & Ee).
  rewrite (regtotal_cons N HN), deg0 in *. cbn [nth ordering] in Ee. change (regtotal i + -1)%Z with (regtotal i - 1)%Z in Ee. replace (degree ell i - 1 + 1)%Z with (degree ell i) in Ee by lia. rewrite minus_IZR in Ee. exists e. split; [exact De|exact Ee].
Qed.
Lemma down_tail k i rank x r : proper g k -> is_component rank i -> (0 <= degree ell i)%Z -> 0 < r ->
  exists e, has_derivative (f x (modes k (degree ell i + 1))) r e /\ f (imgC (matrix k Dminus (regtotal i + 1)) x) (modes (S k) (degree ell i)) r = Cplus e (Cmult (RtoC ((IZR (degree ell i) + 2) / r)) (f x (modes k (degree ell i + 1)) r)).
Proof.
  intros Hp Hi H0 Hr. destruct (down_function k (1%nat :: i) (S rank) x r Hp (cons_component rank 1 i ltac:(lia) Hi) ltac:(rewrite deg1; lia) Hr) as (e & De & Ee).
  rewrite (regtotal_cons N HN), deg1 in *. cbn [nth ordering] in Ee. replace (degree ell i + 1 - 1)%Z with (degree ell i) in Ee by lia. rewrite plus_IZR in Ee. exists e. split; [exact De|]. rewrite Ee. do 4 f_equal. ring.
Qed.
Theorem divergence_function k rank x : proper g k -> exists u, divergence g k N rank ell x = Some u
  /\ (forall i, is_component rank i -> present ell i -> let l := degree ell i in forall r, 0 < r -> exists em ep,
     has_derivative (f (x (1%nat :: i)) (modes k (l + 1))) r ep /\ ((0 < l)%Z -> has_derivative (f (x (0%nat :: i)) (modes k (l - 1))) r em)
     /\ f (u i) (modes (S k) l) r = Cplus (Cmult (RtoC (lower l)) (Cminus em (Cmult (RtoC ((IZR l - 1) / r)) (f (x (0%nat :: i)) (modes k (l - 1)) r))))
                                         (Cmult (RtoC (upper l)) (Cplus ep (Cmult (RtoC ((IZR l + 2) / r)) (f (x (1%nat :: i)) (modes k (l + 1)) r)))))
  /\ forall i n, is_component rank i -> ~ present ell i -> u i n = RtoC 0.
Proof.
  intros Hp. destruct (divergence_value mass Hm g N HN ell He k rank x Hp) as (u & Eu & Hu). exists u. split; [exact Eu|]. split.
  - intros i Hi Hpr l r Hr. pose proof (proj2 (allowed_present rank ell i He Hi) Hpr) as Ha. pose proof (allowed_degree rank ell i He Hi Ha) as H0.
    destruct (down_tail k i rank (x (1%nat :: i)) r Hp Hi H0 Hr) as (ep & Dp & Ep). fold l in H0, Dp, Ep. destruct (above ell i) eqn:Eb.
    + pose proof (is_above ell i Eb) as Hl. destruct (up_tail k i rank (x (0%nat :: i)) r Hp Hi Hl Hr) as (em & Dm & Em). fold l in Dm, Em. exists em, ep. split; [exact Dp|]. split; [intros _; exact Dm|]. rewrite <- Em, <- Ep, <- function_linear. apply function_ext. intros n _. rewrite (Hu i n Hi), Ha, Eb. rewrite lower_xi, upper_xi. reflexivity.
    + pose proof (not_above N HN ell He rank i Hi Ha Eb) as Hl. fold l in Hl. exists (RtoC 0), ep. split; [exact Dp|]. split; [lia|]. rewrite <- Ep. replace (lower l) with 0 by (rewrite Hl; symmetry; apply lower_0). rewrite Cmult_0_l, Cplus_0_l, <- function_scale. apply function_ext. intros n _. rewrite (Hu i n Hi), Ha, Eb, upper_xi, Cplus_0_l. reflexivity.
  - intros i n Hi Hpr. rewrite (Hu i n Hi). destruct (allowed ell i) eqn:E; [destruct (Hpr (proj1 (allowed_present rank ell i He Hi) E))|reflexivity].
Qed.
Theorem curl_function k rank x : proper g k -> exists u, curl g k N rank ell x = Some u
  /\ (forall i, is_component rank i -> present ell i -> let l := degree ell i in (0 < l)%Z -> forall r, 0 < r -> exists em ep e0,
     has_derivative (f (x (0%nat :: i)) (modes k (l - 1))) r em /\ has_derivative (f (x (1%nat :: i)) (modes k (l + 1))) r ep /\ has_derivative (f (x (2%nat :: i)) (modes k l)) r e0
     /\ f (u (0%nat :: i)) (modes (S k) (l - 1)) r = Cmult (Cmult (Copp Ci) (RtoC (upper l))) (Cplus e0 (Cmult (RtoC ((IZR l + 1) / r)) (f (x (2%nat :: i)) (modes k l) r)))
     /\ f (u (1%nat :: i)) (modes (S k) (l + 1)) r = Cmult (Cmult Ci (RtoC (lower l))) (Cminus e0 (Cmult (RtoC (IZR l / r)) (f (x (2%nat :: i)) (modes k l) r)))
     /\ f (u (2%nat :: i)) (modes (S k) l) r = Cplus (Cmult (Cmult (Copp Ci) (RtoC (upper l))) (Cminus em (Cmult (RtoC ((IZR l - 1) / r)) (f (x (0%nat :: i)) (modes k (l - 1)) r))))
                                                    (Cmult (Cmult Ci (RtoC (lower l))) (Cplus ep (Cmult (RtoC ((IZR l + 2) / r)) (f (x (1%nat :: i)) (modes k (l + 1)) r)))))
  /\ forall i a n, is_component rank i -> (a < 3)%nat -> ~ present ell i \/ degree ell i = 0%Z -> u (a :: i) n = RtoC 0.
Proof.
  intros Hp. destruct (curl_value mass Hm g N HN ell He k rank x Hp) as (u & Eu & Hu). exists u. split; [exact Eu|]. split.
  - intros i Hi Hpr l Hl r Hr. pose proof (proj2 (allowed_present rank ell i He Hi) Hpr) as Ha. assert (Eb : above ell i = true) by (apply Z.ltb_lt; exact Hl).
    destruct (down_tail k i rank (x (1%nat :: i)) r Hp Hi ltac:(unfold l in Hl; lia) Hr) as (ep & Dp & Ep). destruct (up_tail k i rank (x (0%nat :: i)) r Hp Hi Hl Hr) as (em & Dm & Em).
    destruct (down_function k i rank (x (2%nat :: i)) r Hp Hi Hl Hr) as (e0 & D0 & E0). destruct (up_function k i rank (x (2%nat :: i)) r Hp Hi ltac:(unfold l in Hl; lia) Hr) as (e0' & D0' & E0'). rewrite <- (derivative_unique _ _ _ _ D0 D0') in E0'. fold l in Dp, Ep, Dm, Em, D0, E0, E0'.
    exists em, ep, e0. do 3 (split; [assumption|]). rewrite <- Em, <- Ep, <- E0, <- E0', <- function_linear, <- !function_scale. rewrite <- lower_xi, <- upper_xi. split; [|split]; apply function_ext; intros n _; [rewrite (proj1 (Hu i n Hi))|rewrite (proj1 (proj2 (Hu i n Hi)))|rewrite (proj2 (proj2 (Hu i n Hi)))]; rewrite Ha, Eb; reflexivity.
  - intros i a n Hi Ha Hz. assert (F : allowed ell i && above ell i = false).
    { apply andb_false_iff. destruct Hz as [Hz|Hz]; [left|right]; [destruct (allowed ell i) eqn:E; [destruct (Hz (proj1 (allowed_present rank ell i He Hi) E))|reflexivity]|unfold above; rewrite Hz; reflexivity]. }
    destruct (Hu i n Hi) as (H0 & H1 & H2). rewrite F in *. destruct a as [|[|[|a]]]; [exact H0|exact H1|exact H2|lia].
Qed.
End Functions.

(** ** Pairs of real coefficients *)
Definition same_parts (o : option vectors) (o' : option pairs) : Prop := match o, o' with Some u, Some v => parts_of u v | None, None => True | _, _ => False end.
Lemma loop_parts A rank ell x (S' : index -> option pairs -> index -> option pairs) outs :
  (forall i j o o', is_component rank i -> In j (outs i) -> same_parts o o' -> same_parts (step A ell x i o j) (S' i o' j)) ->
  same_parts (operate A outs rank ell x) (fold_left (fun out i => fold_left (S' i) (outs i) out) (indices rank) (Some (fun _ _ _ => 0))).
Proof.
  intros HS. unfold operate. assert (G0 : same_parts (Some (fun _ _ => RtoC 0)) (Some (fun _ _ _ => 0))) by (intros i n; split; reflexivity).
  revert G0. generalize (Some (fun (_ : index) (_ : nat) => RtoC 0)) (Some (fun (_ : index) (_ : bool) (_ : nat) => 0)). assert (Hl : forall i, In i (indices rank) -> is_component rank i) by (intros i; apply indices_in). revert Hl.
  induction (indices rank) as [|i l IH]; intros Hl o o' H; [exact H|]. cbn [fold_left]. apply IH; [intros j Hj; apply Hl; right; exact Hj|].
  assert (Hi : is_component rank i) by (apply Hl; left; reflexivity). assert (HS' : forall j o o', In j (outs i) -> same_parts o o' -> same_parts (step A ell x i o j) (S' i o' j)) by (intros j p p' Hj; apply HS; assumption). revert o o' H HS'. generalize (outs i). intros js. induction js as [|j js IHj]; intros o o' H HS'; [exact H|]. cbn [fold_left]. apply IHj; [apply HS'; [left; reflexivity|exact H]|]. intros j' p p' Hj. apply HS'. right. exact Hj.
Qed.
Lemma applied_real M x n : (forall q, (q < nc M)%nat -> Im (at_ M n q) = 0) -> applied M x n = (Rtotal (nc M) (fun q => Re (at_ M n q) * Re (x q)), Rtotal (nc M) (fun q => Re (at_ M n q) * Im (x q))).
Proof.
  intros H. unfold applied. rewrite Ctotal_parts. f_equal; apply Rtotal_ext; intros q Hq; specialize (H q Hq); destruct (at_ M n q) as [a b], (x q) as [c d]; cbn in *; subst b; ring.
Qed.
Lemma operate_parts A outs rank ell x y : parts_of x y -> (forall i j M n q, A i j = Some M -> Im (at_ M n q) = 0) -> same_parts (operate A outs rank ell x) (operate_real A outs rank ell y).
Proof.
  intros Hy HA. apply loop_parts. intros i j o o' _ _ H. unfold step, step_real. destruct o as [u|], o' as [v|]; cbn [same_parts obind] in *; try tauto. destruct (allowed ell i && allowed ell j); [|exact H]. destruct (A i j) as [M|] eqn:E; cbn [obind]; [|exact I].
  intros j' n. destruct (H j' n) as [H1 H2]. destruct (equal_index j' j); [|split; assumption]. rewrite H1, H2, (applied_real M) by (intros q _; apply (HA i j M n q E)). cbn [Cplus Re Im fst snd]. split; unfold Cplus; cbn [Re Im fst snd]; f_equal; apply Rtotal_ext; intros q _; f_equal; apply Hy.
Qed.
Lemma curl_parts g k N rank ell x y : parts_of x y -> same_parts (curl g k N rank ell x) (curl_real g k N rank ell y).
Proof.
  intros Hy. unfold curl, curl_real. apply loop_parts. intros i j o o' _ _ H. unfold step, curl_step_real. destruct o as [u|], o' as [v|]; cbn [same_parts obind] in *; try tauto. destruct (allowed ell i && allowed ell j); [|exact H]. destruct (curl_matrix g k N ell i j) as [M|]; cbn [obind]; [|exact I]. cbv zeta.
  assert (E : forall n, applied M (fun q => Cplus (RtoC (y i false q)) (Cmult Ci (RtoC (y i true q)))) n = applied M (x i) n).
  { intros n. apply Ctotal_ext. intros q _. f_equal. destruct (Hy i q) as [-> ->]. destruct (x i q) as [a b]. unfold Cplus, Cmult, Ci, RtoC. cbn. f_equal; ring. }
  intros j' n. destruct (H j' n) as [H1 H2]. destruct (equal_index j' j); [|split; assumption]. rewrite H1, H2, E. split; reflexivity.
Qed.
Lemma times_real s M B n q : times_matrix (RtoC s) M = Some B -> Im (at_ B n q) = 0.
Proof. destruct M as [M|]; [|discriminate]. intros E. injection E as <-. cbn. ring. Qed.
Lemma gradient_real g k N ell i j M n q : gradient_matrix g k N ell i j = Some M -> Im (at_ M n q) = 0.
Proof. unfold gradient_matrix. destruct j as [|[|[|h]] j]; try discriminate; destruct (_ && _); try discriminate; apply times_real. Qed.
Lemma divergence_real g k N ell i j M n q : divergence_matrix g k N ell i j = Some M -> Im (at_ M n q) = 0.
Proof. unfold divergence_matrix. destruct i as [|[|[|h]] i]; try discriminate; destruct (_ && _); try discriminate; apply times_real. Qed.
Lemma laplacian_real g k N ell i j M n q : laplacian_matrix g k N ell i j = Some M -> Im (at_ M n q) = 0.
Proof. unfold laplacian_matrix. destruct (equal_index i j); try discriminate; apply times_real. Qed.

(** ** Matrices over components *)
Lemma combine_flat {A B D} (F : A -> list B) (G : A -> list D) l : (forall a, length (F a) = length (G a)) -> combine (flat_map F l) (flat_map G l) = flat_map (fun a => combine (F a) (G a)) l.
Proof.
  intros H. induction l as [|a l IH]; [reflexivity|]. cbn [flat_map]. rewrite <- IH. specialize (H a). revert H. generalize (F a) (G a). intros x. induction x as [|b x IHx]; intros [|d y] E; try discriminate; [reflexivity|]. cbn. f_equal. apply IHx. cbn in E. lia.
Qed.
Lemma combine_maps {A B D} (F : A -> B) (G : A -> D) l : combine (map F l) (map G l) = map (fun a => (F a, G a)) l.
Proof. induction l as [|a l IH]; [reflexivity|]. cbn. rewrite IH. reflexivity. Qed.
Lemma row_sum {A E} (F : A -> E -> C) (G : A -> E -> C) l (es : list E) :
  csum (combine (flat_map (fun a => map (F a) es) l) (flat_map (fun a => map (G a) es) l)) (fun p => Cmult (fst p) (snd p)) = csum l (fun a => csum es (fun e => Cmult (F a e) (G a e))).
Proof.
  rewrite combine_flat by (intros a; rewrite !map_length; reflexivity). rewrite csum_flat. apply csum_ext. intros a _. rewrite combine_maps, csum_map. reflexivity.
Qed.
Lemma ctimes_flat {A E} (B : A -> E -> list C) l (es : list E) v : ctimes (flat_map (fun a => map (B a) es) l) v = flat_map (fun a => map (fun e => csum (combine (B a e) v) (fun p => Cmult (fst p) (snd p))) es) l.
Proof. unfold ctimes. induction l as [|a l IH]; [reflexivity|]. cbn [flat_map]. rewrite map_app, IH, map_map. reflexivity. Qed.
Lemma csum_if {A} (l : list A) (b : bool) f : csum l (fun a => if b then f a else RtoC 0) = if b then csum l f else RtoC 0.
Proof. destruct b; [reflexivity|]. apply csum_zero. reflexivity. Qed.
Lemma elements_in ms ells size m e n : In (m, e, n) (elements ms ells size) <-> (m < ms)%nat /\ (e < length ells)%nat /\ (n < size (nth e ells 0%Z))%nat.
Proof.
  unfold elements. rewrite in_flat_map. split.
  - intros (m' & Hm & H). apply in_flat_map in H. destruct H as (e' & He' & H). apply in_map_iff in H. destruct H as (n' & E & Hn). injection E as <- <- <-. apply in_seq in Hm, He', Hn. lia.
  - intros (H1 & H2 & H3). exists m. split; [apply in_seq; lia|]. apply in_flat_map. exists e. split; [apply in_seq; lia|]. apply in_map. apply in_seq. lia.
Qed.
Lemma elements_sum ms ells size m e (F : nat -> C) : (m < ms)%nat -> (e < length ells)%nat ->
  csum (elements ms ells size) (fun q => let '(m', e', n') := q in if (m =? m')%nat && (e =? e')%nat then F n' else RtoC 0) = Ctotal (size (nth e ells 0%Z)) F.
Proof.
  intros Hm He. unfold elements. rewrite csum_flat, (csum_single _ _ m (seq_NoDup _ _)); [|apply in_seq; lia|].
  - rewrite csum_flat, (csum_single _ _ e (seq_NoDup _ _)); [|apply in_seq; lia|].
    + rewrite csum_map, csum_seq. apply Ctotal_ext. intros n _. rewrite !Nat.eqb_refl. reflexivity.
    + intros e' _ He'. rewrite csum_map. apply csum_zero. intros n _. rewrite (proj2 (Nat.eqb_neq e e')) by congruence. rewrite andb_false_r. reflexivity.
  - intros m' _ Hm'. rewrite csum_flat. apply csum_zero. intros e' _. rewrite csum_map. apply csum_zero. intros n _. rewrite (proj2 (Nat.eqb_neq m m')) by congruence. reflexivity.
Qed.
Lemma subproblem_value (A : Z -> index -> index -> option (mat C)) outs rin rout ms ells size (x : index -> element -> C) (u : nat -> nat -> vectors) :
  (forall i, NoDup (outs i)) -> (forall e i j, (e < length ells)%nat -> let ell := nth e ells 0%Z in is_component rin i -> In j (outs i) -> allowed ell i = true -> allowed ell j = true -> exists M, A ell i j = Some M /\ nc M = size ell) ->
  (forall m e, (m < ms)%nat -> (e < length ells)%nat -> operate (A (nth e ells 0%Z)) outs rin (nth e ells 0%Z) (fun i n => x i (m, e, n)) = Some (u m e)) ->
  ctimes (subproblem_matrix A outs rin rout ms ells size) (flat_map (fun i => map (x i) (elements ms ells size)) (indices rin)) = flat_map (fun j => map (fun p => let '(m, e, n) := p in u m e j n) (elements ms ells size)) (indices rout).
Proof.
  intros HN HA Hu. unfold subproblem_matrix. rewrite (ctimes_flat (fun j p => flat_map (fun i => map (block A outs ells j i p) (elements ms ells size)) (indices rin))). apply flat_map_ext. intros j. apply map_ext_in. intros [[m e] n] Hp. apply elements_in in Hp. destruct Hp as (Hm' & He' & Hn').
  rewrite row_sum. destruct (operate_value (A (nth e ells 0%Z)) outs rin (nth e ells 0%Z) (fun i n => x i (m, e, n)) HN) as (u' & Eu & Hu'); [intros i j' Hi Hj H1 H2; destruct (HA e i j' He' Hi Hj H1 H2) as (M & E & _); congruence|].
  rewrite (Hu m e Hm' He') in Eu. injection Eu as ->. rewrite Hu'. apply csum_ext. intros i Hi. apply indices_in in Hi.
  rewrite (csum_ext _ _ (fun q => let '(m', e', n') := q in if (m =? m')%nat && (e =? e')%nat then Cmult (wrapped A outs i j (nth e ells 0%Z) n n') (x i (m, e, n')) else RtoC 0)).
  - rewrite elements_sum by assumption. unfold wrapped, term. rewrite <- andb_assoc. destruct (existsb (equal_index j) (outs i) && (allowed (nth e ells 0%Z) i && allowed (nth e ells 0%Z) j)) eqn:E.
    + apply andb_true_iff in E. destruct E as [E1 E2]. apply andb_true_iff in E2. destruct E2 as [E2 E3]. apply existsb_exists in E1. destruct E1 as (j' & Hj & E1). apply equal_index_iff in E1. subst j'. destruct (HA e i j He' Hi Hj E2 E3) as (M & EM & EN). rewrite EM. unfold applied. rewrite EN. reflexivity.
    + rewrite <- csum_seq. apply csum_zero. intros. ring.
  - intros [[m' e'] n'] _. unfold block. destruct ((m =? m')%nat && (e =? e')%nat) eqn:E; [|ring]. apply andb_true_iff in E. destruct E as [E1 E2]. apply Nat.eqb_eq in E1, E2. subst. reflexivity.
Qed.
Lemma csum_re {A} (l : list A) f : Re (csum l f) = rsum l (fun a => Re (f a)). Proof. induction l as [|a l IH]; [reflexivity|]. unfold csum, rsum in *. cbn [map fold_right]. rewrite <- IH. reflexivity. Qed.
Lemma csum_im {A} (l : list A) f : Im (csum l f) = rsum l (fun a => Im (f a)). Proof. induction l as [|a l IH]; [reflexivity|]. unfold csum, rsum in *. cbn [map fold_right]. rewrite <- IH. reflexivity. Qed.
Lemma rsum_ext {A} (l : list A) f g : (forall a, In a l -> f a = g a) -> rsum l f = rsum l g. Proof. intros H. unfold rsum. f_equal. apply map_ext_in, H. Qed.
Lemma rsum_app {A} (l l' : list A) f : rsum (l ++ l') f = rsum l f + rsum l' f.
Proof. unfold rsum. rewrite map_app, fold_right_app. induction (map f l) as [|c m IH]; cbn; [|rewrite IH]; ring. Qed.
Lemma rsum_map {A B} (g : A -> B) l f : rsum (map g l) f = rsum l (fun a => f (g a)). Proof. unfold rsum. rewrite map_map. reflexivity. Qed.
Lemma rsum_flat {A B} (g : A -> list B) l f : rsum (flat_map g l) f = rsum l (fun a => rsum (g a) f).
Proof. induction l as [|a l IH]; [reflexivity|]. cbn [flat_map]. rewrite rsum_app, IH. reflexivity. Qed.
Lemma rsum_seq n f : rsum (seq 0 n) f = Rtotal n f. Proof. unfold rsum, CSR_Spec.total. induction (seq 0 n) as [|a l IH]; cbn; [reflexivity|rewrite IH; reflexivity]. Qed.
Lemma rsum_plus {A} (l : list A) f g : rsum l f + rsum l g = rsum l (fun a => f a + g a). Proof. induction l as [|a l IH]; [cbn; ring|]. unfold rsum in *. cbn [map fold_right]. rewrite <- IH. ring. Qed.
Lemma curl_matrices mass (Hm : mass_rules mass) g k N rank ell i j : (1 <= N)%nat -> (0 <= ell)%Z -> proper g k -> is_component (S rank) i -> In j (curl_out i) -> allowed ell i = true -> allowed ell j = true -> exists M, curl_matrix g k N ell i j = Some M /\ nc M = N.
Proof.
  intros HN He Hp Hi Hj H1 H2. assert (T : forall s op reg, (0 <= ell + reg)%Z -> (op = Dminus -> 0 < ell + reg)%Z -> exists M, times_matrix s (radial_operator g k op ell reg N) = Some M /\ nc M = N).
  { intros s op reg A B. destruct (matrix_some mass Hm g N HN ell k op reg Hp A B) as (E & _ & X). rewrite E. eexists. split; [reflexivity|exact X]. }
  destruct i as [|a i]; [destruct Hj|]. destruct (tail_component rank a i Hi) as [Ha Hi']. pose proof (regtotal_degree rank ell i Hi') as Hd.
  assert (P : (0 < degree ell i)%Z). { destruct a as [|[|[|a]]]; [destruct Hj as [<-|[]]|destruct Hj as [<-|[]]| |lia]; try rewrite (allowed_2 N HN ell He rank i Hi') in H2; try rewrite (allowed_2 N HN ell He rank i Hi') in H1; [apply andb_true_iff in H2; apply is_above, H2|apply andb_true_iff in H2; apply is_above, H2|apply andb_true_iff in H1; apply is_above, H1]. }
  destruct a as [|[|[|a]]]; [destruct Hj as [<-|[]]|destruct Hj as [<-|[]]|destruct Hj as [<-|[<-|[]]]|lia]; cbn [curl_matrix]; rewrite equal_index_refl; apply T; rewrite (regtotal_cons N HN); cbn [nth ordering]; try discriminate; lia.
Qed.
Section Matrices.
Context (mass : R -> R -> R) (Hm : mass_rules mass) (g : geometry) (k N : nat) (rank : nat) (ell : Z) (HN : (1 <= N)%nat) (He : (0 <= ell)%Z) (Hp : proper g k).
Let T s op reg : (0 <= ell + reg)%Z -> (op = Dminus -> 0 < ell + reg)%Z -> exists M, times_matrix s (radial_operator g k op ell reg N) = Some M /\ nc M = N.
Proof. intros A B. destruct (matrix_some mass Hm g N HN ell k op reg Hp A B) as (E & _ & X). rewrite E. eexists. split; [reflexivity|exact X]. Qed.
Lemma gradient_matrices i j : is_component rank i -> In j (gradient_out i) -> allowed ell i = true -> allowed ell j = true -> exists M, gradient_matrix g k N ell i j = Some M /\ nc M = N.
Proof.
  intros Hi Hj H1 H2. pose proof (regtotal_degree rank ell i Hi) as Hd. pose proof (allowed_degree rank ell i He Hi H1). destruct Hj as [<-|[<-|[]]]; cbn [gradient_matrix Nat.eqb negb andb]; rewrite equal_index_refl.
  - rewrite (allowed_0 N HN ell He rank i Hi), H1 in H2. pose proof (is_above ell i H2). apply T; lia.
  - apply T; [lia|discriminate].
Qed.
Lemma divergence_matrices i j : is_component (S rank) i -> In j (divergence_out i) -> allowed ell i = true -> allowed ell j = true -> exists M, divergence_matrix g k N ell i j = Some M /\ nc M = N.
Proof.
  intros Hi Hj H1 H2. destruct i as [|a i]; [destruct Hj|]. destruct (tail_component rank a i Hi) as [Ha Hi']. pose proof (regtotal_degree rank ell i Hi') as Hd.
  destruct a as [|[|a]]; [destruct Hj as [<-|[]]|destruct Hj as [<-|[]]|destruct Hj]; cbn [divergence_matrix Nat.eqb negb andb]; rewrite equal_index_refl; pose proof (allowed_degree rank ell i He Hi' H2).
  - rewrite (allowed_0 N HN ell He rank i Hi'), H2 in H1. pose proof (is_above ell i H1). apply T; rewrite (regtotal_cons N HN); cbn [nth ordering]; [lia|discriminate].
  - apply T; rewrite (regtotal_cons N HN); cbn [nth ordering]; lia.
Qed.
Lemma laplacian_matrices i j : is_component rank i -> In j (same_out i) -> allowed ell i = true -> allowed ell j = true -> exists M, laplacian_matrix g k N ell i j = Some M /\ nc M = N.
Proof.
  intros Hi [<-|[]] H1 _. unfold laplacian_matrix. rewrite equal_index_refl. pose proof (regtotal_degree rank ell i Hi). pose proof (allowed_degree rank ell i He Hi H1). apply T; [lia|discriminate].
Qed.
End Matrices.
Lemma curl_subproblem_value mass (Hm : mass_rules mass) g k N rank ell (x : index -> bool -> nat -> R) v : (1 <= N)%nat -> (0 <= ell)%Z -> proper g k -> curl_real g k N rank ell x = Some v ->
  rtimes (curl_subproblem_matrix g k rank ell N) (flat_map (fun i => map (x i false) (seq 0 N) ++ map (x i true) (seq 0 N)) (indices (S rank))) = flat_map (fun j => map (v j false) (seq 0 N) ++ map (v j true) (seq 0 N)) (indices (S rank)).
Proof.
  intros HN He Hp Ev. set (xc := fun i n => (x i false n, x i true n) : C). pose proof (curl_parts g k N rank ell xc x ltac:(intros i n; split; reflexivity)) as HP. rewrite Ev in HP.
  destruct (operate_value (curl_matrix g k N ell) curl_out (S rank) ell xc) as (u & Eu & Hu).
  { intros [|[|[|a]] i]; repeat constructor; cbn; intuition congruence. }
  { intros i j Hi Hj H1 H2. destruct (curl_matrices mass Hm g k N rank ell i j HN He Hp Hi Hj H1 H2) as (M & E & _). congruence. }
  unfold curl in HP. rewrite Eu in HP. cbn [same_parts] in HP. unfold curl_subproblem_matrix, rtimes. cbv zeta.
  assert (Er : forall (F : index -> nat * nat -> list R) w, map w (flat_map (fun j => map (F j) (real_elements N)) (indices (S rank))) = flat_map (fun j => map (fun n => w (F j (0%nat, n))) (seq 0 N) ++ map (fun n => w (F j (1%nat, n))) (seq 0 N)) (indices (S rank)) :> list R).
  { intros F w. rewrite !flat_map_concat_map, concat_map, map_map. f_equal. apply map_ext. intros j. unfold real_elements. cbn [flat_map]. rewrite app_nil_r, !map_app, !map_map. reflexivity. }
  rewrite Er. assert (RS : forall j m n, rsum (combine (flat_map (fun i => map (real_block (fun ell => curl_matrix g k N ell) curl_out ell j i (m, n)) (real_elements N)) (indices (S rank))) (flat_map (fun i => map (x i false) (seq 0 N) ++ map (x i true) (seq 0 N)) (indices (S rank)))) (fun p => fst p * snd p)
    = rsum (indices (S rank)) (fun i => Rtotal N (fun n' => real_block (fun ell => curl_matrix g k N ell) curl_out ell j i (m, n) (0%nat, n') * x i false n' + real_block (fun ell => curl_matrix g k N ell) curl_out ell j i (m, n) (1%nat, n') * x i true n'))).
  { intros j m n. rewrite combine_flat by (intros i; unfold real_elements; cbn [flat_map]; rewrite app_nil_r, map_length, !app_length, !map_length; reflexivity). rewrite rsum_flat. apply rsum_ext. intros i _.
    replace (map (x i false) (seq 0 N) ++ map (x i true) (seq 0 N)) with (map (fun p : nat * nat => match fst p with 0%nat => x i false (snd p) | _ => x i true (snd p) end) (real_elements N)) by (unfold real_elements; cbn [flat_map]; rewrite app_nil_r, map_app, !map_map; reflexivity).
    rewrite combine_maps, rsum_map. unfold real_elements at 1. cbn [flat_map]. rewrite app_nil_r, rsum_app, !rsum_map, rsum_plus, rsum_seq. reflexivity. }
  assert (TE : forall i j n, In i (indices (S rank)) -> term (curl_matrix g k N ell) curl_out ell xc j n i = Ctotal N (fun n' => Cmult (wrapped (fun ell => curl_matrix g k N ell) curl_out i j ell n n') (xc i n'))).
  { intros i j n Hi. apply indices_in in Hi. unfold wrapped, term. rewrite <- andb_assoc. destruct (existsb (equal_index j) (curl_out i) && (allowed ell i && allowed ell j)) eqn:E.
    - apply andb_true_iff in E. destruct E as [E1 E2]. apply andb_true_iff in E2. destruct E2 as [E2 E3]. apply existsb_exists in E1. destruct E1 as (j' & Hj & E1). apply equal_index_iff in E1. subst j'. destruct (curl_matrices mass Hm g k N rank ell i j HN He Hp Hi Hj E2 E3) as (M & EM & EN). rewrite EM. unfold applied. rewrite EN. reflexivity.
    - rewrite <- csum_seq. symmetry. apply csum_zero. intros. ring. }
  apply flat_map_ext. intros j. f_equal; apply map_ext; intros n; rewrite RS; destruct (HP j n) as [P1 P2]; [rewrite P1, Hu, csum_re|rewrite P2, Hu, csum_im]; apply rsum_ext; intros i Hi; rewrite (TE i j n Hi), Ctotal_parts; cbn [Re Im fst snd]; apply Rtotal_ext; intros n' _; unfold real_block, xc, mult_1j; destruct (wrapped _ _ _ _ _ _ _) as [a b]; cbn; ring.
Qed.
