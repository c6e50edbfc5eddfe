(** Proofs about [MeridionalNCC_Model]. *)
From Coq Require Import List ZArith Reals Bool Lia Lra.
From Coquelicot Require Import Coquelicot.
Import ListNotations.
From Verif Require Import CSR_Spec MatSolvers_Model MatSolvers_Spec MatSolvers_Proofs Clenshaw_Model Clenshaw_Spec Clenshaw_Proofs Clenshaw_Props Codomain_Proofs JacobiCalc_Model JacobiCalc_Spec JacobiCalc_Proofs JacobiCalc_Ops JacobiOps_Model JacobiOps_Proofs JacobiNCC_Model JacobiNCC_Proofs Radial_Model Radial_Spec Radial_Proofs Radial_Props ShellNCC_Model ShellNCC_Spec ShellNCC_Proofs MeridionalNCC_Model.
Local Open Scope R_scope.

Section Numbers.
Context {K : Type} (k0 k1 : K) (kadd kmul ksub kdiv : K -> K -> K) (kopp kinv : K -> K).
Context (Hf : field_theory k0 k1 kadd kmul ksub kopp kdiv kinv eq).
Add Field MF : Hf.
Notation ktotal := (CSR_Spec.total k0 kadd).
Notation kext := (total_ext k0 k1 kadd kmul ksub kdiv kopp kinv Hf).
Notation ksingle := (total_single k0 k1 kadd kmul ksub kdiv kopp kinv Hf).
Notation mmul := (mmul k0 kadd kmul).
Notation skron := (skron kmul).
Notation identity := (identity k0 k1).
Lemma divided m q p : (p < m)%nat -> ((q * m + p) / m = q)%nat /\ ((q * m + p) mod m = p)%nat.
Proof. intros H. split; [rewrite Nat.div_add_l, Nat.div_small; lia|rewrite Nat.add_comm, Nat.mod_add, Nat.mod_small; lia]. Qed.
(** Matrices repeated along the diagonal. *)
Lemma left_product w X Y q p j : (q < w)%nat -> (p < nr X)%nat -> at_ (mmul (skron (identity w) X) Y) (q * nr X + p) j = ktotal (nc X) (fun x => kmul (at_ X p x) (at_ Y (q * nc X + x)%nat j)).
Proof.
  intros Hq Hp. cbn [MatSolvers_Model.mmul Clenshaw_Model.skron MatSolvers_Model.identity at_ nr nc]. change (msum k0 kadd) with (CSR_Spec.total k0 kadd). rewrite (total_product k0 k1 kadd kmul ksub kdiv kopp kinv Hf), (ksingle w q).
  - apply kext. intros x Hx. destruct (divided (nr X) q p Hp) as [-> ->]. destruct (divided (nc X) q x Hx) as [-> ->]. rewrite Nat.eqb_refl. ring.
  - exact Hq.
  - intros q' _ Hne. apply (total_zero k0 k1 kadd kmul ksub kdiv kopp kinv Hf). intros x Hx. destruct (divided (nr X) q p Hp) as [-> ->]. destruct (divided (nc X) q' x Hx) as [-> ->]. destruct (Nat.eqb_spec q q'); [congruence|ring].
Qed.
Lemma right_product w X Y q p i : nc Y = (w * nc X)%nat -> (q < w)%nat -> (p < nr X)%nat -> at_ (mmul Y (transpose (skron (identity w) X))) i (q * nr X + p) = ktotal (nc X) (fun x => kmul (at_ Y i (q * nc X + x)%nat) (at_ X p x)).
Proof.
  intros HY Hq Hp. cbn [MatSolvers_Model.mmul transpose Clenshaw_Model.skron MatSolvers_Model.identity at_ nr nc]. rewrite HY. change (msum k0 kadd) with (CSR_Spec.total k0 kadd). rewrite (total_product k0 k1 kadd kmul ksub kdiv kopp kinv Hf), (ksingle w q).
  - apply kext. intros x Hx. destruct (divided (nr X) q p Hp) as [-> ->]. destruct (divided (nc X) q x Hx) as [-> ->]. rewrite Nat.eqb_refl. ring.
  - exact Hq.
  - intros q' _ Hne. apply (total_zero k0 k1 kadd kmul ksub kdiv kopp kinv Hf). intros x Hx. destruct (divided (nr X) q p Hp) as [-> ->]. destruct (divided (nc X) q' x Hx) as [-> ->]. destruct (Nat.eqb_spec q q'); [congruence|ring].
Qed.
(** The recursion with matrices, block by block. *)
Section Blocks.
Context (P n : nat) (vals : nat -> mat K) (norms : nat -> R) (A B : sequence (mat K)) (a b : nat -> mat K) (cutoff : R).
Context (HA : forall k, (k < n)%nat -> A k = Some (a k) /\ B (k + 1)%nat = Some (b (k + 1)%nat) /\ (nr (a k) = P /\ nc (a k) = P) /\ nr (b (k + 1)%nat) = P /\ nc (b (k + 1)%nat) = P).
Context (w w' : nat) (Hn0 : nr (vals 0%nat) = w) (Hn1 : nc (vals 0%nat) = w').
Let c q q' k := kept k0 (norms k) cutoff (at_ (vals k) q q').
Let sure : K -> R := fun _ => cutoff + 1.
Definition block_is q q' (X : mat K) (Y : mat K) : Prop := nc X = (w' * P)%nat /\ forall p p', (p < P)%nat -> (p' < P)%nat -> at_ X (q * P + p) (q' * P + p') = at_ Y p p'.
Lemma loop_blocks q q' ns : (q < w)%nat -> (q' < w')%nat -> (forall k, In k ns -> (k < n)%nat) -> forall b0 b1 B0 B1, block_is q q' b0 B0 -> block_is q q' b1 B1 ->
  exists r0 r1 R0 R1, kronecker_loop k0 kadd kmul true (identity P) (identity w) cutoff vals norms A B ns (Some (b0, b1)) = Some (r0, r1)
    /\ matrix_loop k0 kadd kmul sure (identity P) cutoff (c q q') A B ns (Some (B0, B1)) = Some (R0, R1) /\ block_is q q' r0 R0 /\ block_is q q' r1 R1.
Proof using HA Hf.
  intros Hq Hq'. induction ns as [|k ns IH]; intros Hk b0 b1 B0 B1 H0 H1; [exists b0, b1, B0, B1; repeat split; try reflexivity; apply H0 || apply H1|].
  destruct (HA k (Hk k (or_introl eq_refl))) as (EA & EB & (Ar & Ac) & Br & Bc).
  cbn [kronecker_loop matrix_loop fold_left]. rewrite EA, EB.
  apply IH; [intros h Hh; apply Hk; right; exact Hh| |exact H0]. unfold sure, Clenshaw_Model.above. destruct (Rlt_dec cutoff (cutoff + 1)) as [_|X]; [|lra].
  assert (HM : forall (x : mat K) y Y, nr x = P -> nc x = P -> block_is q q' y Y -> forall p p', (p < P)%nat -> (p' < P)%nat -> at_ (mmul (skron (identity w) x) y) (q * P + p) (q' * P + p') = at_ (mmul x Y) p p').
  { intros x y Y Xr Xc [_ HY] p p' Hp Hp'. pose proof (left_product w x y q p (q' * P + p') Hq) as L. rewrite Xr, Xc in L. rewrite L by exact Hp. cbn [MatSolvers_Model.mmul at_]. rewrite Xc. apply kext. intros z Hz. rewrite HY by assumption. reflexivity. }
  split; [destruct (Rlt_dec cutoff (norms k)); cbn [MatSolvers_Model.madd MatSolvers_Model.mmul nc]; apply H0|]. intros p p' Hp Hp'. unfold c, kept. destruct (Rlt_dec cutoff (norms k)).
  - cbn [MatSolvers_Model.madd MatSolvers_Model.mscale at_]. unfold kron. rewrite (HM _ _ B0), (HM _ _ B1) by assumption. cbn [Clenshaw_Model.skron MatSolvers_Model.identity at_ nr nc]. destruct (divided P q p Hp) as [-> ->]. destruct (divided P q' p' Hp') as [-> ->]. ring.
  - cbn [MatSolvers_Model.madd MatSolvers_Model.mscale at_]. unfold kron. rewrite (HM _ _ B0), (HM _ _ B1) by assumption. ring.
Qed.
Lemma kronecker_blocks f0 : nr f0 = P -> nc f0 = P -> (1 <= w)%nat -> (1 <= w')%nat ->
  exists T, kronecker_clenshaw k0 k1 kadd kmul n vals norms A B f0 cutoff true = Some T /\ nc T = (w' * P)%nat
    /\ forall q q' p p', (q < w)%nat -> (q' < w')%nat -> (p < P)%nat -> (p' < P)%nat -> exists T', matrix_clenshaw k0 k1 kadd kmul sure n (c q q') A B f0 cutoff = Some T' /\ at_ T (q * P + p) (q' * P + p') = at_ T' p p'.
Proof using HA Hf Hn0 Hn1.
  intros Fr Fc Hw Hw'. unfold kronecker_clenshaw, matrix_clenshaw. rewrite Fr, Hn0.
  set (z := mscale kmul k0 (kron kmul true (identity P) (vals 0%nat))).
  assert (Hz : forall q q', block_is q q' z (mscale kmul k0 (identity P))).
  { intros q q'. split; [unfold z, kron; cbn [Clenshaw_Model.skron MatSolvers_Model.mscale MatSolvers_Model.identity nc]; rewrite Hn1; reflexivity|]. intros p p' Hp Hp'. unfold z. cbn [MatSolvers_Model.mscale at_]. ring. }
  pose proof (fun q q' Hq Hq' => loop_blocks q q' (rev (seq 0 n)) Hq Hq' ltac:(intros k Hk; rewrite <- in_rev, in_seq in Hk; lia) z z _ _ (Hz q q') (Hz q q')) as L.
  destruct (L 0%nat 0%nat Hw Hw') as (r0 & r1 & _ & _ & E & _ & [Rc _] & _). rewrite E. eexists. split; [reflexivity|]. split; [cbn [MatSolvers_Model.mmul nc]; exact Rc|].
  intros q q' p p' Hq Hq' Hp Hp'. destruct (L q q' Hq Hq') as (s0 & s1 & S0 & S1 & E' & EM & HB & _). rewrite E in E'. injection E' as <- <-. rewrite EM. eexists. split; [reflexivity|].
  unfold kron. pose proof (left_product w f0 r0 q p (q' * P + p') Hq) as X. rewrite Fr, Fc in X. rewrite X by exact Hp. cbn [MatSolvers_Model.mmul at_]. rewrite Fc. apply kext. intros x Hx. rewrite (proj2 HB) by assumption. reflexivity.
Qed.
End Blocks.
(** The matrix, block by block: each block is the matrix for numbers as coefficients. *)
Lemma meridional_blocks inj mass inner outer a b kn N ka n vals norms cutoff w w' : (1 <= N)%nat -> (n <= N)%nat -> (1 <= w)%nat -> (1 <= w')%nat -> nr (vals 0%nat) = w -> nc (vals 0%nat) = w' ->
  (forall q q', exists M, shell_ncc k0 k1 kadd kmul ksub kdiv kopp inj (fun _ => cutoff + 1) mass inner outer a b kn N ka 0 n (fun k => kept k0 (norms k) cutoff (at_ (vals k) q q')) cutoff = Some M) ->
  (exists J, shell_operator_matrix inner outer a b ka SZ 0 0 (padding N kn) = Some J /\ nr J = padding N kn /\ nc J = padding N kn) ->
  (exists C, shell_jacobi_conversion a b ka kn (padding N kn) = Some C /\ nr C = padding N kn /\ nc C = padding N kn) ->
  exists M, meridional_ncc k0 k1 kadd kmul ksub kdiv kopp inj mass inner outer a b kn N ka n vals norms cutoff = Some M /\ nr M = (w * N)%nat /\ nc M = (w' * N)%nat
  /\ forall q q' i j, (q < w)%nat -> (q' < w')%nat -> (i < N)%nat -> (j < N)%nat ->
     exists M', shell_ncc k0 k1 kadd kmul ksub kdiv kopp inj (fun _ => cutoff + 1) mass inner outer a b kn N ka 0 n (fun k => kept k0 (norms k) cutoff (at_ (vals k) q q')) cutoff = Some M' /\ at_ M (q * N + i) (q' * N + j) = at_ M' i j.
Proof.
  intros HN Hn Hw Hw' H0 H1 HS (J & EJ & Jr & Jc) (C & EC & Cr & Cc). destruct (padding_bounds N kn HN) as [HP _]. set (P := padding N kn) in *.
  unfold meridional_ncc, shell_ncc, recursion_matrix in *. cbv zeta in *. fold P in HS |- *. rewrite EJ, EC in *. destruct (jacobi_matrix P (INR kn + a) (INR kn + b)) as [JA|]; [|destruct (HS 0%nat 0%nat) as (? & ?); discriminate]. destruct (polynomials mass true None 1 (INR kn + a) (INR kn + b) 1) as [pl|]; [|destruct (HS 0%nat 0%nat) as (? & ?); discriminate].
  cbn [jacobi_recursion]. set (X := lift inj J). set (JK := fun i j => inj (at_ JA i j)). set (f0 := mscale kmul (inj (nth 0 pl 0)) (identity P)).
  set (A := deferred (compute_A k0 k1 kmul ksub kdiv P JK X) (P + 1)). set (B := deferred (compute_B k0 k1 kmul kdiv kopp P JK X) (P + 1)).
  destruct (kronecker_blocks P n vals norms A B (compute_A k0 k1 kmul ksub kdiv P JK X) (compute_B k0 k1 kmul kdiv kopp P JK X) cutoff) with (w := w) (w' := w') (f0 := f0) as (T & ET & Tc & HT); try assumption; try reflexivity.
  { intros k Hk. split; [apply deferred_some; lia|]. split; [apply deferred_some; lia|]. unfold compute_A, compute_B. split; [destruct (_ <? _)%nat; cbn; split; assumption|destruct (_ && _); cbn; split; assumption]. }
  rewrite H0, H1, ET. eexists. split; [reflexivity|]. split; [reflexivity|]. split; [reflexivity|].
  intros q q' i j Hq Hq' Hi Hj.
  set (M1 := mmul (skron (identity w) (lift inj C)) T). set (R := rectangle k0 k1 N P).
  pose proof (right_product w' R (mmul (skron (identity w) R) M1) q' j (q * N + i) Tc Hq' Hj) as E1. change (nr R) with N in E1. change (nc R) with P in E1. rewrite E1. clear E1.
  rewrite (ksingle P j) by (lia || (intros x _ Hne; unfold R, rectangle; cbn [at_]; destruct (Nat.eqb_spec j x); [congruence|ring])). unfold R at 2. cbn [rectangle at_]. rewrite Nat.eqb_refl.
  pose proof (left_product w R M1 q i (q' * P + j) Hq Hi) as E2. change (nr R) with N in E2. change (nc R) with P in E2. rewrite E2. clear E2.
  rewrite (ksingle P i) by (lia || (intros x _ Hne; unfold R, rectangle; cbn [at_]; destruct (Nat.eqb_spec i x); [congruence|ring])). unfold R. cbn [rectangle at_]. rewrite Nat.eqb_refl.
  pose proof (left_product w (lift inj C) T q i (q' * P + j) Hq) as E3. cbn [lift nr nc] in E3. rewrite Cr, Cc in E3. unfold M1. cbn [lift] in E3 |- *. rewrite E3 by lia. clear E3.
  destruct (HT q q' i j Hq Hq' ltac:(lia) ltac:(lia)) as (T' & ET' & _). rewrite ET'. eexists. split; [reflexivity|]. cbn [get bounds fst snd at_ MatSolvers_Model.mmul lift nr nc Nat.add]. rewrite Cc. change (msum k0 kadd) with (CSR_Spec.total k0 kadd).
  match goal with |- kmul (kmul k1 ?x) k1 = ?y => transitivity x; [ring|] end. apply kext. intros x Hx. cbn [at_]. f_equal. destruct (HT q q' x j Hq Hq' Hx ltac:(lia)) as (T2 & ET2 & HE). rewrite ET' in ET2. injection ET2 as <-. exact HE.
Qed.
End Numbers.
