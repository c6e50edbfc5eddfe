From Coq Require Import Reals Lia Lra FunctionalExtensionality.
From stdpp Require Import list.
From Verif Require Import Multistep_Model Multistep_Spec Multistep_Proofs MultistepRun_Proofs RungeKutta_Model RungeKutta_Spec.
Local Open Scope R_scope.

Lemma order_pos t : (1 <= order t)%nat.
Proof. destruct t. simpl. lia. Qed.
Lemma trees_1 t : (order t <= 1)%nat -> exists c, t = Node c [].
Proof.
  destruct t as [c [|u ch]]; simpl; [eauto|]. pose proof (order_pos u). lia.
Qed.
Lemma trees_2 t : (order t <= 2)%nat -> (exists c, t = Node c []) \/ (exists c d, t = Node c [Node d []]).
Proof.
  destruct t as [c [|u [|v ch]]]; simpl; intros H.
  - eauto.
  - destruct (trees_1 u) as [d ->]; [lia|]. eauto.
  - pose proof (order_pos u). pose proof (order_pos v). lia.
Qed.
Lemma trees_3 t : (order t <= 3)%nat -> (exists c, t = Node c []) \/ (exists c d, t = Node c [Node d []]) \/
  (exists c d e, t = Node c [Node d [Node e []]]) \/ (exists c d e, t = Node c [Node d []; Node e []]).
Proof.
  destruct t as [c [|u [|v [|w ch]]]]; simpl; intros H.
  - eauto.
  - destruct (trees_2 u) as [[d ->]|(d & e & ->)]; [lia|eauto|eauto 10].
  - pose proof (order_pos u). pose proof (order_pos v). destruct (trees_1 u) as [d ->]; [lia|].
    destruct (trees_1 v) as [e ->]; [lia|]. eauto 10.
  - pose proof (order_pos u). pose proof (order_pos v). pose proof (order_pos w). lia.
Qed.

Ltac crunch := unfold step_weight, part, at_, entry; simpl; try lra.

Lemma RK111_order : order_conditions 1 (at_ (explicit RK111)) (at_ (implicit RK111)) 1.
Proof. intros t Ht. destruct (trees_1 t Ht) as [[] ->]; crunch. Qed.

Lemma gamma_sq : RK222_gamma * RK222_gamma = 2 * RK222_gamma - 1 / 2.
Proof. unfold RK222_gamma. pose proof (sqrt_sqrt 2 ltac:(lra)). nra. Qed.
Lemma gamma_pos : 0 < RK222_gamma < 1.
Proof.
  unfold RK222_gamma. pose proof (sqrt_sqrt 2 ltac:(lra)). pose proof (sqrt_pos 2).
  split; nra.
Qed.
Lemma delta_eq : (1 - RK222_delta) * RK222_gamma = 1 / 2.
Proof. unfold RK222_delta. pose proof gamma_pos. field. lra. Qed.
Lemma RK222_order : order_conditions 2 (at_ (explicit RK222)) (at_ (implicit RK222)) 2.
Proof.
  pose proof gamma_sq. pose proof delta_eq. pose proof gamma_pos.
  intros t Ht. destruct (trees_2 t Ht) as [[[] ->]|([] & [] & ->)]; unfold RK222; crunch; nra.
Qed.
Lemma RK443_order : order_conditions 4 (at_ (explicit RK443)) (at_ (implicit RK443)) 3.
Proof.
  intros t Ht. destruct (trees_3 t Ht) as [[[] ->]|[([] & [] & ->)|[([] & [] & [] & ->)|([] & [] & [] & ->)]]]; crunch.
Qed.
Lemma RKSMR_order : order_conditions 3 (at_ (explicit RKSMR)) (at_ (implicit RKSMR)) 2.
Proof. intros t Ht. destruct (trees_2 t Ht) as [[[] ->]|([] & [] & ->)]; crunch. Qed.
Lemma RKSMR_order3 t : colour t = false -> (order t <= 3)%nat ->
  step_weight 3 (at_ (explicit RKSMR)) (at_ (implicit RKSMR)) t = 1 / density t.
Proof.
  intros Hc Ht. destruct (trees_3 t Ht) as [[[] ->]|[([] & [] & ->)|[([] & [] & [] & ->)|([] & [] & [] & ->)]]]; try done; crunch.
Qed.
Lemma RKGFY_order : order_conditions 2 (at_ (explicit RKGFY)) (at_ (implicit RKGFY)) 2.
Proof. intros t Ht. destruct (trees_2 t Ht) as [[[] ->]|([] & [] & ->)]; crunch. Qed.
