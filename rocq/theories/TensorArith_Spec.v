(** What products of tensors are. *)
From Coq Require Import List Arith Bool ZArith.
Import ListNotations.
From Verif Require Import CSR_Spec MatSolvers_Model TensorArith_Model.
Local Open Scope nat_scope.

(** An index with [k] put in at position [i]; python positions of a list of length [rank]. *)
Definition put {A} (i : nat) (k : A) (c : list A) : list A := firstn i c ++ k :: skipn i c.
Definition position (index : Z) (rank i : nat) : Prop :=
  i < rank /\ (Z.of_nat i = index \/ Z.of_nat i = index + Z.of_nat rank)%Z.
Definition positive (sig : tensorsig) : Prop := Forall (fun cs => 1 <= cs_dim cs) sig.

Section Spec.
Context {K : Type} (k0 k1 : K) (kadd kmul ksub : K -> K -> K) (kopp : K -> K).
Notation total := (total k0 kadd).
(** Components at indices, from flat arrays. *)
Definition component (sig : tensorsig) (A : nat -> K) (idx : list nat) : K := A (flat (dims sig) idx).
(** Tensors with indices [r0] and one more of system [v] at position [i], and with [r1] and [w] at position [j]: the sum over the [n] values of the marked
    indices, the others being [c0] and [c1]. *)
Definition contraction (n : nat) (sig0 sig1 : tensorsig) (i j : nat) (A B : nat -> K) (c0 c1 : list nat) : K :=
  total n (fun k => kmul (component sig0 A (put i k c0)) (component sig1 B (put j k c1))).
(** The cross product in a right-handed system: components [a_{i+1} b_{i+2} - a_{i+2} b_{i+1}], cyclically. *)
Definition cross_component (right : bool) (A B : nat -> K) (i : nat) : K :=
  let v := ksub (kmul (A ((i + 1) mod 3)) (B ((i + 2) mod 3))) (kmul (A ((i + 2) mod 3)) (B ((i + 1) mod 3))) in if right then v else kopp v.
(** The bilinear map with coefficients [G]. *)
Definition bilinear (na nb : nat) (G : nat -> nat -> nat -> K) (A B : nat -> K) (c : nat) : K :=
  total na (fun a => total nb (fun b => kmul (G a b c) (kmul (A a) (B b)))).
(** Matrices applied to component arrays. *)
Definition act (n : nat) (M : mat K) (A : nat -> K) : nat -> K := fun i => total n (fun j => kmul (at_ M i j) (A j)).
Definition square (n : nat) (M : mat K) : Prop := nr M = n /\ nc M = n.
Definition inverse (n : nat) (back forw : mat K) : Prop := forall i j, i < n -> j < n -> total n (fun l => kmul (at_ back i l) (at_ forw l j)) = if i =? j then k1 else k0.
(** Changes of components along an axis, for both factors and the product, and all changes of a list, the last of the list first. *)
Record frames := Frames { forwardA : mat K; backwardA : mat K; forwardB : mat K; backwardB : mat K; forwardC : mat K }.
Definition transform (n : nat) (M : frames -> mat K) (axes : list frames) (A : nat -> K) : nat -> K := fold_right (fun q => act n (M q)) A axes.
Definition proper (na nb nc : nat) (q : frames) : Prop :=
  square na (backwardA q) /\ square nb (backwardB q) /\ square nc (forwardC q) /\ inverse na (backwardA q) (forwardA q) /\ inverse nb (backwardB q) (forwardB q).
(** Sums over a list. *)
Definition sum_list {X} (f : X -> K) (l : list X) : K := fold_right (fun x s => kadd (f x) s) k0 l.
Definition times_all (l : list K) : K := fold_right kmul k1 l.
(** An axis of the operand with [n] coefficients: multiplication by mode [m] of the coefficient field, whose matrix is [P m], or nothing if it is constant there. *)
Definition axis_rows (ax : nat * option (nat -> mat K) * nat) : nat := match ax with (n, None, _) => n | (_, Some P, m) => nr (P m) end.
Definition axis_cols (ax : nat * option (nat -> mat K) * nat) : nat := match ax with (n, None, _) => n | (_, Some P, m) => nc (P m) end.
Definition axis_entry (ax : nat * option (nat -> mat K) * nat) (r c : nat) : K := match ax with (_, None, _) => if r =? c then k1 else k0 | (_, Some P, m) => at_ (P m) r c end.
End Spec.
Arguments Frames {K}. Arguments forwardA {K}. Arguments backwardA {K}. Arguments forwardB {K}. Arguments backwardB {K}. Arguments forwardC {K}.
