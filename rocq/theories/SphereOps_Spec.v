(** Derivatives of tensors on the sphere in spin components. *)
From Coq Require Import List Arith Bool ZArith Reals.
Import ListNotations.
From Verif Require Import SphereOps_Model.
Local Open Scope R_scope.

(** Components of a tensor with [sig] values for its indices, and sums. *)
Definition is_index (sig : list nat) (i : index) : Prop := Forall2 (fun a n => (a < n)%nat) i sig.
Definition sum {A} (l : list A) (f : A -> R) : R := fold_right Rplus 0 (map f l).
(** The spin of a component: how many indices are up less how many are down. *)
Definition ups (i : index) : nat := length (filter (Nat.eqb 1) i).
Definition downs (i : index) : nat := length (filter (Nat.eqb 0) i).
Definition spin (i : index) : Z := (Z.of_nat (ups i) - Z.of_nat (downs i))%Z.
(** Raising and lowering of the spin of a mode of degree [l], on a sphere of a radius. *)
Definition raising (l s : Z) : R := - sqrt (IZR ((l - s) * (l + s + 1)) / 2).
Definition lowering (l s : Z) : R := sqrt (IZR ((l + s) * (l - s + 1)) / 2).
Definition exists_at (l s : Z) : bool := (Z.abs s <=? l)%Z.
(** The values of a tensor stacked by component, then by element; the product of a matrix and a vector. *)
Definition stacked (sig : list nat) (n : nat) (x : index -> nat -> R) : list R := flat_map (fun i => map (x i) (seq 0 n)) (indices sig).
Definition times (M : list (list R)) (v : list R) : list R := map (fun row => sum (combine row v) (fun p => fst p * snd p)) M.
