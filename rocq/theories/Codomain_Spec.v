(** Codomains as maps of parameters, and operators as linear maps. *)
From Coq Require Import List ZArith Reals Bool.
Import ListNotations.
From Verif Require Import MatSolvers_Model CSR_Spec Codomain_Model.
Local Open Scope R_scope.

(** Admissible parameters. *)
Definition admissible (x : domain) : Prop := let '(_, a, b) := x in -1 < a /\ -1 < b.
(** A map of parameters, defined where its value is admissible, iterated. *)
Fixpoint iterated {A} (k : nat) (f : A -> A) (x : A) : A := match k with O => x | S k => f (iterated k f x) end.

(** A family of functions [f n (a, b)] of a variable of type [V], and of operators on functions of it. *)
Section Represents.
Context {V : Type} (f : domain -> nat -> V -> R).
Definition combination (m : nat) (c : nat -> R) (x : domain) (v : V) : R := CSR_Spec.total 0 Rplus m (fun i => c i * f x i v).
Definition size (x : domain) : nat := Z.to_nat (fst (fst x)).
(** The family does not depend on the number of functions. *)
Definition unsized : Prop := forall n n' a b i v, f (n, a, b) i v = f (n', a, b) i v.
(** An operator represents a relation [L] between functions ([L x g h]: [g] of the space [x] is mapped to [h]): each
    function of the space is mapped to the combination given by its column of the matrix. *)
Definition represents_at (o : operator) (L : domain -> (V -> R) -> (V -> R) -> Prop) (x : domain) : Prop :=
  exists y M, jcall (cod o) x = Some y /\ fn o x = Some M /\ nr M = size y /\ nc M = size x
    /\ forall j, (j < size x)%nat -> L x (f x j) (combination (size y) (fun i => at_ M i j) y).
End Represents.
(** Linear relations, that do not distinguish functions with equal values. *)
Definition linear {V} (L : (V -> R) -> (V -> R) -> Prop) : Prop :=
  (forall g h g' h', L g h -> (forall v, g v = g' v) -> (forall v, h v = h' v) -> L g' h') /\ L (fun _ => 0) (fun _ => 0)
  /\ (forall g h g' h', L g h -> L g' h' -> L (fun v => g v + g' v) (fun v => h v + h' v)) /\ (forall c g h, L g h -> L (fun v => c * g v) (fun v => c * h v)).
