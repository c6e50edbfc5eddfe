(** What regularity components are. *)
From Coq Require Import List Arith Bool ZArith Reals.
Import ListNotations.
From Verif Require Import TupleTools_Model.
Local Open Scope R_scope.

Definition sumZ (t : tuple) : Z := fold_right Z.add 0%Z t.
Definition sumR (l : list R) : R := fold_right Rplus 0 l.
(** Tuples of a rank whose entries are -1, 1, 0, in the order in which components are stored. *)
Definition components (rank : nat) : list tuple := range [(-1)%Z; 1%Z; 0%Z] rank.
(** A tensor spherical harmonic of degree [l] has the spin component [s] if the total spin is at most the degree in size. *)
Definition spin_exists (l : Z) (s : tuple) : Prop := (Z.abs (sumZ s) <= l)%Z.
(** It has the regularity component [r] if, couple by couple starting with the last entry, the degree [l + sum b] reached by a suffix [b] of [r] and
    1 can be coupled to the next degree: the next degree is not negative, and degrees 0 and 1 do not couple to 0. *)
Definition regularity_exists (l : Z) (r : tuple) : Prop :=
  forall pre a b, r = pre ++ a :: b -> (0 <= l + sumZ b + a)%Z /\ ~ (l + sumZ b = 0 /\ l + sumZ b + a = 0)%Z.
(** Slices of the local coefficients for the degrees do not overlap. *)
Definition disjoint_maps {point} (maps : list (Z * (point -> bool))) : Prop := ForallOrdPairs (fun m m' => forall x, ~ (snd m x = true /\ snd m' x = true)) maps.
(** [after] has the components of [before] for which [exists_] holds, and zeros for the others. *)
Definition kept (order : nat) (exists_ : tuple -> Prop) (before after : list R) : Prop :=
  length after = length before
  /\ forall j t, nth_error (components order) j = Some t -> (exists_ t -> nth j after 0 = nth j before 0) /\ (~ exists_ t -> nth j after 0 = 0).
