(** What synchronised blocks are to do. *)
From Coq Require Import List Arith Bool.
Import ListNotations.
From Verif Require Import Parallel_Model.

Section Spec.
Context {A : Type}.
(** What was done, in order, is the beginning of what the processes do one after the other, in order of their ranks. *)
Definition by_rank (n : nat) (block : nat -> list A) : list (nat * A) := flat_map (fun p => map (pair p) (block p)) (seq 0 n).
Definition beginning {X} (l m : list X) : Prop := exists rest, l ++ rest = m.
(** No event of kind [late] comes before one of kind [early]. *)
Definition never_after (early late : A -> Prop) (t : list (nat * A)) : Prop := forall t1 e t2 f t3, t = t1 ++ e :: t2 ++ f :: t3 -> late (snd e) -> ~ early (snd f).
(** What one process did. *)
Definition of_rank (p : nat) (t : list (nat * A)) : list A := map snd (filter (fun e => fst e =? p) t).
(** All processes have come to their ends. *)
Definition finished (n : nat) (s : state A) : Prop := forall p, p < n -> todo (procs s p) = [].
(** A schedule made of rounds in each of which every process gets at least one turn. *)
Definition fair_rounds (n : nat) (rounds : list (list nat)) : Prop := Forall (fun r => forall p, p < n -> In p r) rounds.
End Spec.
(** Around a synchronised block. *)
Inductive moment (A : Type) := Before (a : A) | Inside (a : A) | After (a : A).
Arguments Before {A}. Arguments Inside {A}. Arguments After {A}.
Definition is_before {A} (m : moment A) : Prop := match m with Before _ => True | _ => False end.
Definition is_inside {A} (m : moment A) : Prop := match m with Inside _ => True | _ => False end.
Definition is_after {A} (m : moment A) : Prop := match m with After _ => True | _ => False end.
