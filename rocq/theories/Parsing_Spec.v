(** What parsing of equation strings should do. *)
From stdpp Require Import numbers list.

Definition occurrences (c : N) (s : list N) : nat := length (filter (fun x => x = c) s).
(** As many parentheses were closed as opened. *)
Definition level_zero (s : list N) : Prop := occurrences 40 s = occurrences 41 s.
(** There is an equals sign after [l] and before [r], outside parentheses. *)
Definition top_equals (s l r : list N) : Prop := s = l ++ [61%N] ++ r /\ level_zero l.
(** [w] is [s] without the spaces around it. *)
Definition trimmed (space : N -> bool) (s w : list N) : Prop :=
  exists a b, s = a ++ w ++ b /\ Forall (fun c => space c = true) a /\ Forall (fun c => space c = true) b /\
    (forall c, head w = Some c -> space c = false) /\ (forall c, last w = Some c -> space c = false).
