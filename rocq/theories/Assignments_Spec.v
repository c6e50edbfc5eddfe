(** What the division should be. *)
From stdpp Require Import list list_numbers.

(** A list of calls (set, start, count) covers write [w] of set [p]. *)
Definition covers {A} (calls : list (A * nat * nat)) (p : A) (w : nat) : Prop :=
  exists start count, (p, start, count) ∈ calls /\ start <= w < start + count.

(** The number of writes covered, with repetition. *)
Definition load {A} (calls : list (A * nat * nat)) : nat := sum_list (map snd calls).
