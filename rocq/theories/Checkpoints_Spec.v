(** Global data and its parts. *)
From stdpp Require Import list.
From Verif Require Import Layouts_Model Blocks_Model Checkpoints_Model.

(** Distributions that the code builds: every axis that is not local has its part of the mesh, and chunks divide sizes. *)
Definition good_distribution (m : distribution) : Prop :=
  Forall (fun d => 0 < d) (mesh m) /\ length (filter (fun b => b = false) (locals m)) = length (mesh m) /\ length (locals m) = length (axes_of m) /\
  Forall (fun x : nat * nat => 0 < x.2 /\ Nat.divide x.2 x.1) (axes_of m).
(** Indices of global data: those of a component and those of an element. *)
Definition global_index (tshape : list nat) (m : distribution) (t s : list nat) : Prop :=
  Forall2 (fun i n => i < n) t tshape /\ Forall2 (fun i (x : nat * nat) => i < x.1) s (axes_of m).
(** The pieces are the parts of [g] that the processes own. *)
Definition parts_of {A} (tshape : list nat) (m : distribution) (p : nat -> list nat -> A) (g : list nat -> A) : Prop :=
  forall r els t j, r < processes m -> local_elements (mesh m) (locals m) (axes_of m) r = Some els ->
    Forall2 (fun i n => i < n) t tshape -> Forall2 (fun i e => i < length e) j els -> p r (t ++ j) = g (t ++ zip_with (fun e i => nth i e 0) els j).
(** A dataset holds the global arrays [gs]. *)
Definition holds {A} (tshape : list nat) (m : distribution) (d : list (list nat -> A)) (gs : list (list nat -> A)) : Prop :=
  length d = length gs /\ forall i g e t s, gs !! i = Some g -> d !! i = Some e -> global_index tshape m t s -> e (t ++ s) = g (t ++ s).
