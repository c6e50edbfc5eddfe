(** What reductions and the adaptive time step should give. *)
From Coq Require Import Reals.
From stdpp Require Import numbers list.
From Verif Require Import FlowTools_Model.
Local Open Scope R_scope.

(** The processes' data together are the elements of the global array, in some order. *)
Definition distributes (procs : list (list R)) (global : list R) : Prop := Permutation (concat procs) global.
Definition is_max (m : R) (l : list R) : Prop := In m l /\ forall x, In x l -> x <= m.
Definition is_min (m : R) (l : list R) : Prop := In m l /\ forall x, In x l -> m <= x.
Definition total (l : list R) : R := foldr Rplus 0 l.

(** Order with infinities. *)
Definition fle (x y : flt) : Prop :=
  match x, y with
  | Fin a, Fin b => a <= b
  | NInf, NaN | NaN, _ | _, NaN => False
  | NInf, _ | _, PInf => True
  | _, _ => False
  end.

(** Parameters in order: steps start within their bounds and may stay the same. *)
Record guarded (c : cfl) (initial : R) : Prop := Guarded {
  guard_min : 0 < min_dt c;
  guard_low : min_dt c <= initial;
  guard_high : fle (Fin initial) (max_dt c);
  guard_shrink : min_change c <= 1;
  guard_grow : fle (Fin 1) (max_change c);
  guard_safety : 0 < safety c;
  guard_finite : max_dt c <> PInf \/ max_change c <> PInf
}.

(** Total frequency at each point of a process's grid, and the largest of all. *)
Fixpoint point_freq (i : nat) (fields : list (list R)) : R :=
  match fields with [] => 0 | f :: fs => Rabs (nth i f 0) + point_freq i fs end.
(** [f] is the largest total frequency; each process's fields have [n] points. *)
Definition largest_frequency (f : R) (procs : list (nat * list (list R))) : Prop :=
  (exists n fields i, In (n, fields) procs /\ (i < n)%nat /\ f = point_freq i fields) /\
  forall n fields i, In (n, fields) procs -> (i < n)%nat -> point_freq i fields <= f.
