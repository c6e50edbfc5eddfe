(** A field as its user thinks of it: scales, layout and data, without buffers. *)
From Coq Require Import List Arith Bool.
Import ListNotations.
From Verif Require Import Buffers_Model.

Section Field.
Context {V T : Type}.
Context (top : nat) (grid : nat -> nat -> bool) (lsize : nat -> list T -> nat) (ncomp : nat).
Context (incr decr : nat -> list T -> list V -> list V).
Context (teq : forall x y : T, {x = y} + {x <> y}) (zero : V) (pos : list (list nat)).

Record ideal := Ideal { at_scales : list T; in_layout : nat; values : list V }.

(** Data taken [n] layouts up or down. *)
Fixpoint up (n l : nat) (s : list T) (x : list V) : list V := match n with 0 => x | S n => up n (S l) s (incr l s x) end.
Fixpoint down (n l : nat) (s : list T) (x : list V) : list V := match n with 0 => x | S n => down n (pred l) s (decr (pred l) s x) end.
Definition moved (from to : nat) (s : list T) (x : list V) : list V := if from <=? to then up (to - from) from s x else down (from - to) from s x.
Definition to_layout (l : nat) (i : ideal) : ideal := Ideal (at_scales i) l (moved (in_layout i) l (at_scales i) (values i)).

(** The highest layout, not above [l], in which every axis in grid space has the same scale in [s] and [s']. *)
Definition agree (l : nat) (s s' : list T) : bool := forallb (fun a => negb (grid l a) || match nth_error s a, nth_error s' a with Some x, Some y => if teq x y then true else false | _, _ => false end) (seq 0 (length s)).
Fixpoint common (l : nat) (s s' : list T) : nat := if agree l s s' then l else match l with 0 => 0 | S l => common l s s' end.
(** New scales for the same function: the data in a layout that the change does not affect. *)
Definition to_scales (s : list T) (i : ideal) : ideal :=
  if list_eq_dec teq s (at_scales i) then i else let i' := to_layout (common (in_layout i) (at_scales i) s) i in Ideal s (in_layout i') (values i').

(** The coefficients of a subproblem, and data with given coefficients for the subproblems. *)
Definition taken (x : list V) : list (list V) := map (map (fun p => nth p x zero)) pos.
Definition placed (vs : list (list V)) : list V :=
  map (fun p => match find (fun q => fst q =? p) (combine (concat pos) (concat vs)) with Some (_, v) => v | None => zero end) (seq 0 (length (concat pos))).

Definition optionally {X Y} (f : X -> Y -> Y) (x : option X) (y : Y) : Y := match x with Some x => f x y | None => y end.
Definition ideally (e : event) (i : ideal) : list (list V) * ideal :=
  match e with
  | Read l s => let i' := to_layout l (optionally to_scales s i) in ([values i'], i')
  | Set_ l s x => ([], Ideal (match s with Some s => s | None => at_scales i end) l x)
  | Scale s => ([], to_scales s i)
  | Move l => ([], to_layout l i)
  | Gather => let i' := to_layout 0 i in (taken (values i'), i')
  | Scatter vs => ([], Ideal (at_scales i) 0 (placed vs))
  end.
Fixpoint ideal_history (es : list event) (i : ideal) : list (list (list V)) * ideal :=
  match es with [] => ([], i) | e :: es => let r := ideal_history es (snd (ideally e i)) in (fst (ideally e i) :: fst r, snd r) end.

(** A sensible setting: at least as many scales as axes, layouts that are in grid space on more and more of the last axes, sizes that depend on the scales of these axes only,
    transforms that give data of the right size, and subproblems that share out the coefficients. *)
Record setting (dim : nat) (fresh : nat -> nat -> list V) : Prop := {
  grid_dim : forall l a, grid l a = true -> a < dim;
  grid_none : forall a, grid 0 a = false;
  grid_last : forall l a b, grid l a = true -> a <= b -> b < dim -> grid l b = true;
  grid_more : forall l a, grid l a = true -> grid (S l) a = true;
  sizes : forall l s s', (forall a, grid l a = true -> nth_error s a = nth_error s' a) -> lsize l s = lsize l s';
  fresh_size : forall b n, length (fresh b n) = n;
  incr_size : forall l s x, length x = ncomp * lsize l s -> length (incr l s x) = ncomp * lsize (S l) s;
  decr_size : forall l s x, length x = ncomp * lsize (S l) s -> length (decr l s x) = ncomp * lsize l s;
  shared_out : NoDup (concat pos) /\ forall p s, In p (concat pos) <-> p < ncomp * lsize 0 s
}.
(** Events that make sense: scales for every axis, existing layouts, data of the right size. *)
Definition proper (dim : nat) (e : event (V := V) (T := T)) (i : ideal) : Prop :=
  match e with
  | Read l s => l <= top /\ match s with Some s => length s = dim | None => True end
  | Set_ l s x => l <= top /\ match s with Some s => length s = dim /\ length x = ncomp * lsize l s | None => length x = ncomp * lsize l (at_scales i) end
  | Scale s => length s = dim
  | Move l => l <= top
  | Gather => True
  | Scatter vs => Forall2 (fun ps v => length ps = length v) pos vs
  end.
Fixpoint all_proper (dim : nat) (es : list (event (V := V) (T := T))) (i : ideal) : Prop := match es with [] => True | e :: es => proper dim e i /\ all_proper dim es (snd (ideally e i)) end.
(** Whenever the solver gathers or scatters, the field is at scales for which [small] holds. *)
Definition for_solver (small : list T -> Prop) (e : event (V := V) (T := T)) (i : ideal) : Prop := match e with Gather | Scatter _ => small (at_scales i) | _ => True end.
Fixpoint solver_at (small : list T -> Prop) (es : list (event (V := V) (T := T))) (i : ideal) : Prop := match es with [] => True | e :: es => for_solver small e i /\ solver_at small es (snd (ideally e i)) end.
End Field.
