(** What caches should do. *)
From stdpp Require Import gmap strings list.
From Verif Require Import Caching_Model.

(** A call that Python accepts. *)
Definition accepted {R} (f : func R) (x : list val * kwargs) : Prop := is_Some (py_bind f x.1 x.2).

(** The second of two bound arguments is a tuple: such a call can be confused with others. *)
Definition second_is_tuple (b : list val) : Prop := exists x l, b = [x; Tup l].
Definition unambiguous {R} (f : func R) (x : list val * kwargs) : Prop :=
  forall b, py_bind f x.1 x.2 = Some b -> ~ second_is_tuple b.

(** The value of overridden methods: each gets the value of the next. *)
Fixpoint chain_value {R} (layers : list (layer R)) (bottom : R) (b : list val) : R :=
  match layers with
  | [] => bottom
  | l :: layers => layer_body l b (if calls_super l then Some (chain_value layers bottom b) else None)
  end.
Fixpoint layered_calls {R} (layers : list (layer R)) (bottom : R) (a : attr R) (h : list (list val)) : list R :=
  match h with
  | [] => []
  | b :: h => let '(r, a) := layered_call layers bottom a b in r :: layered_calls layers bottom a h
  end.

(** The state at the first access. *)
Fixpoint first_get_state {S} (s : S) (h : list (attr_event S)) : S :=
  match h with Change s' :: h => first_get_state s' h | _ => s end.

(** Histories of constructions and collections. *)
Inductive class_event := New (args : list val) (kw : kwargs) (gc : list nat) | Collect (ids : list nat).
Definition class_step (c : class) (st : class_state) (e : class_event) : class_state :=
  match e with New args kw gc => (construct c st args kw gc).1 | Collect ids => collect ids st end.
Definition class_run (c : class) (st : class_state) (es : list class_event) : class_state := foldl (class_step c) st es.
Definition collected (e : class_event) : list nat := match e with New _ _ gc => gc | Collect ids => ids end.
(** The arguments that an instance is made for: bound, with defaults, and preprocessed. *)
Definition full_args (c : class) (args : list val) (kw : kwargs) : outcome (list val) :=
  match py_bind (init c) args kw with Some b => preprocess c b | None => Raise TypeError end.
Definition no_objects : class_state := ClassState 0 ∅ [].
