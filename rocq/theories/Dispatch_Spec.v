(** What dispatch should do. *)
From stdpp Require Import list sorting.
From Verif Require Import Dispatch_Model.

Section Spec.
  Context {A O E : Type}.
  Notation cls := (cls A O E).

  (** [s] takes part in the dispatch of [t]. *)
  Definition live (t s : cls) : Prop := s ∈ cls_subs t /\ cls_stop s = false.
  Definition leaf (t : cls) : Prop := forall s, s ∈ cls_subs t -> cls_stop s = true.

  (** The class that is made: each class on the way down preprocesses, and exactly one of its
      subclasses accepts. *)
  Inductive resolves : cls -> A -> nat -> A -> Prop :=
    | Resolves_leaf t a b : cls_pre t a = Ret b -> leaf t -> cls_check t b = Ret true -> cls_make t b = Ret tt -> resolves t a (cls_name t) b
    | Resolves_sub t a b l1 s l2 n c : cls_pre t a = Ret b -> cls_subs t = l1 ++ s :: l2 -> cls_stop s = false -> cls_check s b = Ret true ->
        (forall s', s' ∈ l1 ++ l2 -> cls_stop s' = false -> cls_check s' b = Ret false) ->
        resolves s (cls_post s b) n c -> resolves t a n c.

  (** No subclass, or more than one, accepts at some level of the way down. *)
  Inductive stuck (several : bool) : cls -> A -> Prop :=
    | Stuck_here t a b : cls_pre t a = Ret b -> ~ leaf t -> (forall s, live t s -> exists r, cls_check s b = Ret r) ->
        (if several then exists l1 s1 l2 s2 l3, cls_subs t = l1 ++ s1 :: l2 ++ s2 :: l3 /\ cls_stop s1 = false /\ cls_stop s2 = false /\
                                              cls_check s1 b = Ret true /\ cls_check s2 b = Ret true
         else forall s, live t s -> cls_check s b = Ret false) -> stuck several t a
    | Stuck_sub t a b l1 s l2 : cls_pre t a = Ret b -> cls_subs t = l1 ++ s :: l2 -> cls_stop s = false -> cls_check s b = Ret true ->
        (forall s', s' ∈ l1 ++ l2 -> cls_stop s' = false -> cls_check s' b = Ret false) -> stuck several s (cls_post s b) -> stuck several t a.

  (** The same hierarchy with subclasses defined in another order, at every level. *)
  Inductive reordered : cls -> cls -> Prop :=
    | Reordered n st pre check post make l l' l'' : Forall2 reordered l l' -> l' ≡ₚ l'' ->
        reordered (Cls n st pre check post make l) (Cls n st pre check post make l'').

  (** Checks at one level that skip or raise agree on how. *)
  Inductive agreeing : cls -> Prop :=
    | Agreeing t : (forall s s' b, live t s -> live t s' -> (forall r, cls_check s b <> Ret r) -> (forall r, cls_check s' b <> Ret r) -> cls_check s b = cls_check s' b) ->
        (forall s, s ∈ cls_subs t -> agreeing s) -> agreeing t.
End Spec.
