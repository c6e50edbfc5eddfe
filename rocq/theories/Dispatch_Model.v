(** Dispatch of constructors to subclasses: dedalus/tools/dispatch.py.

    Arguments are of any type [A], the outputs of skipped dispatches of any type [O], other exceptions
    of any type [E].  Keywords are part of the arguments. *)
From stdpp Require Import list.

(** What [_preprocess_args], [_check_args] and the constructor do: return, raise
    [SkipDispatchException(output)], or raise something else. *)
Inductive step (O E R : Type) := Ret (r : R) | Skip (o : O) | Raised (e : E).
Global Arguments Ret {O E R}. Global Arguments Skip {O E R}. Global Arguments Raised {O E R}.

Section Dispatch.
  Context {A O E : Type}.

  (** A class: its number, [stop_dispatch] as found by [getattr] (so possibly inherited), its three
      methods, its constructor and its direct subclasses in the order of their definition. *)
  Inductive cls := Cls (name : nat) (stop : bool) (pre : A -> step O E A) (check : A -> step O E bool) (post : A -> A)
    (make : A -> step O E unit) (subs : list cls).
  Definition cls_name (t : cls) : nat := match t with Cls n _ _ _ _ _ _ => n end.
  Definition cls_stop (t : cls) : bool := match t with Cls _ s _ _ _ _ _ => s end.
  Definition cls_pre (t : cls) : A -> step O E A := match t with Cls _ _ p _ _ _ _ => p end.
  Definition cls_check (t : cls) : A -> step O E bool := match t with Cls _ _ _ c _ _ _ => c end.
  Definition cls_post (t : cls) : A -> A := match t with Cls _ _ _ _ p _ _ => p end.
  Definition cls_make (t : cls) : A -> step O E unit := match t with Cls _ _ _ _ _ m _ => m end.
  Definition cls_subs (t : cls) : list cls := match t with Cls _ _ _ _ _ _ l => l end.

  (** What a call of the class gives. *)
  Inductive result :=
    | Instance (name : nat) (args : A)
    | Output (o : O)
    | CheckFailed (* TypeError *)
    | NoSubclass (* NotImplementedError *)
    | Degenerate (* ValueError *)
    | Error (e : E).

  (** dispatch.py:27-30: the subclasses that accept the arguments, or the first exception. *)
  Fixpoint passlist (live : list ((A -> step O E bool) * (A -> result))) (a : A) : step O E (list (A -> result)) :=
    match live with
    | [] => Ret []
    | (check, call) :: live =>
        match check a with
        | Skip o => Skip o
        | Raised e => Raised e
        | Ret b => match passlist live a with Ret l => Ret (if (b : bool) then call :: l else l) | Skip o => Skip o | Raised e => Raised e end
        end
    end.

  (** dispatch.py:13-44, [MultiClass.__call__]. *)
  Fixpoint dispatch (t : cls) (a : A) : result :=
    match t with
    | Cls name _ pre check _ make subs =>
        match pre a with
        | Skip o => Output o
        | Raised e => Error e
        | Ret a =>
            match List.filter (fun x => negb x.1) (map (fun s => (cls_stop s, (cls_check s, fun a => dispatch s (cls_post s a)))) subs) with
            | [] =>
                match check a with
                | Ret true => match make a with Ret _ => Instance name a | Skip o => Output o | Raised e => Error e end
                | Ret false => CheckFailed
                | Skip o => Output o
                | Raised e => Error e
                end
            | live =>
                match passlist (map snd live) a with
                | Skip o => Output o
                | Raised e => Error e
                | Ret [] => NoSubclass
                | Ret [call] => call a
                | Ret _ => Degenerate
                end
            end
        end
    end.
End Dispatch.
Global Arguments cls : clear implicits.
Global Arguments result : clear implicits.

(** ** One family: [Differentiate] (operators.py:1344-1415; basis.py:701-720, 1018-1036, 1206-1226) *)
(** The basis of the operand along the coordinate. *)
Inductive basis_kind := JacobiBasis | ComplexFourierBasis | RealFourierBasis | OtherBasis.
Global Instance basis_kind_dec : EqDecision basis_kind.
Proof. solve_decision. Defined.
Inductive diff_operand := Number | OnBasis (b : option basis_kind) | NotOperand.
Definition diff_check (b : basis_kind) (x : diff_operand) : step nat nat bool :=
  Ret match x with OnBasis (Some b') => bool_decide (b' = b) | _ => false end.
Definition diff_constant_check (x : diff_operand) : step nat nat bool :=
  Ret match x with Number => true | OnBasis None => true | _ => false end.
(** Classes 1-4; [DifferentiateConstant.__new__] gives zero, so its dispatch gives 0 and not an
    instance; this is the skip of its constructor. *)
Definition diff_leaf (n : nat) (check : diff_operand -> step nat nat bool) (make : diff_operand -> step nat nat unit) : cls diff_operand nat nat :=
  Cls n false Ret check id make [].
Definition differentiate : cls diff_operand nat nat :=
  Cls 0 false Ret (fun _ => Raised 0) id (fun _ => Ret tt)
    [diff_leaf 1 diff_constant_check (fun _ => Skip 0); diff_leaf 2 (diff_check JacobiBasis) (fun _ => Ret tt);
     diff_leaf 3 (diff_check ComplexFourierBasis) (fun _ => Ret tt); diff_leaf 4 (diff_check RealFourierBasis) (fun _ => Ret tt)].
