(** What deferred evaluation should compute, and when. *)
From stdpp Require Import list list_numbers relations.
From Verif Require Import Futures_Model.

Section Spec.
  Context {V : Type}.
  Implicit Types (g : list (node V)) (u w : nat -> V) (s : state V).

  (** Operators are built from the user's fields and from operators built before. *)
  Definition wf g : Prop :=
    forall i nd a, g !! i = Some nd -> a ∈ original_args nd ->
      match a with AF (U _) => True | AF (O _) => False | AN j => j < i end.

  (** [w] gives the values of all operators on the data [u] of the user's fields: the value of an
      operator is its function of the values of its operands. *)
  Definition operand_value u w (a : arg) : V := match a with AF (U v) => u v | AF (O j) => w j | AN j => w j end.
  Definition values_on g u w : Prop :=
    forall i nd, g !! i = Some nd -> w i = func (n_op nd) (map (operand_value u w) (original_args nd)).
  Definition user_data s : nat -> V := fun v => value s (U v).

  (** The trees are as they were built. *)
  Definition restored g s (i : nat) : Prop := forall nd, g !! i = Some nd -> args s i = original_args nd.

  (** [j] is [i] or an operator below [i]. *)
  Definition child g (i j : nat) : Prop := exists nd, g !! i = Some nd /\ AN j ∈ original_args nd.
  Definition below g (i j : nat) : Prop := rtc (child g) i j.

  (** Histories: evaluations and attempts, changes of data by the user and changes of layout. *)
  Inductive action := Eval (i : nat) (id : option nat) (force : bool) | SetData (v : nat) (x : V) | Move (f : fid) (l : nat).
  Definition act g (h : action) s : state V :=
    match h with
    | Eval i id force => (evaluate g (length g) id force i s).1
    | SetData v x => set_value (U v) x s
    | Move f l => set_layout f l s
    end.
  Definition history g (hs : list action) s : state V := foldl (fun s h => act g h s) s hs.

  (** Careful histories: data are changed only while no attempt is pending, and an identification number
      is not used again after data have changed.  [used] are the numbers used since the last change of
      data, [retired] those used before. *)
  Fixpoint careful g (used retired : list nat) (hs : list action) s : Prop :=
    match hs with
    | [] => True
    | h :: hs =>
        match h with
        | Eval i id _ => i < length g /\ match id with Some a => a ∉ retired /\ careful g (a :: used) retired hs (act g h s)
                                          | None => careful g used retired hs (act g h s) end
        | SetData _ _ => (forall i, restored g s i) /\ careful g [] (used ++ retired) hs (act g h s)
        | Move _ _ => careful g used retired hs (act g h s)
        end
    end.

  (** The operators that can be evaluated when [ok] tells which ones accept their operands: those done
      before, and those that accept and have operands that can be evaluated. *)
  Inductive evaluable g (ok : nat -> node V -> Prop) (before : nat -> Prop) : nat -> Prop :=
  | ev_before i : before i -> evaluable g ok before i
  | ev_now i nd : g !! i = Some nd -> (forall j, AN j ∈ original_args nd -> evaluable g ok before j) -> ok i nd -> evaluable g ok before i.

  (** An operator accepts layout [l] if all its operands being in [l] satisfies its conditions. *)
  Definition accepts (nd : node V) (l : nat) : Prop := check (n_op nd) (map (fun _ => l) (original_args nd)) = true.
  (** The output is in the layout of the operands when they agree. *)
  Definition keeps_layout (nd : node V) : Prop :=
    original_args nd <> [] /\ forall l, out_layout (n_op nd) (map (fun _ => l) (original_args nd)) = l.

  (** The layouts the fields would have if operators were evaluated in the given layouts of the user's
      fields. *)
  Definition layouts_from g (lay : nat -> nat) (ll : fid -> nat) : Prop :=
    (forall v, ll (U v) = lay v) /\
    forall i nd, g !! i = Some nd ->
      ll (O i) = out_layout (n_op nd) (map (fun a => match a with AF f => ll f | AN j => ll (O j) end) (original_args nd)).

  (** The operators done before the sweep, in the layouts in which the fields happen to be, and after
      step [t] of a sweep through [indices]. *)
  Definition done_initially g (lay : nat -> nat) (ll : fid -> nat) : nat -> Prop :=
    evaluable g (fun i nd => check (n_op nd) (map (fun a => match a with AF f => ll f | AN j => ll (O j) end) (original_args nd)) = true)
              (fun _ => False).
  Fixpoint done_by g (initially : nat -> Prop) (index : nat -> nat) (t : nat) : nat -> Prop :=
    evaluable g (fun _ nd => accepts nd (index t))
              (match t with 0 => initially | S t => done_by g initially index t end).

  (** The nesting depth of an operator is at most [d]. *)
  Fixpoint depth_at_most g (d i : nat) : Prop :=
    match d with
    | 0 => False
    | S d => forall j, child g i j -> depth_at_most g d j
    end.
End Spec.
Global Arguments action : clear implicits.
