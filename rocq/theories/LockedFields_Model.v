(** Fields locked to some layouts: [LockedField] of dedalus/core/field.py and the operators [Lock] and [Grid] of dedalus/core/operators.py.

    Simplifications.  As in the model of layouts, a layout is its index in the list of layouts, and [None] is an exception.  A request that raises
    leaves the field in the layout it had come to.  Loops have fuel. *)
From stdpp Require Import list.
From Verif Require Import Layouts_Model.

(** field.py:1031-1035, [allowed_layouts]: a tuple of layouts, or of whatever was passed; operators.py:820 passes a list as one argument. *)
Inductive allowed := One (k : nat) | Group (l : list nat).
(** [layout in allowed_layouts]; a layout is not equal to a list. *)
Definition is_allowed (A : list allowed) (k : nat) : bool := existsb (fun x => match x with One l => l =? k | Group _ => false end) A.
(** 1031-1032. *)
Definition lock_to_layouts (layouts : list nat) : list allowed := map One layouts.
(** 1034-1035. *)
Definition lock_axis_to_grid (ls : list layout) (axis : nat) : list allowed :=
  map One (List.filter (fun k => match ls !! k with Some l => flag axis (grid l) false | None => false end) (seq 0 (length ls))).

Inductive outcome := Reached (k : nat) | Raised (k : nat) | Endless.
Section locked.
  Context (ls : list layout) (ps : list path) (A : list allowed).
  (** 1011-1019. *)
  Definition towards_grid (i : nat) : option nat :=
    if decide (S i < length ls) then if is_allowed A (S i) then towards_grid_space ps i else None else None.
  (** 1021-1029; for index 0 Python reads [layouts[-1]]. *)
  Definition towards_coeff (i : nat) : option nat :=
    let new := match i with 0 => length ls - 1 | S j => j end in
    if is_allowed A new then towards_coeff_space ps i else None.
  (** A Python [while not cond: move] loop. *)
  Fixpoint loop (fuel : nat) (cond : nat -> option bool) (move : nat -> option nat) (i : nat) : outcome :=
    match cond i with
    | None => Raised i
    | Some true => Reached i
    | Some false => match fuel with 0 => Endless | S fuel => match move i with None => Raised i | Some j => loop fuel cond move j end end
    end.
  Definition test (c : layout -> bool) (i : nat) : option bool := option_map c (ls !! i).

  Inductive request := ChangeLayout (t : nat) | RequireGrid (axis : option nat) | RequireCoeff (axis : option nat) | RequireLocal (a : nat).
  (** 651-662, 674-700, with the methods above. *)
  Definition perform (fuel : nat) (r : request) (i : nat) : outcome :=
    match r with
    | ChangeLayout t =>
        if decide (i < t) then loop fuel (fun i => Some (bool_decide (t <= i))) towards_grid i
        else if decide (t < i) then loop fuel (fun i => Some (bool_decide (i <= t))) towards_coeff i else Reached i
    | RequireGrid None => loop fuel (test (fun l => forallb id (grid l))) towards_grid i
    | RequireGrid (Some a) => loop fuel (test (fun l => flag a (grid l) true)) towards_grid i
    | RequireCoeff None => loop fuel (test (fun l => negb (existsb id (grid l)))) towards_coeff i
    | RequireCoeff (Some a) => loop fuel (test (fun l => negb (flag a (grid l) false))) towards_coeff i
    | RequireLocal a =>
        match ls !! i with
        | None => Raised i
        | Some l => if flag a (grid l) false then loop fuel (test (fun l => flag a (local l) true)) towards_coeff i
                    else loop fuel (test (fun l => flag a (local l) true)) towards_grid i
        end
    end.
  (** Requests one after the other, by a caller that goes on after exceptions. *)
  Definition layout_after (o : outcome) : option nat := match o with Reached k | Raised k => Some k | Endless => None end.
  Fixpoint performs (fuel : nat) (rs : list request) (i : nat) : option nat :=
    match rs with [] => Some i | r :: rs => k ← layout_after (perform fuel r i); performs fuel rs k end.
End locked.

(** operators.py:803-820.  [np.argmin] takes the first of the least. *)
Definition distance (i k : nat) : nat := (i - k) + (k - i).
Fixpoint argmin (i : nat) (best : nat) (l : list nat) : nat :=
  match l with [] => best | k :: l => argmin i (if decide (distance i k < distance i best) then k else best) l end.
Definition closest (layouts : list nat) (i : nat) : option nat := match layouts with [] => None | k :: l => Some (argmin i k l) end.
Definition lock_conditions (layouts : list nat) (i : nat) : bool := bool_decide (i ∈ layouts).
Definition lock_enforce (ps : list path) (fuel : nat) (layouts : list nat) (i : nat) : option nat :=
  if lock_conditions layouts i then Some i else k ← closest layouts i; change_layout ps fuel k i.
(** 816-821: the layout of the result and what it is locked to. *)
Definition lock_operate (layouts : list nat) (i : nat) : nat * list allowed := (i, [Group layouts]).

(** ** Data and scales *)
Section data.
  Context {S V : Type} `{EqDecision S} (zero one : S) (dim : nat).
  (** A field: its layout, its scales and its data, and [allowed_layouts] if it is a [LockedField]. *)
  Record field := Field { layout_of : nat; scales_of : list S; data_of : V; locks : option (list allowed) }.
  Inductive scale_argument := Default | Number (s : S) | Scales (l : list S).
  (** distributor.py:188-197. *)
  Definition remedy_scales (s : scale_argument) : option (list S) :=
    let scales := match s with Default => replicate dim one | Number s => replicate dim s | Scales l => l end in
    if bool_decide (zero ∈ scales) then None else Some scales.
  (** field.py:1006-1009, of a [LockedField]. *)
  Definition locked_change_scales (s : scale_argument) (f : field) : option field :=
    n ← remedy_scales s; if decide (n = scales_of f) then Some f else None.
  (** 592-602 with a layout for the key: [preset_layout] does not ask for the lock. *)
  Definition set_item (k : nat) (v : V) (f : field) : field := Field k (scales_of f) v (locks f).
  (** 1037-1042; a new field has scales 1, is in layout 0 and holds [v0]. *)
  Definition unlock (v0 : V) (f : field) : option field :=
    n ← remedy_scales (Scales (scales_of f)); Some (set_item (layout_of f) (data_of f) (Field 0 n v0 None)).
End data.
