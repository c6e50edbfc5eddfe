(** What it means to be locked to some layouts. *)
From stdpp Require Import list.
From Verif Require Import Layouts_Model LockedFields_Model.

(** From layout [i] towards grid space, through layouts in [A] only, to the first layout that is [wanted]; or an exception before the first layout on the way that is not in [A]. *)
Definition ascent (A wanted : nat -> Prop) (i : nat) (o : outcome) : Prop :=
  match o with
  | Reached k => i <= k /\ wanted k /\ (forall m, i <= m < k -> ~ wanted m) /\ (forall m, i < m <= k -> A m)
  | Raised k => i <= k /\ (forall m, i <= m <= k -> ~ wanted m) /\ (forall m, i < m <= k -> A m) /\ ~ A (S k)
  | Endless => False
  end.
(** The same towards coefficient space. *)
Definition descent (A wanted : nat -> Prop) (i : nat) (o : outcome) : Prop :=
  match o with
  | Reached k => k <= i /\ wanted k /\ (forall m, k < m <= i -> ~ wanted m) /\ (forall m, k <= m < i -> A m)
  | Raised k => 0 < k /\ k <= i /\ (forall m, k <= m <= i -> ~ wanted m) /\ (forall m, k <= m < i -> A m) /\ ~ A (k - 1)
  | Endless => False
  end.
(** Axes of a layout in a list. *)
Definition axis_in_grid (ls : list layout) (a k : nat) : Prop := exists l, ls !! k = Some l /\ grid l !! a = Some true.
Definition axis_in_coeff (ls : list layout) (a k : nat) : Prop := exists l, ls !! k = Some l /\ grid l !! a = Some false.
Definition axis_local (ls : list layout) (a k : nat) : Prop := exists l, ls !! k = Some l /\ local l !! a = Some true.
Definition axes_of (D : nat) (axis : option nat) (a : nat) : Prop := match axis with None => a < D | Some b => a = b end.
(** What each request wants, and on which way. *)
Definition answers (D : nat) (ls : list layout) (A : nat -> Prop) (r : request) (i : nat) (o : outcome) : Prop :=
  match r with
  | ChangeLayout t => (i <= t -> ascent A (fun k => t <= k) i o) /\ (t <= i -> descent A (fun k => k <= t) i o)
  | RequireGrid axis => ascent A (fun k => forall a, axes_of D axis a -> axis_in_grid ls a k) i o
  | RequireCoeff axis => descent A (fun k => forall a, axes_of D axis a -> axis_in_coeff ls a k) i o
  | RequireLocal a => (axis_in_grid ls a i -> descent A (axis_local ls a) i o) /\ (axis_in_coeff ls a i -> ascent A (axis_local ls a) i o)
  end.
(** Requests for layouts and axes that exist. *)
Definition proper (D R : nat) (r : request) : Prop :=
  match r with ChangeLayout t => t <= D + R | RequireGrid axis | RequireCoeff axis => (forall a, axis = Some a -> a < D) | RequireLocal a => a < D end.
