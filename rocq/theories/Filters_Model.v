(** Low- and high-pass filters: dedalus/core/field.py.

    Simplifications.  The whole field is one array, a function of positions along the axes; transposes between processes are left out (C01, C06).
    Layouts are numbered by how many of the last axes are in grid space.  Transforms along an axis are functions of lists of values, given the
    number of grid points; buffers are left out (C62).  Scales are real numbers without rounding. *)
From Coq Require Import List Arith Bool Reals ZArith.
Import ListNotations.
From Verif Require AdvectiveCFL_Model.

Section Filters.
Context {V : Type} (zero : V) (minus : V -> V -> V).
(** Axes, and the number of coefficients along each of them, one without a basis. *)
Context (dim : nat) (coeffs : nat -> nat).
(** [fwd a n] takes [n] grid values to coefficients along axis [a], [bwd a n] coefficients to [n] grid values: basis.py, [forward_transform] and
    [backward_transform] with the plan for the grid size. *)
Context (fwd bwd : nat -> nat -> list V -> list V).

Definition place := nat -> nat.
Definition array := place -> V.
Definition moved_to (p : place) (a j : nat) : place := fun b => if b =? a then j else p b.
(** A transform along axis [a], of [n] values. *)
Definition along (a n : nat) (f : list V -> list V) (x : array) : array :=
  fun p => nth (p a) (f (map (fun j => x (moved_to p a j)) (seq 0 n))) zero.

Record field := Field { scales : list R; layout : nat; data : array }.
Definition scale (s : list R) (a : nat) : R := nth a s R0.
(** basis.py:141-144, the grid size of axis [a]; the size of the basis is that of its coefficients. *)
Definition grid (s : list R) (a : nat) : nat := AdvectiveCFL_Model.grid_size (scale s a) (coeffs a).

(** field.py:664-672: the last axis in coefficient space goes to grid space, the first axis in grid space to coefficient space
    (distributor.py, paths of transforms). *)
Definition towards_grid (f : field) : field :=
  let a := dim - S (layout f) in Field (scales f) (S (layout f)) (along a (coeffs a) (bwd a (grid (scales f) a)) (data f)).
Definition towards_coeff (f : field) : field :=
  let a := dim - layout f in Field (scales f) (pred (layout f)) (along a (grid (scales f) a) (fwd a (grid (scales f) a)) (data f)).
(** field.py:674-690: [require_grid_space()], [require_coeff_space()] and [require_coeff_space(axis)]; as many steps as there are layouts. *)
Fixpoint repeat_while (fuel : nat) (test : field -> bool) (step : field -> field) (f : field) : field :=
  match fuel with O => f | S fuel => if test f then repeat_while fuel test step (step f) else f end.
Definition in_grid (f : field) (a : nat) : bool := dim - layout f <=? a.
Definition require_grid : field -> field := repeat_while dim (fun f => layout f <? dim) towards_grid.
Definition require_coeff : field -> field := repeat_while dim (fun f => 0 <? layout f) towards_coeff.
Definition require_coeff_axis (a : nat) : field -> field := repeat_while dim (fun f => in_grid f a) towards_coeff.

(** field.py:631-648, with the loop of lines 640-645 over the axes from the last to the first. *)
Definition same (x y : R) : bool := if Req_EM_T x y then true else false.
Fixpoint match_scales (old new : list R) (axes : nat) (f : field) : field :=
  match axes with
  | O => f
  | S a => if negb (in_grid f a) then f else if same (scale old a) (scale new a) then match_scales old new a f else require_coeff_axis a f
  end.
Definition same_scales (old new : list R) : bool := if list_eq_dec Req_EM_T old new then true else false.
Definition change_scales (s : list R) (f : field) : field :=
  if same_scales (scales f) s then f else let f := match_scales (scales f) s dim f in Field s (layout f) (data f).

(** field.py:945-967, [low_pass_filter]: with scales, or with a shape, from which [scales = np.array(shape) / global_shape]; both raise an
    exception, and without either [remedy_scales] gives scales of one.  Scales of zero, which also raise, are left out. *)
Definition low_pass_scales (s : list R) (f : field) : field := change_scales (scales f) (require_grid (change_scales s f)).
Definition shape_scales (shape : list nat) : list R := map (fun an => (INR (snd an) / INR (grid (repeat R1 dim) (fst an)))%R) (combine (seq 0 (length shape)) shape).
Definition low_pass (shape : option (list nat)) (s : option (list R)) (f : field) : option field :=
  match shape, s with
  | Some shape, None => Some (low_pass_scales (shape_scales shape) f)
  | None, Some s => Some (low_pass_scales s f)
  | None, None => Some (low_pass_scales (repeat R1 dim) f)
  | Some _, Some _ => None
  end.
(** [self['c']]: field.py:578-586. *)
Definition read (f : field) : field := require_coeff f.
(** field.py:969-984, [high_pass_filter]. *)
Definition high_pass (shape : option (list nat)) (s : option (list R)) (f : field) : option field :=
  let f := read f in
  let orig := data f in
  match low_pass shape s f with
  | None => None
  | Some f => let f := read f in let filt := data f in Some (Field (scales f) 0 (fun p => minus (orig p) (filt p)))
  end.
End Filters.
