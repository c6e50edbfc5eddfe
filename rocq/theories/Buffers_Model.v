(** The buffers behind a field, and the views of them that a solver keeps. *)
From Coq Require Import List Arith Bool.
Import ListNotations.

Section Field.
Context {V T : Type} (teq : forall x y : T, {x = y} + {x <> y}).
(** [T] is the type of scales.  [top] is the index of the grid layout, 0 that of the coefficient layout, [grid l a] says whether axis [a] is in grid space in layout [l]
    (core/distributor.py:118-180, modelled in Layouts_Model).  [lsize l s] is the number of elements of one component in layout [l] with scales [s] (Layout.buffer_size,
    core/distributor.py:514-517; the item size is left out).  [ncomp] is the number of components, [dealias] the domain's dealias scales, [ones] the scales of 1. *)
Context (dim top : nat) (grid : nat -> nat -> bool) (lsize : nat -> list T -> nat) (ncomp : nat) (dealias ones : list T).
(** Contents of newly allocated memory (fftw.create_buffer), a further oracle. *)
Context (fresh : nat -> nat -> list V).
(** [incr l s] takes data from layout [l] to [S l], [decr l s] from [S l] to [l]: the transforms and transposes of a path (core/distributor.py, Transform and Transpose). *)
Context (incr decr : nat -> list T -> list V -> list V).
(** [pos] lists, for every subproblem, the flat positions in the coefficient data of the slices of its subsystems (core/subsystems.py:305-323). *)
Context (zero : V) (pos : list (list nat)).

(** [heap] holds the contents of all buffers ever made; number 0 is the dealias buffer.  [views] holds, for every subproblem, the buffer that its cached views look at. *)
Record field := Field { scales : option (list T); layout : nat; buffer : nat; heap : list (list V); views : list (option nat) }.

(** Distributor.buffer_size (core/distributor.py:184-186): the maximum over all layouts. *)
Definition buffer_size (s : list T) : nat := list_max (map (fun l => lsize l s) (seq 0 (S top))).

(** Field.data: an array over the beginning of the buffer (field.py:517-526).  Arrays are flat. *)
Definition current (s : option (list T)) : list T := match s with Some s => s | None => [] end.
Definition data_size (f : field) : nat := ncomp * lsize (layout f) (current (scales f)).
Definition raw (f : field) (b : nat) : list V := nth b (heap f) [].
Definition data (f : field) : list V := firstn (data_size f) (raw f (buffer f)).

(** Writing to buffer [b] from its beginning. *)
Fixpoint update {X} (l : list X) (n : nat) (x : X) : list X := match l, n with [], _ => [] | _ :: l, 0 => x :: l | y :: l, S n => y :: update l n x end.
Definition over (values old : list V) : list V := values ++ skipn (length values) old.
Definition write (values : list V) (f : field) : field :=
  Field (scales f) (layout f) (buffer f) (update (heap f) (buffer f) (over values (raw f (buffer f)))) (views f).

(** Current.preset_layout (field.py:517-526): numpy refuses a buffer that is too small. *)
Definition preset_layout (l : nat) (f : field) : option field :=
  let f' := Field (scales f) l (buffer f) (heap f) (views f) in
  if data_size f' <=? length (raw f' (buffer f')) then Some f' else None.

(** Comparison of scales. *)
Definition same_scales (a b : list T) : bool := if list_eq_dec teq a b then true else false.

(** Current.preset_scales (field.py:498-515). *)
Definition preset_scales (s : list T) (f : field) : option field :=
  if match scales f with Some s' => same_scales s s' | None => false end then Some f
  else
    let n := buffer_size s in
    let f' := if n <=? buffer_size dealias then Field (Some s) (layout f) 0 (heap f) (views f)
              else Field (Some s) (layout f) (length (heap f)) (heap f ++ [fresh (length (heap f)) (ncomp * n)]) (views f) in
    preset_layout (layout f') f'.

(** Field.__init__ (field.py:566-574), the dealias buffer (field.py:491-496), and one empty cache per subproblem. *)
Definition new_field : option field :=
  preset_scales ones (Field None 0 0 [fresh 0 (ncomp * buffer_size dealias)] (repeat None (length pos))).

(** Field.towards_grid_space and towards_coeff_space (field.py:664-672): one path, from the field's data to the field's data in the next layout. *)
Definition towards_grid (f : field) : option field :=
  let out := incr (layout f) (current (scales f)) (data f) in option_map (write out) (preset_layout (S (layout f)) f).
Definition towards_coeff (f : field) : option field :=
  let out := decr (pred (layout f)) (current (scales f)) (data f) in option_map (write out) (preset_layout (pred (layout f)) f).

(** Repetition, with as much fuel as there are layouts. *)
Fixpoint repeat_while (fuel : nat) (test : field -> bool) (step : field -> option field) (f : field) : option field :=
  if test f then match fuel with 0 => None | S fuel => match step f with None => None | Some f => repeat_while fuel test step f end end else Some f.

(** Field.require_coeff_space with an axis (field.py:683-690). *)
Definition require_coeff_axis (axis : nat) : field -> option field := repeat_while top (fun f => grid (layout f) axis) towards_coeff.

(** Field.change_layout (field.py:650-662). *)
Definition change_layout (l : nat) (f : field) : option field :=
  if layout f <? l then repeat_while top (fun f => layout f <? l) towards_grid f
  else if l <? layout f then repeat_while top (fun f => l <? layout f) towards_coeff f
  else Some f.

(** The loop of Field.change_scales (field.py:640-645): axes from the last to the first. *)
Fixpoint match_scales (old new : list T) (axes : nat) (f : field) : option field :=
  match axes with
  | 0 => Some f
  | S axis =>
      if negb (grid (layout f) axis) then Some f
      else match nth_error old axis, nth_error new axis with
           | Some a, Some b => if teq a b then match_scales old new axis f else require_coeff_axis axis f
           | _, _ => None
           end
  end.

(** Field.change_scales (field.py:631-648); [copyto] raises when the sizes differ. *)
Definition change_scales (s : list T) (f : field) : option field :=
  if match scales f with Some s' => same_scales s s' | None => false end then Some f
  else match match_scales (current (scales f)) s dim f with
       | None => None
       | Some f1 => let old := data f1 in match preset_scales s f1 with None => None | Some f2 => if length old =? data_size f2 then Some (write old f2) else None end
       end.

(** Field.__getitem__ and __setitem__ (field.py:578-600); the data to set has the right size. *)
Definition with_scales (change : list T -> field -> option field) (s : option (list T)) (f : field) : option field := match s with None => Some f | Some s => change s f end.
Definition getitem (l : nat) (s : option (list T)) (f : field) : option field := match with_scales change_scales s f with None => None | Some f => change_layout l f end.
Definition setitem (l : nat) (s : option (list T)) (values : list V) (f : field) : option field :=
  match with_scales preset_scales s f with
  | None => None
  | Some f => match preset_layout l f with None => None | Some f => if length values =? data_size f then Some (write values f) else None end
  end.

(** Subproblem._input_field_views (subsystems.py:325-332): the first call keeps the buffer that the field's data is in, later calls return the same. *)
Definition cached (f : field) (k : nat) : nat * field :=
  match nth k (views f) None with
  | Some b => (b, f)
  | None => (buffer f, Field (scales f) (layout f) (buffer f) (heap f) (update (views f) k (Some (buffer f))))
  end.

(** Subproblem.gather_inputs for all subproblems after Evaluator.require_coeff_space, as a time step does it (subsystems.py:344-355, timesteppers.py:143-147, 587-591);
    the preconditioners are left out. *)
Fixpoint gather_from (ks : list (nat * list nat)) (f : field) : list (list V) * field :=
  match ks with
  | [] => ([], f)
  | (k, ps) :: ks => let (b, f1) := cached f k in let (vs, f2) := gather_from ks f1 in (map (fun p => nth p (raw f1 b) zero) ps :: vs, f2)
  end.
Definition numbered : list (nat * list nat) := combine (seq 0 (length pos)) pos.
Definition gather (f : field) : option (list (list V) * field) := option_map (gather_from numbered) (change_layout 0 f).

(** Subproblem.scatter_inputs for all subproblems after preset_layout('c') (subsystems.py:369-377, timesteppers.py:170-184, 628-643, solvers.py:399-408). *)
Definition put (b : nat) (values : list (nat * V)) (f : field) : field :=
  Field (scales f) (layout f) (buffer f) (update (heap f) b (fold_left (fun r pv => update r (fst pv) (snd pv)) values (raw f b))) (views f).
Fixpoint scatter_to (ks : list (nat * list nat)) (values : list (list V)) (f : field) : field :=
  match ks, values with
  | (k, ps) :: ks, vs :: values => let (b, f1) := cached f k in scatter_to ks values (put b (combine ps vs) f1)
  | _, _ => f
  end.
Definition scatter (values : list (list V)) (f : field) : option field := option_map (scatter_to numbered values) (preset_layout 0 f).

(** What happens to a state field: the user reads or sets it, its scales or layout are changed (by the user or in evaluating expressions), the solver gathers or scatters. *)
Inductive event :=
| Read (l : nat) (s : option (list T)) | Set_ (l : nat) (s : option (list T)) (values : list V)
| Scale (s : list T) | Move (l : nat) | Gather | Scatter (values : list (list V)).

(** One event, with what is seen: the data read or gathered. *)
Definition happen (e : event) (f : field) : option (list (list V) * field) :=
  match e with
  | Read l s => option_map (fun f => ([data f], f)) (getitem l s f)
  | Set_ l s values => option_map (pair []) (setitem l s values f)
  | Scale s => option_map (pair []) (change_scales s f)
  | Move l => option_map (pair []) (change_layout l f)
  | Gather => gather f
  | Scatter values => option_map (pair []) (scatter values f)
  end.
Fixpoint history (es : list event) (f : field) : option (list (list (list V)) * field) :=
  match es with
  | [] => Some ([], f)
  | e :: es => match happen e f with None => None | Some (o, f) => option_map (fun r => (o :: fst r, snd r)) (history es f) end
  end.
End Field.
