(** Model of the layout chain built by [Distributor] and of the layout moves of
    [Field].  Python exceptions are [None]. *)
From stdpp Require Import list.

(** dedalus/core/distributor.py:97-98.  [mesh = 1 + np.trim_zeros(mesh - 1, trim='b')]:
    drop trailing ones. *)
Fixpoint trim_ones (mesh : list nat) : list nat :=
  match mesh with
  | [] => []
  | m :: r =>
      match trim_ones r with
      | [] => if decide (m = 1) then [] else [m]
      | r' => m :: r'
      end
  end.

(** dedalus/tools/general.py / numpy [prod]. *)
Definition mesh_prod (mesh : list nat) : nat := foldr Nat.mul 1 mesh.

(** dedalus/core/distributor.py:90-108.  Default mesh, trimming, and the two
    [ValueError]s ([None]). *)
Definition accept_mesh (D nproc : nat) (mesh : option (list nat)) : option (list nat) :=
  let m := trim_ones (default [nproc] mesh) in
  if decide (D <= length m) then None
  else if decide (mesh_prod m = nproc) then Some m else None.

(** dedalus/core/distributor.py:111.  [reduced_mesh = [m for m in mesh if m > 1]]. *)
Definition reduced_mesh (mesh : list nat) : list nat := filter (fun m => 1 < m) mesh.

(** dedalus/core/distributor.py:311-335.  A [Layout] is its two flag arrays. *)
Record layout := Layout { local : list bool; grid : list bool }.

(** dedalus/core/distributor.py:588-599 and 696-716.  A path is a [Transform] or a
    [Transpose] with its axis. *)
Inductive path := Transform (axis : nat) | Transpose (axis : nat).

(** dedalus/core/distributor.py:133-140.  First layout: coefficient space, local
    except on mesh axes larger than one. *)
Definition layout0 (D : nat) (mesh : list nat) : layout :=
  Layout (map (fun m => bool_decide (m <= 1)) mesh ++ replicate (D - length mesh) true)
         (replicate D false).

(** dedalus/core/distributor.py:148-149.  [for d in reversed(range(D)): if not
    grid_space[d]] - the largest axis below [d] in coefficient space. *)
Fixpoint last_coeff (d : nat) (g : list bool) : option nat :=
  match d with
  | 0 => None
  | S d' => match g !! d' with
            | Some false => Some d'
            | Some true => last_coeff d' g
            | None => None
            end
  end.

(** dedalus/core/distributor.py:148-165.  One iteration of the outer loop.  [None]
    stands for the [IndexError] of [local[d+1]] and for [layout_i] being unbound. *)
Definition next_layout (D : nat) (l : layout) : option (path * layout) :=
  d ← last_coeff D (grid l);
  b ← local l !! d;
  if (b : bool) then
    Some (Transform d, Layout (local l) (<[d := true]> (grid l)))
  else
    if decide (S d < D) then
      Some (Transpose d, Layout (<[S d := false]> (<[d := true]> (local l))) (grid l))
    else None.

(** dedalus/core/distributor.py:146-169.  [for i in range(1, R+D+1)]. *)
Fixpoint build_loop (n D : nat) (l : layout) : option (list layout * list path) :=
  match n with
  | 0 => Some ([], [])
  | S n' =>
      '(p, l') ← next_layout D l;
      '(ls, ps) ← build_loop n' D l';
      Some (l' :: ls, p :: ps)
  end.

(** dedalus/core/distributor.py:131-175.  [_build_layouts]. *)
Definition build_layouts (D : nat) (mesh : list nat) : option (list layout * list path) :=
  let R := length (reduced_mesh mesh) in
  '(ls, ps) ← build_loop (R + D) D (layout0 D mesh);
  Some (layout0 D mesh :: ls, ps).

(** dedalus/core/distributor.py:331-335.  [ext[~local] = values]: numpy assigns the
    values to the non-local axes in order and raises if the counts differ. *)
Fixpoint assign_masked (loc : list bool) (dflt : nat) (vals : list nat) : option (list nat) :=
  match loc, vals with
  | [], [] => Some []
  | [], _ :: _ => None
  | true :: r, _ => ext ← assign_masked r dflt vals; Some (dflt :: ext)
  | false :: r, v :: vs => ext ← assign_masked r dflt vs; Some (v :: ext)
  | false :: _, [] => None
  end.

(** dedalus/core/distributor.py:331-333.  [Layout.ext_mesh]. *)
Definition ext_mesh (mesh : list nat) (l : layout) : option (list nat) :=
  assign_masked (local l) 1 (reduced_mesh mesh).

(** dedalus/core/distributor.py:712-715.  [comm_cart_axis] of a [Transpose]. *)
Definition comm_cart_axis (mesh : list nat) (axis : nat) : nat :=
  axis - length (filter (fun m => m = 1) (take axis mesh)).

(** ** Field moves.  A field's layout is its index in the layout list. *)
Section moves.
  Context (ls : list layout) (ps : list path).

  (** dedalus/core/field.py:664-667.  [paths[index].increment]: sets the layout to
      [layout1] of that path, i.e. index + 1. *)
  Definition towards_grid_space (i : nat) : option nat :=
    if decide (i < length ps) then Some (S i) else None.

  (** dedalus/core/field.py:669-672.  [paths[index-1].decrement]; for index 0 Python
      reads [paths[-1]], whose [layout0] is layout [len(paths) - 1]. *)
  Definition towards_coeff_space (i : nat) : option nat :=
    match i with
    | 0 => if decide (0 < length ps) then Some (length ps - 1) else None
    | S j => if decide (j < length ps) then Some j else None
    end.

  (** A Python [while not cond: move] loop with explicit fuel; running out of fuel
      is [None]. *)
  Fixpoint while_not (fuel : nat) (cond : layout -> bool) (move : nat -> option nat) (i : nat)
    : option nat :=
    l ← ls !! i;
    if cond l then Some i
    else match fuel with
         | 0 => None
         | S f => j ← move i; while_not f cond move j
         end.

  Definition flag (a : nat) (fl : list bool) (dflt : bool) : bool := default dflt (fl !! a).

  (** dedalus/core/field.py:651-662.  [change_layout]; [index < target] loops written on
      indices as in the code. *)
  Fixpoint change_layout (fuel target i : nat) : option nat :=
    if decide (i = target) then Some i
    else match fuel with
         | 0 => None
         | S f =>
             if decide (i < target) then j ← towards_grid_space i;
                if decide (j < target) then change_layout f target j else Some j
             else j ← towards_coeff_space i;
                if decide (target < j) then change_layout f target j else Some j
         end.

  (** dedalus/core/field.py:674-681. *)
  Definition require_grid_space (fuel : nat) (axis : option nat) (i : nat) : option nat :=
    match axis with
    | None => while_not fuel (fun l => forallb id (grid l)) towards_grid_space i
    | Some a => while_not fuel (fun l => flag a (grid l) true) towards_grid_space i
    end.

  (** dedalus/core/field.py:683-690. *)
  Definition require_coeff_space (fuel : nat) (axis : option nat) (i : nat) : option nat :=
    match axis with
    | None => while_not fuel (fun l => negb (existsb id (grid l))) towards_coeff_space i
    | Some a => while_not fuel (fun l => negb (flag a (grid l) false)) towards_coeff_space i
    end.

  (** dedalus/core/field.py:692-700. *)
  Definition require_local (fuel : nat) (a : nat) (i : nat) : option nat :=
    l ← ls !! i;
    if flag a (grid l) false
    then while_not fuel (fun l => flag a (local l) true) towards_coeff_space i
    else while_not fuel (fun l => flag a (local l) true) towards_grid_space i.

  (** dedalus/core/field.py:631-649.  [change_scales], the layout part: the loop over
      [axis in reversed(range(dim))]; [dif a] says whether the scale of axis [a] changes.
      Returns the layout in which the old data is copied into the new view. *)
  Fixpoint change_scales_loop (fuel d : nat) (dif : nat -> bool) (i : nat) : option nat :=
    match d with
    | 0 => Some i
    | S a =>
        l ← ls !! i;
        if negb (flag a (grid l) false) then Some i
        else if dif a then require_coeff_space fuel (Some a) i
        else change_scales_loop fuel a dif i
    end.
End moves.
