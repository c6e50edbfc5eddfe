(** Coordinates and domains: dedalus/core/coords.py, dedalus/core/domain.py and the coordinate lookups of
    dedalus/core/distributor.py.

    Objects carry a number for their identity; two objects are the same if all their fields agree.
    Hashes of coordinate systems and bases are identities (coords.py:30, basis.py:1903), so sets and
    dictionaries of them compare identities. *)
From stdpp Require Import gmap strings list.

(** coords.py:67-90, 194: coordinates of the two Python classes, compared by class and name. *)
Inductive ctype := Plain | Azimuthal.
Record coord := Coord { c_type : ctype; c_name : string }.
Global Instance ctype_dec : EqDecision ctype.
Proof. solve_decision. Defined.
Global Instance coord_dec : EqDecision coord.
Proof. solve_decision. Defined.

(** A coordinate system: [cs_class] is its Python class.  A single coordinate is its own system with one
    coordinate (coords.py:74). *)
Record coordsys := CoordSys { cs_id : nat; cs_class : nat; cs_coords : list coord }.
Global Instance coordsys_dec : EqDecision coordsys.
Proof. solve_decision. Defined.
Definition cs_dim (cs : coordsys) : nat := length (cs_coords cs).

(** coords.py:21-28, [CoordinateSystem.__eq__]: the loop returns in its first round. *)
Definition eq_loop (l : list coord) (other : list coord) : bool :=
  match l with
  | [] => false
  | c :: _ => match other with
    | [] => false
    | c' :: _ => if decide (c = c') then true else false
    end
  end.
Definition cs_eq (a b : coordsys) : bool :=
  if decide (cs_class a = cs_class b) then
    if decide (length (cs_coords a) = length (cs_coords b)) then eq_loop (cs_coords a) (cs_coords b) else false
  else false.

(** coords.py:103-112, [DirectProduct.__init__]: the test on repeated coordinates is by identity.  Each
    coordinate here carries the identity of its object. *)
Definition direct_product (systems : list (list (nat * coord))) : option (list (nat * coord)) :=
  let coords := concat systems in
  if decide (length (remove_dups coords) < length coords) then None else Some coords.

(** ** The distributor *)
(** distributor.py:86, 202-208; [None]: ValueError of [tuple.index]. *)
Definition dist_coords (systems : list coordsys) : list coord := concat (map cs_coords systems).
Definition coord_index (coords : list coord) (c : coord) : option nat := fst <$> list_find (fun c' => c' = c) coords.
Definition get_axis (coords : list coord) (cs : list coord) : option nat := c ← head cs; coord_index coords c.

(** distributor.py:119-126, [cs_by_axis]; later entries replace earlier ones. *)
Definition cs_by_axis (systems : list coordsys) : option (gmap nat coordsys) :=
  foldl (fun (acc : option (gmap nat coordsys)) cs =>
    d ← acc;
    foldl (fun (acc : option (gmap nat coordsys)) sub => d ← acc; axis ← get_axis (dist_coords systems) (cs_coords cs); Some (<[axis + sub := cs]> d))
      (Some d) (seq 0 (cs_dim cs))) (Some ∅) systems.

(** ** Domains *)
Record basis := Basis { b_id : nat; b_cs : coordsys; b_dim : nat }.
Global Instance basis_dec : EqDecision basis.
Proof. solve_decision. Defined.
Definition basis_axis (coords : list coord) (b : basis) : option nat := get_axis coords (cs_coords (b_cs b)).

(** general.py:11-25, [OrderedSet]: first occurrences, in order. *)
Definition ordered_set (l : list basis) : list basis := foldl (fun acc b => if decide (b ∈ acc) then acc else acc ++ [b]) [] l.

(** [sorted] with a key: stable. *)
Fixpoint insert_key {X} (key : X -> nat) (x : X) (l : list X) : list X :=
  match l with [] => [x] | y :: l' => if decide (key x <= key y) then x :: l else y :: insert_key key x l' end.
Definition sort_key {X} (key : X -> nat) (l : list X) : list X := foldr (insert_key key) [] l.

Inductive domain_result := Bases (l : list basis) | Overlapping | NotInDistributor.
(** domain.py:30-46, [Domain._preprocess_args]. *)
Definition domain_args (coords : list coord) (l : list (option basis)) : domain_result :=
  let l := omap id l in
  let l := ordered_set l in
  let cs := map b_cs l in
  if decide (length (remove_dups cs) < length cs) then Overlapping else
  match mapM (fun b => axis ← basis_axis coords b; Some (axis, b)) l with
  | None => NotInDistributor
  | Some l => Bases (map snd (sort_key fst l))
  end.

(** domain.py:66-71 ([full_bases]), 83-89 ([dealias]), 134-142, 148-156, 176-184: an array over the axes
    with a default, filled over the axes of each basis.  [None]: an index out of range, or no axis. *)
Definition fill {V} (coords : list coord) (d : V) (value : basis -> nat -> V) (bases : list basis) : option (list V) :=
  foldl (fun acc b =>
    foldl (fun acc sub => r ← acc; axis ← basis_axis coords b; if decide (axis + sub < length r) then Some (<[axis + sub := value b sub]> r) else None)
      acc (seq 0 (b_dim b))) (Some (replicate (length coords) d)) bases.
Definition full_bases (coords : list coord) (bases : list basis) : option (list (option basis)) := fill coords None (fun b _ => Some b) bases.
(** domain.py:98-103. *)
Definition get_basis (coords : list coord) (bases : list basis) (c : coord) : option (option basis) :=
  r ← full_bases coords bases; axis ← coord_index coords c; r !! axis.

(** domain.py:91-96, [substitute_basis]; bases are compared by identity (the one-dimensional bases are
    cached and have no other equality). *)
Fixpoint remove_first (x : basis) (l : list basis) : list basis :=
  match l with [] => [] | y :: l => if decide (y = x) then l else y :: remove_first x l end.
Definition substitute_basis (coords : list coord) (bases : list basis) (old new : option basis) : domain_result :=
  let l := match old with Some b => if decide (b ∈ bases) then remove_first b bases else bases | None => bases end in
  domain_args coords (map Some l ++ [new]).
