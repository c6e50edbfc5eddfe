(** Grid spacings and advective grid-crossing frequencies: dedalus/core/basis.py and dedalus/core/operators.py.

    Simplifications.  Reals without rounding.  [None] is an exception; in arrays of spacings [None] is [np.inf].  Dividing by a spacing of
    zero gives zero here and infinity in numpy.  Arrays that vary along one axis are lists, indexed by the position along that axis.
    Nodes of Gauss-Jacobi quadratures, and grids in azimuth and radius, are given. *)
From Coq Require Import List ZArith Reals Bool.
Import ListNotations.
From Verif Require Import AffineCOV_Model Blocks_Model.
Local Open Scope R_scope.

Definition obind {A B} (x : option A) (f : A -> option B) : option B := match x with Some a => f a | None => None end.
Fixpoint omap_all {A B} (f : A -> option B) (l : list A) : option (list B) :=
  match l with [] => Some [] | a :: l => obind (f a) (fun b => obind (omap_all f l) (fun bs => Some (b :: bs))) end.

(** basis.py:141-144 for one axis: [int(np.ceil(s*n))], and one point for size one. *)
Definition ceiling (x : R) : Z := (- Int_part (- x))%Z.
Definition grid_size (scale : R) (size : nat) : nat := if (size =? 1)%nat then 1%nat else Z.to_nat (ceiling (scale * INR size)).

(** [np.gradient(grid, axis=axis, edge_order=2)] with unit distances (numpy): three points at least. *)
Definition gradient (g : list R) : option (list R) :=
  let n := length g in
  let x i := nth i g 0 in
  if (n <? 3)%nat then None else
  Some (map (fun i => if (i =? 0)%nat then - (3 / 2) * x 0%nat + 2 * x 1%nat - 1 / 2 * x 2%nat
                      else if (i =? n - 1)%nat then 1 / 2 * x (n - 3)%nat - 2 * x (n - 2)%nat + 3 / 2 * x (n - 1)%nat
                      else (x (i + 1)%nat - x (i - 1)%nat) / 2) (seq 0 n)).

(** The process: which axes are local in the full grid layout, and the mesh size and coordinate of each axis. *)
Record process := Process { is_local : nat -> bool; mesh_size : nat -> nat; mesh_coord : nat -> nat }.
(** distributor.py:393-401 in the full grid layout, for an axis with [n] points in chunks of one. *)
Definition elements (p : process) (axis n : nat) : list nat := axis_elements n 1 (is_local p axis) (mesh_size p axis) (mesh_coord p axis).
(** [np.ravel(global_spacing)[local_elements]]. *)
Definition pick {A} (d : A) (l : list A) (els : list nat) : list A := map (fun e => nth e l d) els.

(** ** Cartesian coordinates *)
Inductive kind := FourierKind | JacobiKind (a b : R).
Record interval := Interval { b_kind : kind; b_size : nat; b_dealias : R; b_cov : cov; b_nodes : nat -> list R }.
(** basis.py:501-504 and 910-913. *)
Definition native_grid (b : interval) (scale : R) : list R :=
  match b_kind b with FourierKind => fourier_native_grid (grid_size scale (b_size b)) | JacobiKind _ _ => b_nodes b (grid_size scale (b_size b)) end.
(** basis.py:381-384. *)
Definition global_grid_spacing (b : interval) (scale : R) : option (list R) :=
  obind (omap_all (fun x => problem_coord (b_cov b) (At x)) (native_grid b scale)) gradient.
(** basis.py:386-392; [axis] is the axis of the basis. *)
Definition local_grid_spacing (p : process) (axis : nat) (b : interval) (scale : R) : option (list R) :=
  obind (global_grid_spacing b scale) (fun g => Some (pick 0 g (elements p axis (grid_size scale (b_size b))))).
Definition is_chebyshev (k : kind) : bool :=
  match k with JacobiKind a b => if Req_EM_T a (- (1 / 2)) then if Req_EM_T b (- (1 / 2)) then true else false else false | _ => false end.
(** basis.py:6082-6106, one coordinate: the [i]-th of its system, on axis [axis].  The elements of the Chebyshev case are those along
    axis [i] (line 6095) of the domain of the basis, which has one point along all axes but its own; [reshape] asks for equal sizes. *)
Definition axis_spacing (p : process) (i axis : nat) (b : interval) : option (list R) :=
  let dealias := b_dealias b in
  let N := grid_size dealias (b_size b) in
  obind (local_grid_spacing p axis b dealias) (fun s =>
    if is_chebyshev (b_kind b) then
      let els := elements p i (if (i =? axis)%nat then N else 1%nat) in
      if (length els =? length s)%nat then
        Some (map (fun e => let theta := PI * (INR e + 1 / 2) / INR N in dealias * stretch (b_cov b) * sin theta * PI / INR N) (pick 0%nat (seq 0 N) els))
      else None
    else match b_kind b with
         | FourierKind => Some (map (fun _ => dealias * (2 * PI / INR N) * stretch (b_cov b)) s)
         | _ => Some (map (fun x => x * dealias) s)
         end).
(** The loop over the coordinates of a system whose first axis is [first]; [None] inside is [np.inf]. *)
Definition cartesian_spacing (p : process) (first : nat) (bases : list (option interval)) : option (list (option (list R))) :=
  omap_all (fun ib => match snd ib with
                      | Some b => obind (axis_spacing p (fst ib) (first + fst ib) b) (fun s => Some (Some s))
                      | None => Some None
                      end) (combine (seq 0 (length bases)) bases).

(** Data on a process: components, and the position along each axis. *)
Definition position_ := nat -> nat.
Definition velocity := nat -> position_ -> R.
(** [u / dx], with [dx] infinite or along an axis. *)
Definition crossing (u : R) (dx : option R) : R := match dx with Some d => u / d | None => 0 end.
Definition along (s : option (list R)) (x : nat) : option R := match s with Some s => Some (nth x s 0) | None => None end.
(** basis.py:6108-6111. *)
Definition cartesian_add (first : nat) (spacing : list (option (list R))) (u : velocity) (out : position_ -> R) : position_ -> R :=
  fold_left (fun out is => fun x => out x + crossing (Rabs (u (fst is) x)) (along (snd is) (x (first + fst is)%nat))) (combine (seq 0 (length spacing)) spacing) out.
(** operators.py:4397-4408, [operate]: the output is cleared first. *)
Definition cartesian_frequency (p : process) (first : nat) (bases : list (option interval)) (u : velocity) : option (position_ -> R) :=
  obind (cartesian_spacing p first bases) (fun s => Some (cartesian_add first s u (fun _ => 0))).

(** ** Disks and annuli *)
(** What a basis has: the grids in azimuth and radius for the dealias scales, how many points the layout has along azimuth (basis.py:1813-1818),
    the largest order and the second dealias factor. *)
Inductive plane := DiskPlane (radius : R) | AnnulusPlane.
Record polar_basis := PolarBasis { p_kind : plane; p_azimuths : list R; p_radii : list R; p_points : nat; p_mmax : nat; p_dealias : R }.
(** The array that [CachedMethod] keeps for [local_grid_spacing(dist, 0, scales)], once computed; writing into the result changes it. *)
Definition cached := option (list (option R)).
(** basis.py:1950-1962, azimuth and radius. *)
Definition azimuth_spacing (p : process) (axis points : nat) (azimuths : list R) (c : cached) : option (list (option R)) :=
  match c with
  | Some l => Some l
  | None => obind (gradient azimuths) (fun g => Some (pick None (map Some g) (elements p axis points)))
  end.
Definition radius_spacing (p : process) (axis : nat) (radii : list R) : option (list R) :=
  obind (gradient radii) (fun g => Some (pick 0 g (elements p axis (length radii)))).
Definition fill (x : option R) (l : list (option R)) : list (option R) := map (fun _ => x) l.
(** basis.py:6134-6147: the spacing in azimuth along azimuth or along radius, the one in radius, and what the cache has then. *)
Inductive azimuthal := AlongAzimuth (l : list (option R)) | AlongRadius (l : list R).
Definition polar_spacing (p : process) (axis : nat) (b : polar_basis) (c : cached) : option (azimuthal * list R * cached) :=
  obind (azimuth_spacing p axis (p_points b) (p_azimuths b) c) (fun a =>
  let '(az, c) := if (p_mmax b =? 0)%nat then (AlongAzimuth (fill None a), Some (fill None a))
                  else match p_kind b with
                       | DiskPlane radius => let a := fill (Some (radius / INR (p_mmax b))) a in (AlongAzimuth a, Some a)
                       | AnnulusPlane => (AlongRadius (map (fun r => r / INR (p_mmax b)) (pick 0 (p_radii b) (elements p (axis + 1) (length (p_radii b))))), Some a)
                       end in
  obind (radius_spacing p (axis + 1) (p_radii b)) (fun r => Some (az, map (Rmult (p_dealias b)) r, c))).
Definition azimuthal_at (a : azimuthal) (axis : nat) (x : position_) : option R :=
  match a with AlongAzimuth l => nth (x axis) l None | AlongRadius l => Some (nth (x (axis + 1)%nat) l 0) end.
(** basis.py:6149-6153. *)
Definition polar_add (axis : nat) (az : azimuthal) (radial : list R) (u : velocity) (out : position_ -> R) : position_ -> R :=
  fun x => out x + crossing (Rabs (u 0%nat x)) (azimuthal_at az axis x) + crossing (Rabs (u 1%nat x)) (Some (nth (x (axis + 1)%nat) radial 0)).
Definition polar_frequency (p : process) (axis : nat) (b : polar_basis) (c : cached) (u : velocity) : option (position_ -> R) :=
  obind (polar_spacing p axis b c) (fun '(az, radial, _) => Some (polar_add axis az radial u (fun _ => 0))).

(** ** Spheres, balls and shells *)
Record sphere_basis := SphereBasis { s_azimuths : list R; s_points : nat; s_Lmax : nat; s_radius : R }.
(** basis.py:6160-6172, with the value of [r]; the spacing and the cache. *)
Definition s2_spacing (Lmax : nat) (r : R) (a : list (option R)) : list (option R) :=
  if (Lmax =? 0)%nat then fill None a else fill (Some (r / sqrt (INR Lmax * (INR Lmax + 1)))) a.
Definition sphere_spacing (p : process) (axis : nat) (b : sphere_basis) (c : cached) : option (list (option R) * cached) :=
  obind (azimuth_spacing p axis (s_points b) (s_azimuths b) c) (fun a => let s := s2_spacing (s_Lmax b) (s_radius b) a in Some (s, Some s)).
(** basis.py:6174-6180. *)
Definition speed (u : velocity) (x : position_) : R := sqrt (u 0%nat x ^ 2 + u 1%nat x ^ 2).
Definition sphere_frequency (p : process) (axis : nat) (b : sphere_basis) (c : cached) (u : velocity) : option (position_ -> R) :=
  obind (sphere_spacing p axis b c) (fun '(s, _) => Some (fun x => 0 + crossing (speed u x) (nth (x axis) s None))).

Inductive volume := BallVolume (radius : R) | ShellVolume.
Record volume_basis := VolumeBasis { v_kind : volume; v_azimuths : list R; v_points : nat; v_radii : list R; v_Lmax : nat; v_dealias : R }.
(** basis.py:4217-4233: a grid of one point has an infinite spacing. *)
Definition volume_global_spacing (g : list R) : option (list (option R)) := if (length g =? 1)%nat then Some [None] else obind (gradient g) (fun g => Some (map Some g)).
Definition volume_local (p : process) (axis points : nat) (g : list R) : option (list (option R)) :=
  obind (volume_global_spacing g) (fun g => Some (pick None g (elements p axis points))).
Definition times_inf (c : R) (x : option R) : option R := match x with Some a => Some (a * c) | None => None end.
(** basis.py:6187-6198: the spacing on the sphere at a position in azimuth and radius, and the one in radius. *)
Definition volume_spacing (p : process) (axis : nat) (b : volume_basis) : option ((nat -> nat -> option R) * list (option R)) :=
  obind (volume_local p axis (v_points b) (v_azimuths b)) (fun a =>
  let s := match v_kind b with
           | BallVolume radius => fun i _ => nth i (s2_spacing (v_Lmax b) radius a) None
           | ShellVolume => fun i j => times_inf (nth j (pick 0 (v_radii b) (elements p (axis + 2) (length (v_radii b)))) 0) (nth i (s2_spacing (v_Lmax b) 1 a) None)
           end in
  obind (volume_local p (axis + 2) (length (v_radii b)) (v_radii b)) (fun r => Some (s, map (times_inf (v_dealias b)) r))).
(** basis.py:6200-6204. *)
Definition volume_frequency (p : process) (axis : nat) (b : volume_basis) (u : velocity) : option (position_ -> R) :=
  obind (volume_spacing p axis b) (fun '(s, r) =>
    Some (fun x => 0 + crossing (speed u x) (s (x axis) (x (axis + 2)%nat)) + crossing (Rabs (u 2%nat x)) (nth (x (axis + 2)%nat) r None))).

(** ** Direct products *)
(** basis.py:6114-6127 with operators.py:3370-3381: each system's components start where those before it end; each adds to the output. *)
Fixpoint product_add (systems : list (nat * (velocity -> (position_ -> R) -> position_ -> R))) (start : nat) (u : velocity) (out : position_ -> R) : position_ -> R :=
  match systems with
  | [] => out
  | (dim, add) :: systems => product_add systems (start + dim) u (add (fun i => u (start + i)%nat) out)
  end.
