(** What advective grid-crossing frequencies should be. *)
From Coq Require Import List ZArith Reals Bool.
Import ListNotations.
From Verif Require Import AffineCOV_Model AdvectiveCFL_Model.
Local Open Scope R_scope.

(** Points of a basis on the dealiased grid. *)
Definition points (b : interval) : nat := grid_size (b_dealias b) (b_size b).
(** A basis on [lo, hi], with at least three points. *)
Record on (b : interval) (lo hi : R) : Prop := On {
  on_order : lo < hi;
  on_cov : affine_cov (match b_kind b with FourierKind => fourier_bounds | JacobiKind _ _ => jacobi_bounds end) (lo, hi) = Some (b_cov b);
  on_nodes : length (b_nodes b (points b)) = points b;
  on_points : (3 <= points b)%nat
}.
(** Half the distance between a point's neighbours; at the ends, the distance to the next point corrected by half the change in distance. *)
Definition grid_step (x : nat -> R) (N g : nat) : R :=
  if (g =? 0)%nat then (x 1%nat - x 0%nat) - ((x 2%nat - x 1%nat) - (x 1%nat - x 0%nat)) / 2
  else if (g =? N - 1)%nat then (x (N - 1)%nat - x (N - 2)%nat) + ((x (N - 1)%nat - x (N - 2)%nat) - (x (N - 2)%nat - x (N - 3)%nat)) / 2
  else (x (S g) - x (pred g)) / 2.
(** The spacing at point [g] of the grid: uniform, or that of Chebyshev points, or by differences of the grid. *)
Definition spacing (b : interval) (lo hi : R) (g : nat) : R :=
  let N := points b in
  b_dealias b * match b_kind b with
                | FourierKind => (hi - lo) / INR N
                | k => if is_chebyshev k then (hi - lo) / 2 * (PI / INR N * sin (PI * (INR g + 1 / 2) / INR N))
                       else grid_step (fun j => lo + (hi - lo) * (nth j (b_nodes b N) 0 + 1) / 2) N g
                end.
(** The Chebyshev grid of [N] points on [lo, hi], with [t] in place of the index. *)
Definition chebyshev_grid (lo hi : R) (N : nat) (t : R) : R := lo + (hi - lo) * (1 - cos (PI * (t + 1 / 2) / INR N)) / 2.

(** Sum over components. *)
Fixpoint sum_to (n : nat) (f : nat -> R) : R := match n with O => 0 | S n => sum_to n f + f n end.
(** Where a process's position along an axis is in the global grid. *)
Definition global_index (p : process) (axis n x : nat) : nat := nth x (elements p axis n) 0%nat.
Definition within (p : process) (axis n x : nat) : Prop := (x < length (elements p axis n))%nat.
(** Crossings per unit time in direction [i] of a system that starts on axis [first]. *)
Definition direction (p : process) (first : nat) (bases : list (option interval)) (bounds : nat -> R * R) (u : velocity) (x : nat -> nat) (i : nat) : R :=
  match nth i bases None with
  | Some b => Rabs (u i x) / spacing b (fst (bounds i)) (snd (bounds i)) (global_index p (first + i) (points b) (x (first + i)%nat))
  | None => 0
  end.

(** Grids in azimuth have [n] equal steps. *)
Definition azimuths (n : nat) : list R := map (fun j => 2 * PI / INR n * INR j) (seq 0 n).
(** A disk or annulus whose grids have at least three points. *)
Definition polar_points (b : polar_basis) : Prop := (3 <= length (p_azimuths b))%nat /\ (3 <= length (p_radii b))%nat.
(** Crossings per unit length in azimuth: the largest order over the radius of a disk, or over that of the point in an annulus. *)
Definition azimuth_crossing (b : polar_basis) (r : R) : R := match p_kind b with DiskPlane radius => INR (p_mmax b) / radius | AnnulusPlane => INR (p_mmax b) / r end.
