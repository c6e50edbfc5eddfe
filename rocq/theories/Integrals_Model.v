(** Integrals and averages of scalar fields over disks, annuli, balls and shells: dedalus/core/basis.py:5353-5575.

    Simplifications.  Reals without rounding: the real and imaginary parts of complex data are treated alike.  The mass and the Gauss
    points and weights are arguments.  The output is one number on each process: what it adds up for the constant field, which has
    one element, on the process with the first pieces.  [None] is an exception. *)
From Coq Require Import List Arith Bool ZArith Reals.
Import ListNotations.
From Verif Require Import MatSolvers_Model Codomain_Model JacobiCalc_Model Radial_Model GaussTransforms_Model Sphere_Model SphereEll_Model Polar_Model.
Local Open Scope R_scope.

(** [w[None, :] @ Q.T], and a matrix times a number. *)
Definition weighted_row (w : list R) (Q : mat R) : mat R := Mat 1 (nr Q) (fun _ i => msum 0 Rplus (nc Q) (fun t => nth t w 0 * at_ Q i t)).
Definition times (x : R) (A : mat R) : mat R := Mat (nr A) (nc A) (fun i j => at_ A i j * x).
Definition no_rows (n : nat) : mat R := Mat 0 n (fun _ _ => 0).

Section Matrices.
Context (mass : R -> R -> R) (quadrature : nat -> R -> R -> list (R * R)).
(** basis.py:1883-1886 and 3670-3673: the number of radial functions kept; [Nr] is the size of the basis. *)
Definition n_size (nmin : Z) (Nr : nat) : nat := (Nr - Z.to_nat nmin)%nat.
(** basis.py:5408-5414, 5429-5435 and 5541-5547: the part common to disks and balls. *)
Definition zernike_row (dimension Nr : nat) (alpha : R) (k : nat) (l : Z) (n : nat) : option (mat R) :=
  let q := zernike_quadrature quadrature dimension Nr 0 in
  obind (values n (fun z => zernike_polynomials mass dimension n (alpha + INR k) (IZR l) z) (map fst q)) (fun Qk => Some (weighted_row (map snd q) Qk)).
(** basis.py:5401-5420, [IntegrateDisk._radial_matrix]. *)
Definition disk_integral (Nr : nat) (radius alpha : R) (k : nat) (m : Z) : option (mat R) :=
  let n := n_size (nmin Disk m) Nr in
  if (m =? 0)%Z then obind (zernike_row 2 Nr alpha k (Z.abs m) n) (fun A => Some (times (2 * PI) (times (radius ^ 2) A))) else Some (no_rows n).
(** basis.py:5422-5440, [AverageDisk._radial_matrix]. *)
Definition disk_average (Nr : nat) (alpha : R) (k : nat) (m : Z) : option (mat R) :=
  let n := n_size (nmin Disk m) Nr in
  if (m =? 0)%Z then obind (zernike_row 2 Nr alpha k (Z.abs m) n) (fun A => Some (times 2 A)) else Some (no_rows n).
(** basis.py:5534-5553, [IntegrateBall._radial_matrix], with [_nmin] of basis.py:4085-4086. *)
Definition ball_integral (Nr : nat) (radius alpha : R) (k : nat) (ell : Z) : option (mat R) :=
  let n := n_size (ell / 2) Nr in
  if (ell =? 0)%Z then obind (zernike_row 3 Nr alpha k ell n) (fun A => Some (times (4 * PI / sqrt 2) (times (radius ^ 3) A))) else Some (no_rows n).
(** basis.py:5449-5458, 5472-5481 and 5562-5571: the part common to annuli ([power] is 1) and shells ([power] is 2). *)
Definition shell_row (power Nr : nat) (inner outer a b : R) (k n : nat) : option (mat R) :=
  let q := quadrature (2 * Nr) 0 0 in
  let dR := outer - inner in
  obind (values n (fun z => polynomials mass true None n (a + INR k) (b + INR k) z) (map fst q)) (fun Qk =>
  let w0_geom := map (fun zw => let r0 := shell_radius inner outer (fst zw) in r0 ^ power * snd zw * powerRZ (r0 / dR) (- Z.of_nat k)) q in
  Some (times (dR / 2) (weighted_row w0_geom Qk))).
(** basis.py:5442-5463, [IntegrateAnnulus._radial_matrix]. *)
Definition annulus_integral (Nr : nat) (inner outer a b : R) (k : nat) (m : Z) : option (mat R) :=
  let n := n_size (nmin Annulus m) Nr in
  if (m =? 0)%Z then obind (shell_row 1 Nr inner outer a b k n) (fun A => Some (times (2 * PI) A)) else Some (no_rows n).
(** basis.py:5465-5487, [AverageAnnulus._radial_matrix]. *)
Definition annulus_average (Nr : nat) (inner outer a b : R) (k : nat) (m : Z) : option (mat R) :=
  let n := n_size (nmin Annulus m) Nr in
  if (m =? 0)%Z then obind (shell_row 1 Nr inner outer a b k n) (fun A => Some (times (/ (PI * (outer ^ 2 - inner ^ 2))) (times (2 * PI) A))) else Some (no_rows n).
(** basis.py:5555-5575, [IntegrateShell._radial_matrix]; with [_nmin] of basis.py:3875-3876. *)
Definition shell_integral (Nr : nat) (inner outer a b : R) (k : nat) (ell : Z) : option (mat R) :=
  let n := n_size (0 * ell) Nr in
  if (ell =? 0)%Z then obind (shell_row 2 Nr inner outer a b k n) (fun A => Some (times (4 * PI / sqrt 2) A)) else Some (no_rows n).
End Matrices.

(** [apply_matrix] on a line of data, added to the output. *)
Definition add_product (A : mat R) (n : nat) (x : nat -> R) (s : R) : option R :=
  if (nc A =? n)%nat then Some (s + msum 0 Rplus (nc A) (fun j => at_ A 0 j * x j)) else None.
(** basis.py:5380-5398, [IntegrateSpinBasis.operate], for the data [c] of a process. *)
Definition polar_operate (matrix : Z -> option (mat R)) (maps : list polar_map) (c : nat -> nat -> R) : option R :=
  fold_left (fun s e => obind s (fun s => let '(m, mg, mc, ns) := e in
    if (m =? 0)%Z then obind (matrix m) (fun A => add_product A (snd ns - fst ns) (fun j => c (fst mc) (fst ns + j)%nat) s) else Some s)) maps (Some 0).
(** basis.py:5512-5532, [IntegrateSpherical.operate]; [nmin] is where [n_slice] starts.  A slice of one column. *)
Definition spherical_operate (matrix : Z -> option (mat R)) (nmin : Z -> nat) (Nr : nat) (maps : list ell_map) (c : nat -> nat -> nat -> R) : option R :=
  fold_left (fun s e => obind s (fun s => let '(ell, ms, es) := e in
    if (ell =? 0)%Z then obind (matrix ell) (fun A => add_product A (Nr - nmin ell) (fun j => c (fst ms) (fst es) (nmin ell + j)%nat) s) else Some s)) maps (Some 0).
