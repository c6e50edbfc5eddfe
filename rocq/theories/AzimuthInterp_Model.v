(** Interpolation in azimuth on disks, annuli, spheres, balls and shells: [InterpolateAzimuth] of dedalus/core/basis.py.

    Simplifications.  Reals and complex numbers without rounding.  One line of the data along azimuth; the other directions and the tensor components
    are spectators.  [None] is an exception. *)
From Coq Require Import Reals ZArith.
From stdpp Require Import list.
From Verif Require Import MatSolvers_Model AffineCOV_Model FourierCalc_Model Sphere_Model Numpy_Model Fourier_Model.
Local Open Scope R_scope.

(** basis.py:141-144 along azimuth, with the dealiasing scale [num / den]. *)
Definition grid_size (num den M : nat) : nat := if (M =? 1)%nat then 1%nat else ((num * M + den - 1) / den)%nat.
(** basis.py:1748-1768, 2749-2769: the permutation of azimuthal modes, if any. *)
Definition azimuth_permutation (d : dtype) (M : nat) : option (list nat) :=
  if (0 <? mmax M)%nat then Some (match d with Complex128 => complex_m_perm M | Float64 => real_m_perm M end) else None.
(** [matrix[perm]]; indexing with None adds an axis of one entry, which matmul and the assignment to the output do away with. *)
Definition permuted_rows {A} (rows : list A) (perm : option (list nat)) : option (list A) := match perm with None => Some rows | Some p => take_all rows p end.

(** basis.py:5609-5623, for complex and for real data; [c] is the change of variables of the azimuthal basis. *)
Definition complex_vector (c : cov) (N M : nat) (p : position) : option (nat -> C) :=
  forward ← permuted_rows (map (cmmt_forward_entry N M) (seq 0 M)) (azimuth_permutation Complex128 M);
  ks ← azimuth_wavenumbers Complex128 M;
  interp ← complex_interpolation c ks p;
  if decide (nc interp = length forward) then Some (fun t => csum (nc interp) (fun j => Cmul (at_ interp 0 j) (nth j forward (fun _ => C0) t))) else None.
Definition real_vector (c : cov) (N M : nat) (p : position) : option (nat -> R) :=
  if rmmt_shapes_ok M then
    forward ← permuted_rows (map (rmmt_forward_entry N M) (seq 0 (Nat.max 2 M))) (azimuth_permutation Float64 M);
    ks ← azimuth_wavenumbers Float64 M;
    interp ← real_interpolation c ks p;
    if decide (nc interp = length forward) then Some (fun t => rsum (nc interp) (fun j => at_ interp 0 j * nth j forward (fun _ => 0) t)) else None
  else None.
(** basis.py:5625-5635: matmul raises if the data has another number of points than the vector. *)
Definition interpolate_complex (c : cov) (num den M : nat) (p : position) (data : list C) : option C :=
  let N := grid_size num den M in
  v ← complex_vector c N M p; if decide (length data = N) then Some (csum N (fun t => Cmul (v t) (cat data t))) else None.
Definition interpolate_real (c : cov) (num den M : nat) (p : position) (data : list R) : option R :=
  let N := grid_size num den M in
  v ← real_vector c N M p; if decide (length data = N) then Some (rsum N (fun t => v t * rat data t)) else None.
