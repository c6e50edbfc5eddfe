(** Spin-weighted spherical harmonics: dedalus/libraries/dedalus_sphere/sphere.py:9-63 with jacobi.py:147-186, the colatitude transforms
    with their values, and interpolation in colatitude in dedalus/core/basis.py:5638-5736.

    Simplifications.  Reals without rounding; the mass and the Gauss points and weights (scipy, jacobi.py) are arguments.  One spin
    component and real data (the matrices are real: the parts of complex numbers are treated alike).  [None] is an exception. *)
From Coq Require Import List ZArith Reals Bool.
Import ListNotations.
From Verif Require Import CSR_Spec JacobiCalc_Model Radial_Model Sphere_Model.
Local Open Scope R_scope.

(** Logarithms in numpy: that of zero is minus infinity. *)
Inductive extended := Finite (x : R) | MinusInfinity.
Definition xlog (x : R) : extended := if Req_EM_T x 0 then MinusInfinity else Finite (ln x).
Definition xadd (x y : extended) : extended := match x, y with Finite x, Finite y => Finite (x + y) | _, _ => MinusInfinity end.
(** Multiplication by a positive number. *)
Definition xscale (c : R) (x : extended) : extended := match x with Finite x => Finite (c * x) | MinusInfinity => MinusInfinity end.
Definition xexp (x : extended) : R := match x with Finite x => exp x | MinusInfinity => 0 end.

Section Mass.
Context (mass : R -> R -> R).
(** jacobi.py:147-186 with [log=True]. *)
Definition measure_log (a b : Z) (z : R) : extended :=
  let S := Finite 0 in
  let S := if (a =? 0)%Z then S else xadd S (xscale (IZR a) (xlog (1 - z))) in
  let S := if (b =? 0)%Z then S else xadd S (xscale (IZR b) (xlog (1 + z))) in
  xadd S (Finite (- ln (mass (IZR a) (IZR b)))).
(** sphere.py:24-41, without [ds] and [dm]: the number of functions and the parameters of the polynomials. *)
Definition spin2Jacobi (Lmax m s : Z) : Z * Z * Z := (Lmax + 1 - Z.max (Z.abs m) (Z.abs s), Z.abs (m + s), Z.abs (m - s))%Z.
(** sphere.py:43-63. *)
Definition harmonics (Lmax m s : Z) (cos_theta : R) : option (list R) :=
  let '(n, a, b) := spin2Jacobi Lmax m s in
  let init := xexp (xscale (1 / 2) (measure_log a b cos_theta)) in
  let init := init * powerRZ (-1) (Z.max m (- s)) in
  polynomials mass true (Some init) (Z.to_nat n) (IZR a) (IZR b) cos_theta.

Context (quadrature : nat -> R -> R -> list (R * R)).
(** sphere.py:9-21 and transforms.py:1304-1306: [Ng] points and weights. *)
Definition sphere_quadrature (Lmax : Z) : list (R * R) := quadrature (Z.to_nat (Lmax + 1)) 0 0.
Definition cos_grid (Ng t : nat) : R := fst (nth t (sphere_quadrature (Z.of_nat Ng - 1)) (0, 0)).
Definition grid_weight (Ng t : nat) : R := snd (nth t (sphere_quadrature (Z.of_nat Ng - 1)) (0, 0)).
(** The rows of [harmonics] at the points of the grid; the first is that of the degree [max(abs(m), abs(s))].  The values do not exist
    if [harmonics] raises. *)
Definition harmonic_value (Lmax Ng : nat) (m s ell : Z) (t : nat) : R :=
  match harmonics (Z.of_nat Lmax) m s (cos_grid Ng t) with Some Y => nth (Z.to_nat (ell - Z.max (Z.abs m) (Z.abs s))) Y 0 | None => 0 end.
(** transforms.py:1260-1340 with basis.py:3108-3153. *)
Definition colatitude_forward (d : dtype) (Nphi Ntheta Ng c0 n : nat) (s : Z) (g : nat -> nat -> R) : option (nat -> nat -> R) :=
  forward_colatitude 0 Rplus Rmult (harmonic_value (Lmax d Ntheta) Ng) (grid_weight Ng) d Nphi Ntheta Ng c0 n s g.
Definition colatitude_backward (d : dtype) (Nphi Ntheta Ng c0 n : nat) (s : Z) (c : nat -> nat -> R) : option (nat -> nat -> R) :=
  backward_colatitude 0 Rplus Rmult (harmonic_value (Lmax d Ntheta) Ng) (grid_weight Ng) d Nphi Ntheta Ng c0 n s c.

(** basis.py:5690-5714, for an order and a spin.  Without functions [harmonics] gives an array of shape (0, 1), which the product
    with the matrix does not allow. *)
Definition interpolation_vector (Lmax Ng : nat) (s m : Z) (theta : R) : option (nat -> R) :=
  if (m <=? Z.of_nat Lmax)%Z then
    let Lmin := Z.max (Z.abs m) (Z.abs s) in
    obind (harmonics (Z.of_nat Lmax) m s (cos theta)) (fun interp =>
    match swsh_matrix 0 Rmult (harmonic_value Lmax Ng) (grid_weight Ng) true Lmax Ng s m with
    | Some (Some (R, M)) =>
        let skip := Z.to_nat (Lmin - Z.abs m) in
        if (0 <? length interp)%nat && (length interp =? R - skip)%nat
        then Some (fun t => total 0 Rplus (length interp) (fun k => nth k interp 0 * M (skip + k)%nat t)) else None
    | _ => None
    end)
  else Some (fun _ => 0).
(** basis.py:5716-5736: the loop over orders; the output has one colatitude. *)
Fixpoint interpolate_loop (Lmax Ng : nat) (s : Z) (theta : R) (arg : nat -> nat -> R) (maps : list m_map) (out : nat -> R) : option (nat -> R) :=
  match maps with
  | [] => Some out
  | (m, mg, _, _) :: maps =>
      obind (interpolation_vector Lmax Ng s m theta) (fun v =>
      interpolate_loop Lmax Ng s theta arg maps (fun x => if inside x mg then total 0 Rplus Ng (fun t => v t * arg x t) else out x))
  end.
Definition interpolate_colatitude (d : dtype) (Nphi Ntheta Ng c0 n : nat) (s : Z) (theta : R) (arg : nat -> nat -> R) : option (nat -> R) :=
  obind (m_maps d Nphi Ntheta Ng c0 n) (fun maps => interpolate_loop (Lmax d Ntheta) Ng s theta arg maps (fun _ => 0)).
End Mass.
