(** Transforms between coefficients and values on grids of Gauss points: the matrices of dedalus/core/transforms.py:115-158 (Jacobi
    polynomials), 1394-1446 (disks) and 1500-1577 (balls), and the transforms of shells and annuli in dedalus/core/basis.py.

    Simplifications.  Reals without rounding; the mass and the Gauss points and weights (scipy, dedalus_sphere/jacobi.py:32-67) are
    arguments.  One line of data along the direction of the transform; [apply_dense] and [apply_matrix] multiply each line by the
    matrix ([Radial_Spec.image]).  Whether data are truncated before conversion is the argument [early].  [None] is an exception. *)
From Coq Require Import List ZArith Reals Bool.
Import ListNotations.
From Verif Require Import MatSolvers_Model Codomain_Model JacobiCalc_Model Radial_Model.
Local Open Scope R_scope.

Fixpoint each_some {A} (l : list (option A)) : option (list A) := match l with [] => Some [] | a :: l => obind a (fun a => obind (each_some l) (fun l => Some (a :: l))) end.
(** The array of the values of [n] functions on a grid. *)
Definition values (n : nat) (f : R -> option (list R)) (grid : list R) : option (mat R) :=
  obind (each_some (map f grid)) (fun cols => Some (Mat n (length grid) (fun i t => nth i (nth t cols []) 0))).
(** [W * weights]; [W\[c:\] = 0]; [W\[:r\]]; [C @ W]. *)
Definition weigh (weights : list R) (W : mat R) : mat R := Mat (nr W) (nc W) (fun i t => at_ W i t * nth t weights 0).
Definition zero_from (c : nat) (W : mat R) : mat R := Mat (nr W) (nc W) (fun i t => if (c <=? i)%nat then 0 else at_ W i t).
Definition top (r : nat) (W : mat R) : mat R := Mat (Nat.min r (nr W)) (nc W) (at_ W).
Definition product (A B : mat R) : option (mat R) := if (nc A =? nr B)%nat then Some (mmul 0 Rplus Rmult A B) else None.

Section Transforms.
Context (mass : R -> R -> R) (quadrature : nat -> R -> R -> list (R * R)).

(** transforms.py:119-144. *)
Definition jacobi_forward_matrix (early : bool) (N M : nat) (a b a0 b0 : R) : option (mat R) :=
  let q := quadrature N a0 b0 in
  obind (values (Nat.max M N) (fun z => polynomials mass true None (Nat.max M N) a0 b0 z) (map fst q)) (fun base =>
  let base := zero_from N (weigh (map snd q) base) in
  let base := if early then top M base else base in
  obind (if Req_EM_T a a0 then if Req_EM_T b b0 then Some base else obind (conversion_matrix (nr base) a0 b0 a b) (fun C => product C base)
         else obind (conversion_matrix (nr base) a0 b0 a b) (fun C => product C base)) (fun F =>
  Some (if early then F else top M F))).
(** transforms.py:146-158. *)
Definition jacobi_backward_matrix (N M : nat) (a b a0 b0 : R) : option (mat R) :=
  let q := quadrature N a0 b0 in
  obind (values M (fun z => polynomials mass true None M a b z) (map fst q)) (fun P => Some (transpose (zero_from N P))).

(** zernike.py:13-24, [quadrature]. *)
Definition zernike_quadrature (dimension n : nat) (k : R) : list (R * R) :=
  map (fun zw => (fst zw, snd zw / Rpower 2 (k + INR dimension / 2 + 1))) (quadrature n k (INR dimension / 2 - 1)).
(** transforms.py:1408-1427 and 1514-1539, for functions of degree [l] of which the first [Nmin] are not stored: [Ng] points, [Nc]
    coefficients. *)
Definition radial_forward_matrix (early : bool) (dimension Ng Nc Nmin : nat) (alpha : R) (k : nat) (l : Z) : option (mat R) :=
  let q := zernike_quadrature dimension Ng alpha in
  let n := (Nat.max Ng Nc - Nmin)%nat in
  obind (values n (fun z => zernike_polynomials mass dimension n alpha (IZR l) z) (map fst q)) (fun W =>
  let W := weigh (map snd q) W in
  let W := zero_from (Z.to_nat (Z.max (Z.of_nat Ng - l / 2) 0)) W in
  let W := if early then top (Nc - Nmin) W else W in
  obind (if (0 <? k)%nat then obind (fn (opow (zernike_E dimension 1 1) k) (Z.of_nat (nr W), alpha, IZR l)) (fun C => product C W) else Some W) (fun W =>
  Some (if early then W else top (Nc - Nmin) W))).
(** transforms.py:1437-1446 and 1550-1575. *)
Definition radial_backward_matrix (dimension Ng Nc Nmin : nat) (alpha : R) (k : nat) (l : Z) : option (mat R) :=
  let q := zernike_quadrature dimension Ng alpha in
  let n := (Nc - Nmin)%nat in
  obind (values n (fun z => zernike_polynomials mass dimension n (alpha + INR k) (IZR l) z) (map fst q)) (fun W =>
  Some (transpose (zero_from (Z.to_nat (Z.max (Z.of_nat Ng - l / 2) 0)) W))).
(** transforms.py:1394-1446, for an order and a spin. *)
Definition disk_forward_matrix (early : bool) (Ng Nc : nat) (alpha : R) (k : nat) (m s : Z) : option (mat R) :=
  radial_forward_matrix early 2 Ng Nc (Z.to_nat (Z.max (Z.abs m / 2) 0)) alpha k (Z.abs (m + s)).
Definition disk_backward_matrix (Ng Nc : nat) (alpha : R) (k : nat) (m s : Z) : option (mat R) :=
  radial_backward_matrix 2 Ng Nc (Z.to_nat (Z.max (Z.abs m / 2) 0)) alpha k (Z.abs (m + s)).
(** transforms.py:1500-1577, for a degree and a regularity. *)
Definition ball_forward_matrix (early forbidden : bool) (Ng Nc : nat) (alpha : R) (k : nat) (ell regtotal : Z) : option (mat R) :=
  let Nmin := Z.to_nat (Z.max (ell / 2) 0) in
  if forbidden then if (Nc <? Nmin)%nat then None else Some (Mat (Nc - Nmin) Ng (fun _ _ => 0))
  else radial_forward_matrix early 3 Ng Nc Nmin alpha k (ell + regtotal).
Definition ball_backward_matrix (forbidden : bool) (Ng Nc : nat) (alpha : R) (k : nat) (ell regtotal : Z) : option (mat R) :=
  let Nmin := Z.to_nat (Z.max (ell / 2) 0) in
  if forbidden then if (Nc <? Nmin)%nat then None else Some (Mat Ng (Nc - Nmin) (fun _ _ => 0))
  else radial_backward_matrix 3 Ng Nc Nmin alpha k (ell + regtotal).

(** basis.py:2166-2207 and 3771-3839: shells and annuli, one component of a field and one line of data; [a], [b] are the parameters [alpha].
    First [_radius_grid] and [radial_transform_factor]; a power of a negative integer is the inverse of the power. *)
Definition shell_radius (inner outer z : R) : R := let dR := outer - inner in let rho := (outer + inner) / dR in dR / 2 * (z + rho).
Definition transform_factor (inner outer : R) (dk : Z) (z : R) : R := powerRZ ((outer - inner) / shell_radius inner outer z) dk.
Definition shell_forward (early : bool) (N M : nat) (inner outer a b : R) (k : nat) (g : nat -> R) : option (nat -> R) :=
  let g t := if (0 <? k)%nat then g t * transform_factor inner outer (- Z.of_nat k) (fst (nth t (quadrature N a b) (0, 0))) else g t in
  obind (jacobi_forward_matrix early N M (a + INR k) (b + INR k) a b) (fun F => Some (fun i => msum 0 Rplus (nc F) (fun t => at_ F i t * g t))).
Definition shell_backward (N M : nat) (inner outer a b : R) (k : nat) (c : nat -> R) : option (nat -> R) :=
  obind (jacobi_backward_matrix N M (a + INR k) (b + INR k) a b) (fun B => Some (fun t =>
    let v := msum 0 Rplus (nc B) (fun i => at_ B t i * c i) in
    if (0 <? k)%nat then v * transform_factor inner outer (Z.of_nat k) (fst (nth t (quadrature N a b) (0, 0))) else v)).
End Transforms.
