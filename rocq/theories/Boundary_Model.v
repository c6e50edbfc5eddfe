(** Between the inside and the boundary: interpolation in the radius on disks, annuli, balls and shells, lifts, and the bases of edges
    (dedalus/core/basis.py:4870-5197, 5738-5889, 1799-1809, 2078-2079, 2360).

    Simplifications.  Rows are azimuthal indices and columns colatitudinal ones, and the last direction is the radial one; other
    directions are left out, and so is the one radial element of the results.  Reals without rounding: the real and imaginary parts of
    complex data are treated alike.  The mass is an argument.  [None] is an exception. *)
From Coq Require Import List Arith Bool ZArith Reals.
Import ListNotations.
From Verif Require Import CSR_Spec TupleTools_Model Intertwiner_Model Radial_Model Sphere_Model SphereEll_Model Polar_Model.
From Verif Require Integrals_Model.
Local Open Scope nat_scope.

(** array.py:104-131: the product of a matrix of one row, in [reshape_vector(v, dim=2, axis=1)] (array.py:31-36), with the [n] elements
    from [x 0] on. *)
Definition apply_row (v : list R) (n : nat) (x : nat -> R) : option R :=
  if length v =? n then Some (CSR_Spec.total 0%R Rplus n (fun i => nth i v 0%R * x i)%R) else None.

(** ** Disks and annuli *)
(** basis.py:4911-4922, for one spin component before the recombination; [vector] is [interpolation].  Products are written over what
    [out] has. *)
Definition polar_interpolate_step (vector : Z -> option (list R)) (x : nat -> nat -> R) (out : option (nat -> R)) (e : polar_map) : option (nat -> R) :=
  obind out (fun out => let '(m, mg, mc, ns) := e in
    obind (vector m) (fun v =>
      obind (apply_row v (snd ns - fst ns) (fun _ => 0%R)) (fun _ =>
        Some (fun a => if inside a mc then match apply_row v (snd ns - fst ns) (fun i => x a (fst ns + i)) with Some y => y | None => out a end else out a)))).
Definition polar_interpolate (p : polar) (d : dtype) (Nphi Nr Ng c0 n : nat) (vector : Z -> option (list R)) (x : nat -> nat -> R) (out : nat -> R) : option (nat -> R) :=
  obind (polar_maps p d Nphi Nr Ng c0 n) (fun maps => fold_left (polar_interpolate_step vector x) maps (Some out)).
(** basis.py:2532-2535 and 2228-2237. *)
Definition disk_vector (mass : R -> R -> R) (radius alpha : R) (k Nr : nat) (s : Z) (position : R) (m : Z) : option (list R) :=
  disk_interpolation mass radius alpha k m s (Integrals_Model.n_size (nmin Disk m) Nr) position.
Definition annulus_vector (mass : R -> R -> R) (inner outer a b : R) (k Nr : nat) (position : R) (m : Z) : option (list R) :=
  shell_interpolation mass inner outer a b k Nr position.

(** ** Balls and shells *)
Definition tensor := tuple -> nat -> nat -> R.
(** basis.py:5794-5806, for one component [r] and entry [e].  [nmin] is where [n_slice] starts and [vector] is [interpolation]. *)
Definition ball_interpolate_step (nmin : Z -> nat) (Nr : nat) (vector : Z -> Z -> option (list R)) (x : tuple -> nat -> nat -> nat -> R)
    (out : option tensor) (re : tuple * ell_map) : option tensor :=
  obind out (fun out => let (r, e) := re in let ell := fst (fst e) in
    if regularity_allowed ell r then
      obind (vector ell (zsum r)) (fun v =>
        obind (apply_row v (Nr - nmin ell) (fun _ => 0%R)) (fun _ =>
          Some (fun r' a b => if tuple_eqb r' r && covers e a b
                              then match apply_row v (Nr - nmin ell) (fun q => x r a b (nmin ell + q)) with Some y => y | None => out r' a b end else out r' a b)))
    else Some out).
(** operators.py:3144-3163 with basis.py:5875-5889: the product is added, on zeros.  The slices of an entry have elements. *)
Definition shell_interpolate_step (Nr : nat) (vector : option (list R)) (x : tuple -> nat -> nat -> nat -> R) (out : option tensor) (re : tuple * ell_map) : option tensor :=
  obind out (fun out => let (r, e) := re in let ell := fst (fst e) in
    if regularity_allowed ell r && regularity_allowed ell r then
      obind vector (fun v =>
        obind (apply_row v Nr (fun _ => 0%R)) (fun _ =>
          Some (fun r' a b => if tuple_eqb r' r && covers e a b
                              then match apply_row v Nr (fun q => x r a b q) with Some y => out r' a b + y | None => out r' a b end%R else out r' a b)))
    else Some out).
(** basis.py:3612-3627: [Q @ data] in the slices of each entry.  The spin and regularity components have the same numbers. *)
Definition regularity_to_spin_step (order : nat) (out : tensor) (e : ell_map) : tensor :=
  fun s a b => if covers e a b then rsum (map (fun r => Q (fst (fst e)) r s * out r a b)%R (range ordering order)) else out s a b.
Definition regularity_to_spin (order : nat) (maps : list ell_map) (out : tensor) : tensor :=
  if 0 <? order then fold_left (regularity_to_spin_step order) maps out else out.
(** basis.py:5783-5807: all components, on what [out] has. *)
Definition ball_interpolate (order : nat) (maps : list ell_map) (nmin : Z -> nat) (Nr : nat) (vector : Z -> Z -> option (list R))
    (x : tuple -> nat -> nat -> nat -> R) (out : tensor) : option tensor :=
  option_map (regularity_to_spin order maps) (fold_left (ball_interpolate_step nmin Nr vector x) (list_prod (range ordering order) maps) (Some out)).
(** basis.py:5863-5870, with operators.py:3138-3143: [out.data[:] = 0]. *)
Definition shell_interpolate (order : nat) (maps : list ell_map) (Nr : nat) (vector : option (list R)) (x : tuple -> nat -> nat -> nat -> R) (out : tensor) : option tensor :=
  option_map (regularity_to_spin order maps) (fold_left (shell_interpolate_step Nr vector x) (list_prod (range ordering order) maps) (Some (fun _ _ _ => 0%R))).
(** basis.py:3676-3679 and 4009-4012; [_nmin] of balls is [ell // 2]. *)
Definition ball_nmin (ell : Z) : nat := Z.to_nat (ell / 2).
Definition ball_vector (mass : R -> R -> R) (radius alpha : R) (k Nr : nat) (position : R) (ell regtotal : Z) : option (list R) :=
  ball_interpolation mass radius alpha k ell regtotal (Nr - ball_nmin ell) position.

(** ** Lifts *)
(** basis.py:4985-4992, 5036-5043, 5091-5098, 5145-5152, 5192-5199: a column of zeros with a one, at a place counted from the end if it is
    negative. *)
Definition lift_column (n : Z) (size : nat) : option (list R) :=
  let place := if (n <? 0)%Z then (n + Z.of_nat size)%Z else n in
  if (0 <=? place)%Z && (place <? Z.of_nat size)%Z then Some (map (fun i => if (Z.of_nat i =? place)%Z then 1%R else 0%R) (seq 0 size)) else None.
(** The coefficients of a radial group, of the one coefficient [tau] on the boundary. *)
Definition lift (n : Z) (size : nat) (tau : R) : option (nat -> R) :=
  option_map (fun column i => (nth i column 0 * tau)%R) (lift_column n size).
(** basis.py:4969-4977: the groups of a disk are of order [m]. *)
Definition disk_lift (n : Z) (Nr : nat) (m : Z) (tau : R) : option (nat -> R) := lift n (Integrals_Model.n_size (nmin Disk m) Nr) tau.

(** ** Edges *)
(** basis.py:1798-1809 with tools/cache.py:53-136.  Bases on circles are cached by their arguments, of which [key] stands for those that
    a disk or annulus [i] gives: coordinate, size, bounds, dealias and library.  The radius is none of them: it is set on the
    instance.  Calls of one disk or annulus are cached by the radius, [None] being the radius of its azimuthal basis. *)
Section Edges.
Context (key : nat -> nat).
Record edges := { radius_of : nat -> option R; called : nat -> list (option R) }.
Definition option_R_dec (x y : option R) : {x = y} + {x <> y}.
Proof. decide equality. apply Req_EM_T. Defined.
Definition S1_basis (s : edges) (i : nat) (r : option R) : edges :=
  if in_dec option_R_dec r (called s i) then s
  else {| radius_of := fun q => if q =? key i then r else radius_of s q; called := fun j => if j =? i then r :: called s i else called s j |}.
(** basis.py:1772, 2078-2079 and 2360: the calls of a new annulus and of a new disk. *)
Definition new_annulus (s : edges) (i : nat) (inner outer : R) : edges := S1_basis (S1_basis (S1_basis s i None) i (Some inner)) i (Some outer).
Definition new_disk (s : edges) (i : nat) (radius : R) : edges := S1_basis (S1_basis s i None) i (Some radius).
End Edges.
