(** Gradients, divergences, Laplacians, traces and curls on direct products of coordinate systems.
    Sources: dedalus/core/operators.py, dedalus/core/coords.py and dedalus/core/distributor.py. *)
From Coq Require Import List Arith Reals Bool.
From Coquelicot Require Import Coquelicot.
Import ListNotations.
Local Open Scope R_scope.

(** A point gives the value of the coordinate of each axis of the distributor (distributor.py:202-205, [get_axis]). *)
Notation point := (nat -> R).
(** A scalar is a function of the point.  Simplified: fields are the functions that their coefficients stand for, and every scalar
    has a basis along every coordinate, so that no derivative is replaced by the number 0. *)
Notation scalar := (point -> R).

(** The point [p] with the coordinate of axis [i] set to [t]. *)
Definition upd (p : point) (i : nat) (t : R) : point := fun j => if Nat.eqb j i then t else p j.

(** operators.py:1344-1371, [Differentiate] along the coordinate of axis [i].  That matrices on coefficients differentiate is C01 to C03. *)
Definition pd (i : nat) (f : scalar) : scalar := fun p => Derive (fun t => f (upd p i t)) (p i).

(** coords.py:159-172 and 265-280: the coordinate systems of a product, with the components azimuth and radius of polar ones.
    A single [Coordinate] (coords.py:66-76) is [Cartesian 1], to which the operators convert it (operators.py:2347-2349, 3447-3449).
    Not modelled: products with a sphere. *)
Inductive factor := Cartesian (n : nat) | Polar.

(** coords.py:168, 67, 273: [dim]. *)
Definition dim (c : factor) : nat := match c with Cartesian n => n | Polar => 2 end.

(** coords.py:109: [DirectProduct.dim]. *)
Definition dims (cs : list factor) : nat := list_sum (map dim cs).

(** Python's sum of the first [n] terms. *)
Definition total (n : nat) (x : nat -> R) : R := fold_right Rplus 0 (map x (seq 0 n)).

(** operators.py:2343-2402, [CartesianGradient], and the components in coordinates of [PolarGradient] (C86), of a system whose first axis is [s]. *)
Definition fgradient (c : factor) (s : nat) (f : scalar) (i : nat) : scalar :=
  match c with
  | Cartesian _ => pd (s + i) f
  | Polar => match i with O => fun p => / p (s + 1)%nat * pd s f p | _ => pd (s + 1) f end
  end.

(** operators.py:3436-3493, [CartesianDivergence], and [PolarDivergence] (C86). *)
Definition fdivergence (c : factor) (s : nat) (u : nat -> scalar) : scalar :=
  match c with
  | Cartesian n => fun p => total n (fun i => pd (s + i) (u i) p)
  | Polar => fun p => / p (s + 1)%nat * (pd s (u 0%nat) p + u 1%nat p) + pd (s + 1) (u 1%nat) p
  end.

(** operators.py:4016-4062, [CartesianLaplacian], and [PolarLaplacian] of scalars (C86). *)
Definition flaplacian (c : factor) (s : nat) (f : scalar) : scalar :=
  match c with
  | Cartesian n => fun p => total n (fun i => pd (s + i) (pd (s + i) f) p)
  | Polar => fun p => pd (s + 1) (pd (s + 1) f) p + / p (s + 1)%nat * pd (s + 1) f p + / p (s + 1)%nat * / p (s + 1)%nat * pd s (pd s f) p
  end.

(** operators.py:2098-2122, [CartesianSkew], and 2148-2165, [SpinSkew] on the components in coordinates. *)
Definition fskew (c : factor) (u : nat -> scalar) (i : nat) : scalar :=
  match c with
  | Cartesian _ => match i with O => fun p => - u 1%nat p | _ => u 0%nat end
  | Polar => match i with O => u 1%nat | _ => fun p => - u 0%nat p end
  end.

(** operators.py:2488: [out.data[i0:i0+cs.dim] = cs_grad.data]. *)
Definition assign (out : nat -> scalar) (i0 n : nat) (data : nat -> scalar) (j : nat) : scalar :=
  if Nat.leb i0 j && Nat.ltb j (i0 + n) then data (j - i0)%nat else out j.

(** operators.py:2485-2491: the loop of [DirectProductGradient.operate], over the gradients of 2419; [axis] is the axis of the next system. *)
Fixpoint gradient_loop (cs : list factor) (axis i0 : nat) (f : scalar) (out : nat -> scalar) : nat -> scalar :=
  match cs with
  | [] => out
  | c :: cs => gradient_loop cs (axis + dim c) (i0 + dim c) f (assign out i0 (dim c) (fgradient c axis f))
  end.
(** operators.py:2414-2491, [DirectProductGradient] of scalars, of a product whose first axis is [a0]. *)
Definition product_gradient (cs : list factor) (a0 : nat) (f : scalar) : nat -> scalar := gradient_loop cs a0 0 f (fun _ _ => 0).

(** operators.py:3366 and 3379-3381, 3405-3411: [DirectProductComponent] of a vector along a system whose first axis is [axis]. *)
Definition component (a0 axis : nat) (u : nat -> scalar) (i : nat) : scalar := u (axis - a0 + i)%nat.

(** operators.py:3503-3506: the components of [DirectProductDivergence], their divergences and their sum. *)
Fixpoint divergence_loop (cs : list factor) (a0 axis : nat) (u : nat -> scalar) : scalar :=
  match cs with
  | [] => fun _ => 0
  | c :: cs => fun p => fdivergence c axis (component a0 axis u) p + divergence_loop cs a0 (axis + dim c) u p
  end.
(** operators.py:3497-3541, [DirectProductDivergence] of vectors. *)
Definition product_divergence (cs : list factor) (a0 : nat) (u : nat -> scalar) : scalar := divergence_loop cs a0 a0 u.

(** operators.py:4069-4070: the sum of the Laplacians of the systems. *)
Fixpoint laplacian_loop (cs : list factor) (axis : nat) (f : scalar) : scalar :=
  match cs with
  | [] => fun _ => 0
  | c :: cs => fun p => flaplacian c axis f p + laplacian_loop cs (axis + dim c) f p
  end.
(** operators.py:4064-4107, [DirectProductLaplacian] of scalars. *)
Definition product_laplacian (cs : list factor) (a0 : nat) (f : scalar) : scalar := laplacian_loop cs a0 f.

(** operators.py:1873-1875: [DirectProductTrace], the sum of the traces of the diagonal blocks. *)
Fixpoint product_trace (cs : list factor) (i0 : nat) (T : nat -> nat -> R) : R :=
  match cs with
  | [] => 0
  | c :: cs => total (dim c) (fun i => T (i0 + i)%nat (i0 + i)%nat) + product_trace cs (i0 + dim c) T
  end.

(** coords.py:128-130: [curvilinear]. *)
Definition curvilinear (cs : list factor) : bool := existsb (fun c => match c with Polar => true | _ => false end) cs.

(** coords.py:110-117: [right_handed] of a product of three dimensions, given or by default. *)
Definition right_handed (cs : list factor) (given : option bool) : bool :=
  match given with
  | Some b => b
  | None => if curvilinear cs then false else true
  end.

(** What building an operator gives. *)
Inductive outcome A := Built (x : A) | ValueError | AttributeError.
Arguments Built {A}. Arguments ValueError {A}. Arguments AttributeError {A}.

(** operators.py:3781 and distributor.py:249-252: the tensor [I], here from a system at [i0] of the product, and its product with a vector. *)
Definition identity_entry (i0 n i j : nat) : R := if Nat.ltb j n && Nat.eqb i (i0 + j) then 1 else 0.

(** operators.py:3783-3798: the curl from the vertical part [uz], along the axis [z], and the horizontal part [uh], of the system [ch] at axis [s];
    [az] is the place of the vertical component and [i0] that of the first horizontal one (3776-3782).  [ez1@uz] is the component 0 of [uz]. *)
Definition curl_parts (ch : factor) (z s az i0 : nat) (flip : bool) (uz uh : nat -> scalar) (i : nat) : scalar := fun p =>
  let skew := fskew ch uh in
  let curl_h j := pd z (skew j) p - fskew ch (fgradient ch s (uz 0%nat)) j p in
  let curl_z := - ((if Nat.eqb i az then 1 else 0) * fdivergence ch s skew p) in
  let arg := total (dim ch) (fun j => identity_entry i0 (dim ch) i j * curl_h j) + curl_z in
  if flip then - arg else arg.

(** operators.py:3751-3801, [DirectProductCurl] of vectors.  The second test reads an attribute [dim] of the components, and operands have
    none (field.py:427-440, future.py:30-70), so that it never chooses the second order of the systems. *)
Definition product_curl (cs : list factor) (a0 : nat) (given : option bool) (u : nat -> scalar) : outcome (nat -> scalar) :=
  if negb (Nat.eqb (dims cs) 3) then ValueError
  else match cs with
  | cz :: ch :: rest =>
      if Nat.eqb (dim cz) 1 && Nat.eqb (dim ch) 2 then
        match rest with
        | [] => Built (curl_parts ch a0 (a0 + dim cz) 0 (dim cz) (eqb (curvilinear cs) (right_handed cs given))
                        (component a0 a0 u) (component a0 (a0 + dim cz) u))
        | _ => ValueError
        end
      else AttributeError
  | _ => AttributeError
  end.
