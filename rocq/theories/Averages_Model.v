(** Averages over azimuth and over spheres: dedalus/core/basis.py:5200-5351, on arrays distributed as in dedalus/core/distributor.py, with
    the loops of dedalus/core/operators.py that evaluate them.

    Simplifications.  Rows are azimuthal indices and columns colatitudinal ones (radial ones on disks and annuli); a third direction
    stands for the radial one of balls and shells, and has one element on spheres.  Other directions are left out.  Reals without
    rounding: the real and imaginary parts of complex data are treated alike.  Scalar fields and single components, except where
    said.  Operands are in coefficient space in all directions: it is required of the last one (operators.py:874-895), and the
    others follow.  [None] is an exception. *)
From Coq Require Import List Arith Bool ZArith Reals.
Import ListNotations.
From Verif Require Import Radial_Model Sphere_Model SphereEll_Model Polar_Model.
From Verif Require Blocks_Model Integrals_Model.
Local Open Scope nat_scope.

(** ** Distribution *)
(** distributor.py:356-386, along one direction with [chunks] chunks, dealt out to [P] processes, of which this is the [p]th: the first
    chunk and how many.  A direction that is local is one with [P = 1]. *)
Definition share (chunks P p : nat) : nat * nat :=
  let block := Blocks_Model.cdiv chunks P in
  let start := Nat.min chunks (block * p) in
  let stop := Nat.min chunks (block * (p + 1)) in (start, stop - start).
(** The chunks of rows of coefficients of a sphere, and of a disk or annulus. *)
Definition coeff_chunks (d : dtype) (Nphi Ntheta : nat) : nat := Blocks_Model.cdiv (fst (coeff_shape d Nphi Ntheta)) (coeff_chunk d).
Definition polar_chunks (d : dtype) (Nphi : nat) : nat := Blocks_Model.cdiv (polar_rows d Nphi) (polar_chunk d).

(** ** Azimuthal averages on spheres, balls and shells *)
(** [groups[azimuth_axis] == 0] as the list of the places of an array with [nr] rows, [nc] columns and [nk] layers, in memory order. *)
Definition zero_places (order : nat -> nat -> Z) (nr nc nk : nat) : list (nat * nat * nat) :=
  filter (fun p => let '(a, b, _) := p in (order a b =? 0)%Z) (flat_map (fun a => flat_map (fun b => map (fun k => (a, b, k)) (seq 0 nk)) (seq 0 nc)) (seq 0 nr)).
Definition same_place (p q : nat * nat * nat) : bool := let '(a, b, k) := p in let '(a', b', k') := q in (a =? a') && (b =? b') && (k =? k').
Fixpoint place_index (p : nat * nat * nat) (l : list (nat * nat * nat)) : option nat :=
  match l with [] => None | q :: l => if same_place p q then Some 0 else option_map S (place_index p l) end.
(** [comp_out[m0_out] = comp_in[m0_in]] on an array of zeros: as many values as places, or a single value. *)
Definition masked_copy (src dst : list (nat * nat * nat)) (x : nat -> nat -> nat -> R) : option (nat -> nat -> nat -> R) :=
  if (length src =? length dst) || (length src =? 1) then
    Some (fun a b k => match place_index (a, b, k) dst with
                       | Some q => let '(a, b, k) := nth (if length src =? 1 then 0 else q) src (0, 0, 0) in x a b k
                       | None => 0%R
                       end)
  else None.
(** basis.py:5238-5264 and 5267-5293, on the process at [p] of [P] in azimuth and [q] of [Q] in colatitude; the
    output basis has one azimuthal point (basis.py:5204-5209). *)
Definition azimuthal_average (d : dtype) (Nphi Ntheta nk P p Q q : nat) (x : nat -> nat -> nat -> R) : option (nat -> nat -> nat -> R) :=
  let places N := let (c0, n) := share (coeff_chunks d N Ntheta) P p in let (j0, nc) := share (snd (coeff_shape d N Ntheta)) Q q in
    zero_places (fun a b => fst (coeff_group d N Ntheta (coeff_chunk d * c0 + a) (j0 + b))) (coeff_chunk d * n) nc nk in
  masked_copy (places Nphi) (places 1) x.

(** ** Azimuthal averages on disks and annuli *)
(** A slice of an array of [n] elements: where it starts and how many it has. *)
Definition clipped (s : nat * nat) (n : nat) : nat := Nat.min (snd s) n - fst s.
(** operators.py:2926-2950 with basis.py:5222-5233: the table of orders is the one of the output basis.  [apply_matrix] with an identity
    matrix of the size of the columns, or with one without rows, whose product has no element to add. *)
Definition average_step (p : polar) (Nr rows_in rows_out : nat) (x : nat -> nat -> R) (out : option (nat -> nat -> R)) (e : polar_map) : option (nat -> nat -> R) :=
  obind out (fun out => let '(m, mg, mc, ns) := e in
    let vec_in := clipped mc rows_in * clipped ns Nr in
    let vec_out := clipped mc rows_out * clipped ns Nr in
    if (vec_in =? 0) || (vec_out =? 0) then Some out
    else
      let n_size := Integrals_Model.n_size (nmin p m) Nr in
      if (m =? 0)%Z && (n_size =? clipped ns Nr) && ((clipped mc rows_in =? clipped mc rows_out) || (clipped mc rows_in =? 1)) then
        Some (fun a b => if inside a mc && inside b ns then (out a b + x (if clipped mc rows_in =? 1 then fst mc else a) b)%R else out a b)
      else None).
Definition polar_azimuthal_average (p : polar) (d : dtype) (Nphi Nr Ng P q : nat) (x : nat -> nat -> R) : option (nat -> nat -> R) :=
  let (_, n) := share (polar_chunks d Nphi) P q in
  let (c0, n') := share (polar_chunks d 1) P q in
  obind (polar_maps p d 1 Nr Ng c0 n') (fun maps =>
    fold_left (average_step p Nr (polar_chunk d * n) (polar_chunk d * n') x) maps (Some (fun _ _ => 0%R))).

(** ** Averages over spheres *)
(** operators.py:3136-3167 with basis.py:5318-5350, for a scalar: the table of degrees is the one of the input basis.  [nmin] is where
    [n_slice] starts; the output basis has one point in each angle. *)
Definition spherical_step (nmin : Z -> nat) (Nr rows_in cols_in rows_out cols_out : nat) (x : nat -> nat -> nat -> R)
    (out : option (nat -> nat -> nat -> R)) (e : ell_map) : option (nat -> nat -> nat -> R) :=
  obind out (fun out => let '(ell, ms, es) := e in
    let vec_in := clipped ms rows_in * clipped es cols_in * (Nr - nmin ell) in
    let vec_out := clipped ms rows_out * clipped es cols_out * (Nr - nmin ell) in
    if (vec_in =? 0) || (vec_out =? 0) then Some out
    else if (ell =? 0)%Z && (clipped ms rows_in =? clipped ms rows_out) && (clipped es cols_in =? clipped es cols_out) then
      Some (fun a b k => if inside a ms && inside b es && (nmin ell <=? k) && (k <? Nr) then (out a b k + x a b k)%R else out a b k)
    else None).
Definition spherical_average (d : dtype) (nmin : Z -> nat) (Nphi Ntheta Nr P p Q q : nat) (x : nat -> nat -> nat -> R) : option (nat -> nat -> nat -> R) :=
  let (c0, n) := share (coeff_chunks d Nphi Ntheta) P p in
  let (j0, nc) := share (snd (coeff_shape d Nphi Ntheta)) Q q in
  let (_, n') := share (coeff_chunks d 1 1) P p in
  let (_, nc') := share (snd (coeff_shape d 1 1)) Q q in
  fold_left (spherical_step nmin Nr (coeff_chunk d * n) nc (coeff_chunk d * n') nc' x) (ell_maps d Nphi Ntheta c0 n j0 nc) (Some (fun _ _ _ => 0%R)).

(** operators.py:2803-2862 with basis.py:5290-5315, for components numbered from [0] up to [comps], if there are components ([rank] one),
    or a scalar ([rank] zero).  The slices, which are meant for rows and columns, are applied to the first directions of the arrays,
    components included.  Shapes are lists of sizes. *)
Fixpoint cut (slices shape : list nat) : list nat :=
  match slices, shape with s :: slices, n :: shape => Nat.min s n :: cut slices shape | _, _ => shape end.
(** numpy's rule for two sizes, and for adding a product of shapes [u] and [v] in place to an array of shape [w]. *)
Definition broadcast (u v : nat) : option nat := if u =? v then Some u else if u =? 1 then Some v else if v =? 1 then Some u else None.
Definition fits (u v w : nat) : bool := match broadcast u v with Some n => n =? w | None => false end.
Definition at_index (n a : nat) : nat := if n =? 1 then 0 else a.
Definition sphere_component (sym : nat * nat) (degree : nat -> nat -> Z) (cin cout : nat * nat) (x out : nat -> nat -> R) : option (nat -> nat -> R) :=
  if fits (fst sym) (fst cin) (fst cout) && fits (snd sym) (snd cin) (snd cout) then
    Some (fun a b => if (a <? fst cout) && (b <? snd cout)
      then (out a b + (if (degree (at_index (fst sym) a) (at_index (snd sym) b) =? 0)%Z then 1 else 0) * x (at_index (fst cin) a) (at_index (snd cin) b))%R
      else out a b)
  else None.
Definition local_sphere_average (comps : option nat) (degree : nat -> nat -> Z) (rows_in cols_in rows_out cols_out : nat) (x : nat -> nat -> nat -> R)
    : option (nat -> nat -> nat -> R) :=
  let tensor := match comps with None => [] | Some c => [c] end in
  let zero := fun _ _ _ => 0%R in
  if (rows_in * cols_in =? 0) || (rows_out * cols_out =? 0) then Some zero
  else
    let equal := (rows_in =? rows_out) && (cols_in =? cols_out) in
    let slices := if equal then [] else [Nat.min rows_in rows_out; Nat.min cols_in cols_out] in
    let shape_in := cut slices (tensor ++ [rows_in; cols_in]) in
    let shape_out := cut slices (tensor ++ [rows_out; cols_out]) in
    let sym := if equal then (rows_in, cols_in) else (Nat.min rows_in rows_out, Nat.min cols_in cols_out) in
    let last_two s := (nth (length tensor) s 0, nth (length tensor + 1) s 0) in
    let count := match comps with None => 1 | Some c => c end in
    let present := match comps with None => 1 | Some _ => nth 0 shape_in 0 end in
    fold_left (fun out i => obind out (fun out =>
        if i <? present then obind (sphere_component sym degree (last_two shape_in) (last_two shape_out) (x i) (out i)) (fun o => Some (fun j => if j =? i then o else out j))
        else None))
      (seq 0 count) (Some zero).
Definition sphere_average (comps : option nat) (d : dtype) (Nphi Ntheta P p Q q : nat) (x : nat -> nat -> nat -> R) : option (nat -> nat -> nat -> R) :=
  let (c0, n) := share (coeff_chunks d Nphi Ntheta) P p in
  let (j0, nc) := share (snd (coeff_shape d Nphi Ntheta)) Q q in
  let (_, n') := share (coeff_chunks d 1 1) P p in
  let (_, nc') := share (snd (coeff_shape d 1 1)) Q q in
  local_sphere_average comps (fun a b => snd (coeff_group d Nphi Ntheta (coeff_chunk d * c0 + a) (j0 + b))) (coeff_chunk d * n) nc (coeff_chunk d * n') nc' x.
