(** Coefficients of disks and annuli: shapes, groups and valid elements of PolarBasis (dedalus/core/basis.py:1719-1960), its table of
    orders, and the radial transforms of disks and annuli (basis.py:2174-2224, 2455-2501, transforms.py:1343-1392).

    Simplifications.  Rows are azimuthal indices and columns radial ones; the other directions of an array are left out.  One
    component, between the recombination of spins and the radial transform.  Reals without rounding: the real and imaginary parts
    of complex data are transformed alike.  The mass and the Gauss points are arguments.  [None] is an exception, or a masked
    group. *)
From Coq Require Import List Arith Bool ZArith Reals.
Import ListNotations.
From Verif Require Import MatSolvers_Model Sphere_Model GaussTransforms_Model.
From Verif Require Radial_Model.
Local Open Scope nat_scope.

Inductive polar := Annulus | Disk.
(** basis.py:2086-2088 and 2367-2369. *)
Definition nmin (p : polar) (m : Z) : Z := match p with Annulus => 0 * m | Disk => Z.abs m / 2 end.
(** basis.py:1739-1743: the resolutions that are not refused. *)
Definition polar_allowed (d : dtype) (Nphi Nr : nat) : bool :=
  let Nmax := Nr - 1 in
  negb ((0 <? mmax Nphi) && (0 <? Nmax) && negb (Nphi mod 2 =? 0))
  && negb ((0 <? mmax Nphi) && (0 <? Nmax) && match d with Float64 => true | Complex128 => false end && negb (Nphi mod 4 =? 0)).
(** basis.py:1811-1833: rows in coeff-coeff space; in coeff-grid space there are [Nphi]. *)
Definition polar_rows (d : dtype) (Nphi : nat) : nat := match d with Complex128 => Nphi | Float64 => if 1 <? Nphi then Nphi else 2 end.
(** basis.py:1846-1868: chunks of rows in coeff-coeff and in coeff-grid space. *)
Definition polar_chunk (d : dtype) : nat := match d with Complex128 => 1 | Float64 => 2 end.
Definition polar_grid_chunk (d : dtype) (Nphi : nat) : nat := match d with Complex128 => 1 | Float64 => if mmax Nphi =? 0 then 1 else 2 end.
(** basis.py:1870-1880, in coeff-coeff space, for one element; in coeff-grid space it is [Sphere_Model.half_group]: the azimuthal basis
    and its permutation are those of the sphere (basis.py:1746-1771 and 2749-2769 are the same lines). *)
Definition polar_group (p : polar) (d : dtype) (Nphi i j : nat) : option (Z * Z) :=
  let (m, n) := half_group d Nphi i j in if (n <? nmin p m)%Z then None else Some (m, n).
(** basis.py:1779-1796, in coeff-coeff space.  The groups of masked elements are masked, and so are comparisons with them: they count
    as not valid in the selections of subproblems. *)
Definition polar_valid (p : polar) (d : dtype) (Nphi : nat) (scalar : bool) (i j : nat) : bool :=
  match polar_group p d Nphi i j with
  | None => false
  | Some (m, n) => let valid := (nmin p m <=? n)%Z in if scalar && ((m =? 0)%Z && (i mod 2 =? 1)) then false else valid
  end.

(** distributor.py:452-494, as [Sphere_Model.groupset_slices], on an array with masked groups: comparison with a masked group fails. *)
Definition matches_masked (o : option Z) (g : option Z) : bool := match o, g with None, _ => true | Some x, Some y => (x =? y)%Z | Some _, None => false end.
Definition masked_slices (gs : nat * nat) (groups : nat -> nat -> option (Z * Z)) (nr nc : nat) (g : option Z * option Z)
  : list ((nat * nat) * (nat * nat)) :=
  let selected a b := matches_masked (fst g) (option_map fst (groups a b)) && matches_masked (snd g) (option_map snd (groups a b)) in
  flat_map (fun s0 => flat_map (fun s1 =>
      let rows := within s0 nr in
      let cols := within s1 nc in
      let hit_rows := filter (fun a => existsb (fun b => selected a b) cols) rows in
      let hit_cols := filter (fun b => existsb (fun a => selected a b) rows) cols in
      match hit_rows with [] => [] | _ => [(bounds s0 hit_rows, bounds s1 hit_cols)] end)
    (subslices (snd g) nc (snd gs))) (subslices (fst g) nr (fst gs)).
(** basis.py:1907-1932, [m_maps], for a process with the [n] azimuthal chunks from [c0] on, all columns and [Ng] radii. *)
Definition polar_map := (Z * (nat * nat) * (nat * nat) * (nat * nat))%type.
Definition polar_maps (p : polar) (d : dtype) (Nphi Nr Ng c0 n : nat) : option (list polar_map) :=
  let cc := polar_chunk d in
  let gc := polar_grid_chunk d Nphi in
  let cgroups a b := polar_group p d Nphi (cc * c0 + a) b in
  let ggroups a b := half_group d Nphi (gc * c0 + a) b in
  all_some (map (fun m =>
      let coeff_slices := masked_slices (group_rows d, 1) cgroups (cc * n) Nr (Some m, None) in
      let grid_slices := groupset_slices (group_rows d, 1) ggroups (gc * n) Ng (Some m, None) in
      match coeff_slices, grid_slices with
      | [(mc_slice, n_slice)], [(mg_slice, _)] => Some (m, mg_slice, mc_slice, n_slice)
      | _, _ => None
      end)
    (local_groupsets fst ggroups (gc * n) Ng)).

(** ** Fields and components *)
(** basis.py:2457-2459 and 2187-2189: without orders but zero, real data get a second row, of zeros. *)
Definition expanded (d : dtype) (Nphi : nat) (g : nat -> nat -> R) (a t : nat) : R :=
  match d with Float64 => if mmax Nphi =? 0 then if a <? 1 then g a t else 0%R else g a t | Complex128 => g a t end.
(** basis.py:2500-2501 and 2223-2224: then only the first row goes back to the field. *)
Definition field_rows (d : dtype) (Nphi : nat) : nat := match d with Float64 => if mmax Nphi =? 0 then 1 else Nphi | Complex128 => Nphi end.

(** ** Disks *)
Section Transform.
Context (mass : R -> R -> R) (quadrature : nat -> R -> R -> list (R * R)).
Section Disk.
Context (early : bool) (Ng Nr : nat) (alpha : R) (k : nat) (s : Z).
(** The dictionaries of matrices raise if any of them does. *)
Definition disk_matrices (forward : bool) (maps : list polar_map) : bool :=
  forallb (fun e => let m := fst (fst (fst e)) in
    match (if forward then disk_forward_matrix mass quadrature early Ng Nr alpha k m s else disk_backward_matrix mass quadrature Ng Nr alpha k m s) with Some _ => true | None => false end) maps.
(** transforms.py:1367-1374, with array.py:104-131: [matmul], then assignment to the slice, which broadcasts one row.  [Nmax] is [Nr - 1]. *)
Definition disk_forward_step (g : nat -> nat -> R) (e : polar_map) (c : nat -> nat -> R) : option (nat -> nat -> R) :=
  let '(m, mg, mc, ns) := e in
  if (Z.abs m <=? 2 * (Z.of_nat Nr - 1))%Z then
    match disk_forward_matrix mass quadrature early Ng Nr alpha k m s with
    | Some F =>
        if (snd mg - fst mg =? snd mc - fst mc) && ((nr F =? snd ns - fst ns) || (nr F =? 1)) && (nc F =? Ng) then
          Some (fun a b => if inside a mc && inside b ns
                           then msum 0%R Rplus (nc F) (fun t => at_ F (if nr F =? 1 then 0 else b - fst ns)%nat t * g (fst mg + (a - fst mc))%nat t)%R else c a b)
        else None
    | None => None
    end
  else Some c.
Fixpoint disk_forward_loop (g : nat -> nat -> R) (maps : list polar_map) (c : nat -> nat -> R) : option (nat -> nat -> R) :=
  match maps with [] => Some c | e :: maps => match disk_forward_step g e c with Some c => disk_forward_loop g maps c | None => None end end.
(** transforms.py:1376-1392. *)
Definition disk_backward_step (c : nat -> nat -> R) (e : polar_map) (g : nat -> nat -> R) : option (nat -> nat -> R) :=
  let '(m, mg, mc, ns) := e in
  if (Z.abs m >? 2 * (Z.of_nat Nr - 1))%Z then Some (fun a t => if inside a mg then 0%R else g a t)
  else
    match disk_backward_matrix mass quadrature Ng Nr alpha k m s with
    | Some B =>
        if (snd mg - fst mg =? snd mc - fst mc) && (nc B =? snd ns - fst ns) && (nr B =? Ng) then
          Some (fun a t => if inside a mg then msum 0%R Rplus (nc B) (fun i => at_ B t i * c (fst mc + (a - fst mg))%nat (fst ns + i)%nat)%R else g a t)
        else None
    | None => None
    end.
Fixpoint disk_backward_loop (c : nat -> nat -> R) (maps : list polar_map) (g : nat -> nat -> R) : option (nat -> nat -> R) :=
  match maps with [] => Some g | e :: maps => match disk_backward_step c e g with Some g => disk_backward_loop c maps g | None => None end end.
End Disk.
(** basis.py:2455-2469: one component after the recombination of spins; the coefficients start from zeros. *)
Definition disk_forward (early : bool) (d : dtype) (Nphi Nr Ng c0 n : nat) (alpha : R) (k : nat) (s : Z) (g : nat -> nat -> R) : option (nat -> nat -> R) :=
  match polar_maps Disk d Nphi Nr Ng c0 n with
  | Some maps => if disk_matrices early Ng Nr alpha k s true maps then disk_forward_loop early Ng Nr alpha k s g maps (fun _ _ => 0%R) else None
  | None => None
  end.
(** basis.py:2479-2499: one component before the recombination of spins; the values start from zeros. *)
Definition disk_backward (d : dtype) (Nphi Nr Ng c0 n : nat) (alpha : R) (k : nat) (s : Z) (c : nat -> nat -> R) : option (nat -> nat -> R) :=
  match polar_maps Disk d Nphi Nr Ng c0 n with
  | Some maps => if disk_matrices true Ng Nr alpha k s false maps then disk_backward_loop Ng Nr alpha k s c maps (fun _ _ => 0%R) else None
  | None => None
  end.

(** ** Annuli *)
(** basis.py:2179-2224: every row is transformed alike.  The radial factor, which is the same for all rows and components, multiplies the
    data before the recombination of spins forwards and after it backwards: here with the transform of one component. *)
Definition annulus_forward (early : bool) (N M : nat) (inner outer a b : R) (k : nat) (g : nat -> nat -> R) : option (nat -> nat -> R) :=
  let rows i := shell_forward mass quadrature early N M inner outer a b k (g i) in
  match rows 0 with Some _ => Some (fun i => match rows i with Some c => c | None => fun _ => 0%R end) | None => None end.
Definition annulus_backward (N M : nat) (inner outer a b : R) (k : nat) (c : nat -> nat -> R) : option (nat -> nat -> R) :=
  let rows i := shell_backward mass quadrature N M inner outer a b k (c i) in
  match rows 0 with Some _ => Some (fun i => match rows i with Some g => g | None => fun _ => 0%R end) | None => None end.
End Transform.
