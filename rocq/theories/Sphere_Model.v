(** Coefficients of spin-weighted spherical harmonics in dedalus/core/basis.py (SphereBasis), the slices of groups of
    modes in dedalus/core/distributor.py, and the colatitude transforms of dedalus/core/transforms.py.

    Simplifications.  Rows are azimuthal indices and columns colatitudinal ones; the other directions and the tensor
    components of an array, along which everything is repeated, are left out.  Exact arithmetic.  The values of the
    harmonics and the weights of the quadrature (dedalus_sphere.sphere) are functions given from outside.  [None]
    stands for an exception. *)
From Coq Require Import List Arith Bool ZArith.
Import ListNotations.
From Verif Require Import CSR_Spec FourierCalc_Model.
From Verif Require Blocks_Model.
Local Open Scope nat_scope.

Inductive dtype := Complex128 | Float64.

(** ** Shapes *)
(** basis.py:1680. *)
Definition mmax (Nphi : nat) : nat := (Nphi - 1) / 2.
(** basis.py:2723-2726; sizes are positive. *)
Definition Lmax (d : dtype) (Ntheta : nat) : nat := match d with Float64 => Ntheta - 2 | Complex128 => Ntheta - 1 end.
(** basis.py:2744-2747: the resolutions that are not refused. *)
Definition resolution_allowed (d : dtype) (Nphi : nat) : bool :=
  negb ((1 <? Nphi) && negb (Nphi mod 2 =? 0)) && negb ((1 <? Nphi) && match d with Float64 => true | Complex128 => false end && negb (Nphi mod 4 =? 0)).
(** basis.py:2754, 2765, [group_shape[0]]. *)
Definition group_rows (d : dtype) : nat := match d with Complex128 => 1 | Float64 => 2 end.
(** basis.py:2781-2814, in coeff-coeff space. *)
Definition coeff_shape (d : dtype) (Nphi Ntheta : nat) : nat * nat :=
  let Lmax := Lmax d Ntheta in
  if 0 <? mmax Nphi then
    match d with
    | Complex128 => (Nphi / 2, Lmax + 1 + (Lmax + 1 - Nphi / 2))
    | Float64 => (Nphi / 2, Lmax + 1 + (Lmax + 2 - Nphi / 2))
    end
  else match d with Complex128 => (1, Lmax + 1) | Float64 => (2, Lmax + 1) end.
(** The same for the azimuthal direction in coeff-grid space. *)
Definition half_shape (d : dtype) (Nphi : nat) : nat :=
  if 0 <? mmax Nphi then Nphi else match d with Complex128 => 1 | Float64 => 2 end.
(** basis.py:2816-2837, in the azimuthal direction: coeff-coeff space, coeff-grid space. *)
Definition coeff_chunk (d : dtype) : nat := match d with Complex128 => 1 | Float64 => 2 end.
Definition half_chunk (d : dtype) (Nphi : nat) : nat :=
  match d with
  | Complex128 => if 0 <? mmax Nphi then 2 else 1
  | Float64 => if 0 <? mmax Nphi then 4 else 2
  end.

(** ** Groups *)
(** basis.py:2839-2890, [elements_to_groups] in coeff-coeff space, for one element: assignments through masks are
    conditionals, in the same order. *)
Definition coeff_group (d : dtype) (Nphi Ntheta : nat) (i j : nat) : Z * Z :=
  let L := Z.of_nat (Lmax d Ntheta) in
  let N := Z.of_nat Nphi in
  let i := Z.of_nat i in
  let j := Z.of_nat j in
  match d with
  | Complex128 =>
      let shift := Z.max 0 (L + 1 - N / 2) in
      let m := i in
      let ell := (j - shift)%Z in
      let neg_modes := (ell <? m)%Z in
      let m := if neg_modes then (i - (N + 1) / 2)%Z else m in
      let ell := if neg_modes then (L - j)%Z else ell in
      let m_zero := (i =? 0)%Z in
      let m := if m_zero then 0%Z else m in
      let ell := if m_zero then j else ell in
      let nyq_modes := (i =? 0)%Z && (j >? L)%Z in
      let m := if nyq_modes then (N / 2)%Z else m in
      let ell := if nyq_modes then (j - shift)%Z else ell in
      (m, ell)
  | Float64 =>
      let shift := Z.max 0 (L + 2 - N / 2) in
      let m := (i / 2)%Z in
      let ell := (j - shift)%Z in
      let neg_modes := (ell <? m)%Z in
      let m := if neg_modes then (N / 2 - 1 - m)%Z else m in
      let ell := if neg_modes then (L - j)%Z else ell in
      let m_zero := (i <? 2)%Z in
      let m := if m_zero then 0%Z else m in
      let ell := if m_zero then j else ell in
      let m_max := (i <? 2)%Z && (j >? L)%Z in
      let m := if m_max then (N / 2 - 1)%Z else m in
      let ell := if m_max then (j - shift)%Z else ell in
      (m, ell)
  end.
(** basis.py:2749-2769: the wavenumbers of the azimuthal basis, with the permutation if there is one. *)
Definition azimuth_wavenumbers (d : dtype) (Nphi : nat) : option (list Z) :=
  match d with
  | Complex128 => native_wavenumbers (complex_wavenumbers Nphi) (if 0 <? mmax Nphi then Some (complex_m_perm Nphi) else None)
  | Float64 => native_wavenumbers (real_wavenumbers Nphi) (if 0 <? mmax Nphi then Some (real_m_perm Nphi) else None)
  end.
(** basis.py:2843-2848, in coeff-grid space.  Indexing past the end is an error, which the default stands for; it is
    not met by local elements. *)
Definition half_group (d : dtype) (Nphi : nat) (i j : nat) : Z * Z :=
  (nth i (match azimuth_wavenumbers d Nphi with Some ks => ks | None => [] end) 0%Z, Z.of_nat j).
(** basis.py:3183-3211, [valid_elements] in coeff-coeff space for a component of total spin [s] of a tensor of rank
    [rank] (a scalar has rank and spin zero). *)
Definition coeff_valid (d : dtype) (Nphi Ntheta : nat) (rank : nat) (s : Z) (i j : nat) : bool :=
  let (m, ell) := coeff_group d Nphi Ntheta i j in
  let valid := match rank with 0 => negb (Z.abs m >? ell)%Z | _ => negb (Z.max (Z.abs m) (Z.abs s) >? ell)%Z end in
  match d with
  | Complex128 => valid
  | Float64 => if (rank <=? 1) && ((ell =? 0)%Z && (i mod 2 =? 1)) then false else valid
  end.

(** ** Slices of groups *)
(** distributor.py:452-494, [local_groupset_slices] in two directions, on an array of groups of [nr] rows and [nc]
    columns.  [np.min] and [np.max] of the selected places are the first and the last in increasing order. *)
Definition matches (o : option Z) (g : Z) : bool := match o with None => true | Some x => (x =? g)%Z end.
Definition subslices (o : option Z) (n k : nat) : list (option (nat * nat)) :=
  match o with None => [None] | Some _ => map (fun q => Some (k * q, k * q + k)) (seq 0 (Blocks_Model.cdiv n k)) end.
Definition within (s : option (nat * nat)) (n : nat) : list nat :=
  match s with None => seq 0 n | Some (a, b) => seq a (Nat.min b n - a) end.
Definition bounds (s : option (nat * nat)) (hits : list nat) : nat * nat :=
  match s with None => (hd 0 hits, last hits 0 + 1) | Some s => s end.
Definition groupset_slices (gs : nat * nat) (groups : nat -> nat -> Z * Z) (nr nc : nat) (g : option Z * option Z)
  : list ((nat * nat) * (nat * nat)) :=
  let selected a b := matches (fst g) (fst (groups a b)) && matches (snd g) (snd (groups a b)) in
  flat_map (fun s0 => flat_map (fun s1 =>
      let rows := within s0 nr in
      let cols := within s1 nc in
      let hit_rows := filter (fun a => existsb (fun b => selected a b) cols) rows in
      let hit_cols := filter (fun b => existsb (fun a => selected a b) rows) cols in
      match hit_rows with [] => [] | _ => [(bounds s0 hit_rows, bounds s1 hit_cols)] end)
    (subslices (snd g) nc (snd gs))) (subslices (fst g) nr (fst gs)).
(** distributor.py:434-449, [local_groupsets] with one enumerated direction: the distinct groups along it, in the order
    of the flattened array. *)
Definition local_groupsets (along : Z * Z -> Z) (groups : nat -> nat -> Z * Z) (nr nc : nat) : list Z :=
  ordered_set (flat_map (fun a => map (fun b => along (groups a b)) (seq 0 nc)) (seq 0 nr)).

(** basis.py:2940-2970, [m_maps], for a process with the [n] azimuthal chunks from [c0] on (distributor.py:393-401), all
    columns and [Ng] colatitudes of the grid.  The last part of an entry is a slice along columns: a start, a stop, and
    whether it is reversed, as in [slice(stop-1, None, -1)]. *)
Definition m_map := (Z * (nat * nat) * (nat * nat) * (nat * nat * bool))%type.
Fixpoint all_some {A} (l : list (option A)) : option (list A) :=
  match l with [] => Some [] | Some a :: l => match all_some l with Some r => Some (a :: r) | None => None end | None :: _ => None end.
Definition m_maps (d : dtype) (Nphi Ntheta Ng c0 n : nat) : option (list m_map) :=
  let cc := coeff_chunk d in
  let hc := half_chunk d Nphi in
  let W := snd (coeff_shape d Nphi Ntheta) in
  let cgroups a b := coeff_group d Nphi Ntheta (cc * c0 + a) b in
  let ggroups a b := half_group d Nphi (hc * c0 + a) b in
  all_some (map (fun m =>
      let coeff_slices := groupset_slices (group_rows d, 1) cgroups (cc * n) W (Some m, None) in
      let grid_slices := groupset_slices (group_rows d, 1) ggroups (hc * n) Ng (Some m, None) in
      match coeff_slices, grid_slices with
      | [(mc_slice, ell_slice)], [(mg_slice, _)] =>
          Some (m, mg_slice, mc_slice, (fst ell_slice, snd ell_slice, (fst ell_slice =? 0) && negb (m =? 0)%Z))
      | _, _ => None
      end)
    (local_groupsets fst cgroups (cc * n) W)).
(** The columns a slice goes through. *)
Definition slice_columns (s : nat * nat * bool) : list nat :=
  let '(start, stop, reversed) := s in if reversed then rev (seq 0 stop) else seq start (stop - start).

(** ** Colatitude transforms *)
Section Transform.
Context {K : Type} (k0 : K) (kadd kmul : K -> K -> K).
(** Values of the harmonic of order, spin and degree at a point of the grid, and weights of the quadrature.
    [sphere.harmonics] has rows for the degrees from the larger of order and spin on. *)
Variables (Y : Z -> Z -> Z -> nat -> K) (w : nat -> K).
(** The stop of Python's [x[start:]] on [n] entries: where it begins. *)
Definition begin_of (start : Z) (n : nat) : nat := if (start <? 0)%Z then Z.to_nat (Z.max 0 (Z.of_nat n + start)) else Z.to_nat start.
(** transforms.py:1292-1315, 1317-1340.  The matrix of an order [m], [Some None] being python's [None]: rows for degrees and
    columns for points of the grid (the matrix of the backward transform is given transposed). *)
Definition swsh_matrix (forward : bool) (Lmax Ng : nat) (s m : Z) : option (option (nat * (nat -> nat -> K))) :=
  if (m >? Z.of_nat Lmax)%Z then Some None
  else if (Z.of_nat Lmax + 1 - Z.abs m <? 0)%Z then None
  else
    let Lmin := Z.max (Z.abs m) (Z.abs s) in
    let R := Z.to_nat (Z.of_nat Lmax + 1 - Z.abs m) in
    let Yfull r t :=
      if begin_of (Z.of_nat Ng - Z.abs m) R <=? r then k0
      else if Z.to_nat (Lmin - Z.abs m) <=? r
           then let v := Y m s (Lmin + Z.of_nat (r - Z.to_nat (Lmin - Z.abs m))) t in if forward then kmul v (w t) else v
           else k0 in
    Some (Some (R, Yfull)).
(** The dictionaries of matrices raise if any of them does. *)
Definition swsh_matrices (forward : bool) (Lmax Ng : nat) (s : Z) (maps : list m_map) : bool :=
  forallb (fun e => match swsh_matrix forward Lmax Ng s (fst (fst (fst e))) with Some _ => true | None => false end) maps.
Definition inside (a : nat) (s : nat * nat) : bool := (fst s <=? a) && (a <? snd s).
Fixpoint index_of (b : nat) (l : list nat) : option nat :=
  match l with [] => None | x :: l => if x =? b then Some 0 else option_map S (index_of b l) end.
(** transforms.py:1260-1274, with array.py:104-131: [matmul], then assignment to the slice, which broadcasts one row. *)
Definition forward_step (Lmax Ng : nat) (s : Z) (g : nat -> nat -> K) (e : m_map) (c : nat -> nat -> K) : option (nat -> nat -> K) :=
  let '(m, mg, mc, es) := e in
  if (Z.abs m <=? Z.of_nat Lmax)%Z then
    match swsh_matrix true Lmax Ng s m with
    | Some (Some (R, M)) =>
        let cols := slice_columns es in
        if (snd mg - fst mg =? snd mc - fst mc) && ((R =? length cols) || (R =? 1)) then
          Some (fun a b => if inside a mc then match index_of b cols with
                             | Some q => total k0 kadd Ng (fun t => kmul (M (if R =? 1 then 0 else q) t) (g (fst mg + (a - fst mc)) t))
                             | None => c a b end
                           else c a b)
        else None
    | _ => None
    end
  else Some c.
Fixpoint forward_loop (Lmax Ng : nat) (s : Z) (g : nat -> nat -> K) (maps : list m_map) (c : nat -> nat -> K) : option (nat -> nat -> K) :=
  match maps with [] => Some c | e :: maps => match forward_step Lmax Ng s g e c with Some c => forward_loop Lmax Ng s g maps c | None => None end end.
(** transforms.py:1276-1290. *)
Definition backward_step (Lmax Ng : nat) (s : Z) (c : nat -> nat -> K) (e : m_map) (g : nat -> nat -> K) : option (nat -> nat -> K) :=
  let '(m, mg, mc, es) := e in
  if (Z.abs m >? Z.of_nat Lmax)%Z then Some (fun a t => if inside a mg then k0 else g a t)
  else
    match swsh_matrix false Lmax Ng s m with
    | Some (Some (R, M)) =>
        let cols := slice_columns es in
        if (snd mg - fst mg =? snd mc - fst mc) && (R =? length cols) then
          Some (fun a t => if inside a mg then total k0 kadd R (fun q => kmul (M q t) (c (fst mc + (a - fst mg)) (nth q cols 0))) else g a t)
        else None
    | _ => None
    end.
Fixpoint backward_loop (Lmax Ng : nat) (s : Z) (c : nat -> nat -> K) (maps : list m_map) (g : nat -> nat -> K) : option (nat -> nat -> K) :=
  match maps with [] => Some g | e :: maps => match backward_step Lmax Ng s c e g with Some g => backward_loop Lmax Ng s c maps g | None => None end end.
(** basis.py:3108-3124: one spin component, coefficients starting from zeros. *)
Definition forward_colatitude (d : dtype) (Nphi Ntheta Ng c0 n : nat) (s : Z) (g : nat -> nat -> K) : option (nat -> nat -> K) :=
  match m_maps d Nphi Ntheta Ng c0 n with
  | Some maps => if swsh_matrices true (Lmax d Ntheta) Ng s maps then forward_loop (Lmax d Ntheta) Ng s g maps (fun _ _ => k0) else None
  | None => None
  end.
(** basis.py:3134-3153: likewise, the grid data starting from zeros. *)
Definition backward_colatitude (d : dtype) (Nphi Ntheta Ng c0 n : nat) (s : Z) (c : nat -> nat -> K) : option (nat -> nat -> K) :=
  match m_maps d Nphi Ntheta Ng c0 n with
  | Some maps => if swsh_matrices false (Lmax d Ntheta) Ng s maps then backward_loop (Lmax d Ntheta) Ng s c maps (fun _ _ => k0) else None
  | None => None
  end.
End Transform.
