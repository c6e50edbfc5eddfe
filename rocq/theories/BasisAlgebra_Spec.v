(** What one says about bases without reading the code: which parameters describe the grid, the resolution and the
    polynomials. *)
From stdpp Require Import numbers list strings.
From Coq Require Import Qcanon.
From Verif Require Import BasisAlgebra_Model.

(** The numbers of modes along the axes. *)
Definition resolution (b : basis) : list nat :=
  match b with
  | BJ x => [j_size x] | BF x => [f_size x] | BA x => [(a_shape x).1; (a_shape x).2] | BD x => [(d_shape x).1; (d_shape x).2] | BS x => [(s_shape x).1; (s_shape x).2]
  | BSR x => [1%nat; 1%nat; sr_size x] | BBR x => [1%nat; 1%nat; br_size x]
  | BSh x => [(sh_shape x).1.1; (sh_shape x).1.2; (sh_shape x).2] | BBa x => [(ba_shape x).1.1; (ba_shape x).1.2; (ba_shape x).2]
  end.
(** The family of polynomials. *)
Inductive family := Jacobi_ (a b : Qc) | Level (k : Z) | Fixed.
Definition polynomials (b : basis) : family :=
  match b with
  | BJ x => Jacobi_ (j_a x) (j_b x) | BF _ | BS _ => Fixed | BA x => Level (a_k x) | BD x => Level (d_k x)
  | BSR x => Level (sr_k x) | BBR x => Level (br_k x) | BSh x => Level (sh_k x) | BBa x => Level (ba_k x)
  end.
Definition is_max (a b m : Qc) : Prop := (a <= m)%Qc /\ (b <= m)%Qc /\ (m = a \/ m = b).
Definition highest (o p q : family) : Prop :=
  match o, p, q with
  | Jacobi_ a b, Jacobi_ a' b', Jacobi_ a'' b'' => is_max a a' a'' /\ is_max b b' b''
  | Level k, Level l, Level m => m = Z.max k l
  | Fixed, Fixed, Fixed => True
  | _, _, _ => False
  end.
(** Bases of one kind with the same points, scales and libraries; radial bases need not agree in their data types and
    libraries.  Dealiasing factors of radial bases may be given as one factor, or as three. *)
Definition scale3 (d : list Qc) : list Qc := match d with [x] => [1%Qc; 1%Qc; x] | _ => d end.
Definition compatible (x y : basis) : Prop :=
  match x, y with
  | BJ x, BJ y => j_coord x = j_coord y /\ j_bounds x = j_bounds y /\ j_a0 x = j_a0 y /\ j_b0 x = j_b0 y /\ j_dealias x = j_dealias y /\ j_lib x = j_lib y
  | BF x, BF y => x = y
  | BA x, BA y => a_cs x = a_cs y /\ a_dtype x = a_dtype y /\ a_radii x = a_radii y /\ a_alpha x = a_alpha y /\ a_dealias x = a_dealias y /\ a_az x = a_az y /\ a_lib x = a_lib y
  | BD x, BD y => d_cs x = d_cs y /\ d_dtype x = d_dtype y /\ d_radius x = d_radius y /\ d_alpha x = d_alpha y /\ d_dealias x = d_dealias y /\ d_az x = d_az y /\ d_lib x = d_lib y
  | BS x, BS y => s_cs x = s_cs y /\ s_dtype x = s_dtype y /\ s_radius x = s_radius y /\ s_dealias x = s_dealias y /\ s_az x = s_az y /\ s_colat x = s_colat y
  | BSR x, BSR y => sr_cs x = sr_cs y /\ sr_radii x = sr_radii y /\ sr_alpha x = sr_alpha y /\ scale3 (sr_dealias x) = scale3 (sr_dealias y)
  | BBR x, BBR y => br_cs x = br_cs y /\ br_radius x = br_radius y /\ br_alpha x = br_alpha y /\ scale3 (br_dealias x) = scale3 (br_dealias y)
  | BSh x, BSh y => sh_cs x = sh_cs y /\ sh_dtype x = sh_dtype y /\ sh_radii x = sh_radii y /\ sh_alpha x = sh_alpha y /\ sh_dealias x = sh_dealias y /\ sh_az x = sh_az y /\ sh_colat x = sh_colat y /\ sh_lib x = sh_lib y
  | BBa x, BBa y => ba_cs x = ba_cs y /\ ba_dtype x = ba_dtype y /\ ba_radius x = ba_radius y /\ ba_alpha x = ba_alpha y /\ ba_dealias x = ba_dealias y /\ ba_az x = ba_az y /\ ba_colat x = ba_colat y /\ ba_lib x = ba_lib y
  | _, _ => False
  end.
(** The data types and libraries of radial bases agree; [x] and [y] are of any kinds. *)
Definition alike (x y : basis) : Prop :=
  match x, y with
  | BSR x, BSR y => sr_dtype x = sr_dtype y /\ sr_lib x = sr_lib y
  | BBR x, BBR y => br_dtype x = br_dtype y /\ br_lib x = br_lib y
  | _, _ => True
  end.
(** An operation gives a basis, or stops. *)
Definition value {A} (r : result A) : option A := match r with Val x => Some x | _ => None end.
(** The polynomials of a product of bases of one kind. *)
Definition product_family (x y : basis) : family :=
  match x, y with
  | BJ x, BJ y => if decide (x = y) then Jacobi_ (j_a x) (j_b x) else Jacobi_ (j_a0 x) (j_b0 x)
  | BA x, BA y => Level (a_k x + a_k y) | BSR x, BSR y => Level (sr_k x + sr_k y) | BSh x, BSh y => Level (sh_k x + sh_k y)
  | BBR x, BBR y => Level (Z.max (br_k x) (br_k y)) | BD _, BD _ | BBa _, BBa _ => Level 0
  | _, _ => Fixed
  end.
(** Those of a nonconstant coefficient in [x] times an operand in [y]. *)
Definition operand_family (x y : basis) : family :=
  match x, y with
  | BJ _, BJ y => Jacobi_ (j_a y) (j_b y) | BD _, BD y => Level (d_k y)
  | BBa x, BBa y => Level (Z.max (ba_k x) (ba_k y)) | BBR x, BBa y => Level (Z.max (br_k x) (ba_k y)) | BSR x, BSh y => Level (sr_k x + sh_k y)
  | _, _ => product_family x y
  end.
