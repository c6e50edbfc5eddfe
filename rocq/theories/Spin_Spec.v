(** What spin components are. *)
From Coq Require Import List Arith Bool String Reals.
From Coquelicot Require Import Complex.
Import ListNotations.
From Verif Require Import CSR_Spec Spin_Model.
Local Open Scope nat_scope.

(** The spin components -1 and +1 of a vector with azimuthal component [p] and the other angular, or the polar radial, component [p + 1]
    are [(u_theta -/+ i u_phi) / sqrt 2], and take their places; other components are unchanged.  Nothing changes without a [p]. *)
Definition spin_entry (p : option nat) (s t : nat) : C :=
  match p with
  | Some p => if s =? p then if t =? p then (- Ci / RtoC (sqrt 2))%C else if t =? p + 1 then (RtoC 1 / RtoC (sqrt 2))%C else RtoC 0
              else if s =? p + 1 then if t =? p then (Ci / RtoC (sqrt 2))%C else if t =? p + 1 then (RtoC 1 / RtoC (sqrt 2))%C else RtoC 0
              else if s =? t then RtoC 1 else RtoC 0
  | None => if s =? t then RtoC 1 else RtoC 0
  end.
(** The components of a tensor [z] in all its indices, for matrices [entry] of dimensions [dims]. *)
Fixpoint transformed {A} (entry : A -> nat -> nat -> C) (ps : list A) (dims : list nat) (z : list nat -> C) (s : list nat) : C :=
  match ps, dims, s with
  | p :: ps, d :: dims, s0 :: s => total (RtoC 0) Cplus d (fun t0 => Cmult (entry p s0 t0) (transformed entry ps dims (fun t => z (t0 :: t)) s))
  | _, _, _ => z s
  end.
Definition spin_components := transformed spin_entry.
(** The conjugate transposes. *)
Definition coordinate_components := transformed (fun p s t => Cconj (spin_entry p t s)).
(** The sum of the squares of the magnitudes of all components. *)
Fixpoint norm2 (dims : list nat) (z : list nat -> C) : R :=
  match dims with [] => (Cmod (z []) ^ 2)%R | d :: dims => total 0%R Rplus d (fun t0 => norm2 dims (fun t => z (t0 :: t))) end.

(** Coordinate systems in which the coordinates [c0] and [c1] are the azimuth and the second coordinate of a sphere or a disk, at
    position [p] among the components. *)
Definition plane (c0 c1 : coordinate) (s : simple) : Prop := match s with S2 _ _ | Polar _ _ => simple_coords s = [c0; c1] | _ => False end.
Definition carries (c0 c1 : coordinate) (cs : system) (p : nat) : Prop :=
  match cs with
  | Simple s => plane c0 c1 s /\ p = 0
  | Spherical a c r => c0 = (true, a) /\ c1 = (false, c) /\ p = 0
  | DirectProduct l => exists l1 s l2, l = l1 ++ s :: l2 /\ plane c0 c1 s /\ p = List.length (flat_map simple_coords l1) /\ NoDup (flat_map simple_coords l)
  end.
Definition signature (c0 c1 : coordinate) (sig : list system) (ps : list (option nat)) : Prop :=
  Forall2 (fun cs p => match p with Some p => carries c0 c1 cs p | None => ~ In c1 (coords cs) end) sig ps.

(** The real coefficients of a field, at even and odd azimuthal positions, are the real and imaginary parts of complex ones. *)
Definition element (shape : list nat) (data : nat -> R) (idx : list nat) : R := data (flat shape idx).
Definition paired (shape : list nat) (axis : nat) (data : nat -> R) (idx : list nat) : C :=
  (element shape data (replace axis idx (2 * nth axis idx 0)), element shape data (replace axis idx (2 * nth axis idx 0 + 1))).
Definition halved (axis : nat) (shape : list nat) : list nat := replace axis shape (nth axis shape 0 / 2).

(** The cache holds nothing or the list that was computed for these arguments. *)
Definition fresh (c1 : coordinate) (sig : list system) cache : Prop := match cache with None => True | Some l => build_factors c1 sig = Ok l end.
