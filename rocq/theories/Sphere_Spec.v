(** What it means for the coefficients of spherical harmonics to be stored and sliced well. *)
From Coq Require Import List Arith Bool ZArith.
Import ListNotations.
From Verif Require Import Sphere_Model.
Local Open Scope nat_scope.

(** The largest degree: triangular truncation, with one degree fewer for real data. *)
Definition top_degree (d : dtype) (Ntheta : nat) : nat := match d with Float64 => Ntheta - 2 | Complex128 => Ntheta - 1 end.
(** The parts of a mode: a complex number, or the cosine and sine parts. *)
Definition parts (d : dtype) : nat := match d with Complex128 => 1 | Float64 => 2 end.
(** The azimuthal orders kept with [Nphi] points: those of the Fourier series, without the Nyquist order if there
    is no other order than zero beside it. *)
Definition stored_order (d : dtype) (Nphi : nat) (m : Z) : Prop :=
  match d with
  | Complex128 => (- Z.of_nat Nphi < 2 * m <= Z.of_nat Nphi)%Z /\ (Nphi = 2 -> m = 0%Z)
  | Float64 => (0 <= 2 * m < Z.of_nat Nphi)%Z
  end.
Definition is_mode (d : dtype) (Nphi Ntheta : nat) (m ell : Z) : Prop :=
  stored_order d Nphi m /\ (Z.abs m <= ell <= Z.of_nat (top_degree d Ntheta))%Z.
(** Numbers of points that the basis accepts. *)
Definition good_resolution (d : dtype) (Nphi : nat) : Prop :=
  0 < Nphi /\ (Nphi = 1 \/ match d with Complex128 => Nphi mod 2 = 0 | Float64 => Nphi mod 4 = 0 end).
(** How many pieces the azimuthal direction is dealt out in to processes. *)
Definition pieces (d : dtype) (Nphi : nat) : nat :=
  if Nphi <=? 2 then 1 else match d with Complex128 => Nphi / 2 | Float64 => Nphi / 4 end.
(** The modes of an order in order of degree. *)
Definition modes_of_order (d : dtype) (Ntheta : nat) (m : Z) : list (Z * Z) :=
  map (fun k => (m, Z.abs m + Z.of_nat k)%Z) (seq 0 (Z.to_nat (Z.of_nat (top_degree d Ntheta) + 1 - Z.abs m))).
Definition columns (d : dtype) (Nphi Ntheta : nat) : nat := snd (coeff_shape d Nphi Ntheta).
Definition in_range (a : nat) (s : nat * nat) : Prop := fst s <= a < snd s.
(** An entry of the table of orders on the process with the [n] pieces from [c0] on: its rows of coefficients and its rows of
    the grid are whole modes on this process, the latter hold the order, and the former the modes of the order, in order. *)
Definition right_entry (d : dtype) (Nphi Ntheta c0 n : nat) (e : m_map) : Prop :=
  let '(m, mg, mc, es) := e in
  snd mc = fst mc + parts d /\ snd mg = fst mg + parts d /\ snd mc <= coeff_chunk d * n /\ snd mg <= half_chunk d Nphi * n
  /\ fst mc mod parts d = 0 /\ fst mg mod parts d = 0
  /\ (forall a, in_range a mg -> forall t, fst (half_group d Nphi (half_chunk d Nphi * c0 + a) t) = m)
  /\ (forall a, in_range a mc -> map (fun b => coeff_group d Nphi Ntheta (coeff_chunk d * c0 + a) b) (slice_columns es) = modes_of_order d Ntheta m).
