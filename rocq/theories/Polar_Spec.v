(** What it means for the coefficients of disks and annuli to be stored, listed and transformed well. *)
From Coq Require Import List Arith Bool ZArith Reals.
Import ListNotations.
From Verif Require Import JacobiCalc_Spec Radial_Spec GaussTransforms_Spec Sphere_Model Sphere_Spec Polar_Model.
From Verif Require Codomain_Spec.
Local Open Scope nat_scope.

(** The functions of order [m] in a disk are [|m|] times more than even powers of the radius: the first [|m|/2] degrees are left out of a
    triangular truncation.  Annuli keep all. *)
Definition first_degree (p : polar) (m : Z) : nat := match p with Annulus => 0 | Disk => Z.abs_nat m / 2 end.
Definition is_polar_mode (p : polar) (d : dtype) (Nphi Nr : nat) (m n : Z) : Prop := stored_order d Nphi m /\ (Z.of_nat (first_degree p m) <= n < Z.of_nat Nr)%Z.
(** How many orders there are; each has [parts d] rows. *)
Definition orders (d : dtype) (Nphi : nat) : nat := if Nphi <=? 2 then 1 else match d with Complex128 => Nphi | Float64 => Nphi / 2 end.
(** The order in the local row [a] of the process with the [n] orders from the [c0]th on. *)
Definition order_in (d : dtype) (Nphi c0 a : nat) : Z := fst (half_group d Nphi (parts d * c0 + a) 0).
(** An entry of the table of orders: its rows, which are the same in both spaces, are those with the order, and its columns those with
    the degrees of the order. *)
Definition right_polar_entry (p : polar) (d : dtype) (Nphi Nr c0 n : nat) (e : polar_map) : Prop :=
  let '(m, mg, mc, ns) := e in
  mg = mc /\ (forall a, a < parts d * n -> (in_range a mc <-> order_in d Nphi c0 a = m)) /\ snd mc <= parts d * n
  /\ (forall j, in_range j ns <-> first_degree p m <= j < Nr).
(** What a disk keeps of the coefficients of an order through the grid: degrees that are stored and integrated, in orders that are not
    skipped. *)
Definition kept (Nr Ng : nat) (m s : Z) (j : nat) : bool :=
  (Z.abs m <=? 2 * (Z.of_nat Nr - 1))%Z && (first_degree Disk m <=? j) && (j - first_degree Disk m <? Ng - Z.abs_nat (m + s) / 2).
