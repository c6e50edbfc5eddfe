(** Radial, angular and azimuthal components of tensor fields on spheres and circles: [Component], [RadialComponent], [AngularComponent] and
    [AzimuthalComponent] of dedalus/core/operators.py, and their versions for a basis in dedalus/core/basis.py.

    Simplifications.  Numbers are those of any field.  Data is an array (a shape and a function of the index) whose axes are the tensor
    indices followed by the directions; the coefficients of a subproblem are flat, in C order.  [None] stands for an exception.  The choice of
    the version by the class of the basis is in the model of dispatch. *)
From Coq Require Import List Arith Bool ZArith.
Import ListNotations.
From Verif Require Import CSR_Model CSR_Spec MatSolvers_Model Clenshaw_Model TensorArith_Model TensorArith_Spec TensorOps_Model.
Local Open Scope nat_scope.

(** operators.py:2200-2206, [Component.__init__]: the place that is kept in [self.index], and the coordinate system there. *)
Definition resolved (rank : nat) (index : Z) : option Z :=
  let index := if (index <? 0)%Z then (index + Z.of_nat rank)%Z else index in
  if (Z.of_nat rank <=? index)%Z then None else Some index.
Definition self_index (sig : tensorsig) (index : Z) : option Z :=
  option_bind (resolved (List.length sig) index) (fun i => option_map (fun _ => i) (get_item sig i)).
(** 2246-2249 and 2302-2307: the signature of a radial or azimuthal component, and of the angular one of polar coordinates (2274-2275).  The
    [index] here is the argument, not the one that was kept. *)
Definition scalar_sig (sig : tensorsig) (index : Z) : tensorsig := upto index sig ++ from (index + 1) sig.
(** 2276-2278: that of the angular component of spherical coordinates, [S2] being their [S2coordsys]. *)
Definition angular_sig (S2 : coordsys) (sig : tensorsig) (index : Z) : tensorsig := upto index sig ++ [S2] ++ from (index + 1) sig.

(** [list.pop(i)] *)
Definition popped (l : list nat) (i : Z) : list nat := match place (List.length l) i with Some k => firstn k l ++ skipn (S k) l | None => l end.
Definition equal (l m : list nat) : bool := if list_eq_dec Nat.eq_dec l m then true else false.
(** [np.ndenumerate] and [np.unravel_index] go through the indices of a shape in this order. *)
Definition indices (shape : list nat) : list (list nat) := map (unravel shape) (seq 0 (size shape)).

Section Ops.
Context {K : Type} (k0 k1 : K) (kadd kmul : K -> K -> K).
Notation array := (CSR_Model.array (K := K)).
Notation mat := (MatSolvers_Model.mat K).
Notation identity := (MatSolvers_Model.identity k0 k1).
Notation skron := (Clenshaw_Model.skron kmul).

(** The nested loops that fill [matrix], and [np.array(matrix)]: basis.py:5901-5912, 5942-5951, 5980-5989, 6014-6023. *)
Definition rows (test : list nat -> list nat -> bool) (out inp : list (list nat)) : list (list K) :=
  map (fun o => map (fun i => if test o i then k1 else k0) inp) out.
Definition np_array (l : list (list K)) : mat := Mat (List.length l) (List.length (nth 0 l [])) (fun i j => nth j (nth i l []) k0).
(** 5913-5920 and 5952-5959; [ell] is the degree of the subproblem, if the degrees are separate. *)
Definition blocks (real : bool) (ell : option Z) (m Lmax : Z) (M : mat) : mat :=
  let M := if real then skron M (identity 2) else M in
  match ell with None => skron M (identity (Z.to_nat (Lmax + 1 - Z.abs m))) | Some _ => M end.
(** 5892-5921, [S2RadialComponent.subproblem_matrix]. *)
Definition S2_radial_matrix (real : bool) (ell : option Z) (m Lmax : Z) (sig : tensorsig) (index : Z) : option mat :=
  option_bind (self_index sig index) (fun i =>
  let test o a := match get_item a i with Some c => (c =? 2) && equal (popped a i) o | None => false end in
  Some (blocks real ell m Lmax (np_array (rows test (indices (dims (scalar_sig sig index))) (indices (dims sig)))))).
(** 5933-5960, [S2AngularComponent.subproblem_matrix]. *)
Definition S2_angular_matrix (S2 : coordsys) (real : bool) (ell : option Z) (m Lmax : Z) (sig : tensorsig) (index : Z) : option mat :=
  option_bind (self_index sig index) (fun _ =>
  Some (blocks real ell m Lmax (np_array (rows (fun o a => equal a o) (indices (dims (angular_sig S2 sig index))) (indices (dims sig)))))).
(** 5972-5995 and 6006-6029, [PolarAzimuthalComponent] with [k = 0] and [PolarRadialComponent] with [k = 1]; python slices of [index_in]. *)
Definition polar_matrix (k : nat) (real : bool) (sig : tensorsig) (index : Z) : option mat :=
  option_bind (self_index sig index) (fun i =>
  let test o a := equal (upto i a ++ from (i + 1) a) o && match get_item a i with Some c => c =? k | None => false end in
  let M := np_array (rows test (indices (repeat 2 (List.length (scalar_sig sig index)))) (indices (repeat 2 (List.length sig)))) in
  Some (if real then skron M (identity 2) else M)).
(** 6040-6051, [PolarAngularComponent.subproblem_matrix]. *)
Definition polar_angular_matrix (real : bool) (sig : tensorsig) (index : Z) : option mat :=
  option_bind (self_index sig index) (fun _ =>
  let M := np_array [[k1; k0]] in Some (if real then skron M (identity 2) else M)).

(** [a[axindex(axis, k)]] and [a[axslice(axis, 0, stop)]], array.py:39-49; negative axes are refused. *)
Definition at_index (axis : Z) (k : nat) (a : array) : option array :=
  if (axis <? 0)%Z then None else
  let axis := Z.to_nat axis in
  match nth_error (fst a) axis with
  | Some n => if k <? n then Some (firstn axis (fst a) ++ skipn (S axis) (fst a), fun idx => snd a (put axis k idx)) else None
  | None => None
  end.
Definition at_slice (axis : Z) (stop : nat) (a : array) : option array :=
  if (axis <? 0)%Z then None else
  let axis := Z.to_nat axis in
  match nth_error (fst a) axis with Some n => Some (replace axis (fst a) (Nat.min stop n), snd a) | None => None end.
(** [np.copyto(out.data, ...)]: 5923-5929, 5997-6003, 6031-6037 and 6069-6075 with [k = 2, 0, 1, 0]; [spatial] is the shape of the data of a component. *)
Definition scalar_operate (k : nat) (sig : tensorsig) (index : Z) (spatial : list nat) (a : array) : option (list nat -> K) :=
  option_bind (self_index sig index) (fun i =>
  option_bind (at_index i k a) (assign_all (dims (scalar_sig sig index) ++ spatial))).
(** 5962-5968 *)
Definition angular_operate (S2 : coordsys) (sig : tensorsig) (index : Z) (spatial : list nat) (a : array) : option (list nat -> K) :=
  option_bind (self_index sig index) (fun i =>
  option_bind (at_slice i 2 a) (assign_all (dims (angular_sig S2 sig index) ++ spatial))).
End Ops.
