(** Regularity components: [Intertwiner] and [xi] of dedalus/libraries/dedalus_sphere/spin_operators.py, and the regularity recombination
    of [RegularityBasis] in dedalus/core/basis.py.

    Simplifications.  Exact arithmetic.  Entries of tuples are -1, 0, 1, and spins and regularities have equal lengths; other arguments give 0 where
    the code raises or returns None.  Caching is omitted. *)
From Coq Require Import List Arith Bool ZArith Reals.
Import ListNotations.
From Verif Require Import TupleTools_Model.
Local Open Scope R_scope.

(** spin_operators.py:255-269, [xi]. *)
Definition xi (mu ell : Z) : R := IZR (Z.abs mu) * sqrt ((1 + IZR mu / (2 * IZR ell + 1)) / 2).
(** basis.py:3544-3546, [RegularityBasis.xi]. *)
Definition basis_xi (mu ell : Z) : R := sqrt (IZR (ell + (mu + 1) / 2) / (2 * IZR ell + 1)).

Definition zsum (t : tuple) : Z := fold_left Z.add t 0%Z.
Section Intertwiner.
Context (L : Z).
(** 305-306: [k]. *)
Definition k (mu s : Z) : R := - IZR mu * sqrt (IZR ((L - s * mu) * (L + s * mu + 1)) / 2).
(** 308-310: [forbidden_spin]. *)
Definition forbidden_spin (spin : tuple) : bool := (L <? Z.abs (zsum spin))%Z.
(** 312-323: [forbidden_regularity]; [walk] is the last entry of the walk. *)
Fixpoint walks_out (walk : Z) (rs : list Z) : bool :=
  match rs with
  | [] => false
  | r :: rs => let next := (walk + r)%Z in if (next <? 0)%Z || ((walk =? 0)%Z && (next =? 0)%Z) then true else walks_out next rs
  end.
Definition forbidden_regularity (regularity : tuple) : bool :=
  if (Z.of_nat (List.length regularity) <=? L)%Z then false else walks_out L (rev regularity).
(** 325-352: [__getitem__]. *)
Fixpoint Q (regularity spin : tuple) {struct regularity} : R :=
  match spin, regularity with
  | [], _ => 1
  | sigma :: tau, a :: b =>
      if forbidden_spin spin || forbidden_regularity regularity then 0
      else
        let R := fold_left (fun R p =>
                   let R := if (snd p + sigma =? 0)%Z then R - Q b (treplace (fst p) 0 tau) else R in
                   if (snd p =? 0)%Z then R + Q b (treplace (fst p) sigma tau) else R) (enumerate tau) 0 in
        let q := Q b tau in
        let R := R - k sigma (zsum tau) * q in
        let J := IZR (L + zsum b) in
        let q := if (sigma =? 0)%Z then q else 0 in
        if (a =? -1)%Z then (q * J - R) / sqrt (J * (2 * J + 1))
        else if (a =? 0)%Z then IZR sigma * R / sqrt (J * (J + 1))
        else if (a =? 1)%Z then (q * (J + 1) + R) / sqrt ((J + 1) * (2 * J + 1))
        else 0
  | _, [] => 0
  end.
(** That all square roots met by this evaluation are of nonnegative numbers and all divisors are not zero. *)
Fixpoint evaluates (regularity spin : tuple) {struct regularity} : Prop :=
  match spin, regularity with
  | [], _ => True
  | sigma :: tau, a :: b =>
      if forbidden_spin spin || forbidden_regularity regularity then True
      else
        (forall p, In p (enumerate tau) -> ((snd p + sigma)%Z = 0%Z -> evaluates b (treplace (fst p) 0 tau)) /\ (snd p = 0%Z -> evaluates b (treplace (fst p) sigma tau)))
        /\ evaluates b tau /\ (0 <= (L - zsum tau * sigma) * (L + zsum tau * sigma + 1))%Z
        /\ let J := (L + zsum b)%Z in
           (a = (-1)%Z -> (0 < J * (2 * J + 1))%Z) /\ (a = 0%Z -> (0 < J * (J + 1))%Z) /\ (a = 1%Z -> (0 < (J + 1) * (2 * J + 1))%Z)
  | _, [] => False
  end.
End Intertwiner.

(** basis.py:3528-3534, [regularity_allowed], for regularities given by their values; 3588-3596, [regularity_allowed_vectorized], for one [l]. *)
Definition regularity_allowed (l : Z) (regularity : tuple) : bool := match regularity with [] => true | _ => negb (forbidden_regularity l regularity) end.
Definition regularity_allowed_vectorized (l : Z) (regindex : tuple) : bool :=
  snd (fold_left (fun (p : Z * bool) dr =>
         let walk := (fst p + dr)%Z in
         let valid := if (walk <? 0)%Z then false else snd p in
         let valid := if (dr =? 0)%Z then if (walk =? 0)%Z then false else valid else valid in (walk, valid)) (rev regindex) (l, true)).

(** The order of spin and regularity components: basis.py:3534, 3558. *)
Definition ordering : list Z := [(-1)%Z; 1%Z; 0%Z].
(** [Q(order)], by [TensorOperator.array]: spin_operators.py:69-74 and 289. *)
Definition Q_matrix (ell : Z) (order : nat) : list (list R) := map (fun spin => map (fun reg => Q ell reg spin) (range ordering order)) (range ordering order).
(** [Q.T @ x] and [Q @ x]. *)
Definition rsum (l : list R) : R := fold_right Rplus 0 l.
Definition transposed (M : list (list R)) (n : nat) : list (list R) := map (fun j => map (fun row => nth j row 0) M) (seq 0 n).
Definition matvec (M : list (list R)) (x : list R) : list R := map (fun row => rsum (map (fun p => fst p * snd p) (combine row x))) M.
(** basis.py:3598-3630, [forward_regularity_recombination] and [backward_regularity_recombination].  The tensor axes are flattened: [data] gives the
    list of components at each point [(m, ell, n)] of the local coefficients; each of [ell_maps] is a degree and the points at its slices.
    3548-3561: [radial_recombinations] gives the matrices, or raises ValueError for tensors over other coordinates ([spherical] is false). *)
Section Recombination.
Context {point : Type}.
Definition recombine (f : list (list R) -> list (list R)) (order : nat) (data : point -> list R) (m : Z * (point -> bool)) : point -> list R :=
  fun x => if snd m x then matvec (f (Q_matrix (fst m) order)) (data x) else data x.
Definition recombination f (spherical : bool) (order : nat) (data : point -> list R) (ell_maps : list (Z * (point -> bool))) : result (point -> list R) :=
  match order with
  | 0%nat => Ok data
  | _ => if spherical then Ok (fold_left (recombine f order) ell_maps data) else Raises ValueError
  end.
Definition forward_recombination (spherical : bool) (order : nat) := recombination (fun M => transposed M (List.length M)) spherical order.
Definition backward_recombination (spherical : bool) (order : nat) := recombination (fun M => M) spherical order.
End Recombination.
