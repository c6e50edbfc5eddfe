(** Slices of the coefficients of spherical harmonics by degree in dedalus/core/basis.py, and the loops over them: operators that
    depend on the degree in dedalus/core/operators.py, the recombination of regularity components in dedalus/core/basis.py and
    the radial transforms of the ball in dedalus/core/transforms.py.

    Simplifications.  As in Sphere_Model; arrays have a third, radial, direction.  Exact arithmetic.  Matrices are functions given
    from outside.  [apply_matrix] with overlapping input and output takes its input before it writes. *)
From Coq Require Import List Arith Bool ZArith.
Import ListNotations.
From Verif Require Import CSR_Spec Sphere_Model.
Local Open Scope nat_scope.

(** basis.py:2983-3011, [ell_maps], for a process with the [n] azimuthal chunks from [c0] on and the [nc] columns from [j0] on. *)
Definition ell_map := (Z * (nat * nat) * (nat * nat))%type.
Definition ell_maps (d : dtype) (Nphi Ntheta c0 n j0 nc : nat) : list ell_map :=
  let groups a b := coeff_group d Nphi Ntheta (coeff_chunk d * c0 + a) (j0 + b) in
  flat_map (fun ell => map (fun s => (ell, fst s, snd s)) (groupset_slices (group_rows d, 1) groups (coeff_chunk d * n) nc (None, Some ell)))
    (local_groupsets snd groups (coeff_chunk d * n) nc).
(** Whether [data[m_slice, ell_slice]] has the element. *)
Definition covers (e : ell_map) (a b : nat) : bool := inside a (snd (fst e)) && inside b (snd e).

Section Loops.
Context {K : Type} (k0 : K) (kadd kmul : K -> K -> K).
Notation total := (CSR_Spec.total k0 kadd).
Definition data := nat -> nat -> nat -> K.

(** operators.py:3140-3167, [SphericalEllOperator.operate], with components numbered by lists.  [nmin] is where [n_slice] starts
    (basis.py:3676-3679) and [Nr] where it stops; [A] is [radial_matrix]. *)
Definition component := list nat.
Definition same (i j : component) : bool := if list_eq_dec Nat.eq_dec i j then true else false.
Definition ell_step (nmin : Z -> nat) (Nr : nat) (allowed : component -> Z -> bool) (A : component -> component -> Z -> nat -> nat -> K)
    (x : component -> data) (rin rout : component) (out : component -> data) (e : ell_map) : component -> data :=
  let ell := fst (fst e) in
  if allowed rin ell && allowed rout ell then
    fun r a b k => if same r rout && covers e a b && ((nmin ell <=? k) && (k <? Nr))
      then kadd (out r a b k) (total (Nr - nmin ell) (fun q => kmul (A rin rout ell (k - nmin ell) q) (x rin a b (nmin ell + q)))) else out r a b k
  else out.
Definition operate (nmin : Z -> nat) (Nr : nat) (allowed : component -> Z -> bool) (A : component -> component -> Z -> nat -> nat -> K)
    (components : list component) (regindex_out : component -> list component) (maps : list ell_map) (x : component -> data) : component -> data :=
  fold_left (fun out rin => fold_left (fun out rout => fold_left (ell_step nmin Nr allowed A x rin rout) maps out) (regindex_out rin) out)
    components (fun _ _ _ _ => k0).

(** basis.py:3595-3610 and 3612-3627: components in a flat order, [Q ell] of [q] rows and columns. *)
Definition recombine_step (q : nat) (M : Z -> nat -> nat -> K) (x : nat -> data) (e : ell_map) : nat -> data :=
  fun i a b t => if covers e a b then total q (fun k => kmul (M (fst (fst e)) i k) (x k a b t)) else x i a b t.
Definition forward_regularity (rank q : nat) (Q : Z -> nat -> nat -> K) (maps : list ell_map) (x : nat -> data) : nat -> data :=
  if 0 <? rank then fold_left (recombine_step q (fun ell i k => Q ell k i)) maps x else x.
Definition backward_regularity (rank q : nat) (Q : Z -> nat -> nat -> K) (maps : list ell_map) (x : nat -> data) : nat -> data :=
  if 0 <? rank then fold_left (recombine_step q Q) maps x else x.

(** transforms.py:1481-1490 and 1492-1501, [BallRadialTransform], for one component; the matrices have [N3c - nmin ell] rows or
    columns for coefficients, and [N3g] for points. *)
Definition ball_forward (nmin : Z -> nat) (N3c N3g : nat) (M : Z -> nat -> nat -> K) (maps : list ell_map) (g c : data) : data :=
  fold_left (fun (c : data) (e : ell_map) => let ell := fst (fst e) in
    fun a b k => if covers e a b && ((nmin ell <=? k) && (k <? N3c)) then total N3g (fun t => kmul (M ell (k - nmin ell) t) (g a b t)) else c a b k) maps c.
Definition ball_backward (nmin : Z -> nat) (N3c N3g : nat) (M : Z -> nat -> nat -> K) (maps : list ell_map) (c g : data) : data :=
  fold_left (fun (g : data) (e : ell_map) => let ell := fst (fst e) in
    fun a b t => if covers e a b && (t <? N3g) then total (N3c - nmin ell) (fun q => kmul (M ell t q) (c a b (nmin ell + q))) else g a b t) maps g.
End Loops.
