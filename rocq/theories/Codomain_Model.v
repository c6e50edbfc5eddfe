(** Operators between spaces of polynomials: dedalus/libraries/dedalus_sphere/operators.py, and [JacobiCodomain]
    of dedalus/libraries/dedalus_sphere/jacobi.py.

    Simplifications.  Entries and parameters are reals, without rounding; sizes are integers.  Matrices are those of
    [MatSolvers_Model].  [None] is an exception, but for [multiple], where it is Python's [None].  The third
    component [pi] of a Jacobi codomain, 0 or 1, is a boolean. *)
From Coq Require Import List ZArith Reals Bool.
Import ListNotations.
From Verif Require Import MatSolvers_Model.

(** ** Codomains, operators.py:176-247: tuples of integers *)
Definition arrow := list Z.
(** operators.py:216-217; [zip] stops at the shorter one. *)
Definition arrow_add (s o : arrow) : arrow := map (fun p => (fst p + snd p)%Z) (combine s o).
(** operators.py:219-220. *)
Definition arrow_call (s args : arrow) : arrow := map (fun p => (fst p + snd p)%Z) (combine s args).
(** operators.py:230-231. *)
Definition arrow_neg (s : arrow) : arrow := map Z.opp s.
(** operators.py:233-241, [__mul__] with an integer.  The outer option is an exception, the inner one Python's
    [None]; adding to [None] is an exception.  [k] is the number of
    recursive calls left. *)
Fixpoint neg_multiple {A} (add : A -> A -> A) (neg : A -> A) (zero : A) (k : nat) (s : A) : A :=
  match k with O => zero | S k => add (neg s) (neg_multiple add neg zero k s) end.
Definition multiple {A} (add : A -> A -> A) (neg : A -> A) (zero : A) (m : Z) (s : A) : option A :=
  match m with Z0 => Some zero | Zneg k => Some (neg_multiple add neg zero (Pos.to_nat k) s) | Zpos _ => None end.
Definition arrow_mul (m : Z) (s : arrow) : option arrow := multiple arrow_add arrow_neg (repeat 0%Z (length s)) m s.

(** ** Jacobi codomains, jacobi.py:457-528 *)
Record jcod := Jcod { dn : Z; da : Z; db : Z; flip : bool }.
Definition domain : Type := Z * R * R.
(** jacobi.py:507-513, without and with [evaluate]. *)
Definition shift (c : jcod) (x : domain) : domain :=
  let '(n, a, b) := x in let '(a, b) := if flip c then (b, a) else (a, b) in
  ((dn c + n)%Z, (IZR (da c) + a)%R, (IZR (db c) + b)%R).
Definition valid (x : domain) : bool := let '(_, a, b) := x in
  (if Rle_dec a (-1) then false else true) && (if Rle_dec b (-1) then false else true).
Definition jcall (c : jcod) (x : domain) : option domain := let y := shift c x in if valid y then Some y else None.
(** jacobi.py:504-505: the other arrow is an argument of the call. *)
Definition jadd (s o : jcod) : jcod :=
  let '(a, b) := if flip s then (db o, da o) else (da o, db o) in
  Jcod (dn s + dn o) (da s + a) (db s + b) (xorb (flip s) (flip o)).
(** jacobi.py:515-518. *)
Definition jneg (s : jcod) : jcod :=
  let '(a, b) := (- da s, - db s)%Z in let '(a, b) := if flip s then (b, a) else (a, b) in Jcod (- dn s) a b (flip s).
Definition jzero : jcod := Jcod 0 0 0 false.
(** operators.py:233-241. *)
Definition jmul (m : Z) (s : jcod) : option jcod := multiple jadd jneg jzero m s.
(** operators.py:246-247. *)
Definition jsub (s o : jcod) : jcod := jadd s (jneg o).
(** jacobi.py:520-521. *)
Definition jeq (s o : jcod) : bool := (da s =? da o)%Z && (db s =? db o)%Z && eqb (flip s) (flip o).
(** jacobi.py:523-528. *)
Definition jor (s o : jcod) : option jcod := if jeq s o then Some (if (dn o <=? dn s)%Z then s else o) else None.

(** ** [infinite_csr], operators.py:251-340 *)
(** [csr @ csr]. *)
Definition imatmul (A B : mat R) : option (mat R) := if (nc A =? nr B)%nat then Some (mmul 0%R Rplus Rmult A B) else None.
(** operators.py:321-337: the missing rows are zero. *)
Definition padded (A : mat R) (i j : nat) : R := if (i <? nr A)%nat then at_ A i j else 0%R.
Definition iadd (A B : mat R) : option (mat R) :=
  if (nc A =? nc B)%nat then Some (Mat (Nat.max (nr A) (nr B)) (nc A) (fun i j => (padded A i j + padded B i j)%R)) else None.
(** operators.py:292-294. *)
Definition iidentity (A : mat R) : mat R := identity 0%R 1%R (nc A).
(** operators.py:296-298 and 300-318. *)
Definition square (A : mat R) : mat R := Mat (nc A) (nc A) (padded A).

(** ** Operators, operators.py:6-173 *)
Record operator := Op { fn : domain -> option (mat R); cod : jcod }.
(** operators.py:99-102. *)
Definition omatmul (s o : operator) : operator :=
  Op (fun x => match jcall (cod o) x with None => None | Some y =>
       match fn s y, fn o x with Some A, Some B => imatmul A B | _, _ => None end end) (jadd (cod s) (cod o)).
(** operators.py:104-109. *)
Definition oT (s : operator) : operator :=
  Op (fun x => match jcall (jneg (cod s)) x with None => None | Some y => match fn s y with Some A => Some (transpose A) | None => None end end) (jneg (cod s)).
(** operators.py:111-115; [0*codomain] is the zero codomain. *)
Definition oidentity (s : operator) : operator := Op (fun x => match fn s x with Some A => Some (iidentity A) | None => None end) jzero.
(** operators.py:117-122, for natural exponents. *)
Fixpoint opow (s : operator) (k : nat) : operator := match k with O => oidentity s | S k => omatmul s (opow s k) end.
(** operators.py:124-136, for another operator. *)
Definition oadd (s o : operator) : option operator :=
  match jor (cod s) (cod o) with None => None | Some c =>
    Some (Op (fun x => match fn s x, fn o x with Some A, Some B => iadd A B | _, _ => None end) c) end.
(** operators.py:138-144, with a number. *)
Definition oscale (c : R) (s : operator) : operator := Op (fun x => match fn s x with Some A => Some (mscale Rmult c A) | None => None end) (cod s).
(** operators.py:160-170. *)
Definition odiv (s : operator) (c : R) : operator := oscale (1 / c) s.
Definition oneg (s : operator) : operator := oscale (-1) s.
Definition osub (s o : operator) : option operator := oadd s (oneg o).
(** operators.py:138-140, the commutator. *)
Definition ocomm (s o : operator) : option operator := osub (omatmul s o) (omatmul o s).
