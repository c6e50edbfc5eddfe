(** Radial operators on disks, annuli, balls and shells: dedalus/libraries/dedalus_sphere/zernike.py and shell.py, and
    the matrices built from them in dedalus/core/basis.py.

    Simplifications.  Reals without rounding; the mass (scipy's beta function) is an argument, as in [JacobiCalc_Model];
    its logarithm is the logarithm of it.  The number of rows asked for is an argument [size].  Names of operators are
    values of types.  Shell codomains, of two entries, are Jacobi codomains with a last entry that stays 0: those
    refuse parameters that are not above -1, which no basis has.  [None] is an exception. *)
From Coq Require Import List ZArith Reals Bool.
Import ListNotations.
From Verif Require Import MatSolvers_Model Codomain_Model JacobiCalc_Model.
Local Open Scope R_scope.

(** dedalus_sphere/operators.py:124-136, [operator + number]. *)
Definition oadd_number (o : operator) (c : R) : option operator := if Req_EM_T c 0 then Some o else oadd o (oscale c (oidentity o)).
Definition obind {A B} (o : option A) (f : A -> option B) : option B := match o with Some a => f a | None => None end.
(** dedalus_sphere/operators.py:300-318, [operator( *args ).square]. *)
Definition squared (o : operator) (x : domain) : option (mat R) := match fn o x with Some M => Some (square M) | None => None end.

(** ** zernike.py *)
(** 30 and 85-86: the second parameter of the polynomials. *)
Definition zernike_b (dimension : nat) (l : R) : R := l + INR dimension / 2 - 1.
(** A Jacobi operator with that parameter, times a number. *)
Definition at_degree (dimension : nat) (s : R) (o : operator) (x : domain) : option (mat R) :=
  let '(n, k, l) := x in match fn o (n, k, zernike_b dimension l) with Some M => Some (mscale Rmult s M) | None => None end.
(** 54-57. *)
Definition zernike_Id (dimension : nat) : operator := Op (fun x => let '(n, k, l) := x in fn Id_op (n, k, zernike_b dimension l)) (Jcod 0 0 0 false).
(** 59-62. *)
Definition zernike_Z (dimension : nat) : operator :=
  Op (fun x => let '(n, k, l) := x in match Z_op true with Some o => fn o (n, k, zernike_b dimension l) | None => None end) (Jcod 1 0 0 false).
(** 88-94. *)
Definition zernike_D (dimension : nat) (radius : R) (dl : Z) : operator :=
  Op (at_degree dimension (2 / radius) (if (0 <? dl)%Z then D_op true 1 else C_op true 1)) (Jcod (- (1 + dl) / 2) 1 dl false).
(** 96-102. *)
Definition zernike_E (dimension : nat) (radius : R) (dk : Z) : operator :=
  Op (at_degree dimension (sqrt (1 / 2)) (A_op true dk)) (Jcod ((1 - dk) / 2) dk 0 false).
(** 104-110. *)
Definition zernike_R (dimension : nat) (radius : R) (dl : Z) : operator :=
  Op (at_degree dimension (sqrt (1 / 2) * radius) (B_op true dl)) (Jcod ((1 - dl) / 2) 0 dl false).

(** ** shell.py:10-69; [inner] and [outer] are the radii, and [a], [b] the parameter [alpha] *)
Section Shell.
Context (dimension : nat) (inner outer a b : R).
Definition width : R := outer - inner.
(** [operator(n, k+alpha[0], k+alpha[1])]. *)
Definition at_k (o : operator) (x : domain) : option (mat R) := let '(n, k, _) := x in fn o (n, k + a, k + b).
(** 27, the operator [Z] used below. *)
Definition shifted_Z : option operator := obind (Z_op true) (fun z => oadd_number z ((outer + inner) / width)).
(** 22-25. *)
Definition shell_Z : option operator := obind (Z_op true) (fun z => Some (Op (at_k z) (Jcod 0 0 0 false))).
(** 29-32. *)
Definition shell_Id : operator := Op (at_k Id_op) (Jcod 0 0 0 false).
(** 34-37. *)
Definition shell_R : option operator := obind shifted_Z (fun z =>
  Some (Op (fun x => match at_k z x with Some M => Some (mscale Rmult (1 / 2 * width) M) | None => None end) (Jcod 1 0 0 false))).
(** 39. *)
Definition AB : operator := omatmul (A_op true 1) (B_op true 1).
(** 41-44. *)
Definition shell_AB : operator := Op (at_k AB) (Jcod 0 1 0 false).
(** 46-49. *)
Definition shell_E : option operator := obind shifted_Z (fun z =>
  Some (Op (fun x => match at_k (omatmul AB z) x with Some M => Some (mscale Rmult (1 / 2) M) | None => None end) (Jcod 1 1 0 false))).
(** 51-69. *)
Definition shell_D_inner (dl : Z) (l : R) : option operator := obind shifted_Z (fun z =>
  let D := omatmul (D_op true 1) z in
  obind (oadd_number A_zero (- a)) (fun K =>
  obind (oadd_number K (IZR dl * l + (if (dl =? -1)%Z then 1 else 0) * (2 - INR dimension))) (fun K =>
  obind (osub D (omatmul K AB)) (fun D => Some (odiv D width))))).
Definition shell_D (dl : Z) (l : R) : operator := Op (fun x => obind (shell_D_inner dl l) (fun o => at_k o x)) (Jcod 0 1 0 false).
End Shell.

(** ** Balls *)
Inductive letter := LD | LE | LR.
(** Names of operators: a letter with a sign, "L", and those without a sign that balls and disks have. *)
Inductive op_name := Signed (o : letter) (plus : bool) | Lap | Ident | Coord.
Definition sign_of (plus : bool) : Z := if plus then 1%Z else (-1)%Z.
Definition zernike_signed (dimension : nat) (radius : R) (o : letter) (p : Z) : operator :=
  match o with LD => zernike_D dimension radius p | LE => zernike_E dimension radius p | LR => zernike_R dimension radius p end.
Section Ball.
Context (radius alpha : R) (k : nat).
(** basis.py:4044-4056. *)
Definition ball_operator (op : op_name) : operator :=
  match op with
  | Signed o plus => zernike_signed 3 radius o (sign_of plus)
  | Lap => omatmul (zernike_D 3 radius (-1)) (zernike_D 3 radius 1)
  | Ident => zernike_Id 3 | Coord => zernike_Z 3
  end.
Definition ball_operator_matrix (op : op_name) (l deg : Z) (size : nat) : option (mat R) :=
  squared (ball_operator op) (Z.of_nat size, alpha + INR k, IZR (l + deg)).
(** basis.py:4059-4064. *)
Definition ball_conversion_matrix (ell regtotal : Z) (dk size : nat) : option (mat R) :=
  squared (opow (zernike_E 3 radius 1) dk) (Z.of_nat size, alpha + INR k, IZR (ell + regtotal)).
(** basis.py:4067-4082. *)
Definition multiplication_operator (dimension : nat) (order d : Z) : operator :=
  let operator := if (order =? 0)%Z then zernike_Id dimension
    else if (order <? 0)%Z then opow (zernike_R dimension 1 (-1)) (Z.to_nat (Z.abs order)) else opow (zernike_R dimension 1 1) (Z.to_nat (Z.abs order)) in
  if (0 <? d)%Z then omatmul (opow (omatmul (zernike_R dimension 1 (-1)) (zernike_R dimension 1 1)) (Z.to_nat (d / 2))) operator else operator.
Definition ball_multiplication_matrix (ell regtotal order d : Z) (size : nat) : option (mat R) :=
  squared (multiplication_operator 3 order d) (Z.of_nat size, alpha + INR k, IZR (ell + regtotal)).

(** ** Disks *)
(** basis.py:2510-2529. *)
Definition disk_operator (op : op_name) (ms : Z) : operator :=
  match op with
  | Signed o plus =>
      let p := sign_of plus in let p := if (ms =? 0)%Z then 1%Z else if (ms <? 0)%Z then (- p)%Z else p in zernike_signed 2 radius o p
  | Lap => if (ms <? 0)%Z then omatmul (zernike_D 2 radius 1) (zernike_D 2 radius (-1)) else omatmul (zernike_D 2 radius (-1)) (zernike_D 2 radius 1)
  | Ident => zernike_Id 2 | Coord => zernike_Z 2
  end.
Definition disk_operator_matrix (op : op_name) (m spin : Z) (size : nat) : option (mat R) :=
  squared (disk_operator op (m + spin)) (Z.of_nat size, alpha + INR k, IZR (Z.abs (m + spin))).
(** basis.py:2504-2507. *)
Definition disk_conversion_matrix (m spintotal : Z) (dk size : nat) : option (mat R) :=
  squared (opow (zernike_E 2 radius 1) dk) (Z.of_nat size, alpha + INR k, IZR (Z.abs (m + spintotal))).
(** basis.py:2538-2552. *)
Definition disk_multiplication_matrix (m spintotal order d : Z) (size : nat) : option (mat R) :=
  squared (multiplication_operator 2 order d) (Z.of_nat size, alpha + INR k, IZR (Z.abs (m + spintotal))).
End Ball.

(** ** Values, zernike.py:28-42, and basis.py:4010-4013, 2532-2535 *)
Section Mass.
Context (mass : R -> R -> R).
Definition zernike_init (dimension : nat) (k l z : R) : R :=
  let init := 0 + (if Req_EM_T l 0 then 0 else l * ln (1 + z)) in
  let init := init - (ln (mass k (zernike_b dimension l)) - ln 2 * (k + INR dimension / 2 + 1)) in exp (1 / 2 * init).
Definition zernike_polynomials (dimension n : nat) (k l z : R) : option (list R) :=
  polynomials mass true (Some (zernike_init dimension k l z)) n k (zernike_b dimension l) z.
(** The affine map of (0, radius) to (0, 1) divides by the radius. *)
Definition ball_interpolation (radius alpha : R) (k : nat) (ell regtotal : Z) (size : nat) (position : R) : option (list R) :=
  let z := 2 * (position / radius) ^ 2 - 1 in zernike_polynomials 3 size (alpha + INR k) (IZR (ell + regtotal)) z.
Definition disk_interpolation (radius alpha : R) (k : nat) (m spintotal : Z) (size : nat) (position : R) : option (list R) :=
  let z := 2 * (position / radius) ^ 2 - 1 in zernike_polynomials 2 size (alpha + INR k) (IZR (Z.abs (m + spintotal))) z.
(** basis.py:3799-3804 and 2232-2237; [rho] is (r1+r0)/(r1-r0). *)
Definition shell_interpolation (inner outer a b : R) (k size : nat) (position : R) : option (list R) :=
  let dR := outer - inner in let rho := (outer + inner) / dR in
  match polynomials mass true None size (a + INR k) (b + INR k) (position * 2 / dR - rho) with
  | Some l => Some (map (Rmult ((dR / position) ^ k)) l) | None => None end.
End Mass.

(** ** Shells and annuli *)
(** Operators with a sign, "L", and those that only shells and annuli have. *)
Inductive shell_name := SD (plus : bool) | SL | SIdent | SR | SZ | SAB | SE.
Section Shells.
Context (inner outer a b : R) (k : nat).
(** shell.py:10-69, for names without a sign. *)
Definition shell_plain (op : shell_name) : option operator :=
  match op with SIdent => Some (shell_Id a b) | SR => shell_R inner outer a b | SZ => shell_Z a b | SAB => Some (shell_AB a b) | SE => shell_E inner outer a b | _ => None end.
(** basis.py:3847-3859. *)
Definition shell_operator_matrix (op : shell_name) (l regtotal : Z) (size : nat) : option (mat R) :=
  let l := IZR (l + regtotal) in
  let operator := match op with
    | SD plus => Some (shell_D 3 inner outer a b (sign_of plus) l)
    | SL => Some (omatmul (shell_D 3 inner outer a b (-1) (l + 1)) (shell_D 3 inner outer a b 1 l))
    | _ => shell_plain op end in
  obind operator (fun o => squared o (Z.of_nat size, INR k, 0)).
(** basis.py:2240-2261. *)
Definition annulus_operator_matrix (op : shell_name) (m spintotal : Z) (size : nat) : option (mat R) :=
  let ms := (m + spintotal)%Z in
  let operator := match op with
    | SD plus => let p := sign_of plus in
        let '(p, ms) := if (ms =? 0)%Z then (1%Z, ms) else if (ms <? 0)%Z then ((- p)%Z, (- ms)%Z) else (p, ms) in
        Some (shell_D 2 inner outer a b p (IZR ms))
    | SL => Some (if (ms <? 0)%Z then omatmul (shell_D 2 inner outer a b 1 (IZR (ms - 1))) (shell_D 2 inner outer a b (-1) (IZR ms))
                  else omatmul (shell_D 2 inner outer a b (-1) (IZR (ms + 1))) (shell_D 2 inner outer a b 1 (IZR ms)))
    | _ => shell_plain op end in
  obind operator (fun o => squared o (Z.of_nat size, INR k, 0)).
(** basis.py:3868-3872 and 2271-2274. *)
Definition shell_conversion_matrix (dk size : nat) : option (mat R) :=
  obind (shell_E inner outer a b) (fun E => squared (opow E dk) (Z.of_nat size, INR k, 0)).
(** basis.py:3861-3866 and 2263-2268. *)
Definition shell_jacobi_conversion (dk size : nat) : option (mat R) := squared (opow (shell_AB a b) dk) (Z.of_nat size, INR k, 0).
End Shells.
