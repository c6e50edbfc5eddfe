(** Model of the algebra of bases (dedalus/core/basis.py) and of the conversions it needs (dedalus/core/operators.py).
    A basis is the record of its canonical constructor arguments.  All these classes cache their instances on these
    arguments (tools/cache.py:112-133), so two bases are the same object exactly if the records are equal.
    Coordinate systems are given by a name up to their own equality; numbers are canonical rationals; [dtype] is true for
    complex bases.  The constructors' checks and everything else they set up are left out: all bases here exist. *)
From stdpp Require Import numbers list strings option.
From Coq Require Import Qcanon.
Local Open Scope nat_scope.

(** basis.py:439-502. *)
Record jacobi := Jac { j_coord : string; j_size : nat; j_bounds : Qc * Qc; j_a : Qc; j_b : Qc; j_a0 : Qc; j_b0 : Qc; j_dealias : list Qc; j_lib : string }.
(** basis.py:824-861, both classes. *)
Record fourier := Fou { f_complex : bool; f_coord : string; f_size : nat; f_bounds : Qc * Qc; f_dealias : list Qc; f_lib : string }.
(** basis.py:2062-2080. *)
Record annulus := Ann { a_cs : string; a_shape : nat * nat; a_dtype : bool; a_radii : Qc * Qc; a_k : Z; a_alpha : Qc * Qc; a_dealias : list Qc; a_az : string; a_lib : string }.
(** basis.py:2343-2361. *)
Record disk := Dis { d_cs : string; d_shape : nat * nat; d_dtype : bool; d_radius : Qc; d_k : Z; d_alpha : Qc; d_dealias : list Qc; d_az : string; d_lib : string }.
(** basis.py:2709-2741. *)
Record sphere := Sph { s_cs : string; s_shape : nat * nat; s_dtype : bool; s_radius : Qc; s_dealias : list Qc; s_az : string; s_colat : string }.
(** basis.py:3684-3706; [dealias] as it was passed (see [pad_dealias]). *)
Record shellradial := SRa { sr_cs : string; sr_size : nat; sr_dtype : bool; sr_radii : Qc * Qc; sr_alpha : Qc * Qc; sr_dealias : list Qc; sr_k : Z; sr_lib : string }.
(** basis.py:3921-3939. *)
Record ballradial := BRa { br_cs : string; br_size : nat; br_dtype : bool; br_radius : Qc; br_k : Z; br_alpha : Qc; br_dealias : list Qc; br_lib : string }.
(** basis.py:4386-4413; the three dealias factors apart. *)
Record shell := She { sh_cs : string; sh_shape : nat * nat * nat; sh_dtype : bool; sh_radii : Qc * Qc; sh_k : Z; sh_alpha : Qc * Qc; sh_dealias : Qc * Qc * Qc; sh_az : string; sh_colat : string; sh_lib : string }.
(** basis.py:4607-4632. *)
Record ball := Bal { ba_cs : string; ba_shape : nat * nat * nat; ba_dtype : bool; ba_radius : Qc; ba_k : Z; ba_alpha : Qc; ba_dealias : Qc * Qc * Qc; ba_az : string; ba_colat : string; ba_lib : string }.
Inductive basis := BJ (x : jacobi) | BF (x : fourier) | BA (x : annulus) | BD (x : disk) | BS (x : sphere) | BSR (x : shellradial) | BBR (x : ballradial) | BSh (x : shell) | BBa (x : ball).
Global Instance jacobi_eq : EqDecision jacobi. Proof. solve_decision. Defined.
Global Instance fourier_eq : EqDecision fourier. Proof. solve_decision. Defined.
Global Instance annulus_eq : EqDecision annulus. Proof. solve_decision. Defined.
Global Instance disk_eq : EqDecision disk. Proof. solve_decision. Defined.
Global Instance sphere_eq : EqDecision sphere. Proof. solve_decision. Defined.
Global Instance shellradial_eq : EqDecision shellradial. Proof. solve_decision. Defined.
Global Instance ballradial_eq : EqDecision ballradial. Proof. solve_decision. Defined.
Global Instance shell_eq : EqDecision shell. Proof. solve_decision. Defined.
Global Instance ball_eq : EqDecision ball. Proof. solve_decision. Defined.
Global Instance basis_eq : EqDecision basis. Proof. solve_decision. Defined.

(** What a method returns or raises. *)
Inductive error := TypeError | ValueError | NotImplementedError.
Inductive result {A : Type} := Val (x : A) | NotImplemented | Raises (e : error).
Arguments result : clear implicits.
Notation is_ x y := (bool_decide (x = y)).

(** Python's [max] of two numbers. *)
Definition qmax (x y : Qc) : Qc := if Qclt_le_dec x y then y else x.
Definition max2 (s t : nat * nat) : nat * nat := (s.1 `max` t.1, s.2 `max` t.2).
Definition max3 (s t : nat * nat * nat) : nat * nat * nat := (max2 s.1 t.1, s.2 `max` t.2).

(** The attributes [grid_params]: basis.py:498, 2077, 2359, 2742, 3699, 3932, 4403, 4623. *)
Definition j_grid (x : jacobi) := (j_coord x, j_bounds x, j_a0 x, j_b0 x, j_dealias x, j_lib x).
Definition a_grid (x : annulus) := (a_cs x, a_dtype x, a_radii x, a_alpha x, a_dealias x, a_az x, a_lib x).
Definition d_grid (x : disk) := (d_cs x, d_dtype x, d_radius x, d_alpha x, d_dealias x, d_az x, d_lib x).
Definition s_grid (x : sphere) := (s_cs x, s_dtype x, s_radius x, s_dealias x, s_az x, s_colat x).
(** basis.py:3433-3436, the attribute [dealias] of a radial basis. *)
Definition pad_dealias (d : list Qc) : list Qc := match d with [x] => [1%Qc; 1%Qc; x] | _ => d end.
Definition sr_grid (x : shellradial) := (sr_cs x, sr_radii x, sr_alpha x, pad_dealias (sr_dealias x)).
Definition br_grid (x : ballradial) := (br_cs x, br_radius x, br_alpha x, pad_dealias (br_dealias x)).
Definition sh_grid (x : shell) := (sh_cs x, sh_dtype x, sh_radii x, sh_alpha x, sh_dealias x, sh_az x, sh_colat x, sh_lib x).
Definition ba_grid (x : ball) := (ba_cs x, ba_dtype x, ba_radius x, ba_alpha x, ba_dealias x, ba_az x, ba_colat x, ba_lib x).

(** basis.py:110-114, [clone_with]: the constructor, with the attributes for the other arguments. *)
Definition j_clone (x : jacobi) (size : nat) (a b : Qc) := Jac (j_coord x) size (j_bounds x) a b (j_a0 x) (j_b0 x) (j_dealias x) (j_lib x).
Definition a_clone (x : annulus) shape k := Ann (a_cs x) shape (a_dtype x) (a_radii x) k (a_alpha x) (a_dealias x) (a_az x) (a_lib x).
Definition d_clone (x : disk) shape k := Dis (d_cs x) shape (d_dtype x) (d_radius x) k (d_alpha x) (d_dealias x) (d_az x) (d_lib x).
Definition s_clone (x : sphere) shape := Sph (s_cs x) shape (s_dtype x) (s_radius x) (s_dealias x) (s_az x) (s_colat x).
Definition sr_clone (x : shellradial) size k := SRa (sr_cs x) size (sr_dtype x) (sr_radii x) (sr_alpha x) (pad_dealias (sr_dealias x)) k (sr_lib x).
Definition br_clone (x : ballradial) size k := BRa (br_cs x) size (br_dtype x) (br_radius x) k (br_alpha x) (pad_dealias (br_dealias x)) (br_lib x).
Definition sh_clone (x : shell) shape k := She (sh_cs x) shape (sh_dtype x) (sh_radii x) k (sh_alpha x) (sh_dealias x) (sh_az x) (sh_colat x) (sh_lib x).
Definition ba_clone (x : ball) shape k := Bal (ba_cs x) shape (ba_dtype x) (ba_radius x) k (ba_alpha x) (ba_dealias x) (ba_az x) (ba_colat x) (ba_lib x).
(** basis.py:4401 and 4621, [radial_basis]. *)
Definition sh_radial (x : shell) := SRa (sh_cs x) (sh_shape x).2 (sh_dtype x) (sh_radii x) (sh_alpha x) [(sh_dealias x).2] (sh_k x) (sh_lib x).
Definition ba_radial (x : ball) := BRa (ba_cs x) (ba_shape x).2 (ba_dtype x) (ba_radius x) (ba_k x) (ba_alpha x) [(ba_dealias x).2] (ba_lib x).

(** [__add__]: basis.py:519-529, 863-867, 2090-2099, 2371-2380, 2902-2913, 3718-3728, 3951-3961, 4426-4435, 4643-4652. *)
Definition add (self : basis) (other : option basis) : result basis :=
  match other with
  | None => Val self
  | Some other =>
      if is_ other self then Val self else
      match self, other with
      | BJ x, BJ y => if is_ (j_grid x) (j_grid y) then Val (BJ (j_clone x (j_size x `max` j_size y) (qmax (j_a x) (j_a y)) (qmax (j_b x) (j_b y)))) else NotImplemented
      | BA x, BA y => if is_ (a_grid x) (a_grid y) then Val (BA (a_clone x (max2 (a_shape x) (a_shape y)) (a_k x `max` a_k y)%Z)) else NotImplemented
      | BD x, BD y => if is_ (d_grid x) (d_grid y) then Val (BD (d_clone x (max2 (d_shape x) (d_shape y)) (d_k x `max` d_k y)%Z)) else NotImplemented
      | BS x, BS y => if negb (is_ (s_radius x) (s_radius y)) then Raises NotImplementedError
                      else if is_ (s_grid x) (s_grid y) then Val (BS (s_clone x (max2 (s_shape x) (s_shape y)))) else NotImplemented
      | BSR x, BSR y => if is_ (sr_grid x) (sr_grid y) then Val (BSR (sr_clone x (sr_size x `max` sr_size y) (sr_k x `max` sr_k y)%Z)) else NotImplemented
      | BBR x, BBR y => if is_ (br_grid x) (br_grid y) then Val (BBR (br_clone x (br_size x `max` br_size y) (br_k x `max` br_k y)%Z)) else NotImplemented
      | BSh x, BSh y => if is_ (sh_grid x) (sh_grid y) then Val (BSh (sh_clone x (max3 (sh_shape x) (sh_shape y)) (sh_k x `max` sh_k y)%Z)) else NotImplemented
      | BBa x, BBa y => if is_ (ba_grid x) (ba_grid y) then Val (BBa (ba_clone x (max3 (ba_shape x) (ba_shape y)) (ba_k x `max` ba_k y)%Z)) else NotImplemented
      | _, _ => NotImplemented
      end
  end.

(** The products of radial bases, inlined below: basis.py:3733-3737 and 3966-3970. *)
Definition sr_mul (x y : shellradial) : result shellradial :=
  if is_ (sr_grid x) (sr_grid y) then Val (sr_clone x (sr_size x `max` sr_size y) (sr_k x + sr_k y)%Z) else NotImplemented.
Definition br_mul (x y : ballradial) : result ballradial :=
  if is_ (br_grid x) (br_grid y) then Val (br_clone x (br_size x `max` br_size y) (br_k x `max` br_k y)%Z) else NotImplemented.
(** [(x op y).k], where Python turns [NotImplemented] from equal classes into an exception. *)
Definition order_of {A} (k : A -> Z) (r : result A) : result Z := match r with Val z => Val (k z) | NotImplemented => Raises TypeError | Raises e => Raises e end.
Definition then_ {A B} (r : result A) (f : A -> result B) : result B := match r with Val x => f x | NotImplemented => NotImplemented | Raises e => Raises e end.
(** [__mul__]: basis.py:531-544, 869-873, 2101-2110, 2382-2391, 2915-2926, 3730-3752, 3963-3971, 4437-4449, 4654-4666. *)
Definition mul (self : basis) (other : option basis) : result basis :=
  match other with
  | None => Val self
  | Some other =>
      match self, other with
      | BJ x, BJ y => if is_ y x then Val self else
          if is_ (j_grid x) (j_grid y) then Val (BJ (j_clone x (j_size x `max` j_size y) (j_a0 x) (j_b0 x))) else NotImplemented
      | BF x, BF y => if is_ y x then Val self else NotImplemented
      | BA x, BA y => if is_ (a_grid x) (a_grid y) then Val (BA (a_clone x (max2 (a_shape x) (a_shape y)) (a_k x + a_k y)%Z)) else NotImplemented
      | BD x, BD y => if is_ (d_grid x) (d_grid y) then Val (BD (d_clone x (max2 (d_shape x) (d_shape y)) 0%Z)) else NotImplemented
      | BS x, BS y => if is_ y x then Val self else if negb (is_ (s_radius x) (s_radius y)) then Raises NotImplementedError
                      else if is_ (s_grid x) (s_grid y) then Val (BS (s_clone x (max2 (s_shape x) (s_shape y)))) else NotImplemented
      | BSR x, BSR y => then_ (sr_mul x y) (fun z => Val (BSR z))
      | BSR x, BS y => if negb (is_ (sr_cs x) (s_cs y)) then Raises ValueError else if negb (is_ (sr_dtype x) (s_dtype y)) then Raises ValueError
                       else match s_dealias y, list.last (pad_dealias (sr_dealias x)) with
                            | [d1; d2], Some d3 => Val (BSh (She (sr_cs x) (s_shape y, sr_size x) (sr_dtype x) (sr_radii x) (sr_k x) (sr_alpha x) (d1, d2, d3) (s_az y) (s_colat y) (sr_lib x)))
                            | _, _ => Raises ValueError end
      | BBR x, BBR y => then_ (br_mul x y) (fun z => Val (BBR z))
      | BSh x, BSh y => if is_ (sh_grid x) (sh_grid y) then then_ (order_of sr_k (sr_mul (sh_radial x) (sh_radial y))) (fun k => Val (BSh (sh_clone x (max3 (sh_shape x) (sh_shape y)) k))) else NotImplemented
      | BSh x, BSR y => then_ (order_of sr_k (sr_mul y (sh_radial x))) (fun k => Val (BSh (sh_clone x (sh_shape x) k)))
      | BBa x, BBa y => if is_ (ba_grid x) (ba_grid y) then Val (BBa (ba_clone x (max3 (ba_shape x) (ba_shape y)) 0%Z)) else NotImplemented
      | BBa x, BBR y => then_ (order_of br_k (br_mul y (ba_radial x))) (fun k => Val (BBa (ba_clone x (ba_shape x) k)))
      | _, _ => NotImplemented
      end
  end.

(** [__rmatmul__], of the operand's basis with that of the coefficient: basis.py:546-560, 875-879, 2112-2115, 2393-2403,
    2928-2930, 3754-3763, 3973-3982, 4451-4463, 4668-4678. *)
Definition rmatmul (self : basis) (other : option basis) : result basis :=
  match other with
  | None => Val self
  | Some other =>
      match self, other with
      | BJ x, BJ y => if is_ y x then Val self else
          if is_ (j_grid x) (j_grid y) then Val (BJ (j_clone x (j_size x `max` j_size y) (j_a x) (j_b x))) else NotImplemented
      | BF x, BF y => if is_ y x then Val self else NotImplemented
      | BA x, _ => mul self (Some other)
      | BD x, BD y => if is_ (d_grid x) (d_grid y) then Val (BD (d_clone x (max2 (d_shape x) (d_shape y)) (d_k x))) else NotImplemented
      | BS x, _ => mul self (Some other)
      | BSR x, BSR y => then_ (sr_mul x y) (fun z => Val (BSR z))
      | BBR x, BBR y => then_ (br_mul x y) (fun z => Val (BBR z))
      | BSh x, BSR y => then_ (order_of sr_k (sr_mul (sh_radial x) y)) (fun k => Val (BSh (sh_clone x (sh_shape x) k)))
      | BSh x, BSh y => if negb ((sh_shape y).1.1 =? 1) then Raises ValueError
                        else then_ (order_of sr_k (sr_mul (sh_radial x) (sh_radial y))) (fun k => Val (BSh (sh_clone x (sh_shape x) k)))
      | BBa x, BBR y => then_ (order_of br_k (br_mul (ba_radial x) y)) (fun k => Val (BBa (ba_clone x (ba_shape x) k)))
      | BBa x, BBa y => then_ (order_of br_k (br_mul (ba_radial x) (ba_radial y))) (fun k => Val (BBa (ba_clone x (ba_shape x) k)))
      | _, _ => NotImplemented
      end
  end.

(** Python's binary operators: the method of the left operand, then, for operands of other classes, the reflected method of
    the right one ([__radd__] and [__rmul__], basis.py:135-139, call [__add__] and [__mul__]; [None] has none). *)
Definition class_of (b : basis) : nat :=
  match b with BJ _ => 0 | BF x => if f_complex x then 1 else 2 | BA _ => 3 | BD _ => 4 | BS _ => 5 | BSR _ => 6 | BBR _ => 7 | BSh _ => 8 | BBa _ => 9 end.
Definition raised {A} (r : result A) : result A := match r with NotImplemented => Raises TypeError | r => r end.
Definition operator (f : basis -> option basis -> result basis) (x y : option basis) : result basis :=
  match x, y with
  | None, None => Raises TypeError
  | None, Some y => raised (f y None)
  | Some x, None => raised (f x None)
  | Some x, Some y => match f x (Some y) with NotImplemented => if class_of x =? class_of y then Raises TypeError else raised (f y (Some x)) | r => r end
  end.
Definition plus_ := operator add.
Definition times := operator mul.
(** [ncc @ operand]: basis.py:120-127. *)
Definition matmul (x y : option basis) : result basis :=
  match x, y with None, None => Raises TypeError | Some x, None => Val x | x, Some y => raised (rmatmul y x) end.

(** arithmetic.py:97-113, [Add._build_bases] along one coordinate: [np.sum] of an object array folds from the left. *)
Fixpoint np_sum (x : basis) (l : list basis) : result basis :=
  match l with [] => Val x | y :: l => match plus_ (Some x) (Some y) with Val z => np_sum z l | r => r end end.
Definition sum_bases (l : list (option basis)) : result (option basis) :=
  match omap id l with
  | [] => Val None
  | b :: bs => match np_sum b bs with Val z => Val (Some z) | NotImplemented => NotImplemented | Raises e => Raises e end
  end.
(** arithmetic.py:268-287, [Product._build_bases] along one coordinate; the product is not linear in an implicit term. *)
Definition product_bases (x y : option basis) : result (option basis) :=
  match x, y with None, None => Val None | _, _ => then_ (times x y) (fun z => Val (Some z)) end.

(** [==]: the spherical bases override it (basis.py:1894-1901, 3707-3713, 3940-3946,
    4415-4421, 4632-4638, and 2892-2897 for spheres, which compares everything); otherwise identity. *)
Definition py_eq (x y : basis) : bool :=
  match x, y with
  | BA x, BA y => is_ (a_dtype x) (a_dtype y) && is_ (a_cs x) (a_cs y) && is_ (a_grid x) (a_grid y) && is_ (a_k x) (a_k y)
  | BD x, BD y => is_ (d_dtype x) (d_dtype y) && is_ (d_cs x) (d_cs y) && is_ (d_grid x) (d_grid y) && is_ (d_k x) (d_k y)
  | BSR x, BSR y => is_ (sr_cs x) (sr_cs y) && is_ (sr_grid x) (sr_grid y) && is_ (sr_k x) (sr_k y)
  | BBR x, BBR y => is_ (br_cs x) (br_cs y) && is_ (br_grid x) (br_grid y) && is_ (br_k x) (br_k y)
  | BSh x, BSh y => is_ (sh_cs x) (sh_cs y) && is_ (sh_grid x) (sh_grid y) && is_ (sh_k x) (sh_k y)
  | BBa x, BBa y => is_ (ba_cs x) (ba_cs y) && is_ (ba_grid x) (ba_grid y) && is_ (ba_k x) (ba_k y)
  | _, _ => is_ x y
  end.
(** [Convert] of an operand in basis [x] to basis [y], operators.py:1568-1582 and 1641-1657 with the dispatch of
    tools/dispatch.py; the result is the basis of the converted operand.  The subclasses are those with both bases:
    basis.py:664-679, 2591-2610, 4732-4751, 4822-4841. *)
Definition convert (x y : basis) : result basis :=
  if py_eq x y then Val x else
  match x, y with
  | BJ _, BJ _ => Val y
  | (BA _ | BD _), (BA _ | BD _) => Val y
  | (BSR _ | BBR _), (BSR _ | BBR _) => Val y
  | (BSh _ | BBa _), (BSh _ | BBa _) => Val y
  | _, _ => Raises NotImplementedError
  end.
(** basis.py:672-679: rows and columns of the matrix that converts Jacobi coefficients. *)
Definition convert_shape (x y : jacobi) : nat * nat := (j_size x, j_size x).
