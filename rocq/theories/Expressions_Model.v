(** Symbolic expressions: dedalus/core/field.py ([Operand], [Current]), dedalus/core/future.py,
    dedalus/core/arithmetic.py and the symbolic methods of dedalus/core/operators.py.

    Simplifications.  Numbers and values are real.  An expression is a tree; objects other than fields
    have no identity, so a key is a field or a class.  A tensor signature is a list of coordinate systems,
    each a number.  [None] is an exception.  Constructors also check distributors, data types and domains
    and can raise for these; the model returns a result there, so theorems with a hypothesis that a result
    is returned also hold of the code. *)
From Coq Require Import Reals.
From stdpp Require Import numbers list.

Notation sig := (list nat).

(** operators.py:535-557, the functions with a derivative in the table; [Conjugate] has none. *)
Inductive ufunc := Absolute | Sign | Exp | Exp2 | Log | Log2 | Log10 | Sqrt | Square | Sin | Cos | Tan
  | Arcsin | Arccos | Arctan | Sinh | Cosh | Tanh | Arcsinh | Arccosh | Arctanh | Erf | Conjugate.

(** Numbers ([Num], not an [Operand]), fields ([Var]), constant fields made by [Operand.cast] ([Cast]),
    AddFields, MultiplyNumberField, MultiplyFields, DotProduct with its indices, CrossProduct, Convert,
    the other linear operators (numbered), PowerFieldConstant and UnaryGridFunction. *)
Inductive expr :=
| Num (q : R) | Var (x : nat) | Cast (q : R) (s : sig)
| AddE (a b : expr) | MulN (q : R) (a : expr) | MulE (a b : expr)
| Dot (i j : nat) (a b : expr) | Cross (a b : expr)
| Conv (a : expr) | Lin (L : nat) (a : expr) | Pow (a : expr) (p : R) | Fun (f : ufunc) (a : expr).

(** The class of a node, for [isinstance]. *)
Inductive cls := CAdd | CMul | CDot | CCross | CConv | CLin (L : nat) | CPow | CFun.
Definition class (e : expr) : option cls :=
  match e with
  | Num _ | Var _ | Cast _ _ => None
  | AddE _ _ => Some CAdd | MulN _ _ | MulE _ _ => Some CMul | Dot _ _ _ _ => Some CDot | Cross _ _ => Some CCross
  | Conv _ => Some CConv | Lin L _ => Some (CLin L) | Pow _ _ => Some CPow | Fun _ _ => Some CFun
  end.
(** What [split], [has] and [replace] look for: a field or a class. *)
Inductive key := KVar (x : nat) | KType (T : cls -> bool).

(** What [new_operand] of a linear operator does when it gets a number. *)
Inductive num_rule :=
| KeepNumber   (* Interpolate: operators.py:1080-1081 *)
| ZeroNumber   (* Differentiate 1405-1416, Trace 1728, TransposeComponents 1885, components 2196, Gradient 2320, Divergence 3422, Curl 3673, Laplacian 3988, SphericalEllProduct 4161 *)
| ZeroOnly     (* zero for zero, else an error: Integrate 1161-1162, Skew 2055, SphereEllProduct 2876, MulCosine 3002, Lift 4270 *)
| NumberFails  (* Lock 823, Copy 1513, CartCompBase 3303 *)
| NoNewOperand (* [new_operand] not defined (671-673): TimeDerivative, Average, HilbertTransform *).

Record world := World {
  var_sig : nat -> sig;                       (* signature of a field *)
  cs_dim : nat -> nat;                        (* dimension of a coordinate system *)
  lin_sig : nat -> sig -> sig;                (* signature of an operator's output *)
  rule : nat -> num_rule;
  vanishes : nat -> expr -> bool;             (* the constructor returns zero (constant operands: 1401-1416, 3443-3447, 3995-4003) *)
  conversions : expr -> expr -> nat * nat     (* conversions put on the arguments of a sum (arithmetic.py:90-91) *)
}.

Section World.
Context (w : world).

(** Signatures: arithmetic.py:223 (sum), 921 (product with a number), 838 (product), 604 (dot), 696 (cross);
    operators.py:352, 571, 1559. *)
Fixpoint esig (e : expr) : sig :=
  match e with
  | Num _ => []
  | Var x => var_sig w x
  | Cast _ s => s
  | AddE a _ | MulN _ a | Conv a | Pow a _ | Fun _ a => esig a
  | MulE a b => esig a ++ esig b
  | Dot i j a b => delete i (esig a) ++ delete j (esig b)
  | Cross a _ => esig a
  | Lin L a => lin_sig w L (esig a)
  end.

Definition is_num (e : expr) : bool := match e with Num _ => true | _ => false end.
(** [arg == 0], [arg == 1]: operands are compared by identity. *)
Definition is_zero (e : expr) : bool := match e with Num q => if Req_EM_T q 0 then true else false | _ => false end.
Definition is_one (e : expr) : bool := match e with Num q => if Req_EM_T q 1 then true else false | _ => false end.
(** [bool(arg)]. *)
Definition truthy (e : expr) : bool := negb (is_zero e).

(** field.py:147-167, [Operand.cast]. *)
Definition cast (s : sig) (e : expr) : option expr :=
  match e with Num q => Some (Cast q s) | _ => if decide (esig e = s) then Some e else None end.
(** operators.py:1474-1489, [convert]; [n] bases differ. *)
Fixpoint convert (n : nat) (e : expr) : expr := match n with 0 => e | S n => convert n (Conv e) end.

(** arithmetic.py:57-82, 88-92, [Add]: zeros dropped, a single argument returned, numbers cast to the
    signature of the operands, numbers summed. *)
Definition operand_sig (args : list expr) : option sig :=
  match filter (fun e => is_num e = false) args with e :: _ => Some (esig e) | [] => None end.
Definition numbers_sum (args : list expr) : R := fold_left (fun s e => match e with Num q => (s + q)%R | _ => s end) args 0%R.
Definition add (a b : expr) : option expr :=
  let args := filter (fun e => is_zero e = false) [a; b] in
  match args with
  | [e] => Some e
  | _ =>
      match operand_sig args with
      | Some s =>
          match args with
          | [a; b] => a ← cast s a; b ← cast s b;
                      Some (AddE (convert (conversions w a b).1 a) (convert (conversions w a b).2 b))
          | _ => None
          end
      | None => Some (Num (numbers_sum args))
      end
  end.

(** arithmetic.py:751-779, [Multiply]: ones dropped, a single argument returned, zero for any zero, then by
    the types of the arguments (823-838, 909-922, the number comes first). *)
Definition numbers_prod (args : list expr) : R := fold_left (fun s e => match e with Num q => (s * q)%R | _ => s end) args 1%R.
Definition mul (a b : expr) : option expr :=
  let args := filter (fun e => is_one e = false) [a; b] in
  match args with
  | [e] => Some e
  | _ =>
      if existsb is_zero args then Some (Num 0)
      else match args with
           | [Num q; Num r] => Some (Num (numbers_prod args))
           | [Num q; b] => Some (MulN q b)
           | [a; Num q] => Some (MulN q a)
           | [a; b] => Some (MulE a b)
           | _ => Some (Num (numbers_prod args))
           end
  end.
(** arithmetic.py:644-647, 592-597 and 619-632: [DotProduct.new_operands] and the constructor's checks ([list.pop]
    raises where the index test does not). *)
Definition dot (i j : nat) (a b : expr) : option expr :=
  if is_zero a || is_zero b then Some (Num 0)
  else if is_num a || is_num b then None
  else if decide (i < length (esig a) /\ j < length (esig b)) then Some (Dot i j a b) else None.
(** arithmetic.py:730-733 and 683-694, CrossProduct. *)
Definition cross (a b : expr) : option expr :=
  if is_zero a || is_zero b then Some (Num 0)
  else if is_num a || is_num b then None
  else match esig a, esig b with
       | [cs], [cs'] => if decide (cs = cs' /\ cs_dim w cs = 3) then Some (Cross a b) else None
       | _, _ => None
       end.
(** [new_operand] of a linear operator. *)
Definition lin (L : nat) (e : expr) : option expr :=
  match e, rule w L with
  | _, NoNewOperand => None
  | Num q, KeepNumber => Some (Num q)
  | Num q, ZeroNumber => Some (Num 0)
  | Num q, ZeroOnly => if is_zero e then Some (Num 0) else None
  | Num q, NumberFails => None
  | _, _ => if vanishes w L e then Some (Num 0) else Some (Lin L e)
  end.
(** operators.py:315-326, 338-353, 387-388, [Power]: only fields to numbers. *)
Definition power (a : expr) (p : R) : option expr := if is_num a then None else Some (Pow a p).
(** operators.py:562-572, 587-588: the constructor reads the argument's domain. *)
Definition ufun (f : ufunc) (a : expr) : option expr := if is_num a then None else Some (Fun f a).

(** Python's operators on numbers and operands: field.py:83-145. *)
Definition py_add (a b : expr) : option expr :=
  match a, b with Num p, Num q => Some (Num (p + q)) | _, _ => add a b end.
Definition py_mul (a b : expr) : option expr :=
  match a, b with Num p, Num q => Some (Num (p * q)) | _, _ => mul a b end.
Definition py_neg (a : expr) : option expr :=
  match a with Num p => Some (Num (- p)) | _ => mul (Num (-1)) a end.
Definition py_sub (a b : expr) : option expr :=
  match a, b with Num p, Num q => Some (Num (p - q)) | _, _ => b ← py_neg b; add a b end.
(** field.py:133-140; the power of two numbers is not needed. *)
Definition py_pow (a : expr) (p : R) : option expr :=
  if is_num a then None
  else if Req_EM_T p 0 then Some (Num 1)
  else if Req_EM_T p 1 then Some a
  else power a p.
(** [sum(args)] starts from zero. *)
Definition py_sum (l : list expr) : option expr := foldl (fun acc e => a ← acc; py_add a e) (Some (Num 0)) l.

Fixpoint var_in (x : nat) (keys : list key) : bool :=
  match keys with [] => false | KVar y :: keys => bool_decide (x = y) || var_in x keys | KType _ :: keys => var_in x keys end.
Fixpoint type_in (c : cls) (keys : list key) : bool :=
  match keys with [] => false | KType T :: keys => T c || type_in c keys | KVar _ :: keys => type_in c keys end.
Definition class_in (e : expr) (keys : list key) : bool := match class e with Some c => type_in c keys | None => false end.

(** future.py:108-115, field.py:362-365 ([Current.has]: any field if there are no keys). *)
Fixpoint has (keys : list key) (e : expr) : bool :=
  match e with
  | Num _ => false
  | Var x => match keys with [] => true | _ => var_in x keys end
  | Cast _ _ => match keys with [] => true | _ => false end
  | AddE a b | MulE a b | Dot _ _ a b | Cross a b => class_in e keys || has keys a || has keys b
  | MulN _ a | Conv a | Lin _ a | Pow a _ | Fun _ a => class_in e keys || has keys a
  end.

(** arithmetic.py:296-310, [Product.split]; [op] is [new_operands]. *)
Definition product_split (op : expr -> expr -> option expr) (s0 s1 : expr * expr) : option (expr * expr) :=
  let combos := [(s0.1, s1.1); (s0.1, s1.2); (s0.2, s1.1); (s0.2, s1.2)] in
  let drop_last := negb (truthy s0.2 && truthy s1.2) in
  let kept := filter (fun c => truthy c.1 && truthy c.2 = true) combos in
  ops ← mapM (fun c => op c.1 c.2) kept;
  let ops := if drop_last then ops ++ [Num 0] else ops in
  p ← py_sum (take (length ops - 1) ops);
  n ← last ops;
  Some (p, n).

(** [split]: field.py:367-372, arithmetic.py:127-132, 296-310, operators.py:259-264, 675-683, 1585. *)
Fixpoint split (keys : list key) (e : expr) : option (expr * expr) :=
  match e with
  | Num _ => None
  | Var x => if var_in x keys then Some (e, Num 0) else Some (Num 0, e)
  | Cast _ _ => Some (Num 0, e)
  | AddE a b => sa ← split keys a; sb ← split keys b; p ← py_sum [sa.1; sb.1]; n ← py_sum [sa.2; sb.2]; Some (p, n)
  | MulN q a => sa ← split keys a; product_split mul (Num 0, Num q) sa
  | MulE a b => sa ← split keys a; sb ← split keys b; product_split mul sa sb
  | Dot i j a b => sa ← split keys a; sb ← split keys b; product_split (dot i j) sa sb
  | Cross a b => sa ← split keys a; sb ← split keys b; product_split cross sa sb
  | Conv a => if class_in e keys then Some (e, Num 0) else split keys a
  | Lin L a => if class_in e keys then Some (e, Num 0) else sa ← split keys a; p ← lin L sa.1; n ← lin L sa.2; Some (p, n)
  | Pow _ _ | Fun _ _ => if has keys e then Some (e, Num 0) else Some (Num 0, e)
  end.

(** [replace] of fields, and of nothing: field.py:374-379, future.py:117-129, operators.py:690-702, 1609-1612. *)
Fixpoint walk (onvar : nat -> expr) (e : expr) : option expr :=
  match e with
  | Num _ => None
  | Var x => Some (onvar x)
  | Cast _ _ => Some e
  | AddE a b => a ← walk onvar a; b ← walk onvar b; add a b
  | MulN q a => a ← walk onvar a; mul (Num q) a
  | MulE a b => a ← walk onvar a; b ← walk onvar b; mul a b
  | Dot i j a b => a ← walk onvar a; b ← walk onvar b; dot i j a b
  | Cross a b => a ← walk onvar a; b ← walk onvar b; cross a b
  | Conv a => walk onvar a
  | Lin L a => a ← walk onvar a; lin L a
  | Pow a p => a ← walk onvar a; power a p
  | Fun f a => a ← walk onvar a; ufun f a
  end.
Definition replace_var (x : nat) (new e : expr) : option expr := walk (fun y => if decide (y = x) then new else Var y) e.
(** [replace] of a class by a function.  A matching linear operator (operators.py:696-698) calls
    [self.operand.replace(new, old)], its arguments swapped: as [new] is a function, not a class, nothing
    in the operand matches and it is only rebuilt. *)
Definition rebuild (e : expr) : option expr := walk Var e.
Fixpoint replace_type (T : cls -> bool) (new : list expr -> option expr) (e : expr) : option expr :=
  match e with
  | Num _ => None
  | Var _ | Cast _ _ => Some e
  | AddE a b => a ← replace_type T new a; b ← replace_type T new b; if T CAdd then new [a; b] else add a b
  | MulN q a => a ← replace_type T new a; if T CMul then new [Num q; a] else mul (Num q) a
  | MulE a b => a ← replace_type T new a; b ← replace_type T new b; if T CMul then new [a; b] else mul a b
  | Dot i j a b => a ← replace_type T new a; b ← replace_type T new b; if T CDot then new [a; b] else dot i j a b
  | Cross a b => a ← replace_type T new a; b ← replace_type T new b; if T CCross then new [a; b] else cross a b
  | Conv a => replace_type T new a
  | Lin L a => if T (CLin L) then a ← rebuild a; new [a] else a ← replace_type T new a; lin L a
  | Pow a p => a ← replace_type T new a; if T CPow then new [a; Num p] else power a p
  | Fun f a => a ← replace_type T new a; if T CFun then new [a] else ufun f a
  end.

(** operators.py:534-557, the table of derivatives, as the bodies of its functions of [x]. *)
Inductive body := X | BNum (q : R) | BAdd (a b : body) | BSub (a b : body) | BMul (a b : body) | BNeg (a : body) | BPow (a : body) (p : R) | BFun (f : ufunc) (a : body).
Definition derivative (f : ufunc) : option body :=
  match f with
  | Absolute => Some (BFun Sign X)
  | Sign => Some (BNum 0)
  | Exp => Some (BFun Exp X)
  | Exp2 => Some (BMul (BFun Exp2 X) (BNum (ln 2)))
  | Log => Some (BPow X (-1))
  | Log2 => Some (BPow (BMul X (BNum (ln 2))) (-1))
  | Log10 => Some (BPow (BMul X (BNum (ln 10))) (-1))
  | Sqrt => Some (BMul (BNum (1/2)) (BPow X (-1/2)))
  | Square => Some (BMul (BNum 2) X)
  | Sin => Some (BFun Cos X)
  | Cos => Some (BNeg (BFun Sin X))
  | Tan => Some (BPow (BFun Cos X) (-2))
  | Arcsin => Some (BPow (BSub (BNum 1) (BPow X 2)) (-1/2))
  | Arccos => Some (BNeg (BPow (BSub (BNum 1) (BPow X 2)) (-1/2)))
  | Arctan => Some (BPow (BAdd (BNum 1) (BPow X 2)) (-1))
  | Sinh => Some (BFun Cosh X)
  | Cosh => Some (BFun Sinh X)
  | Tanh => Some (BSub (BNum 1) (BPow (BFun Tanh X) 2))
  | Arcsinh => Some (BPow (BAdd (BPow X 2) (BNum 1)) (-1/2))
  | Arccosh => Some (BPow (BSub (BPow X 2) (BNum 1)) (-1/2))
  | Arctanh => Some (BPow (BSub (BNum 1) (BPow X 2)) (-1))
  | Erf => Some (BMul (BNum (2 * / R_sqrt.sqrt PI)) (BFun Exp (BNeg (BPow X 2))))
  | Conjugate => None
  end.
(** Applying such a function to an operand; [np.exp(operand)] makes a UnaryGridFunction (field.py:45-53). *)
Fixpoint apply_body (t : body) (x : expr) : option expr :=
  match t with
  | X => Some x
  | BNum q => Some (Num q)
  | BAdd a b => a ← apply_body a x; b ← apply_body b x; py_add a b
  | BSub a b => a ← apply_body a x; b ← apply_body b x; py_sub a b
  | BMul a b => a ← apply_body a x; b ← apply_body b x; py_mul a b
  | BNeg a => a ← apply_body a x; py_neg a
  | BPow a p => a ← apply_body a x; py_pow a p
  | BFun f a => a ← apply_body a x; ufun f a
  end.

(** [sym_diff]: field.py:381-386, arithmetic.py:134-137, 312-317, 978-980, operators.py:330-333, 594-599, 685-688. *)
Fixpoint sym_diff (x : nat) (e : expr) : option expr :=
  match e with
  | Num _ => None
  | Var y => Some (Num (if decide (y = x) then 1 else 0))
  | Cast _ _ => Some (Num 0)
  | AddE a b => a ← sym_diff x a; b ← sym_diff x b; py_sum [a; b]
  | MulN q a => a ← sym_diff x a; py_mul (Num q) a
  | MulE a b => da ← sym_diff x a; db ← sym_diff x b; l ← mul da b; r ← mul a db; py_sum [l; r]
  | Dot i j a b => da ← sym_diff x a; db ← sym_diff x b; l ← dot i j da b; r ← dot i j a db; py_sum [l; r]
  | Cross a b => da ← sym_diff x a; db ← sym_diff x b; l ← cross da b; r ← cross a db; py_sum [l; r]
  | Conv a => sym_diff x a
  | Lin L a => a ← sym_diff x a; lin L a
  | Pow a p => b ← py_pow a (p - 1); c ← py_mul (Num p) b; da ← sym_diff x a; py_mul c da
  | Fun f a => t ← derivative f; d ← apply_body t a; da ← sym_diff x a; py_mul d da
  end.

(** field.py:260-300, [frechet_differential]; [eps] is the new field. *)
Fixpoint perturb (eps : nat) (vars perts : list nat) (e : expr) : option expr :=
  match vars, perts with
  | v :: vars, d :: perts =>
      t ← py_mul (Var eps) (Var d); new ← py_add (Var v) t; e ← replace_var v new e; perturb eps vars perts e
  | _, _ => Some e
  end.
Fixpoint replace_vars (vars backgrounds : list nat) (e : expr) : option expr :=
  match vars, backgrounds with
  | v :: vars, b :: backgrounds => e ← replace_var v (Var b) e; replace_vars vars backgrounds e
  | _, _ => Some e
  end.
Definition frechet (eps : nat) (vars perts : list nat) (backgrounds : option (list nat)) (e : expr) : option expr :=
  diff ← perturb eps vars perts e;
  diff ← sym_diff eps diff;
  diff ← (if truthy diff then diff ← cast (esig e) diff; replace_var eps (Num 0) diff else Some diff);
  if truthy diff then match backgrounds with Some bgs => replace_vars vars bgs diff | None => Some diff end else Some diff.

(** [require_linearity] (true: accepted): field.py:407-414, arithmetic.py:147-150, 331-352, operators.py:270-283, 743-745. *)
Fixpoint require_linearity (keys : list key) (affine : bool) (e : expr) : bool :=
  match e with
  | Num _ => false
  | Var x => affine || var_in x keys
  | Cast _ _ => affine
  | AddE a b => require_linearity keys affine a && require_linearity keys affine b
  | MulN _ a => if has keys a then require_linearity keys affine a else affine
  | MulE a b | Dot _ _ a b | Cross a b =>
      if has keys a && has keys b then false
      else if has keys a then require_linearity keys affine a
      else if has keys b then require_linearity keys affine b
      else affine
  | Conv a | Lin _ a => require_linearity keys affine a
  | Pow _ _ | Fun _ _ => if has keys e then false else affine
  end.
(** [require_first_order] in operators of type [T]: field.py:416-418, arithmetic.py:152-155, 354-358,
    operators.py:285-291, 395-398, 747-757. *)
Fixpoint require_first_order (T : cls -> bool) (e : expr) : bool :=
  match e with
  | Num _ => true
  | Var _ | Cast _ _ => true
  | AddE a b | MulE a b | Dot _ _ a b | Cross a b => require_first_order T a && require_first_order T b
  | MulN _ a | Pow a _ => require_first_order T a
  | Fun _ a => negb (T CFun) && require_first_order T a
  | Conv a => if T CConv then negb (has [KType T] a) else require_first_order T a
  | Lin L a => if T (CLin L) then negb (has [KType T] a) else require_first_order T a
  end.
(** field.py:235-242, [require_independent]. *)
Definition require_independent (keys : list key) (e : expr) : bool := negb (has keys e).

(** problems.py:327-332, an initial value problem's M and L from its left-hand side. *)
Definition ivp_matrices (dt : cls -> bool) (lhs : expr) : option (expr * expr) :=
  '(m, l) ← split [KType dt] lhs;
  m ← (if truthy m then replace_type dt (fun args => match args with [e] => Some e | _ => None end) m else Some m);
  Some (m, l).
(** problems.py:474-478, an eigenvalue problem's. *)
Definition evp_matrices (eigenvalue : nat) (lhs : expr) : option (expr * expr) :=
  '(m, l) ← split [KVar eigenvalue] lhs;
  m ← (if truthy m then replace_var eigenvalue (Num 1) m else Some m);
  Some (m, l).
End World.
