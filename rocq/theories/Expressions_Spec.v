(** What expressions mean. *)
From Coq Require Import Reals.
From Coquelicot Require Import Coquelicot.
From stdpp Require Import numbers list.
From Verif Require Import Expressions_Model.
Local Open Scope R_scope.

(** The real functions.  [np.power] of reals: integer powers of any number, other powers of positive ones. *)
Definition is_integer (p : R) : bool := if Req_EM_T p (IZR (Int_part p)) then true else false.
Definition pow_val (x p : R) : R := if is_integer p then powerRZ x (Int_part p) else Rpower x p.
Definition sign_val (x : R) : R := match total_order_T x 0 with inleft (left _) => -1 | inleft (right _) => 0 | inright _ => 1 end.
Definition erf_val (x : R) : R := 2 / R_sqrt.sqrt PI * RInt (fun t => exp (- t ^ 2)) 0 x.
Definition fun_val (f : ufunc) (x : R) : R :=
  match f with
  | Absolute => Rabs x | Sign => sign_val x | Exp => exp x | Exp2 => Rpower 2 x
  | Log => ln x | Log2 => ln x / ln 2 | Log10 => ln x / ln 10 | Sqrt => R_sqrt.sqrt x | Square => x * x
  | Sin => sin x | Cos => cos x | Tan => tan x | Arcsin => asin x | Arccos => acos x | Arctan => atan x
  | Sinh => sinh x | Cosh => cosh x | Tanh => tanh x
  | Arcsinh => ln (x + R_sqrt.sqrt (x ^ 2 + 1)) | Arccosh => ln (x + R_sqrt.sqrt (x ^ 2 - 1)) | Arctanh => 1 / 2 * ln ((1 + x) / (1 - x))
  | Erf => erf_val x | Conjugate => x
  end.
(** The interior of their domains, without the points where they have no derivative. *)
Definition fun_dom (f : ufunc) (x : R) : Prop :=
  match f with
  | Absolute | Sign => x <> 0
  | Log | Log2 | Log10 | Sqrt => 0 < x
  | Tan => cos x <> 0
  | Arcsin | Arccos | Arctanh => -1 < x < 1
  | Arccosh => 1 < x
  | _ => True
  end.
Definition pow_dom (p x : R) : Prop := 0 < x \/ (is_integer p = true /\ (1 <= p \/ x <> 0)).

(** The value of a function of the derivative table. *)
Fixpoint body_val (t : body) (x : R) : R :=
  match t with
  | X => x
  | BNum q => q
  | BAdd a b => body_val a x + body_val b x
  | BSub a b => body_val a x - body_val b x
  | BMul a b => body_val a x * body_val b x
  | BNeg a => - body_val a x
  | BPow a p => pow_val (body_val a x) p
  | BFun f a => fun_val f (body_val a x)
  end.

(** An interpretation: the points of space; what each linear operator does, its value being a finite
    combination of values of components of its operand at points, or anything ([opaque], for operators that
    no symbolic method rebuilds); handedness of coordinate systems; the data fields can have. *)
Record interp := Interp {
  point : Type;
  terms : nat -> sig -> list nat -> point -> list (R * (list nat * point));
  opaque : nat -> option (expr -> list nat -> point -> R);
  right_handed : nat -> bool;
  admissible : (nat -> list nat -> point -> R) -> Prop
}.
(** Data: a value for each component of each field at each point. *)
Notation data I := (nat -> list nat -> point I -> R).

Definition sum_list (l : list R) : R := foldr Rplus 0 l.
(** Insert index [m] at position [i]. *)
Definition insert_index (i m : nat) (c : list nat) : list nat := take i c ++ m :: drop i c.

Section Meaning.
  Context (w : world) (I : interp).

  (** The value of component [c] of an expression at a point: arithmetic.py:246-251 (sum), 940-946, 855-866
      (products), 666-674 (dot product), 708-728 (cross product), operators.py:380-385, 608-613. *)
  Fixpoint sem (rho : data I) (e : expr) (c : list nat) (x : point I) : R :=
    match e with
    | Num q | Cast q _ => q
    | Var v => rho v c x
    | AddE a b => sem rho a c x + sem rho b c x
    | MulN q a => q * sem rho a c x
    | MulE a b => let r := length (esig w a) in sem rho a (take r c) x * sem rho b (drop r c) x
    | Dot i j a b =>
        let r := (length (esig w a) - 1)%nat in
        sum_list (map (fun m => sem rho a (insert_index i m (take r c)) x * sem rho b (insert_index j m (drop r c)) x)
                      (seq 0 (cs_dim w (nth i (esig w a) 0%nat))))
    | Cross a b =>
        let u k := sem rho a [k] x in let v k := sem rho b [k] x in
        let right :=
          match c with
          | [0%nat] => u 1%nat * v 2%nat - u 2%nat * v 1%nat
          | [1%nat] => u 2%nat * v 0%nat - u 0%nat * v 2%nat
          | [2%nat] => u 0%nat * v 1%nat - u 1%nat * v 0%nat
          | _ => 0
          end in
        if right_handed I (nth 0 (esig w a) 0%nat) then right else - right
    | Conv a => sem rho a c x
    | Lin L a =>
        match opaque I L with
        | Some f => f a c x
        | None => sum_list (map (fun t => t.1 * sem rho a t.2.1 t.2.2) (terms I L (esig w a) c x))
        end
    | Pow a p => pow_val (sem rho a c x) p
    | Fun f a => fun_val f (sem rho a c x)
    end.

  (** An expression as the constructors make it: operators act on operands, signatures agree. *)
  Fixpoint well_formed (e : expr) : Prop :=
    match e with
    | Num _ | Var _ | Cast _ _ => True
    | AddE a b => is_num a = false /\ is_num b = false /\ well_formed a /\ well_formed b /\ esig w a = esig w b
    | MulN _ a | Conv a | Lin _ a | Pow a _ | Fun _ a => is_num a = false /\ well_formed a
    | MulE a b => is_num a = false /\ is_num b = false /\ well_formed a /\ well_formed b
    | Dot i j a b => is_num a = false /\ is_num b = false /\ well_formed a /\ well_formed b
        /\ (i < length (esig w a))%nat /\ (j < length (esig w b))%nat
    | Cross a b => is_num a = false /\ is_num b = false /\ well_formed a /\ well_formed b
        /\ exists cs, esig w a = [cs] /\ esig w b = [cs] /\ cs_dim w cs = 3%nat
    end.
  Definition operand (e : expr) : Prop := is_num e = false /\ well_formed e.

  (** Operators keep ranks, act on numbers as their [new_operand] says, and those that return zero are zero. *)
  Record lawful : Prop := Lawful {
    terms_rank L s c x q c' y : length c = length (lin_sig w L s) -> In (q, (c', y)) (terms I L s c x) -> length c' = length s;
    keep_sig L : rule w L = KeepNumber -> lin_sig w L [] = [];
    keep_number L c x : rule w L = KeepNumber -> sum_list (map fst (terms I L [] c x)) = 1;
    zero_number L c x : rule w L = ZeroNumber -> sum_list (map fst (terms I L [] c x)) = 0;
    opaque_rule L : opaque I L <> None -> rule w L = NoNewOperand;
    vanishing L e rho c x : vanishes w L e = true -> admissible I rho -> length c = length (lin_sig w L (esig w e)) ->
      sem rho (Lin L e) c x = 0
  }.

  (** [e] stands for a tensor of signature [s] with values [v]: numbers are scalars, but zero is any tensor. *)
  Definition fits (s : sig) (e : expr) : Prop := match e with Num q => q = 0 \/ s = [] | _ => esig w e = s end.
  Definition denotes (rho : data I) (s : sig) (e : expr) (v : list nat -> point I -> R) : Prop :=
    fits s e /\ well_formed e /\ forall c x, length c = length s -> sem rho e c x = v c x.

  (** Additive terms, looking through conversions. *)
  Fixpoint summands (e : expr) : list expr :=
    match e with AddE a b => summands a ++ summands b | Conv a => summands a | _ => [e] end.

  (** Occurrence of a field; of a class. *)
  Fixpoint mentions (v : nat) (e : expr) : Prop :=
    match e with
    | Num _ | Cast _ _ => False
    | Var y => y = v
    | AddE a b | MulE a b | Dot _ _ a b | Cross a b => mentions v a \/ mentions v b
    | MulN _ a | Conv a | Lin _ a | Pow a _ | Fun _ a => mentions v a
    end.
  Fixpoint uses (T : cls -> bool) (e : expr) : Prop :=
    match e with
    | Num _ | Cast _ _ | Var _ => False
    | AddE a b => T CAdd = true \/ uses T a \/ uses T b
    | MulE a b => T CMul = true \/ uses T a \/ uses T b
    | Dot _ _ a b => T CDot = true \/ uses T a \/ uses T b
    | Cross a b => T CCross = true \/ uses T a \/ uses T b
    | MulN _ a => T CMul = true \/ uses T a
    | Conv a => T CConv = true \/ uses T a
    | Lin L a => T (CLin L) = true \/ uses T a
    | Pow a _ => T CPow = true \/ uses T a
    | Fun _ a => T CFun = true \/ uses T a
    end.
  Definition contains (k : key) (e : expr) : Prop := match k with KVar v => mentions v e | KType T => uses T e end.
  (** Classes of operators, as opposed to sums, products and conversions. *)
  Definition operator_class (T : cls -> bool) : Prop :=
    T CAdd = false /\ T CMul = false /\ T CDot = false /\ T CCross = false /\ T CConv = false.
  Definition proper_key (k : key) : Prop := match k with KVar _ => True | KType T => operator_class T end.

  (** No opaque operator in an expression. *)
  Fixpoint transparent (e : expr) : Prop :=
    match e with
    | Num _ | Cast _ _ | Var _ => True
    | AddE a b | MulE a b | Dot _ _ a b | Cross a b => transparent a /\ transparent b
    | MulN _ a | Conv a | Pow a _ | Fun _ a => transparent a
    | Lin L a => opaque I L = None /\ transparent a
    end.
  (** Powers and functions are of scalars, at points where they have derivatives. *)
  Fixpoint regular (rho : data I) (e : expr) : Prop :=
    match e with
    | Num _ | Cast _ _ | Var _ => True
    | AddE a b | MulE a b | Dot _ _ a b | Cross a b => regular rho a /\ regular rho b
    | MulN _ a | Conv a | Lin _ a => regular rho a
    | Pow a p => regular rho a /\ esig w a = [] /\ forall x, pow_dom p (sem rho a [] x)
    | Fun f a => regular rho a /\ esig w a = [] /\ forall x, fun_dom f (sem rho a [] x)
    end.
End Meaning.

(** Classes of linear operators, and how deeply they are nested. *)
Definition linear_class (T : cls -> bool) : Prop := operator_class T /\ T CPow = false /\ T CFun = false.
Fixpoint depth (T : cls -> bool) (e : expr) : nat :=
  match e with
  | Num _ | Cast _ _ | Var _ => 0
  | AddE a b | MulE a b | Dot _ _ a b | Cross a b => Nat.max (depth T a) (depth T b)
  | MulN _ a | Conv a | Pow a _ | Fun _ a => depth T a
  | Lin L a => (if T (CLin L) then 1 else 0) + depth T a
  end.

(** The interpretation with operators of class [T] given by [G]. *)
Definition with_operator (I : interp) (T : cls -> bool) (G : expr -> list nat -> point I -> R) : interp :=
  Interp (point I) (terms I) (fun L => if T (CLin L) then Some G else opaque I L) (right_handed I) (admissible I).

(** The data with field [v] changed to [f]. *)
Definition update {P} (rho : nat -> list nat -> P -> R) (v : nat) (f : list nat -> P -> R) : nat -> list nat -> P -> R :=
  fun y => if decide (y = v) then f else rho y.
(** The data displaced by [t] times a direction; the direction that moves each variable by the value of its
    perturbation; the data with variables given the values of other fields. *)
Definition displaced {P} (rho h : nat -> list nat -> P -> R) (t : R) : nat -> list nat -> P -> R := fun v c x => rho v c x + t * h v c x.
Fixpoint direction {P} (vars perts : list nat) (rho : nat -> list nat -> P -> R) (v : nat) (c : list nat) (x : P) : R :=
  match vars, perts with
  | u :: vars, d :: perts => if decide (v = u) then rho d c x else direction vars perts rho v c x
  | _, _ => 0
  end.
Fixpoint assigned {P} (vars fields : list nat) (rho : nat -> list nat -> P -> R) (v : nat) : list nat -> P -> R :=
  match vars, fields with
  | u :: vars, f :: fields => if decide (v = u) then rho f else assigned vars fields rho v
  | _, _ => rho v
  end.

(** Perturbing a variable, or giving it the value of another field, leaves the data admissible. *)
Definition movable (I : interp) (vars perts : list nat) : Prop :=
  forall v d rho t, In (v, d) (zip vars perts) -> admissible I rho -> admissible I (update rho v (fun c x => rho v c x + t * rho d c x)).
Definition assignable (I : interp) (vars fields : list nat) : Prop :=
  forall v f rho, In (v, f) (zip vars fields) -> admissible I rho -> admissible I (update rho v (rho f)).

(** Every operator of class [T] acts on an expression with one of the variables. *)
Fixpoint acts_on (T : cls -> bool) (vars : list nat) (e : expr) : Prop :=
  match e with
  | Num _ | Var _ | Cast _ _ => True
  | AddE a b | MulE a b | Dot _ _ a b | Cross a b => acts_on T vars a /\ acts_on T vars b
  | MulN _ a | Conv a | Pow a _ | Fun _ a => acts_on T vars a
  | Lin L a => (T (CLin L) = true -> exists v, In v vars /\ mentions v a) /\ acts_on T vars a
  end.

(** Every operator that is not itself looked for can be applied again, to zero in particular. *)
Fixpoint rebuildable (w : world) (keys : list key) (e : expr) : Prop :=
  match e with
  | Num _ | Var _ | Cast _ _ | Pow _ _ | Fun _ _ => True
  | AddE a b | MulE a b | Dot _ _ a b | Cross a b => rebuildable w keys a /\ rebuildable w keys b
  | MulN _ a | Conv a => rebuildable w keys a
  | Lin L a => (exists T, In (KType T) keys /\ T (CLin L) = true)
      \/ (rule w L <> NumberFails /\ rule w L <> NoNewOperand /\ rebuildable w keys a)
  end.
