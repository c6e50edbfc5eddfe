(** What the matrices of a left-hand side should be: specification. *)
From Coq Require Import List Arith Bool.
Import ListNotations.
From Verif Require Import CSR_Spec MatSolvers_Model LHS_Model.

(** Several numbered sequences, one after the other. *)
Fixpoint stacked {A} (d : A) (parts : list (nat * (nat -> A))) (i : nat) : A :=
  match parts with [] => d | (n, f) :: parts => if i <? n then f i else stacked d parts (i - n) end.

Section Spec.
Context {K : Type} (k0 k1 : K) (kadd kmul : K -> K -> K).
Notation total := (CSR_Spec.total k0 kadd).
(** The discretised problem, all subproblems together, in [dim] dimensions.  [msize e] is the number of coefficients of an expression
    and [group e i a] the group of its [i]-th coefficient along axis [a]; [G L e] is the matrix of operator [L] on [e], [N n e] that of
    multiplying [e] by the coefficient [n], and [phi f] the nonlinear function [f]. *)
Context (dim : nat) (msize : expr -> nat) (group : expr -> nat -> nat -> nat).
Context (number : nat -> K) (G N : nat -> expr -> nat -> nat -> K) (phi : nat -> (nat -> K) -> nat -> K).

(** The coefficients of an expression, from those of the fields. *)
Fixpoint value (x : nat -> nat -> K) (e : expr) : nat -> K :=
  match e with
  | Field f => x f
  | Add a b => fun i => kadd (value x a i) (value x b i)
  | Scale c a => fun i => kmul (number c) (value x a i)
  | Prod n a => fun i => total (msize a) (fun j => kmul (N n a i j) (value x a j))
  | Lin L a => fun i => total (msize a) (fun j => kmul (G L a i j) (value x a j))
  | Stack _ args => stacked k0 (map (fun a => (msize a, value x a)) args)
  | Wrap _ arg => value x arg
  | Curl _ arg => value x arg
  | Nonlinear f a => phi f (value x a)
  end.

(** Two expressions on the same coefficients. *)
Definition alike (e f : expr) : Prop := msize e = msize f /\ forall i a, i < msize e -> group e i a = group f i a.
(** The terms of a sum have the same coefficients; so have a multiple, and what is defined by an expression; a gradient has those of
    its partial derivatives in turn. *)
Fixpoint consistent (e : expr) : Prop :=
  match e with
  | Field _ => True
  | Add a b => alike e a /\ alike e b /\ consistent a /\ consistent b
  | Scale _ a => alike e a /\ consistent a
  | Prod _ a | Lin _ a => consistent a
  | Stack op args =>
      args <> [] /\ msize e = list_sum (map msize args) /\
      (forall i a, i < msize e -> group e i a = stacked (fun _ => 0) (map (fun b => (msize b, group b)) args) i a) /\
      consistent op /\ (fix all (l : list expr) : Prop := match l with [] => True | a :: l => consistent a /\ all l end) args
  | Wrap op arg | Curl op arg => alike e arg /\ consistent op /\ consistent arg
  | Nonlinear _ a => consistent a
  end.

(** An operator, or a product, that does not couple an axis does not mix its groups. *)
Definition separate (couples : nat -> expr -> nat -> bool) (node : nat -> expr -> expr) (G : nat -> expr -> nat -> nat -> K) : Prop :=
  forall L e i j a, a < dim -> couples L e a = false -> i < msize (node L e) -> j < msize e -> group (node L e) i a <> group e j a -> G L e i j = k0.

(** A subproblem fixes the group along some axes. *)
Definition pattern : Type := list (option nat).
Definition matches (p : pattern) (g : nat -> nat) : bool :=
  forallb (fun a => match nth a p None with Some k => g a =? k | None => true end) (seq 0 dim).
Definition select (p : pattern) (n : nat) (g : nat -> nat -> nat) : list nat := filter (fun i => matches p (g i)) (seq 0 n).
(** The coefficients of an expression in a subproblem, and how many they are. *)
Definition positions (p : pattern) (e : expr) : list nat := select p (msize e) (group e).
Definition count (p : pattern) (e : expr) : nat := length (positions p e).
Definition gathered (p : pattern) (e : expr) (v : nat -> K) (i : nat) : K := v (nth i (positions p e) 0).
(** The part of a matrix between coefficients of a subproblem. *)
Definition restriction (p : pattern) (e f : expr) (M : nat -> nat -> K) : MatSolvers_Model.mat K :=
  Mat (count p e) (count p f) (fun i j => M (nth i (positions p e) 0) (nth j (positions p f) 0)).
(** A pattern that fixes no group along the given axes. *)
Definition respects (coupled : nat -> bool) (p : pattern) : Prop := forall a k, a < dim -> nth a p None = Some k -> coupled a = false.

(** The matrices of [e] over [vars] in a subproblem. *)
Definition matrices (p : pattern) (prepared vars : list expr) (e : expr) : option (dict (K := K)) :=
  expression_matrices k0 k1 kadd kmul number (count p) (fun L a => restriction p (Lin L a) a (G L a)) (fun n a => restriction p (Prod n a) a (N n a)) prepared vars e.

(** The sum over the variables of each variable's matrix applied to what was gathered of it; a variable without matrix adds nothing. *)
Definition applied (p : pattern) (d : dict) (vars : list expr) (x : expr -> nat -> K) (i : nat) : K :=
  fold_right (fun v s => kadd (match find v d with Some M => total (count p v) (fun j => kmul (at_ M i j) (gathered p v (x v) j)) | None => k0 end) s) k0 vars.
End Spec.

(** Expressions that are linear in [vars], made of sums, multiples, operators and products with coefficients.  What defines a derived
    operator is made in the same way from its operand, but without products, and with no curl for operand. *)
Definition plain (e : expr) : Prop := match e with Curl _ _ | Nonlinear _ _ => False | _ => True end.
Inductive built (prepared : list expr) : list expr -> expr -> Prop :=
| b_var vars e : In e vars -> plain e -> built prepared vars e
| b_add vars a b : built prepared vars a -> built prepared vars b -> built prepared vars (Add a b)
| b_scale vars c a : built prepared vars a -> built prepared vars (Scale c a)
| b_prod vars n a : vars = prepared -> built prepared vars a -> built prepared vars (Prod n a)
| b_lin vars L a : built prepared vars a -> built prepared vars (Lin L a)
| b_stack vars op args : built prepared vars op -> (forall a, In a args -> built prepared [op] a) -> built prepared vars (Stack op args)
| b_wrap vars op arg : built prepared vars op -> built prepared [op] arg -> built prepared vars (Wrap op arg)
| b_curl vars op arg : built prepared vars arg -> built prepared vars (Curl op arg).
(** The variables of a problem. *)
Definition problem_variables (vars : list expr) : Prop := vars <> [] /\ NoDup vars /\ forall v, In v vars -> exists f, v = Field f.
