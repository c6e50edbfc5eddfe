(** Model of the matrices of left-hand sides: [expression_matrices] and [matrix_coupling] of fields, sums, multiples, products and
    linear operators, and the choice of coupled axes by a solver.

    What is simplified.  An expression is a tree whose leaves are fields and whose operators, coefficients and factors are labels;
    Python compares operands by identity, since no operand defines [__eq__], and the model compares trees, so two separately built but
    identical subexpressions are one here.  A dictionary of matrices is a list of pairs without repeated keys.  What a subproblem says
    of an expression -- its number of coefficients ([field_size]), the matrix of a spectral operator ([subproblem_matrix]) and of a
    product ([build_ncc_matrix]) -- are parameters of the section.  [None] stands for an exception. *)
From Coq Require Import List Arith Bool.
Import ListNotations.
From Verif Require Import MatSolvers_Model.

(** field.py Field; arithmetic.py:128-195 [AddFields] (two arguments; sums of more arguments nest); arithmetic.py:886-965
    [MultiplyNumberField]; arithmetic.py:325-520 [Product] with its factors sorted by [prep_nccs] (360-368) into a non-constant
    coefficient and an operand; operators.py LinearOperator with a matrix of its own (spectral operators, components, traces); [Stack]
    is [CartesianGradient] (operators.py:2338-2375: its operand and the list of its partial derivatives); [Wrap] is
    [CartesianDivergence] (3438-3462) and [CartesianLaplacian] (4017-4036): the operand, and the expression in the operand that defines
    the result; [Curl] is [CartesianCurl] (3689-3720); [Nonlinear] is a [NonlinearOperator] (operators.py:280-303). *)
Inductive expr :=
| Field (x : nat)
| Add (a b : expr)
| Scale (c : nat) (e : expr)
| Prod (n : nat) (e : expr)
| Lin (L : nat) (e : expr)
| Stack (op : expr) (args : list expr)
| Wrap (op arg : expr)
| Curl (op arg : expr)
| Nonlinear (f : nat) (e : expr).

(** Python [==] on operands. *)
Fixpoint same (e f : expr) : bool :=
  match e, f with
  | Field x, Field y => x =? y
  | Add a b, Add a' b' => same a a' && same b b'
  | Scale c e, Scale c' e' => (c =? c') && same e e'
  | Prod n e, Prod n' e' => (n =? n') && same e e'
  | Lin L e, Lin L' e' => (L =? L') && same e e'
  | Stack o args, Stack o' args' =>
      same o o' &&
      (fix all (l l' : list expr) : bool := match l, l' with [], [] => true | e :: l, e' :: l' => same e e' && all l l' | _, _ => false end) args args'
  | Wrap o a, Wrap o' a' => same o o' && same a a'
  | Curl o a, Curl o' a' => same o o' && same a a'
  | Nonlinear g e, Nonlinear g' e' => (g =? g') && same e e'
  | _, _ => false
  end.
(** Python [self in vars]. *)
Definition mem (e : expr) (vars : list expr) : bool := existsb (same e) vars.
(** Python [==] on lists of variables. *)
Fixpoint same_list (l l' : list expr) : bool :=
  match l, l' with [], [] => true | e :: l, e' :: l' => same e e' && same_list l l' | _, _ => false end.

Section Matrices.
Context {K : Type} (k0 k1 : K) (kadd kmul : K -> K -> K).
Notation mat := (MatSolvers_Model.mat K).
Definition dict : Type := list (expr * mat).

(** [number c] is the number of a multiple. *)
Context (number : nat -> K).
(** subsystems.py field_size; operators.py subproblem_matrix; arithmetic.py:466 build_ncc_matrix, in one subproblem. *)
Context (field_size : expr -> nat) (op_matrix : nat -> expr -> mat) (ncc_matrix : nat -> expr -> mat).

(** scipy [A @ B] and [A + B] raise on mismatched shapes. *)
Definition matmul (A B : mat) : option mat := if nc A =? nr B then Some (mmul k0 kadd kmul A B) else None.
Definition matadd (A B : mat) : option mat := if (nr A =? nr B) && (nc A =? nc B) then Some (madd kadd A B) else None.
(** [sparse.vstack]. *)
Fixpoint vstack (l : list mat) : option mat :=
  match l with
  | [] => None
  | [A] => Some A
  | A :: l => match vstack l with
              | None => None
              | Some B => if nc A =? nc B then Some (Mat (nr A + nr B) (nc A) (fun i j => if i <? nr A then at_ A i j else at_ B (i - nr A) j)) else None
              end
  end.

Fixpoint find (v : expr) (d : dict) : option mat :=
  match d with [] => None | (w, A) :: d => if same v w then Some A else find v d end.
(** arithmetic.py:193 [matrices[var] = matrices.get(var, 0) + arg_matrices[var]]. *)
Fixpoint accumulate (v : expr) (A : mat) (d : dict) : option dict :=
  match d with
  | [] => Some [(v, A)]
  | (w, B) :: d => if same v w then option_map (fun C => (w, C) :: d) (matadd B A) else option_map (cons (w, B)) (accumulate v A d)
  end.
Fixpoint merge (d new : dict) : option dict :=
  match new with [] => Some d | (v, A) :: new => match accumulate v A d with None => None | Some d => merge d new end end.
(** [{var: operator_mat @ operand_mats[var] for var in operand_mats}]. *)
Fixpoint each (f : mat -> option mat) (d : dict) : option dict :=
  match d with
  | [] => Some []
  | (v, A) :: d => match f A, each f d with Some B, Some d => Some ((v, B) :: d) | _, _ => None end
  end.
(** operators.py:768-769 etc. *)
Definition itself (e : expr) : option dict := Some [(e, identity k0 k1 (field_size e))].
(** operators.py:774 *)
Definition nothing (vars : list expr) (e : expr) : option dict := Some (map (fun v => (v, zeros k0 (field_size e) (field_size v))) vars).

(** The body of LinearOperator.expression_matrices (operators.py:764-780) after the operand's matrices and the operator's own. *)
Definition linear (vars : list expr) (e : expr) (operand : option dict) (own : option mat) : option dict :=
  if mem e vars then itself e else
  if field_size e =? 0 then nothing vars e else
  match operand, own with Some d, Some A => each (matmul A) d | _, _ => None end.

(** [prepared] is the list of variables given to [prep_nccs], recorded as [_ncc_vars] by every product of the expression. *)
Fixpoint expression_matrices (prepared vars : list expr) (e : expr) : option dict :=
  match e with
  | Field _ => if mem e vars then itself e else None                                          (* field.py:441-452 *)
  | Add a b =>                                                                                (* arithmetic.py:180-195 *)
      if mem e vars then itself e else
      match expression_matrices prepared vars a, expression_matrices prepared vars b with
      | Some da, Some db => match merge [] da with None => None | Some d => merge d db end
      | _, _ => None
      end
  | Scale c a =>                                                                              (* arithmetic.py:954-965 *)
      if mem e vars then itself e else
      match expression_matrices prepared vars a with Some d => each (fun A => Some (mscale kmul (number c) A)) d | None => None end
  | Prod n a =>                                                                               (* arithmetic.py:504-517 *)
      if mem e vars then itself e else
      if negb (same_list vars prepared) then None else
      match expression_matrices prepared vars a with Some d => each (matmul (ncc_matrix n a)) d | None => None end
  | Lin L a => linear vars e (expression_matrices prepared vars a) (Some (op_matrix L a))     (* operators.py:764-780 *)
  | Stack op args =>                                                                          (* operators.py:2380-2382 *)
      linear vars e (expression_matrices prepared vars op)
        (match (fix go (l : list expr) : option (list mat) :=
            match l with
            | [] => Some []
            | a :: l => match expression_matrices prepared [op] a with
                        | Some d => match find op d with Some A => option_map (cons A) (go l) | None => None end
                        | None => None
                        end
            end) args with Some l => vstack l | None => None end)
  | Wrap op arg =>                                                                            (* operators.py:3484-3486, 4041-4043 *)
      linear vars e (expression_matrices prepared vars op)
        (match expression_matrices prepared [op] arg with Some d => find op d | None => None end)
  | Curl _ arg => expression_matrices prepared vars arg                                       (* operators.py:3720: self.expression_matrices = arg.expression_matrices *)
  | Nonlinear _ _ => None                                                                     (* operators.py:301-303 *)
  end.

(** ** Coupling *)
(** operators.py:867-872 (the axes a spectral operator couples), arithmetic.py:540-546 (the axes along which the
    coefficient is not constant). *)
Context (op_couples ncc_couples : nat -> expr -> nat -> bool).
Definition either (f g : option (nat -> bool)) : option (nat -> bool) :=
  match f, g with Some f, Some g => Some (fun a => f a || g a) | _, _ => None end.
Fixpoint matrix_coupling (vars : list expr) (e : expr) : option (nat -> bool) :=
  match e with
  | Field _ => if mem e vars then Some (fun _ => false) else None                             (* field.py:429-431 *)
  | Add a b => either (matrix_coupling vars a) (matrix_coupling vars b)                       (* arithmetic.py:160-161 *)
  | Scale _ a => matrix_coupling vars a                                                       (* arithmetic.py:951-952 *)
  | Prod n a => either (Some (ncc_couples n a)) (matrix_coupling vars a)                      (* arithmetic.py:540-546 *)
  | Lin L a => either (matrix_coupling vars a) (Some (op_couples L a))                        (* operators.py:867-872 *)
  | Stack _ args =>                                                                           (* operators.py:2376-2378 *)
      (fix go (l : list expr) : option (nat -> bool) :=
         match l with [] => Some (fun _ => false) | a :: l => either (matrix_coupling (e :: vars) a) (go l) end) args
  | Wrap _ arg => matrix_coupling vars arg                                                    (* operators.py:3471-3472, 4038-4039 *)
  | Curl _ arg => matrix_coupling vars arg                                                    (* operators.py:3725-3726 *)
  | Nonlinear _ _ => None                                                                     (* no such attribute *)
  end.
(** problems.py:56-59: the coupling of a problem is that of its equations together. *)
Fixpoint problem_coupling (vars : list expr) (eqs : list expr) : option (nat -> bool) :=
  match eqs with [] => Some (fun _ => false) | e :: eqs => either (matrix_coupling vars e) (problem_coupling vars eqs) end.
(** solvers.py:70-86, in [dim] dimensions; [local] says which axes of the coefficient layout are not distributed. *)
Definition solver_coupling (dim : nat) (local : nat -> bool) (problem : nat -> bool) (specified : option (nat -> bool)) : option (nat -> bool) :=
  let chosen :=
    match specified with
    | None => if existsb problem (seq 0 dim) then Some problem else Some (fun a => (a =? dim - 1) || problem a)
    | Some f => if existsb (fun a => negb (f a) && problem a) (seq 0 dim) then None else Some f
    end in
  match chosen with
  | None => None
  | Some f => if existsb (fun a => f a && negb (local a)) (seq 0 dim) then None else Some f
  end.
End Matrices.
