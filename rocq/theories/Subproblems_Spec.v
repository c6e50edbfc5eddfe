(** The linear system a user wrote, mode by mode, before any filtering or reordering. *)
From Coq Require Import Reals.
From stdpp Require Import list list_numbers.
From Verif Require Import Permutations_Model Subproblems_Model.
Local Open Scope R_scope.

(** Values of all the modes of all the variables (or equations): [X k c] is mode number [c], in
    row-major order over components and modes, of variable number [k]. *)
Notation values := (nat -> nat -> R) (only parsing).

(** As one vector: variables one after the other. *)
Fixpoint flatten (bs : list block) (X : values) : list R :=
  match bs with
  | [] => []
  | b :: bs => map (X 0%nat) (seq 0 (bcomps b * bmodes b)) ++ flatten bs (fun k => X (S k))
  end.

(** Row [r] of one matrix block applied to one variable, entries below the cutoff dropped. *)
Definition coo_row (cutoff : R) (es : list (nat * nat * R)) (x : nat -> R) (r : nat) : R :=
  foldr (fun '(i, j, v) acc =>
           (if decide (i = r) then (if Rlt_dec (Rabs v) cutoff then 0 else v) * x j else 0) + acc) 0 es.

(** Row [r] of one equation: the sum over the variables occurring in it. *)
Fixpoint blocks_row (cutoff : R) (blocks : list (option (list (nat * nat * R)))) (X : values) (r : nat) : R :=
  match blocks with
  | [] => 0
  | b :: blocks =>
      match b with Some es => coo_row cutoff es (X 0%nat) r | None => 0 end
      + blocks_row cutoff blocks (fun k => X (S k)) r
  end.

(** Left-hand side [name] (M, L, ...) of row [r] of equation number [e]. *)
Definition lhs (cutoff : R) (eqns : list equation) (name : nat) (X : values) (e r : nat) : R :=
  match eqns !! e with
  | Some q => match nth name (q_mats q) None with
              | Some blocks => blocks_row cutoff blocks X r
              | None => 0
              end
  | None => 0
  end.

(** The modes the basis keeps, and the rows that are imposed. *)
Definition valid_mode (vars : list variable) (k c : nat) : Prop :=
  exists v, vars !! k = Some v /\ v_valid v !! c = Some true.
Definition imposed (eqns : list equation) (e r : nat) : Prop :=
  exists q, eqns !! e = Some q /\ q_cond q = true /\ q_valid q !! r = Some true.

(** Every mode that is not valid vanishes. *)
Definition invalid_vanish (vars : list variable) (X : values) : Prop :=
  forall k v c, vars !! k = Some v -> v_valid v !! c = Some false -> X k c = 0.

(** The block matrices have the shapes of their equation and variable. *)
Definition blocks_ok (q : equation) (vars : list variable) : Prop :=
  forall name blocks, nth name (q_mats q) None = Some blocks ->
    Forall2 (fun v b => match b with
                        | Some es => Forall (fun e => (e.1.1 < bcomps (q_block q) * bmodes (q_block q))%nat /\
                                                      (e.1.2 < bcomps (v_block v) * bmodes (v_block v))%nat) es
                        | None => True
                        end) vars blocks.
Definition problem_ok (eqns : list equation) (vars : list variable) : Prop :=
  Forall (fun q => length (q_valid q) = (bcomps (q_block q) * bmodes (q_block q))%nat /\ blocks_ok q vars) eqns /\
  Forall (fun v => length (v_valid v) = (bcomps (v_block v) * bmodes (v_block v))%nat) vars.

(** ** Views of a subproblem's subsystems into its fields *)
Local Open Scope nat_scope.

(** One list of positions per subsystem, the same number for each, no position twice, all inside the
    field's data. *)
Definition field_views_ok (nsub : nat) (v : list (list nat)) (f : list R) : Prop :=
  length v = nsub /\ Forall (fun pos => length pos = length (nth 0 v [])) v /\
  NoDup (concat v) /\ Forall (fun p => p < length f) (concat v).

(** Number of entries the fields contribute to one column. *)
Definition vtotal (vs : list (list (list nat))) : nat := sum_list_with (fun v => length (nth 0 v [])) vs.

(** Multi-indices of an array, and their row-major position. *)
Definition in_shape (shape idx : list nat) : Prop := Forall2 (fun n i => i < n) shape idx.
Fixpoint flat (shape idx : list nat) : nat :=
  match shape, idx with
  | _ :: shape, i :: idx => i * foldr Nat.mul 1 shape + flat shape idx
  | _, _ => 0
  end.

(** A Cartesian group array: [h a i] is the group of element [i] along axis [a]; along each axis the
    groups are the consecutive blocks of the group shape. *)
Definition cartesian_groups (shape gshape : list nat) (h : nat -> nat -> nat)
  (groups : nat -> list nat -> option nat) : Prop :=
  shape <> [] /\ length gshape = length shape /\
  (forall a n g, shape !! a = Some n -> gshape !! a = Some g ->
    0 < g /\ (exists q, n = g * q) /\ forall i j, i < n -> j < n -> (h a i = h a j <-> i / g = j / g)) /\
  (forall a idx i, idx !! a = Some i -> groups a idx = Some (h a i)).
