(** What copying constant operands is to achieve. *)
From Coq Require Import List Arith Bool.
Import ListNotations.
From Verif Require Blocks_Model.
From Verif Require Import CSR_Spec Ghost_Model.

(** The result of the product: not constant along the broadcast axes; it has at least the operand's nonconstant axes, with the same sizes and chunks. *)
Definition fits (a : axis) : Prop := is_constant a = false -> is_broadcast a = true.
(** The elements of the result on a process, by axis. *)
Fixpoint out_elements (axes : list axis) (sizes ext_mesh ext_coords : list nat) : list (list nat) :=
  match axes, sizes, ext_mesh, ext_coords with
  | a :: axes, n :: sizes, P :: ext_mesh, q :: ext_coords =>
      Blocks_Model.axis_elements (if is_broadcast a then n else 1) (if is_broadcast a then chunk a else 1) (is_local a) P q :: out_elements axes sizes ext_mesh ext_coords
  | _, _, _, _ => []
  end.
(** The operand's index for an element of the result: 0 along its constant axes. *)
Fixpoint operand_index (axes : list axis) (out : list nat) : list nat := match axes, out with a :: axes, i :: out => (if is_constant a then 0 else i) :: operand_index axes out | _, _ => [] end.
Definition distributed (axes : list axis) : nat := length (filter (fun a => negb (is_local a)) axes).
(** The process has the coordinates [c] in a mesh of [mesh], which are as many as there are distributed axes. *)
Definition process (axes : list axis) (mesh c : list nat) : Prop := distributed axes = length mesh /\ in_shape mesh c.
