(** Specification vocabulary for layout chains, independent of how they are built. *)
From stdpp Require Import list.
From Verif Require Import Layouts_Model.

(** Number of distributed axes of a layout. *)
Definition distributed (l : layout) : nat := length (filter (fun b => b = false) (local l)).

(** [l'] follows [l] by one spectral transform along a local axis, or by moving the
    distribution from one axis (still coefficients) to the next one (already grid). *)
Inductive neighbour (l : layout) : path -> layout -> Prop :=
| nb_transform a :
    local l !! a = Some true -> grid l !! a = Some false ->
    neighbour l (Transform a) (Layout (local l) (<[a := true]> (grid l)))
| nb_transpose a loc' :
    local l !! a = Some false -> local l !! S a = Some true ->
    grid l !! a = Some false -> grid l !! S a = Some true ->
    length loc' = length (local l) ->
    (forall b, loc' !! b = if decide (b = a) then Some true
                           else if decide (b = S a) then Some false else local l !! b) ->
    neighbour l (Transpose a) (Layout loc' (grid l)).

(** A well-formed chain of layouts from coefficient to grid space for a [D]-dimensional
    problem with [R] distributed axes. *)
Record chain (D R : nat) (ls : list layout) (ps : list path) : Prop := {
  ch_len : length ls = D + R + 1;
  ch_paths : length ps = D + R;
  ch_first : exists l, ls !! 0 = Some l /\ grid l = replicate D false;
  ch_last : exists l, ls !! (D + R) = Some l /\ grid l = replicate D true;
  ch_flags : forall i l, ls !! i = Some l -> length (local l) = D /\ length (grid l) = D;
  ch_dist : forall i l, ls !! i = Some l -> distributed l = R;
  ch_suffix : forall i l a b, ls !! i = Some l -> grid l !! a = Some true ->
                a <= b -> b < D -> grid l !! b = Some true;
  ch_step : forall i p, ps !! i = Some p -> exists l l',
      ls !! i = Some l /\ ls !! S i = Some l' /\ neighbour l p l';
}.
