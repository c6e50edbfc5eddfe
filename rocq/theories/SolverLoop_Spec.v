(** What the main loop should do. *)
From Coq Require Import Reals.
From stdpp Require Import numbers list.
From Verif Require Import FlowTools_Model SolverLoop_Model.
Local Open Scope R_scope.

(** A limit is reached. *)
Definition reaches (x : R) (stop : flt) : Prop := match stop with Fin b => b <= x | NInf => True | PInf | NaN => False end.
Definition elapsed (dts : list R) : R := foldr Rplus 0 dts.

(** The data after steps [dts] from iteration [it], with symmetry enforced after the iterations for which
    [enforced] holds. *)
Fixpoint advanced {D} (advance : R -> D -> D) (symmetrise : D -> D) (enforced : nat -> bool) (it : nat) (dts : list R) (d : D) : D :=
  match dts with
  | [] => d
  | dt :: dts => let d := advance dt d in advanced advance symmetrise enforced (S it) dts (if enforced it then symmetrise d else d)
  end.

(** A solver on which no step was taken since it was made or loaded. *)
Definition fresh {D} (s : solver D) : Prop := iteration s = initial_iteration s /\ start_time_end s = None /\ warmup_time_end s = None.
