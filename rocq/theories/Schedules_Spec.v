(** What an output schedule is meant to do, without reference to the handler's code. *)
From Coq Require Import List ZArith QArith Qabs.
Import ListNotations.

(** The simulation times at which the solver is, for steps [dts] from [t0]: one more than steps. *)
Fixpoint times (t0 : Q) (dts : list Q) : list Q :=
  t0 :: match dts with [] => [] | dt :: dts => times (t0 + dt) dts end.

(** [t] is exactly between two targets of cadence [s]. *)
Definition halfway (s t : Q) : Prop := exists m : Z, t == (inject_Z m + (1#2)) * s.

(** [target] assigns the outputs of the decisions [bs] to targets [k * s]:
    - every output is within half a cadence of its target and no time the solver passes is closer,
    - no two outputs have the same target, and later outputs have later targets. *)
Definition assigns (s t0 : Q) (dts : list Q) (bs : list bool) (target : nat -> Z) : Prop :=
  (forall j t, nth_error bs j = Some true -> nth_error (times t0 dts) j = Some t ->
     Qabs (t - inject_Z (target j) * s) <= (1#2) * s /\
     forall i t', nth_error (times t0 dts) i = Some t' ->
       Qabs (t - inject_Z (target j) * s) <= Qabs (t' - inject_Z (target j) * s)) /\
  (forall i j, (i < j)%nat -> nth_error bs i = Some true -> nth_error bs j = Some true ->
     (target i < target j)%Z).

(** Every nonnegative target not further back than half a cadence at the start and passed by half a
    cadence at the end has its output. *)
Definition complete (s t0 : Q) (dts : list Q) (bs : list bool) (target : nat -> Z) : Prop :=
  forall k tN, (0 <= k)%Z -> t0 < (inject_Z k + (1#2)) * s ->
    nth_error (times t0 dts) (length dts) = Some tN -> (inject_Z k + (1#2)) * s < tN ->
    exists j, nth_error bs j = Some true /\ target j = k.

(** The steps at which a sequence of marks first reaches a new window of width [w]. *)
Definition first_in_window (w : Q) (ts : list Q) (j : nat) : Prop :=
  exists k t, nth_error ts j = Some t /\ inject_Z k * w <= t < (inject_Z k + 1) * w /\
    forall i t', (i < j)%nat -> nth_error ts i = Some t' -> t' < inject_Z k * w.
