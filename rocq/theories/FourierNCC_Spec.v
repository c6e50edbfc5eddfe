(** Truncation of Fourier series to the modes of a basis. *)
From Coq Require Import List ZArith Reals.
Import ListNotations.
From Coquelicot Require Import Coquelicot.
From Verif Require Import FourierCalc_Spec.
Local Open Scope R_scope.

(** Sums of modes whose wavenumbers are not in [ks]. *)
Definition complex_outside (l r : R) (ks : list Z) (f : R -> C) : Prop :=
  exists rest : list (Z * C), (forall k v, In (k, v) rest -> ~ In k ks) /\ forall x, f x = fold_right (fun t s => snd t * complex_mode l r (fst t) x + s)%C (RtoC 0) rest.
Definition real_outside (l r : R) (ks : list Z) (f : R -> R) : Prop :=
  exists rest : list (Z * R * R), (forall k a b, In (k, a, b) rest -> (0 <= k)%Z /\ ~ In k ks)
    /\ forall x, f x = fold_right (fun t s => let '(k, a, b) := t in a * cos (phase l r k x) + b * sin (phase l r k x) + s) 0 rest.
(** The series with coefficients [d] is what is left of [f] when modes outside the basis are dropped. *)
Definition complex_truncation (l r : R) (ks : list Z) (f : R -> C) (d : nat -> C) : Prop := complex_outside l r ks (fun x => f x - complex_series l r ks d x)%C.
Definition real_truncation (l r : R) (ks : list Z) (f : R -> R) (d : nat -> R) : Prop := real_outside l r ks (fun x => f x - real_series l r ks d x).
