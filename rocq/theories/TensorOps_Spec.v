(** What components, traces, transpositions and skews of tensors are. *)
From Coq Require Import List Arith Bool ZArith.
Import ListNotations.
From Verif Require Import CSR_Model CSR_Spec MatSolvers_Model TensorArith_Model TensorArith_Spec.
Local Open Scope nat_scope.

Section Spec.
Context {K : Type} (k0 k1 ki : K) (kadd kmul : K -> K -> K) (kopp : K -> K).
Definition tensor : Type := list nat -> K.
(** Matrix [M], applied to the entries of a tensor in row-major order, gives those of its image under [F]. *)
Definition represents (M : mat K) (sin sout : list nat) (F : tensor -> tensor) : Prop :=
  nr M = size sout /\ nc M = size sin /\
  forall a idx, in_shape sout idx -> total k0 kadd (size sin) (fun j => kmul (at_ M (flat sout idx) j) (a (unravel sin j))) = F a idx.
(** Evaluation gives the entries of the image of [a] under [F]. *)
Definition evaluates (out : option tensor) (sout : list nat) (value : tensor) : Prop :=
  exists b, out = Some b /\ forall idx, in_shape sout idx -> b idx = value idx.

(** Component [k] of index [i]; the components from [start] on of index [i]. *)
Definition selected (i k : nat) (a : tensor) : tensor := fun idx => a (put i k idx).
Definition part (i start : nat) (a : tensor) : tensor := fun idx => a (replace i idx (start + nth i idx 0)).
(** A quarter turn in the plane of index [i]. *)
Definition turned (i : nat) (a : tensor) : tensor := fun idx => match nth i idx 0 with 0 => kopp (a (replace i idx 1)) | _ => a (replace i idx 0) end.
(** The sum over the first two indices being equal. *)
Definition traced (d : nat) (a : tensor) : tensor := fun idx => total k0 kadd d (fun k => a (k :: k :: idx)).
(** Two indices exchanged. *)
Definition exchange (i j : nat) (idx : list nat) : list nat := replace j (replace i idx (nth j idx 0)) (nth i idx 0).
Definition exchanged (i j : nat) (a : tensor) : tensor := fun idx => a (exchange i j idx).
(** Spin components (minus first) multiplied by [1j] times the spin; with real numbers, consecutive entries along [axis] are the real and
    imaginary part of a complex number. *)
Definition spin (i : nat) (idx : list nat) (x : K) : K := match nth i idx 0 with 0 => kopp x | _ => x end.
Definition spun_complex (i : nat) (a : tensor) : tensor := fun idx => spin i idx (kmul ki (a idx)).
Definition spun_real (i axis : nat) (a : tensor) : tensor := fun idx =>
  let m := nth axis idx 0 in
  spin i idx (if Nat.even m then kopp (a (replace axis idx (m + 1))) else a (replace axis idx (m - 1))).
End Spec.
