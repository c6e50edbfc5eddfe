(** Vector calculus on disks and annuli, in spin components: dedalus/core/operators.py:2908-2992, 3053-3105, 3606-3664, 4217-4263, and
    2168-2178; dedalus/core/basis.py:1703-1717.

    Simplifications.  Reals and complex numbers without rounding.  Data of one azimuthal order: for each component a vector over
    the radial modes, of a size that operand and output share; the loop over orders is [SphereEll_Model.operate].  With real data
    both coefficients of a pair (cos, -sin) are kept apart.  [None] is an exception. *)
From Coq Require Import List ZArith Reals Bool.
From Coquelicot Require Import Coquelicot.
Import ListNotations.
From Verif Require Import MatSolvers_Model CSR_Spec Radial_Model SphericalVec_Model.
Local Open Scope R_scope.

Inductive flat := Disk (radius alpha : R) | Annulus (inner outer a b : R).
(** basis.py:2240-2261 and 2509-2530, by the kind of the basis. *)
Definition flat_operator (g : flat) (k : nat) (op : radial) (m spintotal : Z) (size : nat) : option (mat R) :=
  match g with
  | Disk radius alpha => disk_operator_matrix radius alpha k (match op with Dplus => Signed LD true | Dminus => Signed LD false | Second => Lap end) m spintotal size
  | Annulus inner outer a b => annulus_operator_matrix inner outer a b k (match op with Dplus => SD true | Dminus => SD false | Second => SL end) m spintotal size
  end.

(** A coordinate system of a tensor signature: its dimension, and where the polar coordinates start in it, if they do. *)
Record slot := Slot { dim : nat; start : option nat }.
Definition polar : slot := Slot 2 (Some 0%nat).
(** basis.py:1703-1717. *)
Definition spin_weight (s : slot) (a : nat) : Z :=
  match start s with Some b => if (a =? b)%nat then (-1)%Z else if (a =? S b)%nat then 1%Z else 0%Z | None => 0%Z end.
Fixpoint spintotal (sig : list slot) (i : index) : Z := match sig, i with s :: sig, a :: i => (spin_weight s a + spintotal sig i)%Z | _, _ => 0%Z end.
(** The components of a tensor, in the order of [np.ndenumerate]. *)
Fixpoint components (sig : list slot) : list index := match sig with [] => [[]] | s :: sig => flat_map (fun a => map (cons a) (components sig)) (seq 0 (dim s)) end.

Section Operators.
Context (g : flat) (k size : nat) (m : Z).
Notation half M := (times_matrix (RtoC (1 / sqrt 2)) M).
(** 3083-3105, [PolarGradient]. *)
Definition pgradient_out (i : index) : list index := [0%nat :: i; 1%nat :: i].
Definition pgradient_matrix (sig : list slot) (i j : index) : option (mat C) :=
  if existsb (equal_index j) (pgradient_out i) then
    match j with
    | 0%nat :: _ => half (flat_operator g k Dminus m (spintotal sig i) size)
    | 1%nat :: _ => half (flat_operator g k Dplus m (spintotal sig i) size)
    | _ => None end else None.
(** 3638-3664, [PolarDivergence]. *)
Definition pdivergence_out (i : index) : list index := match i with (0%nat | 1%nat) :: r => [r] | _ => [] end.
Definition pdivergence_matrix (sig : list slot) (i j : index) : option (mat C) :=
  match i with
  | h :: r => if negb (h =? 2)%nat && equal_index r j then
      match h with
      | 0%nat => half (flat_operator g k Dplus m (spintotal sig i) size)
      | 1%nat => half (flat_operator g k Dminus m (spintotal sig i) size)
      | _ => None end else None
  | [] => None end.
(** 4248-4263, [PolarLaplacian]. *)
Definition plaplacian_matrix (sig : list slot) (i j : index) : option (mat C) := if equal_index i j then times_matrix (RtoC 1) (flat_operator g k Second m (spintotal sig i) size) else None.
End Operators.

(** 2927-2952, [PolarMOperator.operate], at one order. *)
Definition pstep (size : nat) (A : index -> index -> option (mat C)) (x : vectors) (i : index) (out : option vectors) (j : index) : option vectors :=
  obind out (fun out => if (size =? 0)%nat then Some out
    else obind (A i j) (fun M => Some (fun j' n => if equal_index j' j then Cplus (out j' n) (applied M (x i) n) else out j' n))).
Definition poperate (size : nat) (A : index -> index -> option (mat C)) (outs : index -> list index) (sig : list slot) (x : vectors) : option vectors :=
  fold_left (fun out i => fold_left (pstep size A x i) (outs i) out) (components sig) (Some (fun _ _ => RtoC 0)).
Definition pgradient g k size m sig := poperate size (pgradient_matrix g k size m sig) pgradient_out sig.
Definition pdivergence g k size m sig := poperate size (pdivergence_matrix g k size m (polar :: sig)) pdivergence_out (polar :: sig).
Definition plaplacian g k size m sig := poperate size (plaplacian_matrix g k size m sig) same_out sig.
(** 2168-2178, [SpinSkew] with complex data, along the first index. *)
Definition pskew (x : vectors) : vectors := fun i n => match i with 0%nat :: _ => Cmult (Copp Ci) (x i n) | 1%nat :: _ => Cmult Ci (x i n) | _ => x i n end.

(** 2927-2952 with real data. *)
Definition pstep_real (size : nat) (A : index -> index -> option (mat C)) (x : pairs) (i : index) (out : option pairs) (j : index) : option pairs :=
  obind out (fun out => if (size =? 0)%nat then Some out
    else obind (A i j) (fun M => Some (fun j' msin n => if equal_index j' j
      then out j' msin n + CSR_Spec.total 0 Rplus (nc M) (fun q => Re (at_ M n q) * x i msin q) else out j' msin n))).
Definition poperate_real (size : nat) (A : index -> index -> option (mat C)) (outs : index -> list index) (sig : list slot) (x : pairs) : option pairs :=
  fold_left (fun out i => fold_left (pstep_real size A x i) (outs i) out) (components sig) (Some (fun _ _ _ => 0)).
(** 2179-2187, [SpinSkew] with real data. *)
Definition pskew_real (x : pairs) : pairs := fun i msin n =>
  match i with
  | 0%nat :: _ => if msin then - x i false n else x i true n
  | 1%nat :: _ => if msin then x i false n else - x i true n
  | _ => x i msin n end.

(** 2954-2986, [subproblem_matrix]: a block for each pair of components, over elements that are [ms] azimuthal ones and radial modes. *)
Definition pelements (ms size : nat) : list (nat * nat) := flat_map (fun m => map (fun n => (m, n)) (seq 0 size)) (seq 0 ms).
Definition pblock (size ms : nat) (A : index -> index -> option (mat C)) (outs : index -> list index) (j i : index) : option (nat * nat -> nat * nat -> C) :=
  if existsb (equal_index j) (outs i) && negb (size =? 0)%nat && negb (ms =? 0)%nat
  then obind (A i j) (fun M => Some (fun p q => if (fst p =? fst q)%nat then at_ M (snd p) (snd q) else RtoC 0)) else Some (fun _ _ => RtoC 0).
Fixpoint all_some {A} (l : list (option A)) : option (list A) := match l with [] => Some [] | a :: l => obind a (fun a => obind (all_some l) (fun l => Some (a :: l))) end.
Definition psubproblem_matrix (size ms : nat) (A : index -> index -> option (mat C)) (outs : index -> list index) (sig_in sig_out : list slot) : option (list (list C)) :=
  obind (all_some (map (fun j => all_some (map (fun i => pblock size ms A outs j i) (components sig_in))) (components sig_out)))
    (fun rows => Some (flat_map (fun row => map (fun p => flat_map (fun b => map (b p) (pelements ms size)) row) (pelements ms size)) rows)).
