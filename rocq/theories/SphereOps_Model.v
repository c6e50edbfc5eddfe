(** Gradients, divergences and Laplacians of tensors on the sphere, which multiply the coefficients of spin components by symbols:
    dedalus/core/basis.py (SphereGradient, SphereDivergence, SphereLaplacian, SphereAverage, ConvertConstantSphere) and
    dedalus/core/operators.py (SeparableSphereOperator, SphereEllProduct).

    Simplifications.  Exact arithmetic in real numbers: symbols are real, and act on the two parts of complex coefficients in the same
    way.  Coefficients are those of one element of the array, of degree [ell], unless elements are numbered. *)
From Coq Require Import List Arith Bool ZArith Reals.
Import ListNotations.
Local Open Scope R_scope.

Notation index := (list nat).
(** coords.py:208 [spin_ordering] and basis.py:1703-1717, [spin_weights] and [spintotal]: indices of coordinates of the sphere have two
    spins; those of spherical coordinates have a third component, of spin zero. *)
Definition spin_of (i : nat) : Z := nth i [(-1)%Z; 1%Z] 0%Z.
Definition spintotal (i : index) : Z := fold_right Z.add 0%Z (map spin_of i).
(** [np.ndenumerate] over an array whose shape is the tensor signature. *)
Fixpoint indices (sig : list nat) : list index :=
  match sig with [] => [[]] | n :: sig => flat_map (fun i => map (cons i) (indices sig)) (seq 0 n) end.
(** basis.py:3156-3158. *)
Definition k (l s mu : Z) : R := - IZR mu * sqrt (Rmax 0 (IZR ((l - mu * s) * (l + mu * s + 1)) / 2)).
(** An entry of [x[np.abs(s) > ell] = 0]. *)
Definition mask (s ell : Z) (x : R) : R := if (Z.abs s >? ell)%Z then 0 else x.
Definition symbol := index -> index -> Z -> Z -> Z -> R -> R.
(** basis.py:3371-3377, and 3335-3337 for the divergence. *)
Definition gradient_symbol : symbol := fun _ _ s_in s_out ell radius => mask s_out ell (mask s_in ell (k ell s_in (s_out - s_in))) / radius.
Definition divergence_symbol : symbol := gradient_symbol.
(** basis.py:3406-3416. *)
Definition laplacian_symbol : symbol := fun _ _ s_in s_out ell radius =>
  let kp := k ell s_in 1 in let km := k ell s_in (-1) in let kp_1 := k ell (s_in - 1) 1 in let km_1 := k ell (s_in + 1) (-1) in
  mask s_out ell (mask s_in ell (km_1 * kp + kp_1 * km)) / (radius * radius).
Definition equal_index (i j : index) : bool := if list_eq_dec Nat.eq_dec i j then true else false.
(** basis.py:5316-5318, 3293-3296, operators.py:2898-2899. *)
Definition average_symbol : symbol := fun i j _ _ ell _ => if (ell =? 0)%Z && equal_index i j then 1 else 0.
Definition constant_symbol : symbol := fun i j _ _ ell _ => if (ell =? 0)%Z && equal_index i j then / / sqrt 2 else 0.
Definition product_symbol (f : Z -> R -> R) : symbol := fun _ _ _ _ ell radius => f ell radius.
(** [spinindex_out]: basis.py:3364-3367, 3327-3333, 3402-3403. *)
Definition gradient_out (i : index) : list index := [0%nat :: i; 1%nat :: i].
Definition divergence_out (i : index) : list index := match i with (0%nat | 1%nat) :: i => [i] | _ => [] end.
Definition same_out (i : index) : list index := [i].

(** operators.py:2803-2866, [operate] on equal shapes. *)
Definition symbol_step (sym : symbol) (ell : Z) (radius : R) (x : index -> R) (i : index) (out : index -> R) (j : index) : index -> R :=
  fun j' => if equal_index j' j then out j' + sym i j (spintotal i) (spintotal j) ell radius * x i else out j'.
Definition operate (sym : symbol) (outs : index -> list index) (sig : list nat) (ell : Z) (radius : R) (x : index -> R) : index -> R :=
  fold_left (fun out i => fold_left (symbol_step sym ell radius x i) (outs i) out) (indices sig) (fun _ => 0).
Definition gradient (sig : list nat) := operate gradient_symbol gradient_out sig.
Definition divergence (sig : list nat) := operate divergence_symbol divergence_out sig.
Definition laplacian (sig : list nat) := operate laplacian_symbol same_out sig.

(** operators.py:2759-2801, [subproblem_matrix] for a group whose elements have the degrees [ells], on equal shapes: a block for
    every pair of components, with the symbols on the diagonal. *)
Definition block (sym : symbol) (outs : index -> list index) (radius : R) (ells : list Z) (j i : index) (e e' : nat) : R :=
  if existsb (equal_index j) (outs i) then if (e =? e')%nat then sym i j (spintotal i) (spintotal j) (nth e ells 0%Z) radius else 0 else 0.
Definition subproblem_matrix (sym : symbol) (outs : index -> list index) (sig_in sig_out : list nat) (radius : R) (ells : list Z) : list (list R) :=
  flat_map (fun j => map (fun e => flat_map (fun i => map (fun e' => block sym outs radius ells j i e e') (seq 0 (length ells))) (indices sig_in)) (seq 0 (length ells))) (indices sig_out).

(** operators.py:2813-2853: the shapes of the arrays in [operate] when the shapes of operand and output differ.  [data[slices]] slices
    the first directions of the array; [None] stands for an exception (an index past the end, or shapes that do not fit). *)
Fixpoint sliced (slices shape : list nat) : list nat :=
  match slices, shape with s :: slices, n :: shape => Nat.min s n :: sliced slices shape | _, shape => shape end.
Fixpoint broadcast (s t : list nat) : option (list nat) :=
  match s, t with
  | [], [] => Some []
  | a :: s, b :: t => match broadcast s t with
      | Some r => if (a =? b)%nat then Some (a :: r) else if (a =? 1)%nat then Some (b :: r) else if (b =? 1)%nat then Some (a :: r) else None
      | None => None end
  | _, _ => None
  end.
Definition fits (i : index) (shape : list nat) : bool := (length i <=? length shape)%nat && forallb (fun p => (fst p <? snd p)%nat) (combine i shape).
Definition multiply_shapes (sig_in sig_out shape_in shape_out : list nat) (i j : index) : option unit :=
  let slices := map (fun p => Nat.min (fst p) (snd p)) (combine shape_in shape_out) in
  let same := if list_eq_dec Nat.eq_dec shape_in shape_out then true else false in
  let data_in := if same then sig_in ++ shape_in else sliced slices (sig_in ++ shape_in) in
  let data_out := if same then sig_out ++ shape_out else sliced slices (sig_out ++ shape_out) in
  let symbols := if same then shape_in else sliced slices shape_in in
  if fits i data_in && fits j data_out then
    match broadcast symbols (skipn (length i) data_in) with
    | Some r => match broadcast (skipn (length j) data_out) r with
        | Some r' => if list_eq_dec Nat.eq_dec r' (skipn (length j) data_out) then Some tt else None
        | None => None end
    | None => None end
  else None.
(** The operation raises if a product does. *)
Definition operate_raises (outs : index -> list index) (sig_in sig_out shape_in shape_out : list nat) : bool :=
  existsb (fun i => existsb (fun j => match multiply_shapes sig_in sig_out shape_in shape_out i j with Some _ => false | None => true end) (outs i)) (indices sig_in).
