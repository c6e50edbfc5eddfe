(** Clenshaw summation: dedalus/tools/clenshaw.py and [DeferredTuple] of dedalus/tools/general.py.

    Simplifications.  Entries are of any type with field operations, without rounding.  Matrices are those of
    [MatSolvers_Model] (a shape and a function; sums and products do not check shapes).  [None] is an exception. *)
From Coq Require Import List Arith Bool Reals.
Import ListNotations.
From Verif Require Import MatSolvers_Model.
Local Open Scope nat_scope.

Section Clenshaw.
Context {K : Type} (k0 k1 : K) (kadd kmul ksub kdiv : K -> K -> K) (kopp : K -> K) (mag : K -> R).
Notation identity := (identity k0 k1).
Notation mmul := (mmul k0 kadd kmul).
Notation madd := (madd kadd).
Notation msub := (msub ksub).
Notation mscale := (mscale kmul).

(** A sequence whose entries may be out of range. *)
Definition sequence (A : Type) := nat -> option A.
(** general.py:94-111, [DeferredTuple], for natural indices. *)
Definition deferred {A} (entry : nat -> A) (size : nat) : sequence A := fun n => if size <=? n then None else Some (entry n).
(** [x > cutoff]. *)
Definition above (x cutoff : R) : bool := if Rlt_dec cutoff x then true else false.

(** clenshaw.py:8-19, [scalar_clenshaw].  The loop over [reversed(range(N))]; a state is [(b0, b1)]. *)
Definition scalar_loop (c : nat -> K) (A B : sequence K) (ns : list nat) (s : option (K * K)) : option (K * K) :=
  fold_left (fun s n => match s, A n, B (n + 1) with
    | Some (b0, b1), Some a, Some b => let '(b1, b2) := (b0, b1) in Some (kadd (kadd (c n) (kmul a b1)) (kmul b b2), b1)
    | _, _, _ => None end) ns s.
Definition scalar_clenshaw (N : nat) (c : nat -> K) (A B : sequence K) (f0 : K) : option K :=
  match scalar_loop c A B (rev (seq 0 N)) (Some (k0, k0)) with Some (b0, _) => Some (kmul b0 f0) | None => None end.

(** clenshaw.py:22-37, [matrix_clenshaw]. *)
Definition matrix_loop (I : mat K) (cutoff : R) (c : nat -> K) (A B : sequence (mat K)) (ns : list nat) (s : option (mat K * mat K)) : option (mat K * mat K) :=
  fold_left (fun s n => match s, A n, B (n + 1) with
    | Some (b0, b1), Some a, Some b => let '(b1, b2) := (b0, b1) in
        Some (if above (mag (c n)) cutoff then madd (madd (mscale (c n) I) (mmul a b1)) (mmul b b2) else madd (mmul a b1) (mmul b b2), b1)
    | _, _, _ => None end) ns s.
Definition matrix_clenshaw (N : nat) (c : nat -> K) (A B : sequence (mat K)) (f0 : mat K) (cutoff : R) : option (mat K) :=
  let I := identity (nr f0) in
  match matrix_loop I cutoff c A B (rev (seq 0 N)) (Some (mscale k0 I, mscale k0 I)) with Some (b0, _) => Some (mmul f0 b0) | None => None end.

(** [sparse.kron]. *)
Definition skron (A B : mat K) : mat K :=
  Mat (nr A * nr B) (nc A * nc B) (fun i j => kmul (at_ A (i / nr B) (j / nc B)) (at_ B (i mod nr B) (j mod nc B))).
(** clenshaw.py:40-61, [kronecker_clenshaw], for matrix coefficients (for scalars it is [matrix_clenshaw]). *)
Definition kron (coeffs_left : bool) (X C : mat K) : mat K := if coeffs_left then skron C X else skron X C.
Definition kronecker_loop (coeffs_left : bool) (I0 I1 : mat K) (cutoff : R) (val_c : nat -> mat K) (norm_c : nat -> R) (A B : sequence (mat K))
    (ns : list nat) (s : option (mat K * mat K)) : option (mat K * mat K) :=
  fold_left (fun s n => match s, A n, B (n + 1) with
    | Some (b0, b1), Some a, Some b => let '(b1, b2) := (b0, b1) in
        let b0 := madd (mmul (kron coeffs_left a I1) b1) (mmul (kron coeffs_left b I1) b2) in
        Some (if above (norm_c n) cutoff then madd b0 (kron coeffs_left I0 (val_c n)) else b0, b1)
    | _, _, _ => None end) ns s.
Definition kronecker_clenshaw (N : nat) (val_c : nat -> mat K) (norm_c : nat -> R) (A B : sequence (mat K)) (f0 : mat K) (cutoff : R) (coeffs_left : bool) : option (mat K) :=
  let I0 := identity (nr f0) in let I1 := identity (nr (val_c 0)) in
  let zero := mscale k0 (kron coeffs_left I0 (val_c 0)) in
  match kronecker_loop coeffs_left I0 I1 cutoff val_c norm_c A B (rev (seq 0 N)) (Some (zero, zero)) with
  | Some (b0, _) => Some (mmul (kron coeffs_left f0 I1) b0) | None => None end.

(** clenshaw.py:64-99, [jacobi_recursion], for a matrix [X] and a scalar [x]; [JA] is the dense Jacobi matrix. *)
Definition compute_A (N : nat) (JA : nat -> nat -> K) (X : mat K) (n : nat) : mat K :=
  let I := identity (nr X) in if n <? N - 1 then mscale (kdiv k1 (JA n (n + 1))) (msub X (mscale (JA n n) I)) else mscale k0 I.
Definition compute_B (N : nat) (JA : nat -> nat -> K) (X : mat K) (n : nat) : mat K :=
  let I := identity (nr X) in if (0 <? n) && (n <? N - 1) then mscale (kdiv (kopp (JA n (n - 1))) (JA n (n + 1))) I else mscale k0 I.
Definition jacobi_recursion (N : nat) (JA : nat -> nat -> K) (X : mat K) : sequence (mat K) * sequence (mat K) :=
  (deferred (compute_A N JA X) (N + 1), deferred (compute_B N JA X) (N + 1)).
Definition scalar_A (N : nat) (JA : nat -> nat -> K) (x : K) (n : nat) : K := if n <? N - 1 then kdiv (ksub x (kmul (JA n n) k1)) (JA n (n + 1)) else kmul k0 k1.
Definition scalar_B (N : nat) (JA : nat -> nat -> K) (n : nat) : K :=
  if (0 <? n) && (n <? N - 1) then kmul (kdiv (kopp (JA n (n - 1))) (JA n (n + 1))) k1 else kmul k0 k1.
Definition jacobi_recursion_scalar (N : nat) (JA : nat -> nat -> K) (x : K) : sequence K * sequence K :=
  (deferred (scalar_A N JA x) (N + 1), deferred (scalar_B N JA) (N + 1)).
End Clenshaw.
