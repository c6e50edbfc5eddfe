(** Operators on Jacobi polynomials: dedalus/libraries/dedalus_sphere/jacobi.py, and the interface of
    dedalus/tools/jacobi.py.

    Simplifications.  Reals without rounding; [dtype]s are left out.  The mass (scipy's beta function) and the
    Gauss-Legendre quadrature are arguments, specified where theorems need them.  [None] is an exception. *)
From Coq Require Import List ZArith Reals Bool.
Import ListNotations.
From Verif Require Import MatSolvers_Model Codomain_Model.
Local Open Scope R_scope.

(** ** Normalisation *)
(** jacobi.py:234-238. *)
Definition tricky (n : Z) (a b : R) : R :=
  if Req_EM_T (a + b) (-1) then 2 - (if (n =? 0)%Z then 1 else 0) else (2 * IZR n + a + b + 1) / (IZR n + a + b + 1).
(** jacobi.py:240-245, [n_ratio], for natural [d], and for all [d]. *)
Definition n_step (n : Z) (a b : R) : R := ((IZR n + a + 1) * (IZR n + b + 1) / ((IZR n + 1) * (2 * IZR n + a + b + 3))) * tricky n a b.
Fixpoint n_ratio_nat (d : nat) (n : Z) (a b : R) : R :=
  match d with O => 1 | S O => n_step n a b | S (S _ as d') => n_step (n + Z.of_nat d')%Z a b * n_ratio_nat d' n a b end.
Definition n_ratio (d : Z) (n : Z) (a b : R) : R := if (d <? 0)%Z then 1 / n_ratio_nat (Z.to_nat (- d)) (n + d) a b else n_ratio_nat (Z.to_nat d) n a b.
(** jacobi.py:247-252, [ab_ratio]. *)
Definition ab_step (n : Z) (a b : R) : R := (2 * (IZR n + a + 1) / (2 * IZR n + a + b + 2)) * tricky n a b.
Fixpoint ab_ratio_nat (d : nat) (n : Z) (a b : R) : R :=
  match d with O => 1 | S O => ab_step n a b | S (S _ as d') => ab_step n (a + INR d') b * ab_ratio_nat d' n a b end.
Definition ab_ratio (d : Z) (n : Z) (a b : R) : R := if (d <? 0)%Z then 1 / ab_ratio_nat (Z.to_nat (- d)) n (a + IZR d) b else ab_ratio_nat (Z.to_nat d) n a b.
(** jacobi.py:207-258, [norm_ratio]. *)
Definition norm_ratio (dn da db : Z) (n : Z) (a b : R) : R :=
  sqrt (n_ratio dn n (a + IZR da) (b + IZR db) * ab_ratio da n a (b + IZR db) * ab_ratio db n b a).

(** ** The operators *)
(** [banded((bands, offsets), (rows, cols))]: [bands[k][j]] is at row [j - offsets[k]] of column [j]. *)
Definition band (offset : Z) (data : nat -> R) (i j : nat) : R := if (Z.of_nat i =? Z.of_nat j - offset)%Z then data j else 0.
Definition rows_of (n : Z) : nat := Z.to_nat (Z.max n 0).
(** jacobi.py:378-391; [p] is 1 or -1.  Without columns the first is missing. *)
Definition A_first (a b : R) (f : R -> R) (j : nat) : R :=
  match j with O => if Req_EM_T (a + b) (-1) then 1 else f 0 / (a + b + 1) | S _ => f (INR j) / (2 * INR j + a + b + 1) end.
Definition A_band0 (normalised : bool) (p : Z) (a b : R) (j : nat) : R :=
  A_first a b (fun N => if (p =? 1)%Z then N + (a + b + 1) else 2 * (N + a)) j
  * (if normalised then norm_ratio 0 p 0 (Z.of_nat j) a b else 1).
Definition A_band1 (normalised : bool) (p : Z) (a b : R) (j : nat) : R :=
  A_first a b (fun N => if (p =? 1)%Z then - (N + b) else -2 * (N + 1)) j
  * (if normalised && ((1 + p) / 2 <=? Z.of_nat j)%Z then norm_ratio (- p) p 0 (Z.of_nat j) a b else 1).
Definition A_fn (normalised : bool) (p : Z) (x : domain) : option (mat R) := let '(n, a, b) := x in
  if (n <=? 0)%Z then None else
  Some (Mat (rows_of (n + (1 - p) / 2)) (rows_of n) (fun i j => band 0 (A_band0 normalised p a b) i j + band p (A_band1 normalised p a b) i j)).
(** jacobi.py:370-392, for [p] 1 or -1. *)
Definition A_op (normalised : bool) (p : Z) : operator := Op (A_fn normalised p) (Jcod ((1 - p) / 2) p 0 false).
(** jacobi.py:370-376, [A(0)]. *)
Definition A_zero : operator := Op (fun x => let '(n, a, _) := x in if (n <? 0)%Z then None else Some (Mat (rows_of n) (rows_of n) (band 0 (fun _ => a)))) jzero.
(** jacobi.py:439-446, [parity]. *)
Definition Pi_op : operator := Op (fun x => let '(n, _, _) := x in Some (Mat (rows_of n) (rows_of n) (band 0 (fun j => (-1) ^ j)))) (Jcod 0 0 0 true).
(** jacobi.py:394-400.  The operators inside are built with the default arguments of [operator]: the argument
    [normalised] is not passed on. *)
Definition B_fn (normalised : bool) (p : Z) (x : domain) : option (mat R) := fn (omatmul (omatmul Pi_op (A_op true p)) Pi_op) x.
Definition B_op (normalised : bool) (p : Z) : operator := Op (B_fn normalised p) (Jcod ((1 - p) / 2) 0 p false).
(** jacobi.py:402-414. *)
Definition C_band (normalised : bool) (p : Z) (a b : R) (j : nat) : R :=
  (INR j + (if (p =? 1)%Z then b else a)) * (if normalised then norm_ratio 0 p (- p) (Z.of_nat j) a b else 1).
Definition C_op (normalised : bool) (p : Z) : operator :=
  Op (fun x => let '(n, a, b) := x in Some (Mat (rows_of n) (rows_of n) (band 0 (C_band normalised p a b)))) (Jcod 0 p (- p) false).
(** jacobi.py:416-428. *)
Definition D_band (normalised : bool) (p : Z) (a b : R) (j : nat) : R :=
  (INR j + (if (p =? 1)%Z then a + b + 1 else 1)) * (if (p =? 1)%Z then 1 / 2 else 2)
  * (if normalised && ((1 + p) / 2 <=? Z.of_nat j)%Z then norm_ratio (- p) p p (Z.of_nat j) a b else 1).
Definition D_op (normalised : bool) (p : Z) : operator :=
  Op (fun x => let '(n, a, b) := x in Some (Mat (rows_of (n - p)) (rows_of n) (band p (D_band normalised p a b)))) (Jcod (- p) p p false).
(** jacobi.py:430-437 and 448-454. *)
Definition Id_op : operator := Op (fun x => let '(n, _, _) := x in if (n <? 0)%Z then None else Some (Mat (rows_of n) (rows_of n) (band 0 (fun _ => 1)))) jzero.
Definition N_op : operator := Op (fun x => let '(n, _, _) := x in Some (Mat (rows_of n) (rows_of n) (band 0 (fun j => INR j)))) jzero.
(** jacobi.py:279-282, the Jacobi matrix. *)
Definition Z_op (normalised : bool) : option operator :=
  match osub (omatmul (B_op normalised (-1)) (B_op normalised 1)) (omatmul (A_op normalised (-1)) (A_op normalised 1)) with
  | Some o => Some (odiv o 2) | None => None end.

(** ** Polynomials, jacobi.py:30-81 without [Newton] *)
(** The diagonals of the transposed Jacobi matrix: with offsets -1, 0 and 1, of which the middle one is missing when it
    is zero throughout. *)
Definition zero_diagonal (Zm : mat R) : bool := forallb (fun i => if Req_EM_T (at_ Zm i i) 0 then true else false) (seq 0 (nc Zm)).
(** [P[k]] and [P[k-1]]. *)
Fixpoint poly_rows (Zm : mat R) (z init : R) (k : nat) : R * R :=
  match k with
  | O => (init, 0)
  | S O => ((if zero_diagonal Zm then z * init / at_ Zm 1 0 else (z - at_ Zm 0 0) * init / at_ Zm 1 0), init)
  | S (S m as k1) => let '(p1, p2) := poly_rows Zm z init k1 in
      ((if zero_diagonal Zm then (z * p1 - at_ Zm m k1 * p2) / at_ Zm (S k1) k1 else ((z - at_ Zm k1 k1) * p1 - at_ Zm m k1 * p2) / at_ Zm (S k1) k1), p1)
  end.
Section Mass.
Context (mass : R -> R -> R).
Definition polynomials (normalised : bool) (init : option R) (n : nat) (a b z : R) : option (list R) :=
  match n with O => Some [] | _ =>
    let init := match init with Some v => v | None => if normalised then 1 / sqrt (mass a b) else 1 end in
    match Z_op normalised with None => None | Some Zo =>
      match fn Zo (Z.of_nat n + 1, a, b)%Z with None => None | Some Zm => Some (map (fun k => fst (poly_rows Zm z init k)) (seq 0 n)) end end end.

(** ** The interface, tools/jacobi.py *)
Definition integer (r : R) : bool := if Req_EM_T r (IZR (Int_part r)) then true else false.
(** tools/jacobi.py:229-245. *)
Definition conversion_matrix (N : nat) (a0 b0 a1 b1 : R) : option (mat R) :=
  if negb (integer (a1 - a0)) then None else if negb (integer (b1 - b0)) then None
  else if Rlt_dec a1 a0 then None else if Rlt_dec b1 b0 then None
  else fn (omatmul (opow (A_op true 1) (Z.to_nat (Int_part (a1 - a0)))) (opow (B_op true 1) (Z.to_nat (Int_part (b1 - b0))))) (Z.of_nat N, a0, b0).
(** tools/jacobi.py:247-248. *)
Definition differentiation_matrix (N : nat) (a b : R) : option (mat R) :=
  match fn (D_op true 1) (Z.of_nat N, a, b) with Some M => Some (square M) | None => None end.
(** tools/jacobi.py:250-251. *)
Definition jacobi_matrix (N : nat) (a b : R) : option (mat R) :=
  match Z_op true with None => None | Some o => match fn o (Z.of_nat N, a, b) with Some M => Some (square M) | None => None end end.
(** tools/jacobi.py:253-263, for a quadrature [leg] of given size: nodes and weights; [cutoff] is the resolution of
    the output type. *)
Definition integration_vector (cutoff : R) (leg : nat -> list (R * R)) (N : nat) (a b : R) : option (list R) :=
  let interp := map (fun zw => polynomials true None N a b (fst zw)) (leg N) in
  if forallb (fun o => match o with Some _ => true | None => false end) interp then
    Some (map (fun j =>
      let v := fold_right Rplus 0 (map (fun p => snd (fst p) * match snd p with Some l => nth j l 0 | None => 0 end) (combine (leg N) interp)) * (2 / mass 0 0) in
      if Rle_dec (Rabs v) cutoff then 0 else v) (seq 0 N))
  else None.
End Mass.
