(** Products with radial functions in a ball, for one degree. *)
From Coq Require Import Arith Reals.
From Verif Require Import MatSolvers_Model CSR_Spec.

Section Spec.
Context {K : Type} (k0 : K) (kadd kmul : K -> K -> K).
Notation total := (CSR_Spec.total k0 kadd).
(** The entries of the matrix of multiplication by the radial function with [N0] coefficients [c]: the polynomial [n] of the
    function multiplies by the matrix [f n], then the radial factor [r] and the conversion [e] are applied, all with [P] modes. *)
Definition multiplied (e r : nat -> nat -> K) (P N0 : nat) (c : nat -> K) (f : nat -> nat -> nat -> K) (i j : nat) : K :=
  total P (fun k => kmul (total P (fun l => kmul (e i l) (r l k))) (total N0 (fun n => kmul (c n) (f n k j)))).
End Spec.
