(** What "order" and "history" mean for a linear multistep IMEX scheme, independently of how the
    coefficients are computed. *)
From Coq Require Import Reals.
From stdpp Require Import list.
Local Open Scope R_scope.

(** Sum over j of w[j] f(j). *)
Fixpoint weighted (w : list R) (f : nat -> R) : R :=
  match w with [] => 0 | x :: w' => x * f O + weighted w' (fun j => f (S j)) end.

(** Time of the state j steps back, relative to the time of the new state; [ks]: step sizes,
    newest first. *)
Definition past (ks : list R) (j : nat) : R := - weighted (take j ks) (fun _ => 1).

(** Polynomials as coefficient lists, their values and derivatives. *)
Fixpoint peval (p : list R) (t : R) : R := match p with [] => 0 | a :: p' => a + t * peval p' t end.
Fixpoint pderiv (p : list R) (t : R) : R :=
  match p with [] => 0 | _ :: p' => peval p' t + t * pderiv p' t end.

(** The scheme sum a_j X(t_j) = sum b_j G(t_j) (implicit) and = sum c_j G(t_j) (explicit) is
    satisfied exactly by every polynomial solution X of degree at most n with G = X', at the
    actual past times; the weights are normalised. *)
Definition exact_to_order (n : nat) (ks a b c : list R) : Prop :=
  (forall p : list R, (length p <= n + 1)%nat ->
     weighted a (fun j => peval p (past ks j)) = weighted b (fun j => pderiv p (past ks j)) /\
     weighted a (fun j => peval p (past ks j)) = weighted c (fun j => pderiv p (past ks j))) /\
  weighted b (fun _ => 1) = 1 /\ weighted c (fun _ => 1) = 1 /\ c !! O = Some 0.

(** Step sizes so far, newest first, as a deque of length [h] started with zeros holds them. *)
Definition recent (h : nat) (ks : list R) : list R := take h (ks ++ replicate h 0).

(** Times and states, newest first; a state gives the vector of each subproblem. *)
Notation states := (list (R * (nat -> nat -> R))) (only parsing).
Definition nth_state (H : states) (j : nat) : R * (nat -> nat -> R) :=
  match H !! j with Some x => x | None => (0, fun _ _ => 0) end.
