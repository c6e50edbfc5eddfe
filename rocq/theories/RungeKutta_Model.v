(** Runge-Kutta IMEX time steppers: tableaus and stepping. *)
From Coq Require Import Reals.
From stdpp Require Import list.
From Verif Require Import Multistep_Model.
Local Open Scope R_scope.

(** ** Tableaus *)
(** Class attributes [stages], [c], [A], [H]. *)
Record tableau := Tableau { stages : nat; abscissae : list R; explicit : list (list R); implicit : list (list R) }.

(** dedalus/core/timesteppers.py:648-659. *)
Definition RK111 := Tableau 1 [0; 1] [[0; 0]; [1; 0]] [[0; 0]; [0; 1]].

(** dedalus/core/timesteppers.py:663-679. *)
Definition RK222_gamma : R := (2 - R_sqrt.sqrt 2) / 2.
Definition RK222_delta : R := 1 - 1 / RK222_gamma / 2.
Definition RK222 :=
  let g := RK222_gamma in let d := RK222_delta in
  Tableau 2 [0; g; 1]
    [[0; 0; 0]; [g; 0; 0]; [d; 1 - d; 0]]
    [[0; 0; 0]; [0; g; 0]; [0; 1 - g; g]].

(** dedalus/core/timesteppers.py:683-700. *)
Definition RK443 := Tableau 4 [0; 1 / 2; 2 / 3; 1 / 2; 1]
  [[0; 0; 0; 0; 0];
   [1 / 2; 0; 0; 0; 0];
   [11 / 18; 1 / 18; 0; 0; 0];
   [5 / 6; -5 / 6; 1 / 2; 0; 0];
   [1 / 4; 7 / 4; 3 / 4; -7 / 4; 0]]
  [[0; 0; 0; 0; 0];
   [0; 1 / 2; 0; 0; 0];
   [0; 1 / 6; 1 / 2; 0; 0];
   [0; -1 / 2; 1 / 2; 1 / 2; 0];
   [0; 3 / 2; -3 / 2; 1 / 2; 1 / 2]].

(** dedalus/core/timesteppers.py:704-724. *)
Definition RKSMR :=
  let a1 := 29 / 96 in let a2 := -3 / 40 in let a3 := 1 / 6 in
  let b1 := 37 / 160 in let b2 := 5 / 24 in let b3 := 1 / 6 in
  let g1 := 8 / 15 in let g2 := 5 / 12 in let g3 := 3 / 4 in
  let z2 := -17 / 60 in let z3 := -5 / 12 in
  Tableau 3 [0; 8 / 15; 2 / 3; 1]
    [[0; 0; 0; 0]; [g1; 0; 0; 0]; [g1 + z2; g2; 0; 0]; [g1 + z2; g2 + z3; g3; 0]]
    [[0; 0; 0; 0]; [a1; b1; 0; 0]; [a1; b1 + a2; b2; 0]; [a1; b1 + a2; b2 + a3; b3]].

(** dedalus/core/timesteppers.py:727-740. *)
Definition RKGFY := Tableau 2 [0; 1; 1]
  [[0; 0; 0]; [1; 0; 0]; [5 / 10; 5 / 10; 0]]
  [[0; 0; 0]; [5 / 10; 5 / 10; 0]; [5 / 10; 0; 5 / 10]].

(** Array access [A[i,j]]; [None]: IndexError. *)
Definition entry (A : list (list R)) (i j : nat) : option R := row ← A !! i; row !! j.

(** ** Stepping *)
Record rk_stepper := RKStepper {
  rk_MX0 : nat; rk_LX : list nat; rk_F : list nat; rk_RHS : nat;    (* buffers *)
  rk_heap : buffers;
  rk_params : option R;                   (* self._LHS_params *)
  rk_solvers : nat -> list (option op);   (* sp.LHS_solvers *)
  rk_X : nat -> vec;
  rk_time : R;
  rk_factorisations : nat                 (* ghost: number of steps that rebuilt the matrices *)
}.

(** [M + k_Hii*L]. *)
Definition op_add (M : op) (k : R) (L : op) : op := fun v i => M v i + k * L v i.

Section Step.
  Context (tab : tableau) (sps : list nat) (M L : nat -> op)
          (rhs : R -> (nat -> vec) -> nat -> vec) (solve : op -> option op).

  (** dedalus/core/timesteppers.py:539-550. *)
  Definition rk_initial (X0 : nat -> vec) (t0 : R) (old : nat -> list (option op)) : rk_stepper :=
    let s := stages tab in
    RKStepper 1 (seq 2 s) (seq (2 + s) s) 0 (fun _ _ _ => 0) None old X0 t0 0.

  (** dedalus/core/timesteppers.py:605-613, the loop over j; [None]: index out of range. *)
  Fixpoint rk_accumulate (k : R) (i : nat) (js : list nat) (LX F : list nat) (out : nat) (h : buffers) : option buffers :=
    match js with
    | [] => Some h
    | j :: js' =>
      a ← entry (explicit tab) i j;
      f ← F !! j;
      b ← entry (implicit tab) i j;
      l ← LX !! j;
      let h1 := write_all out (fun sp => axpy (k * a) (h f sp) (h out sp)) h in
      let h2 := write_all out (fun sp => axpy (- (k * b)) (h1 l sp) (h1 out sp)) h1 in
      rk_accumulate k i js' LX F out h2
    end.

  (** dedalus/core/timesteppers.py:620-636. *)
  Fixpoint rk_solve_loop (todo : list nat) (update : bool) (i : nat) (k_Hii : R) (rhsdata : nat -> vec)
           (solvers : nat -> list (option op)) (X : nat -> vec) : (nat -> list (option op)) * (nat -> vec) * bool :=
    match todo with
    | [] => (solvers, X, true)
    | sp :: todo' =>
      let built := if update then
                     match solve (op_add (M sp) k_Hii (L sp)) with
                     | Some inv => Some (upd sp (<[i := Some inv]> (solvers sp)) solvers)
                     | None => None
                     end
                   else Some solvers in
      match built with
      | None => (solvers, X, false)
      | Some solvers' =>
        match solvers' sp !! i with
        | Some (Some inv) => rk_solve_loop todo' update i k_Hii rhsdata solvers' (upd sp (inv (rhsdata sp)) X)
        | _ => (solvers', X, false)
        end
      end
    end.

  (** dedalus/core/timesteppers.py:586-637, one pass of the loop over stages. *)
  Definition rk_stage (k t0 : R) (update : bool) (i : nat) (s : rk_stepper) : rk_stepper * bool :=
    match rk_LX s !! (i - 1)%nat, rk_F s !! (i - 1)%nat, entry (implicit tab) i i, abscissae tab !! i with
    | Some lxi, Some fi, Some hii, Some ci =>
      let h1 := if decide (1 < i)%nat
                then fold_left (fun h sp => write lxi sp (L sp (rk_X s sp)) h) sps (rk_heap s)
                else rk_heap s in
      let h2 := gather_F sps rhs fi (rk_time s) (rk_X s) h1 in
      let h3 := write_all (rk_RHS s) (h2 (rk_MX0 s)) h2 in
      match rk_accumulate k i (seq 0 i) (rk_LX s) (rk_F s) (rk_RHS s) h3 with
      | Some h4 =>
        let '(solvers', X', ok) := rk_solve_loop sps update i (k * hii) (h4 (rk_RHS s)) (rk_solvers s) (rk_X s) in
        (RKStepper (rk_MX0 s) (rk_LX s) (rk_F s) (rk_RHS s) h4 (rk_params s) solvers' X'
                   (if ok then t0 + k * ci else rk_time s) (rk_factorisations s), ok)
      | None => (RKStepper (rk_MX0 s) (rk_LX s) (rk_F s) (rk_RHS s) h3 (rk_params s) (rk_solvers s) (rk_X s)
                           (rk_time s) (rk_factorisations s), false)
      end
    | _, _, _, _ => (s, false)
    end.
  (** dedalus/core/timesteppers.py:583-584. *)
  Fixpoint rk_stages (k t0 : R) (update : bool) (is : list nat) (s : rk_stepper) : rk_stepper * bool :=
    match is with
    | [] => (s, true)
    | i :: is' => let '(s', ok) := rk_stage k t0 update i s in
                  if ok then rk_stages k t0 update is' s' else (s', false)
    end.

  (** dedalus/core/timesteppers.py:552-637. *)
  Definition rk_step (k : R) (s : rk_stepper) : rk_stepper * bool :=
    match rk_LX s with
    | lx0 :: _ =>
      let update := bool_decide (Some k <> rk_params s) in
      let solvers0 := if update then fun sp => if decide (sp ∈ sps) then replicate (stages tab + 1) None else rk_solvers s sp
                      else rk_solvers s in
      let h1 := apply_matrices sps M L (rk_MX0 s) lx0 (rk_X s) (rk_heap s) in
      rk_stages k (rk_time s) update (seq 1 (stages tab))
        (RKStepper (rk_MX0 s) (rk_LX s) (rk_F s) (rk_RHS s) h1 (Some k) solvers0 (rk_X s) (rk_time s)
                   (rk_factorisations s + if update then 1 else 0))
    | [] => (s, false)
    end.
End Step.
