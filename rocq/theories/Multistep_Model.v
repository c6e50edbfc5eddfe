(** Multistep IMEX time steppers: coefficients and stepping. *)
From Coq Require Import Reals.
From stdpp Require Import list.
Local Open Scope R_scope.

(** ** Coefficients *)

(** [a], [b], [c] arrays; [None]: the unpacking of the deque of steps raises. *)
Definition coefficients := option (list R * list R * list R).

(** dedalus/core/timesteppers.py:205-220. *)
Definition CNAB1 (timesteps : list R) (iteration : nat) : coefficients :=
  match timesteps with
  | k0 :: _ => Some ([1 / k0; -1 / k0], [1 / 2; 1 / 2], [0; 1])
  | _ => None
  end.
(** dedalus/core/timesteppers.py:238-252. *)
Definition SBDF1 (timesteps : list R) (iteration : nat) : coefficients :=
  match timesteps with
  | k0 :: _ => Some ([1 / k0; -1 / k0], [1; 0], [0; 1])
  | _ => None
  end.
(** dedalus/core/timesteppers.py:270-290. *)
Definition CNAB2 (timesteps : list R) (iteration : nat) : coefficients :=
  if decide (iteration < 1)%nat then CNAB1 timesteps iteration else
  match timesteps with
  | k1 :: k0 :: _ =>
    let w1 := k1 / k0 in
    Some ([1 / k1; -1 / k1; 0], [1 / 2; 1 / 2; 0], [0; 1 + w1 / 2; - w1 / 2])
  | _ => None
  end.
(** dedalus/core/timesteppers.py:308-329. *)
Definition MCNAB2 (timesteps : list R) (iteration : nat) : coefficients :=
  if decide (iteration < 1)%nat then CNAB1 timesteps iteration else
  match timesteps with
  | k1 :: k0 :: _ =>
    let w1 := k1 / k0 in
    Some ([1 / k1; -1 / k1; 0], [(8 + 1 / w1) / 16; (7 - 1 / w1) / 16; 1 / 16], [0; 1 + w1 / 2; - w1 / 2])
  | _ => None
  end.
(** dedalus/core/timesteppers.py:347-367. *)
Definition SBDF2 (timesteps : list R) (iteration : nat) : coefficients :=
  if decide (iteration < 1)%nat then SBDF1 timesteps iteration else
  match timesteps with
  | k1 :: k0 :: _ =>
    let w1 := k1 / k0 in
    Some ([(1 + 2 * w1) / (1 + w1) / k1; - (1 + w1) / k1; w1 ^ 2 / (1 + w1) / k1],
          [1; 0; 0], [0; 1 + w1; - w1])
  | _ => None
  end.
(** dedalus/core/timesteppers.py:385-406. *)
Definition CNLF2 (timesteps : list R) (iteration : nat) : coefficients :=
  if decide (iteration < 1)%nat then CNAB1 timesteps iteration else
  match timesteps with
  | k1 :: k0 :: _ =>
    let w1 := k1 / k0 in
    Some ([1 / (1 + w1) / k1; (w1 - 1) / k1; - w1 ^ 2 / (1 + w1) / k1],
          [1 / w1 / 2; (1 - 1 / w1) / 2; 1 / 2], [0; 1; 0])
  | _ => None
  end.
(** dedalus/core/timesteppers.py:424-447. *)
Definition SBDF3 (timesteps : list R) (iteration : nat) : coefficients :=
  if decide (iteration < 2)%nat then SBDF2 timesteps iteration else
  match timesteps with
  | k2 :: k1 :: k0 :: _ =>
    let w2 := k2 / k1 in
    let w1 := k1 / k0 in
    Some ([(1 + w2 / (1 + w2) + w1 * w2 / (1 + w1 * (1 + w2))) / k2;
           (-1 - w2 - w1 * w2 * (1 + w2) / (1 + w1)) / k2;
           w2 ^ 2 * (w1 + 1 / (1 + w2)) / k2;
           - w1 ^ 3 * w2 ^ 2 * (1 + w2) / (1 + w1) / (1 + w1 + w1 * w2) / k2],
          [1; 0; 0; 0],
          [0; (1 + w2) * (1 + w1 * (1 + w2)) / (1 + w1);
           - w2 * (1 + w1 * (1 + w2));
           w1 * w1 * w2 * (1 + w2) / (1 + w1)])
  | _ => None
  end.
(** dedalus/core/timesteppers.py:465-495. *)
Definition SBDF4 (timesteps : list R) (iteration : nat) : coefficients :=
  if decide (iteration < 3)%nat then SBDF3 timesteps iteration else
  match timesteps with
  | k3 :: k2 :: k1 :: k0 :: _ =>
    let w3 := k3 / k2 in
    let w2 := k2 / k1 in
    let w1 := k1 / k0 in
    let A1 := 1 + w1 * (1 + w2) in
    let A2 := 1 + w2 * (1 + w3) in
    let A3 := 1 + w1 * A2 in
    Some ([(1 + w3 / (1 + w3) + w2 * w3 / A2 + w1 * w2 * w3 / A3) / k3;
           (-1 - w3 * (1 + w2 * (1 + w3) / (1 + w2) * (1 + w1 * A2 / A1))) / k3;
           w3 * (w3 / (1 + w3) + w2 * w3 * (A3 + w1) / (1 + w1)) / k3;
           - w2 ^ 3 * w3 ^ 2 * (1 + w3) / (1 + w2) * A3 / A2 / k3;
           (1 + w3) / (1 + w1) * A2 / A1 * w1 ^ 4 * w2 ^ 3 * w3 ^ 2 / A3 / k3],
          [1; 0; 0; 0; 0],
          [0; w2 * (1 + w3) / (1 + w2) * ((1 + w3) * (A3 + w1) + (1 + w1) / w2) / A1;
           - A2 * A3 * w3 / (1 + w1);
           w2 ^ 2 * w3 * (1 + w3) / (1 + w2) * A3;
           - w1 ^ 3 * w2 ^ 2 * w3 * (1 + w3) / (1 + w1) * A2 / A1])
  | _ => None
  end.

(** Class attributes [amax], [bmax], [cmax], [steps] (always equal in one class) and the
    coefficient method. *)
Record scheme := Scheme { history : nat; compute_coefficients : list R -> nat -> coefficients }.
(** dedalus/core/timesteppers.py:200-203, 233-236, 265-268, 303-306, 342-345, 380-383, 419-422,
    460-463; registration order of [schemes]. *)
Definition CNAB1_scheme := Scheme 1 CNAB1.
Definition SBDF1_scheme := Scheme 1 SBDF1.
Definition CNAB2_scheme := Scheme 2 CNAB2.
Definition MCNAB2_scheme := Scheme 2 MCNAB2.
Definition SBDF2_scheme := Scheme 2 SBDF2.
Definition CNLF2_scheme := Scheme 2 CNLF2.
Definition SBDF3_scheme := Scheme 3 SBDF3.
Definition SBDF4_scheme := Scheme 4 SBDF4.

(** ** Stepping *)

(** One coefficient vector; [x i] is its i-th entry. *)
Notation vec := (nat -> R) (only parsing).
(** A matrix, as the linear map it applies. *)
Notation op := ((nat -> R) -> nat -> R) (only parsing).
(** BLAS [axpy]: y += a x. *)
Definition axpy (a : R) (x y : vec) : vec := fun i => y i + a * x i.
Definition vscale (a : R) (x : vec) : vec := fun i => a * x i.
(** [a0*M + b0*L]. *)
Definition op_comb (a : R) (M : op) (b : R) (L : op) : op := fun v i => a * M v i + b * L v i.

(** [collections.deque.rotate()]: the last element comes first. *)
Definition rotate {A} (l : list A) : list A :=
  match last l with Some x => x :: removelast l | None => [] end.

(** Assignment to one key. *)
Definition upd {A} (k : nat) (v : A) (f : nat -> A) : nat -> A := fun k' => if decide (k' = k) then v else f k'.
(** Float comparison, as comparison of reals. *)
#[global] Instance R_eq_dec : EqDecision R := Req_EM_T.

(** A [CoeffSystem] is identified by its buffer; the heap gives, for each buffer, the data of
    each subproblem (dedalus/core/system.py:39-60). *)
Definition buffers := nat -> nat -> vec.
Definition write (id sp : nat) (v : vec) (h : buffers) : buffers :=
  fun id' sp' => if decide (id' = id /\ sp' = sp) then v else h id' sp'.
(** Whole-buffer numpy and BLAS operations. *)
Definition write_all (id : nat) (f : nat -> vec) (h : buffers) : buffers :=
  fun id' => if decide (id' = id) then f else h id'.

Record stepper := Stepper {
  dts : list R;                     (* self.dt *)
  MX : list nat; LX : list nat; F : list nat;   (* deques of buffers *)
  RHS : nat;
  heap : buffers;
  iteration : nat;                  (* self._iteration *)
  LHS_params : option (R * R);      (* self._LHS_params *)
  LHS_solver : nat -> option op;    (* sp.LHS_solver: snapshot of the factorised matrix *)
  X : nat -> vec;                   (* state, by subproblem *)
  sim_time : R;
  factorisations : nat              (* ghost: number of steps that rebuilt the left-hand side *)
}.

Section Step.
  (** Problem data: the non-empty subproblems, their matrices, the right-hand side evaluated at
      a time and a state, the library solver ([None]: factorisation raises). *)
  Context (sch : scheme) (sps : list nat) (M L : nat -> op)
          (rhs : R -> (nat -> vec) -> nat -> vec) (solve : op -> option op).

  (** dedalus/core/timesteppers.py:71-93.  Buffer 0 is RHS; each CoeffSystem is a new zero
      array. *)
  Definition initial (X0 : nat -> vec) (t0 : R) (old_solver : nat -> option op) : stepper :=
    let s := history sch in
    Stepper (replicate s 0) (seq 1 s) (seq (1 + s) s) (seq (1 + 2 * s) s) 0
            (fun _ _ _ => 0) 0 None old_solver X0 t0 0.

  (** dedalus/core/timesteppers.py:142-147. *)
  Definition apply_matrices (mx0 lx0 : nat) (X : nat -> vec) (h : buffers) : buffers :=
    fold_left (fun h sp => write lx0 sp (L sp (X sp)) (write mx0 sp (M sp (X sp)) h)) sps h.
  (** dedalus/core/timesteppers.py:149-153. *)
  Definition gather_F (f0 : nat) (t : R) (X : nat -> vec) (h : buffers) : buffers :=
    fold_left (fun h sp => write f0 sp (rhs t X sp) h) sps h.

  (** [for j in range(from, len(w)): axpy(a=sign*w[j], x=D[j-1].data, y=RHS.data)]; [None]:
      deque index out of range. *)
  Fixpoint accumulate (sign : R) (w : list R) (D : list nat) (out : nat) (h : buffers) : option buffers :=
    match w, D with
    | [], _ => Some h
    | wj :: w', id :: D' =>
      accumulate sign w' D' out (write_all out (fun sp => axpy (sign * wj) (h id sp) (h out sp)) h)
    | _ :: _, [] => None
    end.
  (** dedalus/core/timesteppers.py:155-166. *)
  Definition build_RHS (a b c : list R) (mx lx f : list nat) (out : nat) (h : buffers) : option buffers :=
    match c, f with
    | _ :: c1 :: c', f0 :: f' =>
      let h1 := write_all out (fun sp => vscale c1 (h f0 sp)) h in
      h2 ← accumulate 1 c' f' out h1;
      h3 ← accumulate (-1) (tail a) mx out h2;
      accumulate (-1) (tail b) lx out h3
    | _, _ => None
    end.

  (** dedalus/core/timesteppers.py:172-184, one subproblem after the other; the second
      component is [false] once an exception has been raised (factorisation failed, or there is
      no solver).  Both storage modes build the same matrix. *)
  Fixpoint solve_loop (todo : list nat) (update : bool) (a0 b0 : R) (rhsdata : nat -> vec)
           (solver : nat -> option op) (X : nat -> vec) : (nat -> option op) * (nat -> vec) * bool :=
    match todo with
    | [] => (solver, X, true)
    | sp :: todo' =>
      let built := if update then
                     match solve (op_comb a0 (M sp) b0 (L sp)) with
                     | Some inv => Some (upd sp (Some inv) solver)
                     | None => None
                     end
                   else Some solver in
      match built with
      | None => (solver, X, false)
      | Some solver' =>
        match solver' sp with
        | None => (solver', X, false)
        | Some inv => solve_loop todo' update a0 b0 rhsdata solver' (upd sp (inv (rhsdata sp)) X)
        end
      end
    end.

  (** dedalus/core/timesteppers.py:95-187.  Result: the timestepper afterwards and whether the
      step returned normally. *)
  Definition step (dt : R) (s : stepper) : stepper * bool :=
    let ks := match rotate (dts s) with _ :: r => dt :: r | [] => [] end in
    match compute_coefficients sch ks (iteration s) with
    | Some (a, b, c) =>
      let mx := rotate (MX s) in let lx := rotate (LX s) in let f := rotate (F s) in
      match mx, lx, f, a, b with
      | mx0 :: _, lx0 :: _, f0 :: _, a0 :: _, b0 :: _ =>
        let update := bool_decide (Some (a0, b0) <> LHS_params s) in
        let solver0 := if update then fun sp => if decide (sp ∈ sps) then None else LHS_solver s sp
                       else LHS_solver s in
        let h1 := apply_matrices mx0 lx0 (X s) (heap s) in
        let h2 := gather_F f0 (sim_time s) (X s) h1 in
        let nf := (factorisations s + if update then 1 else 0)%nat in
        match build_RHS a b c mx lx f (RHS s) h2 with
        | Some h3 =>
          let '(solver', X', ok) := solve_loop sps update a0 b0 (h3 (RHS s)) solver0 (X s) in
          (Stepper ks mx lx f (RHS s) h3 (S (iteration s)) (Some (a0, b0)) solver' X'
                   (if ok then sim_time s + dt else sim_time s) nf, ok)
        | None => (Stepper ks mx lx f (RHS s) h2 (S (iteration s)) (Some (a0, b0)) solver0 (X s)
                           (sim_time s) nf, false)
        end
      | _, _, _, _, _ => (s, false)
      end
    | None => (s, false)
    end.
End Step.
