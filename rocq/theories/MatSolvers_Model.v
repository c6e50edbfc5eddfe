(** Matrix solvers and the solvers built on them: dedalus/libraries/matsolvers.py, [scipy_sparse_eigs] of
    dedalus/tools/array.py, and the eigenvalue, linear and nonlinear boundary value solvers of
    dedalus/core/solvers.py.

    Simplifications.  Entries are of any type with field operations and a conjugation, without rounding.  A
    matrix is a shape and a function; products do not check shapes.  The numerical libraries (SuperLU, LAPACK,
    ARPACK) are arguments, specified where theorems need them. *)
From Coq Require Import List Arith ZArith Bool Lia.
Import ListNotations.

Section MatSolvers.
Context {K : Type} (k0 k1 : K) (kadd kmul ksub kdiv : K -> K -> K) (kopp conj : K -> K).

(** ** numpy *)
Record mat := Mat { nr : nat; nc : nat; at_ : nat -> nat -> K }.
Definition vec := nat -> K.
Definition msum (n : nat) (f : nat -> K) : K := fold_right (fun j s => kadd (f j) s) k0 (seq 0 n).
Definition zeros (n m : nat) : mat := Mat n m (fun _ _ => k0).
Definition identity (n : nat) : mat := Mat n n (fun i j => if i =? j then k1 else k0).
Definition mmul (A B : mat) : mat := Mat (nr A) (nc B) (fun i j => msum (nc A) (fun k => kmul (at_ A i k) (at_ B k j))).
Definition madd (A B : mat) : mat := Mat (nr A) (nc A) (fun i j => kadd (at_ A i j) (at_ B i j)).
Definition msub (A B : mat) : mat := Mat (nr A) (nc A) (fun i j => ksub (at_ A i j) (at_ B i j)).
Definition mscale (c : K) (A : mat) : mat := Mat (nr A) (nc A) (fun i j => kmul c (at_ A i j)).
Definition mopp (A : mat) : mat := Mat (nr A) (nc A) (fun i j => kopp (at_ A i j)).
Definition transpose (A : mat) : mat := Mat (nc A) (nr A) (fun i j => at_ A j i).
Definition mconj (A : mat) : mat := Mat (nr A) (nc A) (fun i j => conj (at_ A i j)).
Definition matvec (A : mat) (x : vec) : vec := fun i => msum (nc A) (fun k => kmul (at_ A i k) (x k)).
(** A slice [start:stop] of an axis of length [n], as a start and an end. *)
Definition clip (n : nat) (z : Z) : nat := let z := if (z <? 0)%Z then (z + Z.of_nat n)%Z else z in Nat.min n (Z.to_nat z).
Definition slice : Type := option Z * option Z.
Definition bounds (n : nat) (s : slice) : nat * nat :=
  let a := match fst s with Some z => clip n z | None => 0 end in
  let b := match snd s with Some z => clip n z | None => n end in (a, Nat.max a b).
Definition inside (p : nat * nat) (i : nat) : bool := (fst p <=? i) && (i <? snd p).
(** [A[rs, cs]]. *)
Definition get (A : mat) (rs cs : slice) : mat :=
  let r := bounds (nr A) rs in let c := bounds (nc A) cs in
  Mat (snd r - fst r) (snd c - fst c) (fun i j => at_ A (fst r + i) (fst c + j)).
(** [A[rs, cs] = B], with broadcasting; [None] is a ValueError. *)
Definition fits (size target : nat) : bool := (size =? target) || (size =? 1).
Definition broadcast (size i : nat) : nat := if size =? 1 then 0 else i.
Definition assign (A : mat) (rs cs : slice) (B : mat) : option mat :=
  let r := bounds (nr A) rs in let c := bounds (nc A) cs in
  if fits (nr B) (snd r - fst r) && fits (nc B) (snd c - fst c)
  then Some (Mat (nr A) (nc A) (fun i j =>
    if inside r i && inside c j then at_ B (broadcast (nr B) (i - fst r)) (broadcast (nc B) (j - fst c)) else at_ A i j))
  else None.

(** ** SuperLU, matsolvers.py:126-157.  [splu B] is the factorisation of [B] with its [solve(vector, trans)]. *)
Inductive trans := N | T | H.
(** matsolvers.py:137-141, the matrix that is factorised. *)
Definition superlu_matrix (t : trans) (A : mat) : mat :=
  match t with T => transpose A | H => transpose (mconj A) | N => A end.
Definition superlu_init (splu : mat -> trans -> vec -> vec) (t : trans) (A : mat) : trans -> vec -> vec := splu (superlu_matrix t A).
(** matsolvers.py:148-149. *)
Definition superlu_solve (t : trans) (LU : trans -> vec -> vec) (v : vec) : vec := LU t v.
(** matsolvers.py:151-157. *)
Definition superlu_solve_H (t : trans) (LU : trans -> vec -> vec) (v : vec) : vec :=
  match t with
  | N => LU H v
  | H => LU N v
  | T => fun i => conj (LU N (fun i => conj (v i)) i)
  end.

(** ** Banded storage, matsolvers.py:50-61, without explicit [u] and [l]. *)
(** A sparse matrix as its stored entries, duplicates summed. *)
Record coo := Coo { rows : nat; cols : nat; stored : list (nat * nat * K) }.
Definition off (e : nat * nat * K) : Z := (Z.of_nat (snd (fst e)) - Z.of_nat (fst (fst e)))%Z.
(** scipy's conversion to diagonals: the offsets in use, and rows of data as wide as the last column in use
    (coo_matrix.todia); the order of the offsets does not matter below. *)
Definition offsets (m : coo) : list Z := nodup Z.eq_dec (map off (stored m)).
Definition width (m : coo) : nat := fold_right Nat.max 0 (map (fun e => S (snd (fst e))) (stored m)).
Definition dia_data (m : coo) (d : Z) (j : nat) : K :=
  match find (fun e => (off e =? d)%Z && (snd (fst e) =? j)) (stored m) with Some e => snd e | None => k0 end.
Definition zmax (l : list Z) : Z := fold_right Z.max 0%Z l.
(** [ab[u - offsets] = data] row by row; [None] is a ValueError: no entries, or rows of the wrong width. *)
Definition sparse_to_banded (m : coo) : option (nat * nat * mat) :=
  match offsets m with
  | [] => None
  | ds =>
    let u := Z.to_nat (zmax ds) in let l := Z.to_nat (zmax (map Z.opp ds)) in
    if fits (width m) (cols m)
    then Some (l, u, fold_left (fun ab d =>
                       Mat (nr ab) (nc ab) (fun i j => if i =? Z.to_nat (Z.of_nat u - d) then dia_data m d (broadcast (width m) j) else at_ ab i j))
                     ds (zeros (u + l + 1) (cols m)))
    else None
  end.
(** matsolvers.py:187-194, [ScipyBanded] with LAPACK's banded solver. *)
Definition scipy_banded (solve_banded : nat * nat * mat -> vec -> vec) (m : coo) (v : vec) : option vec :=
  match sparse_to_banded m with Some ab => Some (solve_banded ab v) | None => None end.

(** ** Woodbury, matsolvers.py:285-315.  [None] is an exception. *)
Definition upto (z : Z) : slice := (None, Some z).
Definition from (z : Z) : slice := (Some z, None).
Definition between (a b : Z) : slice := (Some a, Some b).
(** matsolvers.py:293-302, the factors. *)
Definition woodbury_factors (M : mat) (R : nat) : option (mat * mat) :=
  let r := Z.of_nat R in
  match assign (zeros (nr M) (2 * R)) (upto r) (upto r) (identity R) with
  | None => None
  | Some U =>
  match assign (zeros (2 * R) (nc M)) (upto r) (from r) (get M (upto r) (from r)) with
  | None => None
  | Some V =>
  match assign U (between r (- r)) (from r) (get M (between r (- r)) (from (- r))) with
  | None => None
  | Some U =>
  match assign V (from (- r)) (from (- r)) (identity R) with
  | None => None
  | Some V => Some (U, V)
  end end end end.
Record woodbury := Woodbury { wV : mat; wA : mat; wAinv : mat -> mat; wAinvU : mat; wSinv : mat }.
(** matsolvers.py:303-311. *)
Definition woodbury_init (base : mat -> option (mat -> mat)) (inv : mat -> option mat) (M : mat) (R : nat) : option woodbury :=
  match woodbury_factors M R with
  | None => None
  | Some (U, V) =>
    let A := msub M (mmul U V) in
    match base A with
    | None => None
    | Some Ainv =>
      let AinvU := Ainv U in
      match inv (madd (identity (2 * R)) (mmul V AinvU)) with
      | None => None
      | Some Sinv => Some (Woodbury V A Ainv AinvU Sinv)
      end
    end
  end.
(** matsolvers.py:313-315. *)
Definition woodbury_solve (w : woodbury) (Y : mat) : mat :=
  let AinvY := wAinv w Y in
  msub AinvY (mmul (wAinvU w) (mmul (wSinv w) (mmul (wV w) AinvY))).

(** ** Names of matrix solvers, matsolvers.py:10-13 and 318-321, solvers.py:95-116. *)
(** What a name stands for: a class with options, or a [partial] of the Woodbury class, which has no attributes of
    the class. *)
Inductive registered := ASolver (config : list (nat * bool)) | APartial (config : list (nat * bool)).
Inductive outcome := Configured | AttributeError | KeyError | TypeError.
(** A name is a number and whether it is prefixed with "woodbury". *)
Definition name : Type := bool * nat.
Definition table (classes : list (nat * list (nat * bool))) : list (name * registered) :=
  map (fun c => ((false, fst c), ASolver (snd c))) classes
  ++ map (fun c => ((true, fst c), APartial [(0, true)])) classes.
Definition find_name (t : list (name * registered)) (n : name) : option registered :=
  option_map snd (find (fun e => (Bool.eqb (fst (fst e)) (fst n)) && (snd (fst e) =? snd n)) t).
(** solvers.py:96-98 and 113-116: looking up [matsolver.config]; an option that differs is formatted with [%i],
    which a string does not accept. *)
Definition configure (t : list (name * registered)) (opts : nat -> option bool) (n : name) : outcome :=
  match find_name t n with
  | None => KeyError
  | Some (APartial _) => AttributeError
  | Some (ASolver config) =>
    if forallb (fun kv => match opts (fst kv) with Some b => Bool.eqb b (snd kv) | None => false end) config then Configured else TypeError
  end.

(** ** Sparse eigenvalue search, array.py:398-444. *)
Section Eigs.
(** A matrix solver's [solve] and [solve_H], and ARPACK: [k] eigenpairs of largest modulus of an operator. *)
Context (matsolver : mat -> (vec -> vec) * (vec -> vec)) (eigs : (vec -> vec) -> nat -> list (K * vec)).
(** array.py:422-427. *)
Definition shifted (A B : mat) (target : K) : mat := msub A (mscale target B).
Definition right_operator (A B : mat) (target : K) : vec -> vec := fun x => fst (matsolver (shifted A B target)) (matvec B x).
(** array.py:433-437. *)
Definition left_operator (A B : mat) (target : K) : vec -> vec :=
  fun x => snd (matsolver (shifted A B target)) (matvec (transpose (mconj B)) x).
(** array.py:428-431 and 438-441. *)
Definition rectify (target : K) (pairs : list (K * vec)) : list (K * vec) := map (fun p => (kadd (kdiv k1 (fst p)) target, snd p)) pairs.
Definition sparse_eigs (A B : mat) (n : nat) (target : K) : list (K * vec) := rectify target (eigs (right_operator A B target) n).
Definition sparse_eigs_left (A B : mat) (n : nat) (target : K) : list (K * vec) := rectify (conj target) (eigs (left_operator A B target) n).
End Eigs.

(** ** Eigenvalue solver, solvers.py:180-300.  Vectors are the columns of matrices. *)
Record subproblem := Subproblem { L_min : mat; M_min : mat; pre_left : mat; pre_right : mat; pre_right_pinv : mat }.
(** solvers.py:208-210 and 262-263, 269, the pencil handed to the library. *)
Definition pencil (sp : subproblem) : mat * mat := (L_min sp, mopp (M_min sp)).
(** solvers.py:214, 223 and 272, 294. *)
Definition right_eigenvectors (sp : subproblem) (pre_right_evecs : mat) : mat := mmul (pre_right sp) pre_right_evecs.
(** solvers.py:218 and 289, the diagonal of a product. *)
Definition norms (sp : subproblem) (lv rv : mat) : vec :=
  fun i => at_ (mmul (mmul (transpose (mconj lv)) (M_min sp)) rv) i i.
(** [A /= row], dividing columns. *)
Definition divide_columns (A : mat) (d : vec) : mat := Mat (nr A) (nc A) (fun i j => kdiv (at_ A i j) (d j)).
(** solvers.py:215-220 and 273-291. *)
Definition left_eigenvectors (sp : subproblem) (normalize : bool) (lv rv : mat) : mat :=
  let l := mmul (transpose (mconj (pre_left sp))) lv in
  if normalize then divide_columns l (fun i => conj (norms sp lv rv i)) else l.
Definition modified_left_eigenvectors (sp : subproblem) (normalize : bool) (lv rv : mat) : mat :=
  let l := mmul (transpose (mconj (mmul (M_min sp) (pre_right_pinv sp)))) lv in
  if normalize then divide_columns l (fun i => conj (norms sp lv rv i)) else l.
(** subsystems.py [Subsystem.scatter]: entry [k] goes to position [idxs[k]] of the state. *)
Definition scatter (idxs : list nat) (v : vec) (state : vec) : vec :=
  fold_left (fun s ki => fun p => if p =? snd ki then v (fst ki) else s p) (combine (seq 0 (length idxs)) idxs) state.
(** solvers.py:296-321, [set_state]: the state and the eigenvalue. *)
Definition set_state (evals : vec) (evecs : mat) (index : nat) (idxs : list nat) (state : vec) : vec * K :=
  (scatter idxs (fun i => at_ evecs i index) (fun _ => k0), evals index).

(** ** Linear boundary value problems, solvers.py:369-409.  Subproblems are numbers; what a subproblem's part of
    the state is, is a vector of its own. *)
Record lbvp := Lbvp { cache : nat -> option mat; grid_layout : bool; data : nat -> vec }.
Definition lbvp_new (data : nat -> vec) : lbvp := Lbvp (fun _ => None) false data.
(** solvers.py:385-393: which matrices are built, and the solvers kept. *)
Definition build (matrices : nat -> mat) (sel : list nat) (rebuild : bool) (c : nat -> option mat) : nat -> option mat :=
  let to_build := if rebuild then sel else filter (fun s => match c s with None => true | Some _ => false end) sel in
  fun s => if existsb (Nat.eqb s) to_build then Some (matrices s) else c s.
(** solvers.py:394-409: the coefficients of the state are not transformed but overwritten. *)
Definition lbvp_solve (solve : mat -> vec -> vec) (matrices : nat -> mat) (F : nat -> vec) (sel : list nat) (rebuild : bool) (st : lbvp) : lbvp :=
  let c := build matrices sel rebuild (cache st) in
  Lbvp c false (fold_left (fun x s => fun q => if q =? s then match c s with Some A => solve A (F s) | None => x q end else x q) sel (data st)).

(** ** Newton iterations, solvers.py:470-493. *)
Definition newton_iteration (solve : mat -> vec -> vec) (F : (nat -> vec) -> nat -> vec) (dF : (nat -> vec) -> nat -> mat)
  (subproblems : list nat) (damping : K) (X : nat -> vec) : nat -> vec :=
  let pert := fun s => if existsb (Nat.eqb s) subproblems then solve (dF X s) (F X s) else fun _ => k0 in
  fun s i => ksub (X s i) (kmul damping (pert s i)).
End MatSolvers.
Arguments mat K : clear implicits. Arguments coo K : clear implicits. Arguments vec K : clear implicits.
Arguments lbvp K : clear implicits. Arguments subproblem K : clear implicits. Arguments woodbury K : clear implicits.
