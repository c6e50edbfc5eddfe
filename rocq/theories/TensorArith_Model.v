(** Products of tensor fields: [DotProduct], [CrossProduct] and [MultiplyFields] of dedalus/core/arithmetic.py, on the grid and as matrices.

    Simplifications.  Exact arithmetic over any field.  Operations on the grid are given for the components at one point, after the operands
    have been broadcast (see Ghost_Model.v).  Component arrays are given flat, in C order.  Fields have at most 25 indices together (the letters
    in [alphabet]); beyond, the ellipsis in the subscripts would take more axes, which is not modelled. *)
From Coq Require Import List Arith Bool ZArith Ascii String.
Import ListNotations.
From Verif Require Import CSR_Model CSR_Spec MatSolvers_Model Clenshaw_Model.
Local Open Scope nat_scope.

Inductive error := ValueError | IndexError | NotImplementedError.
Inductive result (A : Type) := Ok (x : A) | Raises (e : error).
Arguments Ok {A}. Arguments Raises {A}.
Definition bind {A B} (r : result A) (f : A -> result B) : result B := match r with Ok x => f x | Raises e => Raises e end.

(** A coordinate system, as far as it matters here; [cs_id] stands for its identity. *)
Record coordsys := { cs_id : nat; cs_dim : nat; right_handed : bool }.
Notation tensorsig := (list coordsys).
Definition dims (sig : tensorsig) : list nat := map cs_dim sig.
Definition letters : Type := list ascii.
(** 255. *)
Definition alphabet : letters := list_ascii_of_string "abcdefghijklmnopqrstuvwxy".
Definition z_ : ascii := "z"%char.

(** 619-632: [_check_indices], for operands. *)
Definition check_index (index : Z) (rank : nat) : result Z :=
  if (Z.of_nat rank <? index)%Z || (index <? - Z.of_nat rank)%Z then Raises ValueError
  else Ok (if (index <? 0)%Z then (index + Z.of_nat rank)%Z else index).
Definition check_indices (rank0 rank1 : nat) (indices : Z * Z) : result (nat * nat) :=
  bind (check_index (fst indices) rank0) (fun i => bind (check_index (snd indices) rank1) (fun j => Ok (Z.to_nat i, Z.to_nat j))).
(** [l.pop(i)] and [s[i]] for natural [i]. *)
Definition drop {A} (i : nat) (l : list A) : list A := firstn i l ++ skipn (S i) l.
Definition pop {A} (l : list A) (i : nat) : result (list A) := if i <? List.length l then Ok (drop i l) else Raises IndexError.
Definition char_at (s : letters) (i : nat) : result ascii := match nth_error s i with Some c => Ok c | None => Raises IndexError end.
(** [str.replace] of a letter by a letter, and by nothing. *)
Definition sreplace (s : letters) (c d : ascii) : letters := map (fun x => if Ascii.eqb x c then d else x) s.
Definition sremove (s : letters) (c : ascii) : letters := filter (fun x => negb (Ascii.eqb x c)) s.
(** 592-617: [DotProduct.__init__]: the indices, the tensor signature and the subscripts (without ellipses). *)
Record dot_product := { dp_indices : nat * nat; dp_sig : tensorsig; dp_0 : letters; dp_1 : letters; dp_out : letters }.
Definition DotProduct (sig0 sig1 : tensorsig) (indices : Z * Z) : result dot_product :=
  let rank0 := List.length sig0 in
  let rank1 := List.length sig1 in
  bind (check_indices rank0 rank1 indices) (fun ij =>
  bind (pop sig0 (fst ij)) (fun reduced0 =>
  bind (pop sig1 (snd ij)) (fun reduced1 =>
  let arg1_str := firstn rank0 alphabet in
  let arg2_str := firstn rank1 (skipn rank0 alphabet) in
  bind (char_at arg1_str (fst ij)) (fun c0 =>
  let arg1_str := sreplace arg1_str c0 z_ in
  bind (char_at arg2_str (snd ij)) (fun c1 =>
  let arg2_str := sreplace arg2_str c1 z_ in
  let out_str := sremove (arg1_str ++ arg2_str) z_ in
  Ok {| dp_indices := ij; dp_sig := reduced0 ++ reduced1; dp_0 := arg1_str; dp_1 := arg2_str; dp_out := out_str |}))))).

Section Components.
Context {K : Type} (k0 k1 : K) (kadd kmul ksub : K -> K -> K) (kopp : K -> K).
Notation total := (total k0 kadd).
Notation skron := (skron kmul).
Notation madd := (madd kadd).
Notation identity := (identity k0 k1).

(** [np.einsum] of two operands, as documented: labels that are not in the output are summed over; axes of length 1 are broadcast; other lengths
    must agree. *)
Definition env := ascii -> nat.
Definition set (e : env) (c : ascii) (v : nat) : env := fun x => if Ascii.eqb x c then v else e x.
Fixpoint assigned (s : letters) (idx : list nat) : env := match s, idx with c :: s, i :: idx => set (assigned s idx) c i | _, _ => fun _ => 0 end.
Fixpoint sum_over (len : ascii -> nat) (summed : letters) (e : env) (f : env -> K) : K :=
  match summed with [] => f e | c :: cs => total (len c) (fun v => sum_over len cs (set e c v) f) end.
Definition read (e : env) (s : letters) (shape : list nat) : list nat := map (fun p => if snd p =? 1 then 0 else e (fst p)) (combine s shape).
Definition einsum (s0 s1 out : letters) (shape0 shape1 : list nat) (A B : nat -> K) : result (list nat -> K) :=
  let labels := combine s0 shape0 ++ combine s1 shape1 in
  let len c := fold_right max 1 (map snd (filter (fun p => Ascii.eqb (fst p) c) labels)) in
  if forallb (fun p => (snd p =? 1) || (snd p =? len (fst p))) labels then
    let summed := nodup ascii_dec (filter (fun c => negb (existsb (Ascii.eqb c) out)) (map fst labels)) in
    Ok (fun idx => sum_over len summed (assigned out idx) (fun e => kmul (A (flat shape0 (read e s0 shape0))) (B (flat shape1 (read e s1 shape1)))))
  else Raises ValueError.
(** 666-674: [DotProduct.operate]: the component of the result at an index. *)
Definition dot_operate (p : dot_product) (sig0 sig1 : tensorsig) (A B : nat -> K) : result (list nat -> K) := einsum (dp_0 p) (dp_1 p) (dp_out p) (dims sig0) (dims sig1) A B.

(** 683-706: [CrossProduct.__init__]; 708-728: [operate_right_handed] and [operate_left_handed]. *)
Definition CrossProduct (sig0 sig1 : tensorsig) : result tensorsig :=
  match sig0, sig1 with
  | [v], [w] => if negb (cs_id v =? cs_id w) then Raises ValueError else if negb (cs_dim v =? 3) then Raises ValueError else Ok sig0
  | _, _ => Raises NotImplementedError
  end.
Definition cross_right (A B : nat -> K) : list K :=
  [ksub (kmul (A 1) (B 2)) (kmul (A 2) (B 1)); ksub (kmul (A 2) (B 0)) (kmul (A 0) (B 2)); ksub (kmul (A 0) (B 1)) (kmul (A 1) (B 0))].
Definition cross_left (A B : nat -> K) : list K :=
  [ksub (kmul (A 2) (B 1)) (kmul (A 1) (B 2)); ksub (kmul (A 0) (B 2)) (kmul (A 2) (B 0)); ksub (kmul (A 1) (B 0)) (kmul (A 0) (B 1))].
Definition cross_operate (cs : coordsys) : (nat -> K) -> (nat -> K) -> list K := if right_handed cs then cross_right else cross_left.

(** 846-848: expanded shapes; 850-861: [MultiplyFields.operate]: reshape and multiply with numpy broadcasting (an axis of length 1 is read at 0). *)
Definition broadcast (shape idx : list nat) : list nat := map (fun p => if fst p =? 1 then 0 else snd p) (combine shape idx).
Definition multiply_operate (sig0 sig1 : tensorsig) (A B : nat -> K) : list nat -> K :=
  let exp0 := dims sig0 ++ repeat 1 (List.length sig1) in
  let exp1 := repeat 1 (List.length sig0) ++ dims sig1 in
  fun idx => kmul (A (flat exp0 (broadcast exp0 idx))) (B (flat exp1 (broadcast exp1 idx))).

(** ** Matrices *)
(** 46-48: [enum_indices] pairs [i] with [unravel shape i].  [GammaCoord]: 649-664, 796-805, 735-742. *)
Definition same (l m : list nat) : bool := if list_eq_dec Nat.eq_dec l m then true else false.
Definition gamma_dot (indices : nat * nat) (sa sb sc : tensorsig) (ia ib ic : nat) : K :=
  let a := unravel (dims sa) ia in
  let b := unravel (dims sb) ib in
  if (nth (fst indices) a 0 =? nth (snd indices) b 0) && same (drop (fst indices) a ++ drop (snd indices) b) (unravel (dims sc) ic) then k1 else k0.
Definition gamma_multiply (sa sb sc : tensorsig) (ia ib ic : nat) : K :=
  if same (unravel (dims sa) ia ++ unravel (dims sb) ib) (unravel (dims sc) ic) then k1 else k0.
Definition gamma_cross (cs : coordsys) (i j k : nat) : K :=
  let G := if existsb (fun t => same t [i; j; k]) [[0; 1; 2]; [1; 2; 0]; [2; 0; 1]] then k1
           else if existsb (fun t => same t [i; j; k]) [[0; 2; 1]; [2; 1; 0]; [1; 0; 2]] then kopp k1 else k0 in
  if right_handed cs then G else kmul G (kopp k1).
(** 560-580: [Gamma]: the matrices of the axes (backward for the first two, forward for the last), the last axis first.  [kron(QA, QB, QC) @ G.ravel()] for
    square matrices. *)
Definition transpose_ (M : mat K) : mat K := Mat (nc M) (nr M) (fun i j => at_ M j i).
Fixpoint Gamma (na nb nc_ : nat) (G0 : nat -> nat -> nat -> K) (Qs : list (mat K * mat K * mat K)) : nat -> nat -> nat -> K :=
  match Qs with
  | [] => G0
  | (backA, backB, forC) :: Qs =>
      let G := Gamma na nb nc_ G0 Qs in
      let Q := skron (skron (transpose_ backA) (transpose_ backB)) forC in
      fun ia ib ic => total (na * nb * nc_) (fun j => kmul (at_ Q ((ia * nb + ib) * nc_ + ic) j) (G (j / (nb * nc_)) (j / nc_ mod nb) (j mod nc_)))
  end.
(** 447-462: [cartesian_mode_matrix]; an axis without a basis in the coefficient has [None].  At least one axis. *)
Definition axis_matrix (size : nat) (product_matrix : option (nat -> mat K)) (mode : nat) : mat K := match product_matrix with None => identity size | Some P => P mode end.
Definition cartesian_mode_matrix (shape : list nat) (product_matrices : list (option (nat -> mat K))) (mode : list nat) : mat K :=
  match map (fun p => axis_matrix (fst (fst p)) (snd (fst p)) (snd p)) (combine (combine shape product_matrices) mode) with [] => identity 1 | M :: Ms => fold_left skron Ms M end.
(** 415-445: [build_cartesian_ncc_matrix].  [data c mode]: component [c] of the coefficient at a mode (given by its number in [np.ndindex]);
    [big]: [np.max(np.abs(ncc_coeffs)) > ncc_cutoff]. *)
Definition build_cartesian_ncc_matrix (ncc_first : bool) (G : nat -> nat -> nat -> K) (n_ncc n_arg n_out : nat) (modes : list (list nat)) (data : nat -> list nat -> K)
    (big : (nat -> K) -> bool) (shape : list nat) (product_matrices : list (option (nat -> mat K))) (rows cols : nat) : mat K :=
  let gamma c b a := if ncc_first then G a b c else G b a c in
  fold_left (fun matrix mode =>
    let coeffs := fun a => data a mode in
    if big coeffs then
      let front := Mat n_out n_arg (fun c b => total n_ncc (fun a => kmul (gamma c b a) (coeffs a))) in
      madd matrix (skron front (cartesian_mode_matrix shape product_matrices mode))
    else matrix) modes (Mat (n_out * rows) (n_arg * cols) (fun _ _ => k0)).
End Components.
