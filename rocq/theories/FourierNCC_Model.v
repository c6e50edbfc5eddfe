(** Products with Fourier modes: dedalus/core/basis.py, the matrices of nonconstant coefficients.

    Simplifications.  Reals and complex numbers without rounding.  Matrices are those of [MatSolvers_Model].  [None] is
    an exception.  Coefficients are numbers: one axis. *)
From Coq Require Import List ZArith Reals Bool.
Import ListNotations.
From Coquelicot Require Import Complex.
From Verif Require Import MatSolvers_Model AffineCOV_Model FourierCalc_Model.

(** basis.py:892-908: [wavenumbers], from the native ones.  Numpy's division. *)
Definition wavenumbers (c : cov) (ks : list Z) : list R := map (fun k => (IZR k / stretch c)%R) ks.
(** [np.round(x).astype(int)]: the nearest integer, an even one between two. *)
Definition np_round (x : R) : Z :=
  let n := Int_part x in
  if Rlt_dec (x - IZR n) (1 / 2) then n else if Rlt_dec (1 / 2) (x - IZR n) then (n + 1)%Z else if Z.even n then n else (n + 1)%Z.
Definition mode_numbers (k0 : R) (ws : list R) : list Z := map (fun w => np_round (w / k0)) ws.

(** [np.argsort(kind='mergesort')]: a stable sort, with the places. *)
Fixpoint insert (p : Z * nat) (l : list (Z * nat)) : list (Z * nat) :=
  match l with [] => [p] | q :: t => if (fst p <=? fst q)%Z then p :: l else q :: insert p t end.
Definition sorted_places (l : list Z) : list (Z * nat) := fold_right insert [] (combine l (seq 0 (length l))).
(** [np.intersect1d(ar1, ar2, assume_unique=True, return_indices=True)]: sorts the two arrays together, and finds equal
    neighbours.  The indices can be wrong, even negative, if an array has repeated values. *)
Fixpoint neighbours (l : list (Z * nat)) : list (nat * nat) :=
  match l with p :: (q :: _) as t => (if (fst p =? fst q)%Z then [(snd p, snd q)] else []) ++ neighbours t | _ => [] end.
Definition intersect1d (a1 a2 : list Z) : list (Z * Z) :=
  map (fun p => (Z.of_nat (fst p), (Z.of_nat (snd p) - Z.of_nat (length a1))%Z)) (neighbours (sorted_places (a1 ++ a2))).

(** [sparse.coo_matrix((data, (rows, cols)), shape).tocsr()]: indices are checked, and repeated entries are added. *)
Definition coo_matrix {K} (k0 : K) (kadd : K -> K -> K) (entries : list (Z * Z * K)) (n m : nat) : option (mat K) :=
  if forallb (fun e => let '(i, j, _) := e in (0 <=? i)%Z && (i <? Z.of_nat n)%Z && (0 <=? j)%Z && (j <? Z.of_nat m)%Z) entries
  then Some (Mat n m (fun i j => fold_right (fun e s => let '(i', j', v) := e in if (i' =? Z.of_nat i)%Z && (j' =? Z.of_nat j)%Z then kadd v s else s) k0 entries))
  else None.
(** [a[start::2]]. *)
Fixpoint evens {A} (l : list A) : list A := match l with [] => [] | [a] => [a] | a :: _ :: t => a :: evens t end.

(** basis.py:982-997; the bases by their wavenumbers ([arg] may be missing). *)
Definition complex_product_matrix (ncc : list R) (arg : option (list R)) (out : list R) (i : nat) : option (mat C) :=
  match nth_error ncc 1, nth_error ncc i with
  | Some k0, Some k =>
      let k_ncc := np_round (k / k0) in
      let k_out := mode_numbers k0 out in
      let k_arg := match arg with None => [0%Z] | Some ws => mode_numbers k0 ws end in
      coo_matrix (RtoC 0) Cplus (map (fun p => (p, RtoC 1)) (intersect1d k_out (map (fun a => (a + k_ncc)%Z) k_arg))) (length k_out) (length k_arg)
  | _, _ => None end.
(** The entries [(data, (rows, cols))]. *)
Definition entries {K} (rowf colf : Z -> Z) (v : K) (l : list (Z * Z)) : list (Z * Z * K) := map (fun p => (rowf (fst p), colf (snd p), v)) l.
(** basis.py:1137-1183. *)
Definition real_product_matrix (ncc : list R) (arg : option (list R)) (out : list R) (i : nat) : option (mat R) :=
  match nth_error ncc 2, nth_error ncc i with
  | Some k0, Some k =>
      let k_ncc := np_round (k / k0) in
      let k_out := mode_numbers k0 out in
      let k_arg := match arg with None => [0%Z] | Some ws => mode_numbers k0 ws end in
      if (k_ncc =? 0)%Z then
        if (i mod 2 =? 0)%nat then Some (Mat (length k_out) (length k_arg) (fun r c => if (r =? c)%nat then 1%R else 0%R))
        else Some (Mat (length k_out) (length k_arg) (fun _ _ => 0%R))
      else
        let p := intersect1d (evens k_out) (map (fun a => (k_ncc + a)%Z) (evens k_arg)) in
        let m := intersect1d (evens k_out) (map (fun a => (k_ncc - a)%Z) (evens k_arg)) in
        let mn := map (fun e => (fst e + 1, snd e)%Z) (intersect1d (evens (skipn 2 k_out)) (map (fun a => (a - k_ncc)%Z) (evens k_arg))) in
        let c := fun n => (2 * n)%Z in
        let s := fun n => (2 * n + 1)%Z in
        let es := if (i mod 2 =? 0)%nat
                  then entries c c (1 / 2)%R p ++ entries c c (1 / 2)%R m ++ entries c c (1 / 2)%R mn ++ entries s s (1 / 2)%R p ++ entries s s (- (1 / 2))%R m ++ entries s s (1 / 2)%R mn
                  else entries s c (1 / 2)%R p ++ entries s c (1 / 2)%R m ++ entries s c (- (1 / 2))%R mn ++ entries c s (- (1 / 2))%R p ++ entries c s (1 / 2)%R m ++ entries c s (1 / 2)%R mn in
        coo_matrix 0%R Rplus es (length k_out) (length k_arg)
  | _, _ => None end.

(** basis.py:248-262, [ncc_matrix]: [product_matrix] by its index; [big] is [abs(coeff) > cutoff]. *)
Section NCC.
Context {K : Type} (k0 : K) (kadd kmul : K -> K -> K) (product_matrix : nat -> option (mat K)) (big : K -> bool).
Definition plus_kron (total M : mat K) (c : K) : mat K := Mat (nr total) (nc total) (fun i j => kadd (at_ total i j) (kmul (at_ M i j) c)).
Fixpoint ncc_sum (i : nat) (coeffs : list K) (total : mat K) : option (mat K) :=
  match coeffs with
  | [] => Some total
  | c :: coeffs => if big c then match product_matrix i with None => None | Some M => ncc_sum (S i) coeffs (plus_kron total M c) end
                   else ncc_sum (S i) coeffs total
  end.
Definition ncc_matrix (coeffs : list K) : option (mat K) :=
  match coeffs with [] => None | _ => match product_matrix 0 with None => None | Some M => ncc_sum 0 coeffs (Mat (nr M) (nc M) (fun _ _ => k0)) end end.
End NCC.
