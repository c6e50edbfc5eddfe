(** Spin components of tensors: the coordinate systems of dedalus/core/coords.py, [SpinRecombinationBasis] of
    dedalus/core/basis.py, and dedalus/libraries/spin_recombination.pyx.

    Simplifications.  Exact arithmetic.  Direct products are not nested.  Real arrays are C-contiguous and given by their
    buffers, of which [gdata] and [out] are different ones; complex arrays are given by their elements.  Coordinates are equal
    if their classes and names are (coords.py:77-81). *)
From Coq Require Import List Arith Bool String ZArith Reals.
From Coquelicot Require Import Complex.
Import ListNotations.
From Verif Require Import MatSolvers_Model CSR_Model Clenshaw_Model FourierCalc_Model.
Local Open Scope nat_scope.

Notation cmat := (mat C).
Definition cidentity (n : nat) : cmat := identity (RtoC 0) (RtoC 1) n.

(** ** Coordinate systems *)
(** A coordinate: whether it is an [AzimuthalCoordinate], and its name; coords.py:65-81 and 192-193. *)
Definition coordinate : Type := bool * string.
Definition same (c d : coordinate) : bool := Bool.eqb (fst c) (fst d) && String.eqb (snd c) (snd d).
(** [Coordinate], [CartesianCoordinates], [S2Coordinates], [PolarCoordinates]: coords.py:65-92, 159-189, 201-217, 253-271. *)
Inductive simple := Line (c : coordinate) | Cartesian (names : list string) | S2 (azimuth colatitude : string) | Polar (azimuth radius : string).
(** and [SphericalCoordinates], 312-336, [DirectProduct], 95-112. *)
Inductive system := Simple (s : simple) | Spherical (azimuth colatitude radius : string) | DirectProduct (l : list simple).
Definition simple_coords (s : simple) : list coordinate :=
  match s with
  | Line c => [c] | Cartesian names => map (fun n => (false, n)) names
  | S2 a c => [(true, a); (false, c)] | Polar a r => [(true, a); (false, r)]
  end.
Definition coords (cs : system) : list coordinate :=
  match cs with
  | Simple s => simple_coords s | Spherical a c r => [(true, a); (false, c); (false, r)] | DirectProduct l => flat_map simple_coords l
  end.
Definition simple_dim (s : simple) : nat := match s with Line _ => 1 | Cartesian names => List.length names | S2 _ _ | Polar _ _ => 2 end.
Definition dim_of (cs : system) : nat :=
  match cs with Simple s => simple_dim s | Spherical _ _ _ => 3 | DirectProduct l => fold_right Nat.add 0 (map simple_dim l) end.
(** [coord in cs.coords] and [cs.coords.index(coord)]. *)
Fixpoint index_of (c : coordinate) (l : list coordinate) : option nat :=
  match l with [] => None | d :: l => if same d c then Some 0 else option_map S (index_of c l) end.

Inductive error := ValueError | TypeError.
Inductive result {A : Type} := Ok (x : A) | Raises (e : error).
Arguments result : clear implicits.

(** [np.kron], and [kron] and [nkron]: array.py:325-336. *)
Definition npkron (A B : cmat) : cmat := skron Cmult A B.
Definition kron_all (factors : list cmat) : cmat := match factors with [] => cidentity 1 | f :: fs => fold_left npkron fs f end.
Definition nkron (f : cmat) (n : nat) : cmat := kron_all (repeat f n).
(** coords.py:219-228 and 273-282, [_U_forward]: rows in the order of [spin_ordering]. *)
Definition isqrt2 : R := (/ sqrt 2)%R.
Definition U2_row (spin : Z) (j : nat) : C :=
  if (spin =? 1)%Z then nth j [(Ci / RtoC (sqrt 2))%C; (RtoC 1 / RtoC (sqrt 2))%C] (RtoC 0) else nth j [(- Ci / RtoC (sqrt 2))%C; (RtoC 1 / RtoC (sqrt 2))%C] (RtoC 0).
Definition U2 (order : nat) : cmat :=
  let U := Mat 2 2 (fun i => U2_row (nth i [(-1)%Z; 1%Z] 0%Z)) in if 1 <? order then nkron U order else U.
(** coords.py:338-347. *)
Definition U3_row (spin : Z) (j : nat) : C :=
  if (spin =? 1)%Z then nth j [(Ci / RtoC (sqrt 2))%C; (RtoC 1 / RtoC (sqrt 2))%C; (RtoC 0 / RtoC (sqrt 2))%C] (RtoC 0)
  else if (spin =? -1)%Z then nth j [(- Ci / RtoC (sqrt 2))%C; (RtoC 1 / RtoC (sqrt 2))%C; (RtoC 0 / RtoC (sqrt 2))%C] (RtoC 0)
  else nth j [RtoC 0; RtoC 0; RtoC 1] (RtoC 0).
Definition U3 (order : nat) : cmat := nkron (Mat 3 3 (fun i => U3_row (nth i [(-1)%Z; 1%Z; 0%Z] 0%Z))) order.
(** [.T.conj()], coords.py:230-233, 284-287, 349-352. *)
Definition adjoint (A : cmat) : cmat := mconj Cconj (MatSolvers_Model.transpose A).
Definition U2_backward (order : nat) : cmat := adjoint (U2 order).
Definition U3_backward (order : nat) : cmat := adjoint (U3 order).
(** [forward_vector_intertwiner], without a group: coords.py:88-92, 179-181, 234-242, 288-296. *)
Definition simple_intertwiner (s : simple) (subaxis : nat) : result cmat :=
  match s with
  | Line _ => Ok (Mat 1 1 (fun _ _ => RtoC 1))
  | Cartesian names => Ok (cidentity (List.length names))
  | S2 _ _ | Polar _ _ => match subaxis with 0 => Ok (cidentity 2) | 1 => Ok (U2 1) | _ => Raises ValueError end
  end.
(** coords.py:128-137, with [sparse_block_diag]: array.py:261-282 without a given shape. *)
Fixpoint product_factors (l : list simple) (start subaxis : nat) : result (list cmat) :=
  match l with
  | [] => Ok []
  | s :: l =>
      let f := if (start <=? subaxis) && (subaxis <? start + simple_dim s) then simple_intertwiner s (subaxis - start) else Ok (cidentity (simple_dim s)) in
      match f, product_factors l (start + simple_dim s) subaxis with Ok f, Ok fs => Ok (f :: fs) | Raises e, _ => Raises e | _, Raises e => Raises e end
  end.
Definition block_diag (l : list cmat) : cmat := Mat (sum_of (map nr l)) (sum_of (map nc l)) (diagonal_entry (RtoC 0) l).
(** [forward_intertwiner(subaxis, order=1, group=None)]: coords.py:57-59, 387-399; the radial one needs a group. *)
Definition intertwiner (cs : system) (subaxis : nat) : result cmat :=
  match cs with
  | Simple s => match simple_intertwiner s subaxis with Ok U => Ok (nkron U 1) | Raises e => Raises e end
  | Spherical _ _ _ => match subaxis with 0 => Ok (cidentity (3 ^ 1)) | 1 => Ok (U3 1) | 2 => Raises TypeError | _ => Raises ValueError end
  | DirectProduct l => match product_factors l 0 subaxis with Ok fs => Ok (nkron (block_diag fs) 1) | Raises e => Raises e end
  end.

(** ** The bases.  [coord0] and [coord1] are the first two coordinates of the basis. *)
Section Basis.
Context (coord0 coord1 : coordinate).

(** basis.py:1563-1575, [spin_recombination_factors]. *)
Fixpoint build_factors (tensorsig : list system) : result (list (option cmat)) :=
  match tensorsig with
  | [] => Ok []
  | cs :: sig =>
      match index_of coord1 (coords cs) with
      | Some subaxis => match intertwiner cs subaxis, build_factors sig with Ok U, Ok l => Ok (Some U :: l) | Raises e, _ => Raises e | _, Raises e => Raises e end
      | None => match build_factors sig with Ok l => Ok (None :: l) | Raises e => Raises e end
      end
  end.
(** The list is cached for each tensor signature (tools/cache.py:92-108): [cache] is the one built by an earlier call. *)
Definition factors (cache : option (list (option cmat))) (tensorsig : list system) : result (list (option cmat)) :=
  match cache with Some l => Ok l | None => build_factors tensorsig end.

(** basis.py:1577-1593, [spin_recombination_matrix]; also the list that it leaves in the cache.  For real problems, the real and
    imaginary parts. *)
Definition replaced (tensorsig : list system) (l : list (option cmat)) : list cmat :=
  map (fun p => match snd p with Some U => U | None => cidentity (dim_of (fst p)) end) (combine tensorsig l).
Definition spin_recombination_matrix (cache : option (list (option cmat))) (tensorsig : list system) (n_upstream : nat) : result (cmat * option (list (option cmat))) :=
  match factors cache tensorsig with
  | Ok l => let l := replaced tensorsig l in
            Ok (kron_all (if 1 <? n_upstream then l ++ [cidentity n_upstream] else l), Some (map Some l))
  | Raises e => Raises e
  end.
Definition part (f : C -> R) (M : cmat) : mat R := Mat (nr M) (nc M) (fun i j => f (at_ M i j)).
Definition rmat22 (a b c d : R) : mat R := Mat 2 2 (fun i j => nth j (nth i [[a; b]; [c; d]] []) 0%R).
Definition expanded (M : cmat) : mat R :=
  madd Rplus (skron Rmult (part fst M) (rmat22 1 0 0 1)) (skron Rmult (part snd M) (rmat22 0 (-1) 1 0)).

(** ** Complex data: basis.py:1604-1612 and 1639-1647. *)
Fixpoint apply_all (f : cmat -> cmat) (i : nat) (l : list (option cmat)) (out : @array C) : @array C :=
  match l with
  | [] => out
  | None :: l => apply_all f (S i) l out
  | Some U :: l => let M := f U in apply_all f (S i) l (apply_dense (RtoC 0) Cplus Cmult (nr M) (at_ M) out i)
  end.
Definition complex_recombination (f : cmat -> cmat) (cache : option (list (option cmat))) (tensorsig : list system) (gdata : @array C) : result (@array C) :=
  match tensorsig with
  | [] => Ok gdata
  | _ => match factors cache tensorsig with Ok l => Ok (apply_all f 0 l gdata) | Raises e => Raises e end
  end.
Definition complex_forward := complex_recombination (fun U => U).
Definition complex_backward := complex_recombination adjoint.

(** ** Real data *)
(** basis.py:1550-1558, [reduced_view_5]: the shape of the view. *)
Definition view5 : Type := nat * nat * nat * nat * nat.
Definition reduced_view_5 (shape : list nat) (axis1 axis2 : nat) : view5 :=
  (prod (firstn axis1 shape), nth axis1 shape 0, prod (firstn (axis2 - (axis1 + 1)) (skipn (axis1 + 1) shape)), nth axis2 shape 0, prod (skipn (axis2 + 1) shape)).
(** Where the element [i,j,k,l,m] of the view is in the buffer. *)
Definition place (v : view5) (i j k l m : nat) : nat := let '(_, n1, n2, n3, n4) := v in (((i * n1 + j) * n2 + k) * n3 + l) * n4 + m.
(** The writes of [output[i,j,:,:,:] = input[i,j,:,:,:]]. *)
Definition copied (v : view5) (input : @buffer R) (i j : nat) : list (@write R) :=
  let '(_, _, n2, n3, n4) := v in
  flat_map (fun k => flat_map (fun l => map (fun m => (place v i j k l m, fun _ => input (place v i j k l m))) (seq 0 n4)) (seq 0 n3)) (seq 0 n2).
(** spin_recombination.pyx:7-31, [recombine_forward], and 34-58, [recombine_backward]: the writes to [output], in order; [pairs] are those of
    the innermost loop. *)
Definition recombined (pairs : (nat -> nat -> nat) -> nat -> nat -> list (@write R)) (s : nat) (v : view5) (input : @buffer R) : list (@write R) :=
  let '(n0, n1, n2, n3, n4) := v in
  flat_map (fun i =>
    flat_map (copied v input i) (seq 0 s)
    ++ flat_map (fun k => flat_map (fun l => flat_map (fun m => pairs (fun j l => place v i j k l m) s l) (seq 0 n4)) (seq 0 (n3 / 2))) (seq 0 n2)
    ++ flat_map (copied v input i) (seq (s + 2) (n1 - (s + 2)))) (seq 0 n0).
Definition forward_pairs (input : @buffer R) (q : nat -> nat -> nat) (s l : nat) : list (@write R) :=
  let u j := input (q (s + 0) j) in let w j := input (q (s + 1) j) in let e := 2 * l in let o := 2 * l + 1 in
  [(q (s + 0) e, fun _ => ((w e + u o) * isqrt2)%R);
   (q (s + 1) o, fun _ => ((w o + u e) * isqrt2)%R);
   (q (s + 1) e, fun _ => ((w e - u o) * isqrt2)%R);
   (q (s + 0) o, fun _ => ((w o - u e) * isqrt2)%R)].
Definition backward_pairs (input : @buffer R) (q : nat -> nat -> nat) (s l : nat) : list (@write R) :=
  let u j := input (q (s + 0) j) in let w j := input (q (s + 1) j) in let e := 2 * l in let o := 2 * l + 1 in
  [(q (s + 0) e, fun _ => ((w o - u o) * isqrt2)%R);
   (q (s + 0) o, fun _ => ((u e - w e) * isqrt2)%R);
   (q (s + 1) e, fun _ => ((u e + w e) * isqrt2)%R);
   (q (s + 1) o, fun _ => ((u o + w o) * isqrt2)%R)].
Definition recombine_forward (s : nat) (v : view5) (input output : @buffer R) : @buffer R := run (recombined (forward_pairs input) s v input) output.
Definition recombine_backward (s : nat) (v : view5) (input output : @buffer R) : @buffer R := run (recombined (backward_pairs input) s v input) output.
(** basis.py:1613-1628 and 1648-1663: the buffers [gdata] and [out], and what [out] holds afterwards. *)
Fixpoint alternate (kernel : nat -> view5 -> @buffer R -> @buffer R -> @buffer R) (shape : list nat) (axis2 i : nat) (l : list (option cmat)) (sig : list system)
    (gdata out : @buffer R) (num : nat) : result (@buffer R) :=
  match l, sig with
  | Some _ :: l, cs :: sig =>
      match index_of coord0 (coords cs) with
      | None => Raises ValueError
      | Some subaxis =>
          let v := reduced_view_5 shape i axis2 in
          if num mod 2 =? 0 then alternate kernel shape axis2 (S i) l sig gdata (kernel subaxis v gdata out) (num + 1)
          else alternate kernel shape axis2 (S i) l sig (kernel subaxis v out gdata) out (num + 1)
      end
  | None :: l, _ :: sig => alternate kernel shape axis2 (S i) l sig gdata out num
  | _, _ => Ok (if num mod 2 =? 0 then gdata else out)
  end.
Definition real_recombination kernel (cache : option (list (option cmat))) (tensorsig : list system) (colat_axis : nat) (shape : list nat) (gdata out : @buffer R) : result (@buffer R) :=
  match tensorsig with
  | [] => Ok gdata
  | _ => match factors cache tensorsig with
         | Ok l => alternate kernel shape (colat_axis - 1 + List.length tensorsig) 0 l tensorsig gdata out 0
         | Raises e => Raises e
         end
  end.
Definition real_forward := real_recombination recombine_forward.
Definition real_backward := real_recombination recombine_backward.
End Basis.
