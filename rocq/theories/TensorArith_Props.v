(** Products of tensors: C56. *)
From Coq Require Import List Arith Bool ZArith Lia Field QArith Qcanon.
Import ListNotations.
From Verif Require Import CSR_Model CSR_Spec CSR_Proofs CSRDense_Proofs MatSolvers_Model TensorArith_Model TensorArith_Spec TensorArith_Proofs.
Local Open Scope nat_scope.

(** ** Construction: which indices are accepted.  The operands have at most 25 indices together. *)
(** Indices beyond the ranks are refused with [ValueError]; an index equal to the rank passes that check and fails with [IndexError]; all others are accepted,
    counting from the end if negative, and the two indices disappear from the signature. *)
Theorem dot_accepts (i j : nat) (v w : coordsys) (r0 r1 : tensorsig) (i0 i1 : Z) : List.length r0 + List.length r1 <= 23 -> position i0 (S (List.length r0)) i -> position i1 (S (List.length r1)) j ->
  exists p, DotProduct (put i v r0) (put j w r1) (i0, i1) = Ok p /\ dp_sig p = r0 ++ r1 /\ dp_indices p = (i, j).
Proof.
  intros R P0 P1. assert (Hi : i <= List.length r0) by (destruct P0; lia). assert (Hj : j <= List.length r1) by (destruct P1; lia). pose proof (put_length i v r0 Hi) as L0. pose proof (put_length j w r1 Hj) as L1.
  destruct (dot_built (put i v r0) (put j w r1) i0 i1 i j) as (u0 & w0 & u1 & w1 & E & _); try (rewrite ?L0, ?L1; assumption || lia). eexists. split; [exact E|]. cbn [dp_sig dp_indices].
  destruct (split_put i v r0 Hi) as (a0 & b0 & -> & <- & ->). destruct (split_put j w r1 Hj) as (a1 & b1 & -> & <- & ->). rewrite !drop_app. split; reflexivity.
Qed.
Theorem dot_refuses (sig0 sig1 : tensorsig) (i0 i1 : Z) : let out i r := (Z.of_nat r < i \/ i < - Z.of_nat r)%Z in
  (out i0 (List.length sig0) \/ out i1 (List.length sig1) -> DotProduct sig0 sig1 (i0, i1) = Raises ValueError)
  /\ (~ out i0 (List.length sig0) -> ~ out i1 (List.length sig1) -> i0 = Z.of_nat (List.length sig0) \/ i1 = Z.of_nat (List.length sig1) -> DotProduct sig0 sig1 (i0, i1) = Raises IndexError).
Proof. apply dot_failures. Qed.
(** Cross products are of two vectors in the same three-dimensional system. *)
Theorem cross_accepts (sig0 sig1 : tensorsig) : CrossProduct sig0 sig1 = Ok sig0 <-> exists v w, sig0 = [v] /\ sig1 = [w] /\ cs_id v = cs_id w /\ cs_dim v = 3.
Proof.
  split.
  - destruct sig0 as [|v [|? ?]], sig1 as [|w [|? ?]]; cbn; try discriminate. destruct (Nat.eqb_spec (cs_id v) (cs_id w)); cbn; [|discriminate]. destruct (Nat.eqb_spec (cs_dim v) 3); cbn; [|discriminate]. intros _. exists v, w. repeat split; assumption.
  - intros (v & w & -> & -> & E & D). cbn. rewrite E, Nat.eqb_refl. cbn. rewrite D. reflexivity.
Qed.

Section Field.
Context {K : Type} (k0 k1 : K) (kadd kmul ksub kdiv : K -> K -> K) (kopp kinv : K -> K).
Context (Hf : field_theory k0 k1 kadd kmul ksub kopp kdiv kinv eq).
Notation contraction := (contraction k0 kadd kmul).
Notation bilinear := (bilinear k0 kadd kmul).
Notation act := (act k0 kadd kmul).

(** ** On the grid *)
(** Any pair of indices of equal dimension, of tensors of any rank. *)
Theorem dot_contracts i0 i1 i j v w (r0 r1 : tensorsig) (A B : nat -> K) : List.length r0 + List.length r1 <= 23 -> position i0 (S (List.length r0)) i -> position i1 (S (List.length r1)) j -> positive (put i v r0) -> positive (put j w r1) -> cs_dim v = cs_dim w ->
  exists p f, DotProduct (put i v r0) (put j w r1) (i0, i1) = Ok p /\ dot_operate k0 kadd kmul p (put i v r0) (put j w r1) A B = Ok f
  /\ forall c0 c1, in_shape (dims r0) c0 -> in_shape (dims r1) c1 -> f (c0 ++ c1) = contraction (cs_dim v) (put i v r0) (put j w r1) i j A B c0 c1.
Proof.
  intros R P0 P1 Q0 Q1 D. assert (Hi : i <= List.length r0) by (destruct P0; lia). assert (Hj : j <= List.length r1) by (destruct P1; lia).
  destruct (dot_values k0 k1 kadd kmul ksub kdiv kopp kinv Hf i0 i1 i j v w r0 r1 A B) as (p & Ep & _ & _ & V & _); try assumption. destruct (V (or_introl D)) as (f & Ef & Hv). exists p, f. split; [exact Ep|]. split; [exact Ef|]. intros c0 c1 S0 S1. rewrite (Hv c0 c1 S0 S1). rewrite <- D, Nat.max_id. unfold contraction.
  apply (MatSolvers_Proofs.total_ext k0 k1 kadd kmul ksub kdiv kopp kinv Hf). intros k Hk. destruct (Nat.eqb_spec (cs_dim v) 1) as [E|]; [replace k with 0 by lia; reflexivity|reflexivity].
Qed.
(** Indices of different dimensions are refused only when evaluated; if one of the dimensions is 1, the component is used for all values of the other index. *)
Theorem dot_dimensions i0 i1 i j v w (r0 r1 : tensorsig) (A B : nat -> K) : List.length r0 + List.length r1 <= 23 -> position i0 (S (List.length r0)) i -> position i1 (S (List.length r1)) j -> positive (put i v r0) -> positive (put j w r1) -> cs_dim v <> cs_dim w ->
  exists p, DotProduct (put i v r0) (put j w r1) (i0, i1) = Ok p
  /\ (cs_dim v <> 1 -> cs_dim w <> 1 -> dot_operate k0 kadd kmul p (put i v r0) (put j w r1) A B = Raises ValueError)
  /\ (cs_dim v = 1 -> exists f, dot_operate k0 kadd kmul p (put i v r0) (put j w r1) A B = Ok f /\ forall c0 c1, in_shape (dims r0) c0 -> in_shape (dims r1) c1 ->
        f (c0 ++ c1) = total k0 kadd (cs_dim w) (fun k => kmul (component (put i v r0) A (put i 0 c0)) (component (put j w r1) B (put j k c1)))).
Proof.
  intros R P0 P1 Q0 Q1 D. assert (Hi : i <= List.length r0) by (destruct P0; lia). assert (Hj : j <= List.length r1) by (destruct P1; lia).
  destruct (dot_values k0 k1 kadd kmul ksub kdiv kopp kinv Hf i0 i1 i j v w r0 r1 A B) as (p & Ep & _ & _ & V & M); try assumption. exists p. split; [exact Ep|]. split; [intros; apply M; assumption|].
  intros E1. destruct (V (or_intror (or_introl E1))) as (f & Ef & Hv). exists f. split; [exact Ef|]. intros c0 c1 S0 S1. rewrite (Hv c0 c1 S0 S1). rewrite E1. cbn [Nat.eqb].
  assert (P : 1 <= cs_dim w). { unfold positive in Q1. rewrite Forall_forall in Q1. apply Q1. unfold put. rewrite in_app_iff. right. left. reflexivity. }
  rewrite Nat.max_r by exact P. apply (MatSolvers_Proofs.total_ext k0 k1 kadd kmul ksub kdiv kopp kinv Hf). intros k Hk. destruct (Nat.eqb_spec (cs_dim w) 1); [lia|reflexivity].
Qed.
Theorem multiply_components (sig0 sig1 : tensorsig) (A B : nat -> K) c0 c1 : in_shape (dims sig0) c0 -> in_shape (dims sig1) c1 -> multiply_operate kmul sig0 sig1 A B (c0 ++ c1) = kmul (component sig0 A c0) (component sig1 B c1).
Proof. apply multiply_values. Qed.
Theorem cross_components cs (A B : nat -> K) c : c < 3 -> nth c (cross_operate kmul ksub cs A B) k0 = cross_component kmul ksub kopp (right_handed cs) A B c.
Proof. apply (cross_values k0 k1 kadd kmul ksub kdiv kopp kinv Hf). Qed.

(** ** Coefficients of the products as bilinear maps agree with the products on the grid. *)
Theorem dot_coefficients i j v w (r0 r1 : tensorsig) (A B : nat -> K) c0 c1 : i <= List.length r0 -> j <= List.length r1 -> cs_dim v = cs_dim w -> in_shape (dims r0) c0 -> in_shape (dims r1) c1 ->
  bilinear (size (dims (put i v r0))) (size (dims (put j w r1))) (gamma_dot k0 k1 (i, j) (put i v r0) (put j w r1) (r0 ++ r1)) A B (flat (dims (r0 ++ r1)) (c0 ++ c1)) = contraction (cs_dim v) (put i v r0) (put j w r1) i j A B c0 c1.
Proof.
  intros Hi Hj D S0 S1. unfold contraction. destruct (split_put i v r0 Hi) as (a0 & b0 & -> & <- & ->). destruct (split_put j w r1 Hj) as (a1 & b1 & -> & <- & ->).
  destruct (split_index _ _ _ S0) as (x0 & y0 & -> & Sx0 & Sy0 & Z0). destruct (split_index _ _ _ S1) as (x1 & y1 & -> & Sx1 & Sy1 & Z1).
  rewrite (gamma_dot_bilinear k0 k1 kadd kmul ksub kdiv kopp kinv Hf) by assumption. apply (MatSolvers_Proofs.total_ext k0 k1 kadd kmul ksub kdiv kopp kinv Hf). intros k Hk. rewrite Z0, Z1. reflexivity.
Qed.
Theorem multiply_coefficients (s0 s1 : tensorsig) (A B : nat -> K) c0 c1 : in_shape (dims s0) c0 -> in_shape (dims s1) c1 ->
  bilinear (size (dims s0)) (size (dims s1)) (gamma_multiply k0 k1 s0 s1 (s0 ++ s1)) A B (flat (dims (s0 ++ s1)) (c0 ++ c1)) = kmul (component s0 A c0) (component s1 B c1).
Proof. apply (gamma_multiply_bilinear k0 k1 kadd kmul ksub kdiv kopp kinv Hf). Qed.
Theorem cross_coefficients cs (A B : nat -> K) c : c < 3 -> bilinear 3 3 (gamma_cross k0 k1 kmul kopp cs) A B c = cross_component kmul ksub kopp (right_handed cs) A B c.
Proof. apply (gamma_cross_bilinear k0 k1 kadd kmul ksub kdiv kopp kinv Hf). Qed.

(** ** In other components: if the factors are transformed along each axis, the new coefficients give the transformed product. *)
Theorem coefficients_transform na nb nc_ G (axes : list (@frames K)) A B c : Forall (proper k0 k1 kadd kmul na nb nc_) axes -> c < nc_ ->
  bilinear na nb (Gamma k0 kadd kmul na nb nc_ G (map (fun q => (backwardA q, backwardB q, forwardC q)) axes)) (transform k0 kadd kmul na forwardA axes A) (transform k0 kadd kmul nb forwardB axes B) c
  = transform k0 kadd kmul nc_ forwardC axes (bilinear na nb G A B) c.
Proof. apply (Gamma_transforms k0 k1 kadd kmul ksub kdiv kopp kinv Hf). Qed.

(** ** Matrices.  The matrix of multiplication by a coefficient field, applied to an operand with coefficients [x], is the sum over the modes above the cutoff
    of the product of the field's components in that mode with the operand multiplied by that mode, in the order in which the factors were written. *)
Definition mode := cartesian_mode_matrix k0 k1 kmul.
Theorem product_matrix first G n_ncc n_arg n_out modes data big shape pms rows cols x c r :
  (forall m, In m modes -> nr (mode shape pms m) = rows /\ nc (mode shape pms m) = cols) -> r < rows ->
  act (n_arg * cols) (build_cartesian_ncc_matrix k0 k1 kadd kmul first G n_ncc n_arg n_out modes data big shape pms rows cols) x (c * rows + r)
  = sum_list k0 kadd (fun m => let operand := fun b => act cols (mode shape pms m) (fun q => x (b * cols + q)) r in
      if big (fun a => data a m) then (if first then bilinear n_ncc n_arg G (fun a => data a m) operand c else bilinear n_arg n_ncc G operand (fun a => data a m) c) else k0) modes.
Proof. apply (ncc_applied k0 k1 kadd kmul ksub kdiv kopp kinv Hf). Qed.
(** So for dot products, with the coefficient field first and second, and likewise for the others. *)
Lemma sum_list_ext {X} (f g : X -> K) l : (forall x, f x = g x) -> sum_list k0 kadd f l = sum_list k0 kadd g l.
Proof. intros H. unfold sum_list. induction l as [|x l IH]; cbn [fold_right]; [reflexivity|]. rewrite H, IH. reflexivity. Qed.
Definition operand shape pms cols r (x : nat -> K) (m : list nat) : nat -> K := fun b => act cols (mode shape pms m) (fun q => x (b * cols + q)) r.
Theorem dot_matrix (first : bool) i j v w (r0 r1 : tensorsig) modes data big shape pms rows cols x c0 c1 r : i <= List.length r0 -> j <= List.length r1 -> cs_dim v = cs_dim w -> in_shape (dims r0) c0 -> in_shape (dims r1) c1 ->
  (forall m, In m modes -> nr (mode shape pms m) = rows /\ nc (mode shape pms m) = cols) -> r < rows ->
  let s0 := put i v r0 in let s1 := put j w r1 in let n0 := size (dims s0) in let n1 := size (dims s1) in
  act ((if first then n1 else n0) * cols) (build_cartesian_ncc_matrix k0 k1 kadd kmul first (gamma_dot k0 k1 (i, j) s0 s1 (r0 ++ r1)) (if first then n0 else n1) (if first then n1 else n0) (size (dims (r0 ++ r1))) modes data big shape pms rows cols) x (flat (dims (r0 ++ r1)) (c0 ++ c1) * rows + r)
  = sum_list k0 kadd (fun m => if big (fun a => data a m) then (if first then contraction (cs_dim v) s0 s1 i j (fun a => data a m) (operand shape pms cols r x m) c0 c1 else contraction (cs_dim v) s0 s1 i j (operand shape pms cols r x m) (fun a => data a m) c0 c1) else k0) modes.
Proof.
  intros Hi Hj D S0 S1 HM Hr s0 s1 n0 n1. rewrite product_matrix by assumption. apply sum_list_ext. intros m. cbv zeta. destruct (big _); [|reflexivity]. destruct first; apply dot_coefficients; assumption.
Qed.
Theorem multiply_matrix (first : bool) (s0 s1 : tensorsig) modes data big shape pms rows cols x c0 c1 r : in_shape (dims s0) c0 -> in_shape (dims s1) c1 ->
  (forall m, In m modes -> nr (mode shape pms m) = rows /\ nc (mode shape pms m) = cols) -> r < rows -> let n0 := size (dims s0) in let n1 := size (dims s1) in
  act ((if first then n1 else n0) * cols) (build_cartesian_ncc_matrix k0 k1 kadd kmul first (gamma_multiply k0 k1 s0 s1 (s0 ++ s1)) (if first then n0 else n1) (if first then n1 else n0) (size (dims (s0 ++ s1))) modes data big shape pms rows cols) x (flat (dims (s0 ++ s1)) (c0 ++ c1) * rows + r)
  = sum_list k0 kadd (fun m => if big (fun a => data a m) then (if first then kmul (component s0 (fun a => data a m) c0) (component s1 (operand shape pms cols r x m) c1) else kmul (component s0 (operand shape pms cols r x m) c0) (component s1 (fun a => data a m) c1)) else k0) modes.
Proof. intros S0 S1 HM Hr n0 n1. rewrite product_matrix by assumption. apply sum_list_ext. intros m. cbv zeta. destruct (big _); [|reflexivity]. destruct first; apply multiply_coefficients; assumption. Qed.
Theorem cross_matrix (first : bool) cs modes data big shape pms rows cols x c r : c < 3 ->
  (forall m, In m modes -> nr (mode shape pms m) = rows /\ nc (mode shape pms m) = cols) -> r < rows ->
  act (3 * cols) (build_cartesian_ncc_matrix k0 k1 kadd kmul first (gamma_cross k0 k1 kmul kopp cs) 3 3 3 modes data big shape pms rows cols) x (c * rows + r)
  = sum_list k0 kadd (fun m => if big (fun a => data a m) then (if first then cross_component kmul ksub kopp (right_handed cs) (fun a => data a m) (operand shape pms cols r x m) c else cross_component kmul ksub kopp (right_handed cs) (operand shape pms cols r x m) (fun a => data a m) c) else k0) modes.
Proof. intros Hc HM Hr. rewrite product_matrix by assumption. apply sum_list_ext. intros m. cbv zeta. destruct (big _); [|reflexivity]. destruct first; apply cross_coefficients; assumption. Qed.
(** The matrix of a mode has the products of the entries of its axes. *)
Theorem mode_matrix_entries (axes : list (nat * option (nat -> mat K) * nat)) rs cs : axes <> [] -> in_shape (map axis_rows axes) rs -> in_shape (map axis_cols axes) cs ->
  let M := mode (map (fun ax => fst (fst ax)) axes) (map (fun ax => snd (fst ax)) axes) (map snd axes) in
  nr M = size (map axis_rows axes) /\ nc M = size (map axis_cols axes)
  /\ at_ M (flat (map axis_rows axes) rs) (flat (map axis_cols axes) cs) = times_all k1 kmul (map (fun p => axis_entry k0 k1 (fst (fst p)) (snd (fst p)) (snd p)) (combine (combine axes rs) cs)).
Proof. apply (mode_matrix k0 k1 kadd kmul ksub kdiv kopp kinv Hf). Qed.
End Field.
Print Assumptions dot_accepts.
Print Assumptions dot_refuses.
Print Assumptions cross_accepts.
Print Assumptions dot_contracts.
Print Assumptions dot_dimensions.
Print Assumptions multiply_components.
Print Assumptions cross_components.
Print Assumptions dot_coefficients.
Print Assumptions multiply_coefficients.
Print Assumptions cross_coefficients.
Print Assumptions coefficients_transform.
Print Assumptions product_matrix.
Print Assumptions dot_matrix.
Print Assumptions multiply_matrix.
Print Assumptions cross_matrix.
Print Assumptions mode_matrix_entries.

(** ** Examples, over the rationals: a matrix with a vector in the plane, and vectors in space. *)
Definition plane := {| cs_id := 0; cs_dim := 2; right_handed := true |}.
Definition space := {| cs_id := 1; cs_dim := 3; right_handed := true |}.
Definition line := {| cs_id := 2; cs_dim := 1; right_handed := true |}.
Definition mat_ (i : nat) : Qc := Q2Qc (inject_Z (nth i [1; 2; 3; 4]%Z 0%Z)).
Definition vec_ (i : nat) : Qc := Q2Qc (inject_Z (nth i [5; 7]%Z 0%Z)).
Definition value (sig0 sig1 : tensorsig) (ij : Z * Z) A B idx := bind (DotProduct sig0 sig1 ij) (fun p => bind (dot_operate (Q2Qc 0) Qcplus Qcmult p sig0 sig1 A B) (fun f => Ok (this (f idx)))).
Example matrix_vector : value [plane; plane] [plane] (-1, 0)%Z mat_ vec_ [0] = Ok (19 # 1)%Q /\ value [plane; plane] [plane] (0, 0)%Z mat_ vec_ [0] = Ok (26 # 1)%Q /\ value [plane; plane] [plane] (-1, 0)%Z mat_ vec_ [1] = Ok (43 # 1)%Q.
Proof. vm_compute. repeat split; reflexivity. Qed.
Example conditions : position (-1) 2 1 /\ position 0 1 0 /\ put 1 plane [plane] = [plane; plane] /\ positive [plane; plane] /\ in_shape (dims [plane]) [1].
Proof. split; [unfold position; lia|]. split; [unfold position; lia|]. split; [reflexivity|]. split; repeat constructor; cbn; lia. Qed.
(** An index equal to the rank; a system of one dimension with the plane. *)
Example beyond : DotProduct [plane; plane] [plane] (2, 0)%Z = Raises IndexError /\ DotProduct [plane; plane] [plane] (3, 0)%Z = Raises ValueError /\ value [line] [plane] (0, 0)%Z vec_ vec_ [] = Ok (60 # 1)%Q /\ value [space] [plane] (0, 0)%Z vec_ vec_ [] = Raises ValueError.
Proof. vm_compute. repeat split; reflexivity. Qed.
Example cross_of : map this (cross_operate Qcmult Qcminus space mat_ (fun i => Q2Qc (inject_Z (nth i [5; 7; 11]%Z 0%Z)))) = [1; 4; -3]%Q.
Proof. vm_compute. reflexivity. Qed.
(** A change of components: exchanging the two coordinates. *)
Definition flip : mat Qc := Mat 2 2 (fun i j => if i + j =? 1 then 1%Qc else 0%Qc).
Example flip_proper : proper 0%Qc 1%Qc Qcplus Qcmult 2 2 2 (Frames flip flip flip flip flip).
Proof. assert (I : inverse 0%Qc 1%Qc Qcplus Qcmult 2 flip flip) by (intros [|[|i]] [|[|j]] Hi Hj; try lia; apply Qc_is_canon; vm_compute; reflexivity). split; [split; reflexivity|]. split; [split; reflexivity|]. split; [split; reflexivity|]. split; exact I. Qed.
(** Two modes along one axis with shift matrices. *)
Definition shift (m : nat) : mat Qc := Mat 3 3 (fun i j => if i =? j + m then 1%Qc else 0%Qc).
Example mode_sizes m : nr (mode 0%Qc 1%Qc Qcmult [3; 2] [Some shift; None] m) = 6 \/ List.length m < 2.
Proof. destruct m as [|a [|b m]]; [right; cbn; lia|right; cbn; lia|left; reflexivity]. Qed.
