(** C43 and C44: applying and solving matrices along an axis. *)
From Coq Require Import List Arith Lia Field_theory Reals Lra.
From Coquelicot Require Complex.
Import ListNotations.
From Verif Require Import CSR_Model CSR_Spec CSR_Proofs CSRDense_Proofs.

(** C43: whatever order the parallel iterations are executed in, and whatever the output held before, the element
    at each index of the output is the sum over the axis of matrix entries times elements of the array. *)
Theorem sparse_apply_value {K} (k0 k1 : K) kadd kmul ksub kopp kdiv kinv :
  field_theory k0 k1 kadd kmul ksub kopp kdiv kinv eq ->
  forall (m : csr K) shape rows (x y : nat -> K) axis order, axis < length shape -> csr_valid m rows (nth axis shape 0) ->
  interleaves (apply_csr k0 kadd kmul m shape rows x axis) order ->
  forall idx, in_shape (replace axis shape rows) idx ->
    run order y (flat (replace axis shape rows) idx) = total k0 kadd (nth axis shape 0) (fun j => kmul (entry k0 kadd m (nth axis idx 0) j) (x (flat shape (replace axis idx j)))).
Proof. intros Hf m shape rows x y axis order Ha Hv Ho. exact (apply_csr_value _ _ _ _ _ _ _ _ Hf m shape rows x axis order y Ha Hv Ho). Qed.
Print Assumptions sparse_apply_value.

(** C43: the same for a dense matrix, on arrays given by their elements. *)
Theorem dense_apply_value {K} (k0 k1 : K) kadd kmul ksub kopp kdiv kinv :
  field_theory k0 k1 kadd kmul ksub kopp kdiv kinv eq ->
  forall rows (m : nat -> nat -> K) shape (f : list nat -> K) axis, axis < length shape ->
  let out := apply_dense k0 kadd kmul rows m (shape, f) axis in
  fst out = replace axis shape rows /\
  forall idx, in_shape (replace axis shape rows) idx ->
    snd out idx = total k0 kadd (nth axis shape 0) (fun j => kmul (m (nth axis idx 0) j) (f (replace axis idx j))).
Proof. intros Hf rows m shape f axis Ha. exact (apply_dense_value _ _ _ _ _ _ _ _ Hf rows m shape f axis Ha). Qed.
Print Assumptions dense_apply_value.

(** C43: with an axis out of range (a negative one, say) the output of one- and two-dimensional arrays is
    returned as it was allocated. *)
Theorem sparse_apply_axis_refuted {K} (k0 : K) kadd kmul (m : csr K) shape rows (x y : nat -> K) axis order :
  shape <> [] -> length shape <= 2 -> length shape <= axis -> interleaves (apply_csr k0 kadd kmul m shape rows x axis) order -> run order y = y.
Proof.
  intros Hn Hl Ha. unfold apply_csr. destruct shape as [|n0 [|n1 [|? ?]]]; cbn in *; try lia; [contradiction| |].
  - destruct (Nat.eqb_spec axis 0); [lia|]. intros H. inversion H as [|[|? ?] ? ? ? ? ? E]; subst; try reflexivity; discriminate.
  - destruct (Nat.eqb_spec axis 0); [lia|]. destruct (Nat.eqb_spec axis 1); [lia|]. intros H. inversion H as [|[|? ?] ? ? ? ? ? E]; subst; try reflexivity; discriminate.
Qed.
Print Assumptions sparse_apply_axis_refuted.

(** C44: back substitution in place gives along the axis the solution of the system with the right-hand side that
    the array held, in any order of the parallel iterations, ... *)
Theorem upper_solve_value {K} (k0 k1 : K) kadd kmul ksub kopp kdiv kinv :
  field_theory k0 k1 kadd kmul ksub kopp kdiv kinv eq ->
  forall (m : csr K) shape (b : nat -> K) axis order, let n := nth axis shape 0 in axis < length shape ->
  csr_valid m n n -> canonical m n -> stored_upper m n -> (forall i, i < n -> entry k0 kadd m i i <> k0) ->
  interleaves (solve_upper_csr kmul ksub kdiv m shape axis) order ->
  forall idx, in_shape shape idx ->
    total k0 kadd n (fun j => kmul (entry k0 kadd m (nth axis idx 0) j) (run order b (flat shape (replace axis idx j)))) = b (flat shape idx).
Proof.
  intros Hf m shape b axis order n Ha Hv Hc Hu Hd Ho idx Hidx. destruct (upper_rows _ _ _ _ _ _ _ _ Hf m n Hv Hc Hu Hd) as [Ht Hfirst].
  pose proof (solve_csr_solves _ _ _ _ _ _ _ _ Hf m shape axis order b Ha Ht Ho) as Hs. rewrite <- (replace_same axis shape Ha) in Hidx.
  destruct (in_shape_axis shape axis _ idx Ha Hidx) as (Hl & H1 & H2 & H3). change (nth axis shape 0) with n in Hs, H2. apply flat_lt in H1 as L1. apply flat_lt in H3 as L3.
  set (h := flat (firstn axis shape) (firstn axis idx)) in *. set (k := flat (skipn (S axis) shape) (skipn (S axis) idx)) in *. set (N3 := size (skipn (S axis) shape)) in *.
  assert (E : forall j, flat shape (replace axis idx j) = (h * n + j) * N3 + k) by (intros j; rewrite <- (replace_same axis shape Ha) at 1; apply flat_axis; assumption).
  assert (Ei : flat shape idx = (h * n + nth axis idx 0) * N3 + k) by (rewrite <- (replace_same axis idx) at 1 by lia; apply E). rewrite Ei.
  erewrite total_ext; [|intros j _; rewrite E; reflexivity].
  apply (back_equation _ _ _ _ _ _ _ _ Hf m n (nth axis idx 0) (fun j => b ((h * n + j) * N3 + k)) (fun j => run order b ((h * n + j) * N3 + k)) Hv H2 (Hfirst _ H2)).
  now apply Hs.
Qed.
Print Assumptions upper_solve_value.

(** ... which is the only one. *)
Theorem upper_solve_unique {K} (k0 k1 : K) kadd kmul ksub kopp kdiv kinv :
  field_theory k0 k1 kadd kmul ksub kopp kdiv kinv eq ->
  forall (m : csr K) n (b x x' : nat -> K),
  csr_valid m n n -> canonical m n -> stored_upper m n -> (forall i, i < n -> entry k0 kadd m i i <> k0) ->
  (forall i, i < n -> total k0 kadd n (fun j => kmul (entry k0 kadd m i j) (x j)) = b i) ->
  (forall i, i < n -> total k0 kadd n (fun j => kmul (entry k0 kadd m i j) (x' j)) = b i) -> forall i, i < n -> x i = x' i.
Proof.
  intros Hf m n b x x' Hv Hc Hu Hd Hx Hx'. destruct (upper_rows _ _ _ _ _ _ _ _ Hf m n Hv Hc Hu Hd) as [Ht Hfirst].
  apply (back_unique k0 kadd kmul ksub kdiv m n b x x' Ht); intros i Hi; (apply (back_equation _ _ _ _ _ _ _ _ Hf m n i b _ Hv Hi (Hfirst i Hi)); auto).
Qed.
Print Assumptions upper_solve_unique.

(** C44: the call returns nothing, so that without an output array its result is lost. *)
Theorem upper_solve_returned_refuted {K} (order : list (@write K)) rhs : solve_upper_sparse order rhs None = (None, None).
Proof. reflexivity. Qed.
Print Assumptions upper_solve_returned_refuted.
Theorem upper_solve_output {K} (order : list (@write K)) rhs out : fst (solve_upper_sparse order rhs (Some out)) = Some (run order rhs).
Proof. reflexivity. Qed.
Print Assumptions upper_solve_output.

(** C44: a zero stored below the diagonal is taken for the diagonal. *)
Theorem upper_solve_stored_zero_refuted {K} (k0 : K) kmul ksub kdiv (m : csr K) (b : nat -> K) order :
  Ap m 1 = 1 -> Ap m 2 = 3 -> Aj m 1 = 0 -> Aj m 2 = 1 -> Ax m 1 = k0 ->
  interleaves (solve_upper_csr kmul ksub kdiv m [2] 0) order -> Ap m 0 = 0 -> run order b 1 = kdiv (ksub (b 1) (kmul (Ax m 2) (b 1))) k0.
Proof.
  intros E1 E2 E3 E4 E5 Ho E0. cbn [solve_upper_csr Nat.eqb] in Ho. unfold solve_upper_csr_vec in Ho. apply interleaves_single in Ho as ->.
  cbn [seq rev app map run fold_left fst snd]. rewrite upd_ne by lia. rewrite upd_eq. cbn [plus]. rewrite E1, E2. cbn [range_down range seq rev app plus Nat.sub fold_left]. now rewrite E4, E5.
Qed.
Print Assumptions upper_solve_stored_zero_refuted.

(** ** Real and complex matrices; a concrete one *)
Definition ex_csr : csr R := Csr (fun i => nth i [0; 2; 3] 3) (fun jj => nth jj [0; 1; 1] 1) (fun jj => nth jj [2; 1; 4]%R 0%R).
Example ex_valid : csr_valid ex_csr 2 2 /\ canonical ex_csr 2 /\ stored_upper ex_csr 2 /\ (forall i, i < 2 -> entry 0%R Rplus ex_csr i i <> 0%R).
Proof.
  repeat split.
  - destruct i as [|[|i]]; cbn in *; lia.
  - intros jj Hjj. destruct i as [|[|i]]; cbn in *; destruct jj as [|[|[|jj]]]; cbn; lia.
  - intros i jj jj' Hi H1 H2 H3. destruct i as [|[|i]]; cbn in *; destruct jj as [|[|[|jj]]], jj' as [|[|[|jj']]]; cbn; lia.
  - intros i jj Hi Hjj. destruct i as [|[|i]]; cbn in *; destruct jj as [|[|[|jj]]]; cbn; lia.
  - intros i Hi. destruct i as [|[|i]]; [| |lia]; cbn; lra.
Qed.
Example ex_apply (x y : nat -> R) order : interleaves (apply_csr 0%R Rplus Rmult ex_csr [3; 2; 2] 2 x 1) order ->
  run order y 9 = (2 * x 9%nat + (1 * x 11%nat))%R.
Proof.
  intros Ho. destruct ex_valid as [Hv _]. pose proof (sparse_apply_value 0%R 1%R Rplus Rmult Rminus Ropp Rdiv Rinv RealField.Rfield ex_csr [3; 2; 2] 2 x y 1 order ltac:(cbn; lia) Hv Ho [2; 0; 1]) as H.
  cbn in H. rewrite H by (repeat constructor; lia). lra.
Qed.
Example ex_solve (b : nat -> R) order : interleaves (solve_upper_csr Rmult Rminus Rdiv ex_csr [3; 2; 2] 1) order ->
  (2 * run order b 9%nat + run order b 11%nat = b 9%nat)%R /\ (4 * run order b 11%nat = b 11%nat)%R.
Proof.
  intros Ho. destruct ex_valid as (Hv & Hc & Hu & Hd).
  pose proof (upper_solve_value 0%R 1%R Rplus Rmult Rminus Ropp Rdiv Rinv RealField.Rfield ex_csr [3; 2; 2] b 1 order ltac:(cbn; lia) Hv Hc Hu Hd Ho) as H.
  pose proof (H [2; 0; 1]) as H0. pose proof (H [2; 1; 1]) as H1. cbn in H0, H1. split.
  - rewrite <- H0 by (repeat constructor; lia). lra.
  - rewrite <- H1 by (repeat constructor; lia). lra.
Qed.
Example complex_field : field_theory (Complex.RtoC 0) (Complex.RtoC 1) Complex.Cplus Complex.Cmult Complex.Cminus Complex.Copp Complex.Cdiv Complex.Cinv eq.
Proof. exact Complex.C_field_theory. Qed.
