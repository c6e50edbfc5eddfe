(** C101: products with radial functions in balls. *)
From Coq Require Import List Arith ZArith Reals Bool Lia Lra Field.
Import ListNotations.
From Coquelicot Require Import Complex.
From Verif Require Import MatSolvers_Model CSR_Spec MatSolvers_Spec Clenshaw_Model Clenshaw_Spec Clenshaw_Proofs ShellNCC_Model ShellNCC_Spec JacobiNCC_Spec DiskNCC_Spec BallNCC_Model BallNCC_Spec BallNCC_Proofs.
Local Open Scope R_scope.

(** Real fields: all degrees, with all modes of the function; [f n] is the polynomial [n] of the matrix [J], by the recursion
    of [JA] that starts with the constant [p0]. *)
Theorem ball_real_product (J radial conversion : mat R) (JA : nat -> nat -> R) (p0 cutoff : R) (N0 ell kn ka : nat) (f : nat -> nat -> nat -> R) reg_ncc reg_arg reg_out cos msin :
  let P := ball_padding N0 kn ka in let N := (N0 - ell / 2)%nat in
  square P J -> square P radial -> square P conversion -> (forall k, (k + 1 < N0)%nat -> JA k (k + 1)%nat <> 0) ->
  jacobi_functions_matrix 0 Rplus Rmult N0 P JA J f -> (forall i j, (i < P)%nat -> (j < P)%nat -> f 0%nat i j = if (i =? j)%nat then p0 else 0) ->
  (Z.abs (reg_out - reg_arg) <= reg_ncc)%Z -> Z.Even (reg_ncc - Z.abs (reg_out - reg_arg)) ->
  let by_coefficients c := multiplied 0 Rplus Rmult (at_ conversion) (at_ radial) P N0 (fun n => significant cutoff (c n)) f in
  exists M, ball_real J radial conversion JA p0 cutoff N0 ell kn ka reg_ncc reg_arg reg_out cos msin = Some M
    /\ multiplies N M (by_coefficients cos) (by_coefficients msin).
Proof.
  intros P N HJ Hr He HA HF H0 Hd [h Eh] bc. unfold ball_real.
  assert (Ec : ball_condition reg_ncc reg_arg reg_out = true).
  { unfold ball_condition. apply andb_true_intro. split; [apply Z.leb_le; lia|]. apply Z.eqb_eq. rewrite Eh, Z.mul_comm. apply Z_mod_mult. }
  rewrite Ec. fold N P. pose proof (padding_large N0 ell kn ka : (N <= P)%nat) as HP.
  destruct (ball_entries 0 1 Rplus Rmult Rminus Rdiv Ropp Rinv Rabs Rfield J radial conversion JA p0 cutoff N0 P N cos f HP HJ Hr He HA HF H0) as (Mc & EMc & (Cr & Cc) & HC).
  destruct (ball_entries 0 1 Rplus Rmult Rminus Rdiv Ropp Rinv Rabs Rfield J radial conversion JA p0 cutoff N0 P N msin f HP HJ Hr He HA HF H0) as (Ms & EMs & (Sr & Sc) & HS).
  change (ball_size N0 ell) with N. rewrite EMc, EMs. eexists. split; [reflexivity|]. unfold multiplies, bmat. cbn [nr nc at_]. rewrite Cr, Cc, Sr, Sc. split; [reflexivity|]. split; [reflexivity|]. intros i j Hi Hj.
  rewrite (proj2 (Nat.ltb_lt i N) Hi), (proj2 (Nat.ltb_lt j N) Hj), (proj2 (Nat.ltb_ge (N + i) N) ltac:(lia)), (proj2 (Nat.ltb_ge (N + j) N) ltac:(lia)).
  rewrite !(Nat.add_comm N), !Nat.add_sub, HC, HS by assumption. auto.
Qed.
(** Complex fields. *)
Theorem ball_complex_product (J radial conversion : mat C) (JA : nat -> nat -> C) (p0 : C) (cutoff : R) (N0 ell kn ka : nat) (f : nat -> nat -> nat -> C) reg_ncc reg_arg reg_out coeffs :
  let P := ball_padding N0 kn ka in let N := (N0 - ell / 2)%nat in
  square P J -> square P radial -> square P conversion -> (forall k, (k + 1 < N0)%nat -> JA k (k + 1)%nat <> RtoC 0) ->
  jacobi_functions_matrix (RtoC 0) Cplus Cmult N0 P JA J f -> (forall i j, (i < P)%nat -> (j < P)%nat -> f 0%nat i j = if (i =? j)%nat then p0 else RtoC 0) ->
  (Z.abs (reg_out - reg_arg) <= reg_ncc)%Z -> Z.Even (reg_ncc - Z.abs (reg_out - reg_arg)) ->
  exists M, ball_complex J radial conversion JA p0 cutoff N0 ell kn ka reg_ncc reg_arg reg_out coeffs = Some M /\ square N M
    /\ forall i j, (i < N)%nat -> (j < N)%nat -> at_ M i j = multiplied (RtoC 0) Cplus Cmult (at_ conversion) (at_ radial) P N0 (fun n => sizeable cutoff (coeffs n)) f i j.
Proof.
  intros P N HJ Hr He HA HF H0 Hd [h Eh]. unfold ball_complex.
  assert (Ec : ball_condition reg_ncc reg_arg reg_out = true).
  { unfold ball_condition. apply andb_true_intro. split; [apply Z.leb_le; lia|]. apply Z.eqb_eq. rewrite Eh, Z.mul_comm. apply Z_mod_mult. }
  rewrite Ec. fold P.
  exact (ball_entries (RtoC 0) (RtoC 1) Cplus Cmult Cminus Cdiv Copp Cinv Cmod C_field_theory J radial conversion JA p0 cutoff N0 P N coeffs f (padding_large N0 ell kn ka) HJ Hr He HA HF H0).
Qed.
(** Products of regularities that do not match vanish. *)
Theorem ball_unmatched (J radial conversion : mat R) (J' radial' conversion' : mat C) JA JA' p0 p0' cutoff (N0 ell kn ka : nat) reg_ncc reg_arg reg_out cos msin coeffs :
  let N := (N0 - ell / 2)%nat in (reg_ncc < Z.abs (reg_out - reg_arg))%Z \/ Z.Odd (reg_ncc - Z.abs (reg_out - reg_arg)) ->
  (exists M, ball_real J radial conversion JA p0 cutoff N0 ell kn ka reg_ncc reg_arg reg_out cos msin = Some M /\ multiplies N M (fun _ _ => 0) (fun _ _ => 0))
  /\ exists M, ball_complex J' radial' conversion' JA' p0' cutoff N0 ell kn ka reg_ncc reg_arg reg_out coeffs = Some M /\ square N M /\ forall i j, at_ M i j = RtoC 0.
Proof.
  intros N H. assert (Ec : ball_condition reg_ncc reg_arg reg_out = false).
  { unfold ball_condition. apply andb_false_iff. destruct H as [H|[h Eh]]; [left; apply Z.leb_gt; lia|right; apply Z.eqb_neq].
    rewrite Eh, (Z.mul_comm 2 h), Z.add_comm, Z_mod_plus_full. discriminate. }
  unfold ball_real, ball_complex. rewrite Ec. change (ball_size N0 ell) with N. split; eexists; (split; [reflexivity|]).
  - unfold multiplies. cbn [nr nc at_]. split; [lia|]. split; [lia|]. intros. rewrite Ropp_0. auto.
  - split; [split; reflexivity|]. reflexivity.
Qed.
(** The padding is enough: any larger number [P'] of modes gives the same matrix, if the matrix of the coordinate is
    tridiagonal, conversion takes a mode to itself and [we] modes below it and the radial factor takes it down by [wr] at most.
    In the code, conversion by [dk] should have [we = dk], and tensors of rank two or less [wr] two or less: this is not proved. *)
Theorem ball_padding_exact (J JA conversion radial : nat -> nat -> R) (p0 : R) (N0 kn ka we wr P' : nat) (c : nat -> R) (f f' : nat -> nat -> nat -> R) :
  let P := ball_padding N0 kn ka in
  (forall i j, (S i < j \/ S j < i)%nat -> J i j = 0) -> (forall k, (k + 1 < N0)%nat -> JA k (k + 1)%nat <> 0) ->
  (forall i j, (i + we < j)%nat -> conversion i j = 0) -> (forall i j, (i + wr < j)%nat -> radial i j = 0) ->
  (we + wr <= (Nat.max kn ka - ka) + 2)%nat -> (N0 + we <= P)%nat -> (P <= P')%nat ->
  jacobi_functions_matrix 0 Rplus Rmult N0 P JA (Mat P P J) f -> (forall i j, (i < P)%nat -> (j < P)%nat -> f 0%nat i j = if (i =? j)%nat then p0 else 0) ->
  jacobi_functions_matrix 0 Rplus Rmult N0 P' JA (Mat P' P' J) f' -> (forall i j, (i < P')%nat -> (j < P')%nat -> f' 0%nat i j = if (i =? j)%nat then p0 else 0) ->
  forall i j, (i < N0)%nat -> (j < N0)%nat -> multiplied 0 Rplus Rmult conversion radial P N0 c f i j = multiplied 0 Rplus Rmult conversion radial P' N0 c f' i j.
Proof.
  intros P HJ HA He Hr Hw Hq HP F1 F0 F1' F0'. apply (padding_exact J JA p0 N0 HJ HA conversion radial we wr); try assumption; [|split; assumption|split; assumption].
  unfold P, ball_padding. cbv zeta. set (dk := (Nat.max kn ka - ka)%nat) in *. pose proof (Nat.div_mod (N0 + 1) 2 ltac:(lia)). pose proof (Nat.mod_upper_bound (N0 + 1) 2 ltac:(lia)).
  pose proof (Nat.div_mod (dk + 1) 2 ltac:(lia)). pose proof (Nat.mod_upper_bound (dk + 1) 2 ltac:(lia)). lia.
Qed.
Print Assumptions ball_real_product.
Print Assumptions ball_complex_product.
Print Assumptions ball_unmatched.
Print Assumptions ball_padding_exact.

(** ** Example.  A function with two modes, at the degree 2, which has one mode: three modes are used for the product. *)
Definition J3 : mat R := Mat 3 3 (fun i j => if (i =? j)%nat then 1 / 3 else if ((i =? S j) || (j =? S i))%nat then 1 / 5 else 0).
Definition JA3 (i j : nat) : R := if (i =? j)%nat then 1 / 7 else 1 / 2.
Definition f3 (n i j : nat) : R := match n with 0%nat => if (i =? j)%nat then 1 else 0 | _ => 2 * (at_ J3 i j - (if (i =? j)%nat then 1 / 7 else 0)) end.
Example ball_example : ball_padding 2 0 0 = 3%nat /\ square 3 J3 /\ square 3 (identity 0 1 3) /\ (forall k, (k + 1 < 2)%nat -> JA3 k (k + 1)%nat <> 0)
  /\ jacobi_functions_matrix 0 Rplus Rmult 2 3 JA3 J3 f3 /\ (forall i j, (i < 3)%nat -> (j < 3)%nat -> f3 0 i j = if (i =? j)%nat then 1 else 0)
  /\ (Z.abs (1 - 0) <= 1)%Z /\ Z.Even (1 - Z.abs (1 - 0))
  /\ multiplied 0 Rplus Rmult (at_ (identity 0 1 3)) (at_ (identity 0 1 3)) 3 2 (fun n => significant 0 (mode 1 n)) f3 0 0 = 8 / 21.
Proof.
  split; [reflexivity|]. split; [split; reflexivity|]. split; [split; reflexivity|]. split; [intros [|k] Hk; [cbn; lra|lia]|]. split.
  - intros [|n] [|[|[|i]]] [|[|[|j]]] Hn Hi Hj; try lia; cbn; lra.
  - split; [intros; reflexivity|]. split; [cbn; lia|]. split; [exists 0%Z; reflexivity|]. cbn. unfold significant, mode. cbn.
    rewrite !Rabs_R1, !Rabs_R0. destruct (Rlt_dec 0 1), (Rlt_dec 0 0); lra.
Qed.
(** The same function with four modes for the product: the hypotheses of [ball_padding_exact] with [we = wr = 0]. *)
Definition J_all (i j : nat) : R := if (i =? j)%nat then 1 / 3 else if ((i =? S j) || (j =? S i))%nat then 1 / 5 else 0.
Definition f_all (n i j : nat) : R := match n with 0%nat => if (i =? j)%nat then 1 else 0 | _ => 2 * (J_all i j - (if (i =? j)%nat then 1 / 7 else 0)) end.
Example ball_padding_example : (forall i j, (S i < j \/ S j < i)%nat -> J_all i j = 0) /\ (forall i j, (i + 0 < j)%nat -> at_ (identity 0 1 3) i j = 0)
  /\ (0 + 0 <= (Nat.max 0 0 - 0) + 2)%nat /\ (2 + 0 <= ball_padding 2 0 0)%nat /\ (ball_padding 2 0 0 <= 4)%nat
  /\ jacobi_functions_matrix 0 Rplus Rmult 2 3 JA3 (Mat 3 3 J_all) f_all /\ jacobi_functions_matrix 0 Rplus Rmult 2 4 JA3 (Mat 4 4 J_all) f_all.
Proof.
  split; [intros i j H; unfold J_all; rewrite (proj2 (Nat.eqb_neq i j)), (proj2 (Nat.eqb_neq i (S j))), (proj2 (Nat.eqb_neq j (S i))) by lia; reflexivity|].
  split; [intros i j H; cbn; rewrite (proj2 (Nat.eqb_neq i j)) by lia; reflexivity|]. split; [cbn; lia|]. split; [vm_compute; lia|]. split; [vm_compute; lia|].
  split; [intros [|n] [|[|[|i]]] [|[|[|j]]] Hn Hi Hj|intros [|n] [|[|[|[|i]]]] [|[|[|[|j]]]] Hn Hi Hj]; try lia; cbn; lra.
Qed.
