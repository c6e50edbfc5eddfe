(** Property C97: matrices of multiplication on shells by functions of colatitude and radius. *)
From Coq Require Import List ZArith Reals Bool Lia Lra.
From Coquelicot Require Import Coquelicot.
Import ListNotations.
From Verif Require Import CSR_Spec MatSolvers_Model MatSolvers_Spec MatSolvers_Proofs Clenshaw_Model Clenshaw_Spec Clenshaw_Proofs Clenshaw_Props Codomain_Proofs JacobiCalc_Model JacobiCalc_Spec JacobiCalc_Proofs JacobiCalc_Ops JacobiOps_Model JacobiOps_Proofs JacobiNCC_Model JacobiNCC_Proofs Radial_Model Radial_Spec Radial_Proofs Radial_Props ShellNCC_Model ShellNCC_Spec ShellNCC_Proofs MeridionalNCC_Model MeridionalNCC_Spec MeridionalNCC_Proofs.
Local Open Scope R_scope.
Notation series := Radial_Spec.series.
Notation ctotal := (CSR_Spec.total (RtoC 0) Cplus).
Notation complex_meridional mass := (meridional_ncc (RtoC 0) (RtoC 1) Cplus Cmult Cminus Cdiv Copp RtoC mass).
Notation complex_shell_sure mass t := (shell_ncc (RtoC 0) (RtoC 1) Cplus Cmult Cminus Cdiv Copp RtoC (fun _ => t) mass).

Section Props.
Context (mass : R -> R -> R) (Hm : mass_rules mass) (inner outer a b : R) (Hin : 0 < inner) (Hout : inner < outer) (Ha : -1 < a) (Hb : -1 < b).
Notation basis k := (shell_function mass inner outer a b k).
Let C_ext := total_ext (RtoC 0) (RtoC 1) Cplus Cmult Cminus Cdiv Copp Cinv C_field_theory.
Let C_scale := total_mul_l (RtoC 0) (RtoC 1) Cplus Cmult Cminus Cdiv Copp Cinv C_field_theory.
Let C_scale_r := total_mul_r (RtoC 0) (RtoC 1) Cplus Cmult Cminus Cdiv Copp Cinv C_field_theory.
Let C_swap := total_swap (RtoC 0) (RtoC 1) Cplus Cmult Cminus Cdiv Copp Cinv C_field_theory.
Lemma C_real n f : RtoC (CSR_Spec.total 0 Rplus n f) = ctotal n (fun i => RtoC (f i)).
Proof. apply (inj_total (RtoC 0) (RtoC 1) Cplus Cmult Cminus Cdiv Copp Cinv RtoC C_field_theory eq_refl RtoC_plus). Qed.
Lemma combine_complex n N D kn ka (c u : nat -> C) r : (forall h j r, (h < n)%nat -> (j < N)%nat -> 0 < r -> basis kn h r * basis ka j r = series (N + n) (fun i => D h i j) (basis (ka + kn)) r) -> 0 < r ->
  Cmult (complex_series n c (basis kn) r) (complex_series N u (basis ka) r) = complex_series (N + n) (fun i => ctotal N (fun j => Cmult (ctotal n (fun h => Cmult (c h) (RtoC (D h i j)))) (u j))) (basis (ka + kn)) r.
Proof.
  intros HD Hr. unfold complex_series at 1 2. rewrite <- C_scale.
  transitivity (ctotal N (fun j => ctotal n (fun h => ctotal (N + n) (fun i => Cmult (Cmult (Cmult (c h) (RtoC (D h i j))) (u j)) (RtoC (basis (ka + kn) i r)))))).
  - apply C_ext. intros j Hj. rewrite <- C_scale_r. apply C_ext. intros h Hh. transitivity (Cmult (Cmult (c h) (u j)) (Cmult (RtoC (basis kn h r)) (RtoC (basis ka j r)))); [ring|]. rewrite <- RtoC_mult, HD by assumption. unfold series. rewrite C_real, <- C_scale. apply C_ext. intros. rewrite RtoC_mult. ring.
  - unfold complex_series. rewrite (C_ext N _ (fun j => ctotal (N + n) (fun i => ctotal n (fun h => Cmult (Cmult (Cmult (c h) (RtoC (D h i j))) (u j)) (RtoC (basis (ka + kn) i r)))))) by (intros; apply C_swap).
    rewrite C_swap. apply C_ext. intros i Hi. rewrite <- C_scale_r. apply C_ext. intros j Hj. rewrite <- !C_scale_r. reflexivity.
Qed.
(** The matrix gives all retained coefficients of the products, for all operands and all shapes of the coefficients'
    matrices. *)
Theorem meridional_product kn ka N n vals norms cutoff w w' : (1 <= n <= N)%nat -> (1 <= w)%nat -> (1 <= w')%nat -> (forall k, (k < n)%nat -> nr (vals k) = w /\ nc (vals k) = w') ->
  exists M, complex_meridional mass inner outer a b kn N ka n vals norms cutoff = Some M
  /\ matrix_retains w w' N (N + n) M (fun p q => complex_series n (kept_entry cutoff norms vals p q) (basis kn)) (basis ka) (basis (ka + kn)).
Proof.
  intros [Hn0 Hn] Hw Hw' Hv. assert (HN : (1 <= N)%nat) by lia. destruct (tables mass Hm inner outer a b Hin Hout Ha Hb ka kn N n HN Hn) as (D & HD & HM). destruct (padding_bounds N kn HN) as [HP _].
  set (c := kept_entry cutoff norms vals).
  pose proof (fun q q' => HM C (RtoC 0) (RtoC 1) Cplus Cmult Cminus Cdiv Copp Cinv RtoC (fun _ => cutoff + 1) (c q q') cutoff 0%Z 0%Z C_field_theory eq_refl eq_refl RtoC_plus RtoC_mult (fun x H => f_equal fst H)) as X. clear HM.
  destruct (meridional_blocks (RtoC 0) (RtoC 1) Cplus Cmult Cminus Cdiv Copp Cinv C_field_theory RtoC mass inner outer a b kn N ka n vals norms cutoff w w' HN Hn Hw Hw') as (M & EM & Mr & Mc & HB).
  - apply (Hv 0%nat). lia.
  - apply (Hv 0%nat). lia.
  - intros q q'. destruct (X q q') as (M & E & _). exists M. exact E.
  - destruct (native_entries inner outer a b Ha Hb ka (padding N kn) 0 0 ltac:(lia)) as (J & E & Jr & Jc & _). exists J. repeat split; assumption.
  - destruct (prefactor_entries mass Hm inner outer a b Hin Hout Ha Hb ka kn) as (C & _ & _ & _ & H). destruct (H (padding N kn) ltac:(lia)) as (Q & E & Qr & Qc & _). exists Q. repeat split; assumption.
  - exists M. split; [exact EM|]. split; [exact Mr|]. split; [exact Mc|]. intros u.
    exists (fun p i => ctotal w' (fun q => ctotal N (fun j => Cmult (ctotal n (fun h => Cmult (c p q h) (RtoC (D h i j)))) (part N u q j)))). split.
    + intros p r Hp Hr. rewrite (C_ext w' _ (fun q => complex_series (N + n) (fun i => ctotal N (fun j => Cmult (ctotal n (fun h => Cmult (c p q h) (RtoC (D h i j)))) (part N u q j))) (basis (ka + kn)) r)) by (intros q _; apply combine_complex; assumption).
      unfold complex_series. rewrite C_swap. apply C_ext. intros i Hi. rewrite <- C_scale_r. reflexivity.
    + intros p i Hp Hi. unfold complex_image. rewrite Mc, (total_product (RtoC 0) (RtoC 1) Cplus Cmult Cminus Cdiv Copp Cinv C_field_theory). apply C_ext. intros q Hq. apply C_ext. intros j Hj. unfold part. f_equal.
      destruct (HB p q i j Hp Hq Hi Hj) as (M' & E' & ->). destruct (X p q) as (M2 & E2 & _ & _ & _ & HE). change (complex_shell_sure mass (cutoff + 1) inner outer a b kn N ka 0%Z n (c p q) cutoff = Some M') in E'. rewrite E2 in E'. injection E' as <-. rewrite HE by assumption.
      apply C_ext. intros h _. unfold kept. destruct (Rlt_dec cutoff (cutoff + 1)); [reflexivity|lra].
Qed.
End Props.

Print Assumptions meridional_product.
(** A scalar times a vector-valued function, on a shell with Chebyshev polynomials: three functions of one, with three
    radial modes. *)
Example meridional_example vals norms : (forall k, nr (vals k) = 3%nat /\ nc (vals k) = 1%nat) ->
  exists M, complex_meridional sample_mass 1 2 (-1 / 2) (-1 / 2) 1 4 0 3 vals norms 0 = Some M /\ nr M = 12%nat /\ nc M = 4%nat.
Proof.
  intros H. destruct (meridional_product sample_mass sample_rules 1 2 (-1 / 2) (-1 / 2) ltac:(lra) ltac:(lra) ltac:(lra) ltac:(lra) 1 0 4 3 vals norms 0 3 1 ltac:(lia) ltac:(lia) ltac:(lia) (fun k _ => H k)) as (M & E & Hr & Hc & _).
  exists M. split; [exact E|]. split; assumption.
Qed.
