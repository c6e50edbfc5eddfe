(** Properties of radial operators on disks, annuli, balls and shells.  Property C75. *)
From Coq Require Import List ZArith Reals Bool Lia Lra.
From Coquelicot Require Import Coquelicot.
Import ListNotations.
From Verif Require Import MatSolvers_Model CSR_Spec MatSolvers_Spec MatSolvers_Proofs Codomain_Model Codomain_Spec Codomain_Proofs Codomain_Props JacobiCalc_Model JacobiCalc_Spec JacobiCalc_Proofs JacobiCalc_Ops JacobiCalc_Props JacobiNCC_Proofs Radial_Model Radial_Spec Radial_Proofs.
Local Open Scope R_scope.

Section Mass.
Context (mass : R -> R -> R) (Hm : mass_rules mass).

(** ** Balls: the functions of degree [l] and parameter [k] *)
Section Ball.
Context (radius alpha : R) (Hrad : 0 < radius) (k : nat) (Hk : -1 < alpha + INR k) (N : nat) (HN : (1 <= N)%nat).
Notation at_k k := (alpha + INR k).
Let Zsum (a b : Z) (l : nat) : (a + b = Z.of_nat l)%Z -> IZR (a + b) = INR l. Proof. intros ->. rewrite <- INR_IZR_INZ. reflexivity. Qed.
Let eqd (n n' : Z) (p p' q q' : R) : n = n' -> p = p' -> q = q' -> (n, p, q) = (n', p', q'). Proof. intros -> -> ->. reflexivity. Qed.
Let moved d m p (q : nat) (s s' : domain) : s = s' -> s' = (m, p, INR q) -> forall i r, 0 < r -> zf mass d radius s i r = zernike mass d radius p q i r.
Proof. intros -> ->. intros i r Hr. apply zf_zernike; assumption. Qed.
Let zb3 l : -1 < zernike_b 3 (INR l) /\ ((0 < l)%nat -> 0 < zernike_b 3 (INR l)). Proof. destruct (zb_of 3 l) as [H1 H2]; [lia|]. split; [exact H1|apply H2; lia]. Qed.
Let zb2 l : -1 < zernike_b 2 (INR l) /\ ((0 < l)%nat -> 0 < zernike_b 2 (INR l)). Proof. destruct (zb_of 2 l) as [H1 H2]; [lia|]. split; [exact H1|apply H2; lia]. Qed.

(** Values at a radius. *)
Theorem ball_values ell regtotal l r : (ell + regtotal = Z.of_nat l)%Z -> 0 < r ->
  ball_interpolation mass radius alpha k ell regtotal N r = Some (map (fun n => zernike mass 3 radius (at_k k) l n r) (seq 0 N)).
Proof. intros E Hr. unfold ball_interpolation. rewrite (Zsum _ _ _ E). apply zernike_values; [exact Hm|exact Hrad|lia|exact Hk|exact Hr]. Qed.
(** The derivatives that raise and lower the degree, and the Laplacian. *)
Theorem ball_D_plus ell deg l : (ell + deg = Z.of_nat l)%Z ->
  derives N (ball_operator_matrix radius alpha k (Signed LD true) ell deg N) (zernike mass 3 radius (at_k k) l) (zernike mass 3 radius (at_k (S k)) (S l)) (fun r => - INR l / r).
Proof.
  intros E. unfold ball_operator_matrix. rewrite (Zsum _ _ _ E). pose proof (pos_INR l). apply (derives_of (zf mass 3 radius) _ (fun r => - INR l / r)).
  - apply (D_up_pulled mass Hm 3 radius Hrad); [exact Hk|apply zb3|lra].
  - apply Z.leb_le; reflexivity.
  - intros i r Hr. apply zf_zernike; assumption.
  - eapply (moved 3 _ _ _ _ _ eq_refl). cbn [shift ball_operator zernike_signed sign_of zernike_D cod flip dn da db]. apply eqd; [reflexivity|rewrite S_INR; lra|rewrite S_INR; lra].
  - intros; reflexivity.
Qed.
Theorem ball_D_minus ell deg l : (ell + deg = Z.of_nat (S l))%Z ->
  derives N (ball_operator_matrix radius alpha k (Signed LD false) ell deg N) (zernike mass 3 radius (at_k k) (S l)) (zernike mass 3 radius (at_k (S k)) l) (fun r => (INR (S l) + 1) / r).
Proof.
  intros E. unfold ball_operator_matrix. rewrite (Zsum _ _ _ E). pose proof (lt_0_INR (S l) ltac:(lia)). apply (derives_of (zf mass 3 radius) _ (fun r => (INR (S l) + INR 3 - 2) / r)).
  - apply (D_down_pulled mass Hm 3 radius Hrad); [exact Hk|apply zb3; lia|lra].
  - apply Z.leb_le; reflexivity.
  - intros i r Hr. apply zf_zernike; assumption.
  - eapply (moved 3 _ _ _ _ _ eq_refl). cbn [shift ball_operator zernike_signed sign_of zernike_D cod flip dn da db]. apply eqd; [reflexivity|rewrite S_INR; lra|rewrite S_INR; lra].
  - intros r _. f_equal. rewrite (INR_IZR_INZ 3). change (IZR (Z.of_nat 3)) with 3. lra.
Qed.
Theorem ball_laplacian ell deg l : (ell + deg = Z.of_nat l)%Z ->
  derives_twice N (ball_operator_matrix radius alpha k Lap ell deg N) (zernike mass 3 radius (at_k k) l) (zernike mass 3 radius (at_k (S (S k))) l) (fun r => 2 / r) (fun r => - (INR l * (INR l + 1)) / r ^ 2).
Proof.
  intros E. unfold ball_operator_matrix. rewrite (Zsum _ _ _ E). destruct N as [|n] eqn:En; [lia|]. pose proof (pos_INR l). apply (twice_of (zf mass 3 radius) _ (fun r => (INR 3 - 1) / r) (fun r => - (INR l * (INR l + INR 3 - 2)) / r ^ 2)).
  - apply (lap_up_pulled mass Hm 3 radius Hrad); [exact Hk|apply zb3|lra].
  - apply Z.leb_le; reflexivity.
  - intros i r Hr. apply zf_zernike; assumption.
  - eapply (moved 3 _ _ _ _ _ eq_refl). transitivity ((-1 + Z.of_nat (S n))%Z, 2 + at_k k, 0 + INR l); [reflexivity|]. apply eqd; [reflexivity|rewrite !S_INR; lra|lra].
  - intros r _. rewrite (INR_IZR_INZ 3). change (IZR (Z.of_nat 3)) with 3. split; f_equal; lra.
Qed.
(** Conversion to higher parameters keeps the function. *)
Theorem ball_conversion ell regtotal l dk : (ell + regtotal = Z.of_nat l)%Z ->
  multiplies N 0 (ball_conversion_matrix radius alpha k ell regtotal dk N) (zernike mass 3 radius (at_k k) l) (zernike mass 3 radius (at_k (k + dk)) l) (fun _ => 1).
Proof.
  intros E. unfold ball_conversion_matrix. rewrite (Zsum _ _ _ E). destruct (pow_E mass Hm 3 radius dk N (at_k k) l ltac:(lia) HN Hk) as [Ec _]. pose proof (pos_INR dk). apply (multiplies_of (zf mass 3 radius) _ (fun _ => 1)).
  - apply zf_unsized.
  - exact HN.
  - intros n Hn. apply (pow_E mass Hm 3 radius); [lia|exact Hn|exact Hk].
  - rewrite Ec. reflexivity.
  - rewrite Ec. apply (zf_independent mass Hm 3 radius Hrad); [cbn [da]; rewrite <- INR_IZR_INZ; lra|cbn [db]; rewrite Rplus_0_l; apply zb3].
  - intros i r Hr. apply zf_zernike; assumption.
  - rewrite Ec. eapply (moved 3 _ _ _ _ _ eq_refl). cbn [shift flip dn da db]. apply eqd; [reflexivity|rewrite <- INR_IZR_INZ, plus_INR; lra|lra].
  - intros; reflexivity.
Qed.
(** Multiplication by powers of the radius; exact on functions with room for the added powers. *)
Theorem ball_multiplication ell regtotal l order d : (ell + regtotal = Z.of_nat l)%Z -> (0 <= Z.of_nat l + order)%Z -> (0 <= d)%Z ->
  multiplies N (Z.to_nat (- order) + Z.to_nat (d / 2)) (ball_multiplication_matrix alpha k ell regtotal order d N) (zernike mass 3 radius (at_k k) l) (zernike mass 3 radius (at_k k) (Z.to_nat (Z.of_nat l + order)))
    (fun r => (r / radius) ^ (Z.abs_nat order + 2 * Z.to_nat (d / 2))).
Proof.
  intros E Ho Hd. unfold ball_multiplication_matrix. rewrite (Zsum _ _ _ E). destruct (mult_pulled mass Hm 3 radius Hrad order d l N (at_k k) ltac:(lia) HN Hk Ho Hd) as [Ec _].
  assert (El : IZR order + INR l = INR (Z.to_nat (Z.of_nat l + order))) by (rewrite !INR_IZR_INZ, Z2Nat.id, plus_IZR by exact Ho; lra). apply (multiplies_of (zf mass 3 radius) _ (fun r => (r / radius) ^ (Z.abs_nat order + 2 * Z.to_nat (d / 2)))).
  - apply zf_unsized.
  - exact HN.
  - intros n Hn. apply (mult_pulled mass Hm 3 radius Hrad); (lia || assumption).
  - rewrite Ec. cbn [dn]. unfold rises. assert (0 <= d / 2)%Z by (apply Z.div_pos; lia). lia.
  - rewrite Ec. cbn [shift flip dn da db]. rewrite El. apply (zf_independent mass Hm 3 radius Hrad); [lra|apply zb3].
  - intros i r Hr. apply zf_zernike; assumption.
  - rewrite Ec. eapply (moved 3 _ _ _ _ _ eq_refl). cbn [shift flip dn da db]. apply eqd; [reflexivity|lra|exact El].
  - intros; reflexivity.
Qed.
(** Multiplication by the radius, and by a function that vanishes on the surface. *)
Theorem ball_R_plus ell deg l : (ell + deg = Z.of_nat l)%Z ->
  multiplies N 0 (ball_operator_matrix radius alpha k (Signed LR true) ell deg N) (zernike mass 3 radius (at_k k) l) (zernike mass 3 radius (at_k k) (S l)) (fun r => r).
Proof.
  intros E. unfold ball_operator_matrix. rewrite (Zsum _ _ _ E). pose proof (pos_INR l). apply (multiplies_of (zf mass 3 radius) _ (fun r => radius * (r / radius))).
  - apply zf_unsized.
  - exact HN.
  - intros n Hn. apply (R_up_pulled mass Hm 3 radius Hrad); [exact Hn|exact Hk|apply zb3|lra].
  - reflexivity.
  - cbn [shift ball_operator zernike_signed sign_of zernike_R cod flip dn da db]. replace (1 + INR l) with (INR (S l)) by (rewrite S_INR; lra). apply (zf_independent mass Hm 3 radius Hrad); [lra|apply zb3].
  - intros i r Hr. apply zf_zernike; assumption.
  - eapply (moved 3 _ _ _ _ _ eq_refl). cbn [shift ball_operator zernike_signed sign_of zernike_R cod flip dn da db]. apply eqd; [reflexivity|lra|rewrite S_INR; lra].
  - intros r _. field. lra.
Qed.
Theorem ball_R_minus ell deg l : (ell + deg = Z.of_nat (S l))%Z ->
  multiplies N 1 (ball_operator_matrix radius alpha k (Signed LR false) ell deg N) (zernike mass 3 radius (at_k k) (S l)) (zernike mass 3 radius (at_k k) l) (fun r => r).
Proof.
  intros E. unfold ball_operator_matrix. rewrite (Zsum _ _ _ E). pose proof (lt_0_INR (S l) ltac:(lia)). apply (multiplies_of (zf mass 3 radius) _ (fun r => radius * (r / radius))).
  - apply zf_unsized.
  - exact HN.
  - intros n Hn. apply (R_down_pulled mass Hm 3 radius Hrad); [exact Hn|exact Hk|apply zb3; lia|lra].
  - reflexivity.
  - cbn [shift ball_operator zernike_signed sign_of zernike_R cod flip dn da db]. replace (-1 + INR (S l)) with (INR l) by (rewrite S_INR; lra). apply (zf_independent mass Hm 3 radius Hrad); [lra|apply zb3].
  - intros i r Hr. apply zf_zernike; assumption.
  - eapply (moved 3 _ _ _ _ _ eq_refl). cbn [shift ball_operator zernike_signed sign_of zernike_R cod flip dn da db]. apply eqd; [reflexivity|lra|rewrite S_INR; lra].
  - intros r _. field. lra.
Qed.
Theorem ball_E_minus ell deg l k' : k = S k' -> -1 < alpha + INR k' -> (ell + deg = Z.of_nat l)%Z ->
  multiplies N 1 (ball_operator_matrix radius alpha k (Signed LE false) ell deg N) (zernike mass 3 radius (at_k k) l) (zernike mass 3 radius (at_k k') l) (fun r => 1 - (r / radius) ^ 2).
Proof.
  intros Ek Hk' E. unfold ball_operator_matrix. rewrite (Zsum _ _ _ E). pose proof (pos_INR l). assert (Ek' : INR k = INR k' + 1) by (rewrite Ek, S_INR; reflexivity). apply (multiplies_of (zf mass 3 radius) _ (fun r => 1 - (r / radius) ^ 2)).
  - apply zf_unsized.
  - exact HN.
  - intros n Hn. apply (E_down_pulled mass Hm 3 radius); [exact Hn|lra|apply zb3|lra].
  - reflexivity.
  - cbn [shift ball_operator zernike_signed sign_of zernike_E cod flip dn da db]. rewrite Rplus_0_l. apply (zf_independent mass Hm 3 radius Hrad); [lra|apply zb3].
  - intros i r Hr. apply zf_zernike; assumption.
  - eapply (moved 3 _ _ _ _ _ eq_refl). cbn [shift ball_operator zernike_signed sign_of zernike_E cod flip dn da db]. apply eqd; [reflexivity|lra|lra].
  - intros; reflexivity.
Qed.

(** ** Disks: components of azimuthal order [m] and spin [s], of degree [|m + s|], for either sign *)
Theorem disk_values m s r : 0 < r ->
  disk_interpolation mass radius alpha k m s N r = Some (map (fun n => zernike mass 2 radius (at_k k) (Z.abs_nat (m + s)) n r) (seq 0 N)).
Proof. intros Hr. unfold disk_interpolation. replace (IZR (Z.abs (m + s))) with (INR (Z.abs_nat (m + s))) by (rewrite INR_IZR_INZ, Zabs2Nat.id_abs; reflexivity). apply zernike_values; [exact Hm|exact Hrad|lia|exact Hk|exact Hr]. Qed.
Let absi z : IZR (Z.abs z) = INR (Z.abs_nat z). Proof. rewrite INR_IZR_INZ, Zabs2Nat.id_abs. reflexivity. Qed.
Let disk_up m s l (E : Z.abs_nat (m + s) = l) : derives N (squared (zernike_D 2 radius 1) (Z.of_nat N, at_k k, IZR (Z.abs (m + s)))) (zernike mass 2 radius (at_k k) l) (zernike mass 2 radius (at_k (S k)) (S l)) (fun r => - INR l / r).
Proof.
  rewrite absi, E. pose proof (pos_INR l). apply (derives_of (zf mass 2 radius) _ (fun r => - INR l / r)).
  - apply (D_up_pulled mass Hm 2 radius Hrad); [exact Hk|apply zb2|lra].
  - apply Z.leb_le; reflexivity.
  - intros i r Hr. apply zf_zernike; assumption.
  - eapply (moved 2 _ _ _ _ _ eq_refl). cbn [shift zernike_D cod flip dn da db]. apply eqd; [reflexivity|rewrite S_INR; lra|rewrite S_INR; lra].
  - intros; reflexivity.
Qed.
Let disk_down m s l (E : Z.abs_nat (m + s) = S l) : derives N (squared (zernike_D 2 radius (-1)) (Z.of_nat N, at_k k, IZR (Z.abs (m + s)))) (zernike mass 2 radius (at_k k) (S l)) (zernike mass 2 radius (at_k (S k)) l) (fun r => INR (S l) / r).
Proof.
  rewrite absi, E. pose proof (lt_0_INR (S l) ltac:(lia)). apply (derives_of (zf mass 2 radius) _ (fun r => (INR (S l) + INR 2 - 2) / r)).
  - apply (D_down_pulled mass Hm 2 radius Hrad); [exact Hk|apply zb2; lia|lra].
  - apply Z.leb_le; reflexivity.
  - intros i r Hr. apply zf_zernike; assumption.
  - eapply (moved 2 _ _ _ _ _ eq_refl). cbn [shift zernike_D cod flip dn da db]. apply eqd; [reflexivity|rewrite S_INR; lra|rewrite S_INR; lra].
  - intros r _. f_equal. rewrite (INR_IZR_INZ 2). change (IZR (Z.of_nat 2)) with 2. lra.
Qed.
(** Raising the spin subtracts [(m + s) / r] from the derivative; lowering it adds that. *)
Theorem disk_D (plus : bool) m s :
  derives N (disk_operator_matrix radius alpha k (Signed LD plus) m s N) (zernike mass 2 radius (at_k k) (Z.abs_nat (m + s))) (zernike mass 2 radius (at_k (S k)) (Z.abs_nat (m + s + sign_of plus))) (fun r => - (IZR (sign_of plus) * IZR (m + s)) / r).
Proof.
  unfold disk_operator_matrix. cbn [disk_operator zernike_signed].
  destruct (Z.eqb_spec (m + s) 0) as [E0|N0]; [|destruct (Z.ltb_spec (m + s) 0)].
  - pose proof (disk_up m s 0 ltac:(rewrite E0; reflexivity)) as X. rewrite E0 in *. replace (Z.abs_nat (0 + sign_of plus)) with 1%nat by (destruct plus; reflexivity). destruct X as (A & EA & X1 & X2 & X3). exists A. repeat (split; [assumption|]). intros c r Hr. destruct (X3 c r Hr) as (e & He & Ee). exists e. split; [exact He|]. rewrite Rmult_0_r. exact Ee.
  - destruct plus; cbn [sign_of Z.opp].
    + destruct (Z.abs_nat (m + s)) as [|l] eqn:E; [lia|]. pose proof (disk_down m s l E) as X. replace (Z.abs_nat (m + s + 1)) with l by lia. destruct X as (A & EA & X1 & X2 & X3). exists A. repeat (split; [assumption|]). intros c r Hr. destruct (X3 c r Hr) as (e & He & Ee). exists e. split; [exact He|]. rewrite Ee. f_equal. f_equal. f_equal. rewrite INR_IZR_INZ. replace (Z.of_nat (S l)) with (- (m + s))%Z by lia. rewrite opp_IZR. ring.
    + destruct (Z.abs_nat (m + s)) as [|l] eqn:E; [lia|]. pose proof (disk_up m s (S l) E) as X. replace (Z.abs_nat (m + s + -1)) with (S (S l)) by lia. destruct X as (A & EA & X1 & X2 & X3). exists A. repeat (split; [assumption|]). intros c r Hr. destruct (X3 c r Hr) as (e & He & Ee). exists e. split; [exact He|]. rewrite Ee. f_equal. f_equal. f_equal. rewrite INR_IZR_INZ. replace (Z.of_nat (S l)) with (- (m + s))%Z by lia. rewrite opp_IZR. ring.
  - destruct plus; cbn [sign_of Z.opp].
    + destruct (Z.abs_nat (m + s)) as [|l] eqn:E; [lia|]. pose proof (disk_up m s (S l) E) as X. replace (Z.abs_nat (m + s + 1)) with (S (S l)) by lia. destruct X as (A & EA & X1 & X2 & X3). exists A. repeat (split; [assumption|]). intros c r Hr. destruct (X3 c r Hr) as (e & He & Ee). exists e. split; [exact He|]. rewrite Ee. f_equal. f_equal. f_equal. rewrite INR_IZR_INZ. replace (Z.of_nat (S l)) with (m + s)%Z by lia. ring.
    + destruct (Z.abs_nat (m + s)) as [|l] eqn:E; [lia|]. pose proof (disk_down m s l E) as X. replace (Z.abs_nat (m + s + -1)) with l by lia. destruct X as (A & EA & X1 & X2 & X3). exists A. repeat (split; [assumption|]). intros c r Hr. destruct (X3 c r Hr) as (e & He & Ee). exists e. split; [exact He|]. rewrite Ee. f_equal. f_equal. f_equal. rewrite INR_IZR_INZ. replace (Z.of_nat (S l)) with (m + s)%Z by lia. ring.
Qed.
Theorem disk_laplacian m s :
  derives_twice N (disk_operator_matrix radius alpha k Lap m s N) (zernike mass 2 radius (at_k k) (Z.abs_nat (m + s))) (zernike mass 2 radius (at_k (S (S k))) (Z.abs_nat (m + s))) (fun r => 1 / r) (fun r => - IZR (m + s) ^ 2 / r ^ 2).
Proof.
  unfold disk_operator_matrix. cbn [disk_operator]. rewrite absi. set (l := Z.abs_nat (m + s)). pose proof (pos_INR l).
  assert (El : INR l * (INR l + INR 2 - 2) = IZR (m + s) ^ 2) by (unfold l; rewrite INR_IZR_INZ, Zabs2Nat.id_abs, (INR_IZR_INZ 2); cbn [Z.of_nat]; replace (IZR (m + s) ^ 2) with (IZR (Z.abs (m + s)) ^ 2); [change (IZR (Z.pos (Pos.of_succ_nat 1))) with 2; ring|rewrite abs_IZR; apply pow2_abs]).
  apply (twice_of (zf mass 2 radius) _ (fun r => (INR 2 - 1) / r) (fun r => - (INR l * (INR l + INR 2 - 2)) / r ^ 2)).
  - destruct (Z.ltb_spec (m + s) 0).
    + apply (lap_down_pulled mass Hm 2 radius Hrad); [exact Hk|apply zb2; lia|apply lt_0_INR; lia].
    + destruct N as [|n]; [lia|]. apply (lap_up_pulled mass Hm 2 radius Hrad); [exact Hk|apply zb2|lra].
  - destruct (m + s <? 0)%Z; apply Z.leb_le; reflexivity.
  - intros i r Hr. apply zf_zernike; assumption.
  - apply (moved 2 (-1 + Z.of_nat N)%Z _ _ _ _ eq_refl). transitivity ((-1 + Z.of_nat N)%Z, 2 + at_k k, 0 + INR l); [destruct (m + s <? 0)%Z; reflexivity|]. apply eqd; [reflexivity|rewrite !S_INR; lra|lra].
  - intros r _. rewrite El, (INR_IZR_INZ 2). change (IZR (Z.of_nat 2)) with 2. split; f_equal; lra.
Qed.
Theorem disk_conversion m s dk :
  multiplies N 0 (disk_conversion_matrix radius alpha k m s dk N) (zernike mass 2 radius (at_k k) (Z.abs_nat (m + s))) (zernike mass 2 radius (at_k (k + dk)) (Z.abs_nat (m + s))) (fun _ => 1).
Proof.
  unfold disk_conversion_matrix. rewrite absi. set (l := Z.abs_nat (m + s)). destruct (pow_E mass Hm 2 radius dk N (at_k k) l ltac:(lia) HN Hk) as [Ec _]. pose proof (pos_INR dk). apply (multiplies_of (zf mass 2 radius) _ (fun _ => 1)).
  - apply zf_unsized.
  - exact HN.
  - intros n Hn. apply (pow_E mass Hm 2 radius); [lia|exact Hn|exact Hk].
  - rewrite Ec. reflexivity.
  - rewrite Ec. apply (zf_independent mass Hm 2 radius Hrad); [cbn [da]; rewrite <- INR_IZR_INZ; lra|cbn [db]; rewrite Rplus_0_l; apply zb2].
  - intros i r Hr. apply zf_zernike; assumption.
  - rewrite Ec. eapply (moved 2 _ _ _ _ _ eq_refl). cbn [shift flip dn da db]. apply eqd; [reflexivity|rewrite <- INR_IZR_INZ, plus_INR; lra|lra].
  - intros; reflexivity.
Qed.
Theorem disk_multiplication m s order d : (0 <= Z.abs (m + s) + order)%Z -> (0 <= d)%Z ->
  multiplies N (Z.to_nat (- order) + Z.to_nat (d / 2)) (disk_multiplication_matrix alpha k m s order d N) (zernike mass 2 radius (at_k k) (Z.abs_nat (m + s))) (zernike mass 2 radius (at_k k) (Z.to_nat (Z.abs (m + s) + order)))
    (fun r => (r / radius) ^ (Z.abs_nat order + 2 * Z.to_nat (d / 2))).
Proof.
  intros Ho Hd. unfold disk_multiplication_matrix. rewrite absi. set (l := Z.abs_nat (m + s)). replace (Z.abs (m + s)) with (Z.of_nat l) in * by (unfold l; rewrite Zabs2Nat.id_abs; reflexivity). clearbody l. destruct (mult_pulled mass Hm 2 radius Hrad order d l N (at_k k) ltac:(lia) HN Hk Ho Hd) as [Ec _].
  assert (El : IZR order + INR l = INR (Z.to_nat (Z.of_nat l + order))) by (rewrite !INR_IZR_INZ, Z2Nat.id, plus_IZR by exact Ho; lra). apply (multiplies_of (zf mass 2 radius) _ (fun r => (r / radius) ^ (Z.abs_nat order + 2 * Z.to_nat (d / 2)))).
  - apply zf_unsized.
  - exact HN.
  - intros n Hn. apply (mult_pulled mass Hm 2 radius Hrad); (lia || assumption).
  - rewrite Ec. cbn [dn]. unfold rises. assert (0 <= d / 2)%Z by (apply Z.div_pos; lia). lia.
  - rewrite Ec. cbn [shift flip dn da db]. rewrite El. apply (zf_independent mass Hm 2 radius Hrad); [lra|apply zb2].
  - intros i r Hr. apply zf_zernike; assumption.
  - rewrite Ec. eapply (moved 2 _ _ _ _ _ eq_refl). cbn [shift flip dn da db]. apply eqd; [reflexivity|lra|exact El].
  - intros; reflexivity.
Qed.
End Ball.

(** Raising and then lowering the degree, and lowering and then raising it, are the Laplacian, on coefficients. *)
Theorem ball_factors radius alpha k N ell deg l : 0 < radius -> -1 < alpha + INR k -> (1 <= N)%nat -> (ell + deg = Z.of_nat l)%Z ->
  exists L U D, ball_operator_matrix radius alpha k Lap ell deg N = Some L /\ ball_operator_matrix radius alpha k (Signed LD true) ell deg N = Some U /\ ball_operator_matrix radius alpha (S k) (Signed LD false) ell (deg + 1) N = Some D
  /\ (forall c i, (i < N)%nat -> image L c i = image D (image U c) i)
  /\ ((0 < l)%nat -> exists D' U', ball_operator_matrix radius alpha k (Signed LD false) ell deg N = Some D' /\ ball_operator_matrix radius alpha (S k) (Signed LD true) ell (deg - 1) N = Some U'
     /\ forall c i, (i < N)%nat -> image L c i = image U' (image D' c) i).
Proof.
  intros Hrad Hk HN E. assert (Hk' : -1 < alpha + INR (S k)) by (rewrite S_INR; lra).
  pose proof (ball_laplacian radius alpha Hrad k Hk N HN ell deg l E) as HL. pose proof (ball_D_plus radius alpha Hrad k Hk N HN ell deg l E) as HU. pose proof (ball_D_minus radius alpha Hrad (S k) Hk' N HN ell (deg + 1) l ltac:(lia)) as HD.
  assert (Hi : forall c, (forall r, 0 < r -> series N c (zernike mass 3 radius (alpha + INR (S (S k))) l) r = 0) -> forall i, (i < N)%nat -> c i = 0).
  { intros c H. apply (zf_independent mass Hm 3 radius Hrad 0%Z (alpha + INR (S (S k))) (INR l)); [rewrite !S_INR in *; lra|apply zb_of; lia|]. intros r Hr. rewrite series_zernike by assumption. apply H, Hr. }
  destruct (HL) as (L & EL & _). destruct (HU) as (U & EU & _). destruct (HD) as (D & ED & _). exists L, U, D. repeat (split; [assumption|]). rewrite EL, EU, ED in *. split.
  - apply (derives_twice_both N U D L _ _ _ _ _ _ _ HU HD HL); [|exact Hi]. intros r Hr. rewrite S_INR. split; field; lra.
  - intros Hl. destruct l as [|l]; [lia|]. pose proof (ball_D_minus radius alpha Hrad k Hk N HN ell deg l E) as HD'. pose proof (ball_D_plus radius alpha Hrad (S k) Hk' N HN ell (deg - 1) l ltac:(lia)) as HU'.
    destruct (HD') as (D' & ED' & _). destruct (HU') as (U' & EU' & _). exists D', U'. repeat (split; [assumption|]). rewrite ED', EU' in *.
    apply (derives_twice_both N D' U' L _ _ _ _ _ _ _ HD' HU' HL); [|exact Hi]. intros r Hr. rewrite S_INR. split; field; lra.
Qed.

(** ** Shells and annuli *)
Section Shell.
Context (inner outer a b : R) (Hin : 0 < inner) (Hout : inner < outer) (Ha : -1 < a) (Hb : -1 < b) (k N : nat) (HN : (1 <= N)%nat).
Notation basis k := (shell_function mass inner outer a b k).
Let kpos : 0 <= INR k. Proof. apply pos_INR. Qed.
Let smoved m p (s s' : domain) : s = s' -> s' = (m, INR p, 0) -> forall i r, 0 < r -> sf mass inner outer a b s i r = basis p i r.
Proof. intros -> ->. intros i r Hr. apply sf_shell; assumption. Qed.
Let eqd3 (n n' : Z) (p p' q q' : R) : n = n' -> p = p' -> q = q' -> (n, p, q) = (n', p', q'). Proof. intros -> -> ->. reflexivity. Qed.

Theorem shell_values r : 0 < r -> shell_interpolation mass inner outer a b k N r = Some (map (fun n => basis k n r) (seq 0 N)).
Proof.
  intros Hr. unfold shell_interpolation. rewrite (polynomials_value mass Hm) by lra. f_equal. rewrite map_map. apply map_ext. intros n. unfold shell_function. do 2 f_equal. field. lra.
Qed.
Let shell_first d dl l : derives N (squared (shell_D d inner outer a b dl l) (Z.of_nat N, INR k, 0)) (basis k) (basis (S k)) (fun r => - order_shift d dl l / r).
Proof.
  apply (derives_of (sf mass inner outer a b) _ (fun r => - order_shift d dl l / r)).
  - apply (shell_D_pulled mass Hm d inner outer a b Hout Ha Hb); assumption.
  - apply Z.leb_le; reflexivity.
  - intros i r Hr. apply sf_shell; assumption.
  - eapply (smoved _ _ _ _ eq_refl). cbn [shift shell_D cod flip dn da db]. apply eqd3; [reflexivity|rewrite S_INR; lra|lra].
  - intros; reflexivity.
Qed.
Let shell_second d dl1 l1 dl2 l2 p q : (forall r, 0 < r -> (- order_shift d dl1 l1 - order_shift d dl2 l2) / r = p r /\ order_shift d dl1 l1 * (order_shift d dl2 l2 + 1) / r ^ 2 = q r) ->
  derives_twice N (squared (omatmul (shell_D d inner outer a b dl2 l2) (shell_D d inner outer a b dl1 l1)) (Z.of_nat N, INR k, 0)) (basis k) (basis (S (S k))) p q.
Proof.
  intros E. eapply (twice_of (sf mass inner outer a b)).
  - apply (shell_lap_pulled mass Hm d inner outer a b Hout Ha Hb); assumption.
  - apply Z.leb_le; reflexivity.
  - intros i r Hr. apply sf_shell; assumption.
  - eapply (smoved _ _ _ _ eq_refl). transitivity ((0 + Z.of_nat N)%Z, 2 + INR k, 0 + 0); [reflexivity|]. apply eqd3; [reflexivity|rewrite !S_INR; lra|lra].
  - exact E.
Qed.
(** The derivatives of a component of degree [l]. *)
Theorem shell_D_degree (plus : bool) ell regtotal l : (ell + regtotal = l)%Z ->
  derives N (shell_operator_matrix inner outer a b k (SD plus) ell regtotal N) (basis k) (basis (S k)) (fun r => (if plus then - IZR l else IZR l + 1) / r).
Proof.
  intros <-. cbn [shell_operator_matrix obind]. apply (derives_same N _ _ _ (fun r => - order_shift 3 (sign_of plus) (IZR (ell + regtotal)) / r)); [|apply shell_first].
  intros r Hr. unfold order_shift. rewrite (INR_IZR_INZ 3). change (IZR (Z.of_nat 3)) with 3. destruct plus; cbn [sign_of Z.eqb Pos.eqb]; f_equal; lra.
Qed.
Theorem shell_laplacian ell regtotal l : (ell + regtotal = l)%Z ->
  derives_twice N (shell_operator_matrix inner outer a b k SL ell regtotal N) (basis k) (basis (S (S k))) (fun r => 2 / r) (fun r => - (IZR l * (IZR l + 1)) / r ^ 2).
Proof.
  intros <-. cbn [shell_operator_matrix obind]. apply shell_second. intros r Hr. unfold order_shift. rewrite (INR_IZR_INZ 3). change (IZR (Z.of_nat 3)) with 3. cbn [Z.eqb Pos.eqb]. split; field; lra.
Qed.
(** The derivatives of a component of azimuthal order [m] and spin [s]. *)
Theorem annulus_D (plus : bool) m s :
  derives N (annulus_operator_matrix inner outer a b k (SD plus) m s N) (basis k) (basis (S k)) (fun r => - (IZR (sign_of plus) * IZR (m + s)) / r).
Proof.
  unfold annulus_operator_matrix; cbv zeta. destruct (Z.eqb_spec (m + s) 0) as [E0|N0]; [|destruct (Z.ltb_spec (m + s) 0)]; cbn [obind].
  - apply (derives_same N _ _ _ (fun r => - order_shift 2 1 (IZR (m + s)) / r)); [|apply shell_first]. intros r Hr. rewrite E0. unfold order_shift. cbn [Z.eqb]. f_equal. ring.
  - apply (derives_same N _ _ _ (fun r => - order_shift 2 (- sign_of plus) (IZR (- (m + s))) / r)); [|apply shell_first]. intros r Hr. unfold order_shift. rewrite !opp_IZR, (INR_IZR_INZ 2). change (IZR (Z.of_nat 2)) with 2. f_equal. ring.
  - apply (derives_same N _ _ _ (fun r => - order_shift 2 (sign_of plus) (IZR (m + s)) / r)); [|apply shell_first]. intros r Hr. unfold order_shift. rewrite (INR_IZR_INZ 2). change (IZR (Z.of_nat 2)) with 2. f_equal. ring.
Qed.
Theorem annulus_laplacian m s :
  derives_twice N (annulus_operator_matrix inner outer a b k SL m s N) (basis k) (basis (S (S k))) (fun r => 1 / r) (fun r => - IZR (m + s) ^ 2 / r ^ 2).
Proof.
  unfold annulus_operator_matrix; cbv zeta. cbn [obind]. destruct (Z.ltb_spec (m + s) 0); apply shell_second; intros r Hr; unfold order_shift; rewrite ?minus_IZR, ?(plus_IZR (m + s)), (INR_IZR_INZ 2); change (IZR (Z.of_nat 2)) with 2; cbn [Z.eqb Pos.eqb]; split; field; lra.
Qed.
(** Conversion to higher parameters keeps the function, if it has room for as many more powers. *)
Let shell_times o c w w' : cod o = Jcod (Z.of_nat c) 1 0 false -> (forall n k, (1 <= n)%nat -> 0 <= k -> represents_at (sf mass inner outer a b) o (ptimes w) (Z.of_nat n, k, 0)) -> forall dk, (forall r, 0 < r -> w r ^ dk = w' r) ->
  multiplies N (dk * c) (squared (opow o dk) (Z.of_nat N, INR k, 0)) (basis k) (basis (k + dk)) w'.
Proof.
  intros Hc H dk Hw. pose proof (fun n (Hn : (1 <= n)%nat) => power_represents mass inner outer a b o w n (INR k) dk (Z.of_nat c) Hc ltac:(lia) Hn H kpos) as X. destruct (X N HN) as [Ec _]. pose proof (pos_INR dk).
  apply (multiplies_of (sf mass inner outer a b) _ (fun r => w r ^ dk)).
  - apply sf_unsized.
  - exact HN.
  - intros n Hn. apply X, Hn.
  - rewrite Ec. cbn [dn]. lia.
  - rewrite Ec. cbn [shift flip dn da db]. rewrite Rplus_0_l, <- INR_IZR_INZ. apply (sf_independent mass Hm inner outer a b Hin Hout Ha Hb). lra.
  - intros i r Hr. apply sf_shell; assumption.
  - rewrite Ec. eapply (smoved _ _ _ _ eq_refl). cbn [shift flip dn da db]. apply eqd3; [reflexivity|rewrite <- INR_IZR_INZ, plus_INR; lra|lra].
  - exact Hw.
Qed.
Theorem shell_conversion dk : multiplies N dk (shell_conversion_matrix inner outer a b k dk N) (basis k) (basis (k + dk)) (fun _ => 1).
Proof.
  unfold shell_conversion_matrix. destruct (shell_E_pulled mass Hm inner outer a b Hout Ha Hb N (INR k) HN kpos) as (o & Eo & Co & _). rewrite Eo. cbn [obind]. rewrite <- (Nat.mul_1_r dk) at 1. apply (shell_times o 1 (fun _ => 1)); [exact Co| |intros; apply pow1].
  intros n k' Hn Hk'. destruct (shell_E_pulled mass Hm inner outer a b Hout Ha Hb n k' Hn Hk') as (o' & Eo' & _ & H). rewrite Eo in Eo'. injection Eo' as <-. exact H.
Qed.
Theorem shell_jacobi dk : multiplies N 0 (shell_jacobi_conversion a b k dk N) (basis k) (basis (k + dk)) (fun r => ((outer - inner) / r) ^ dk).
Proof.
  unfold shell_jacobi_conversion. rewrite <- (Nat.mul_0_r dk) at 1. apply (shell_times (shell_AB a b) 0 (fun r => width inner outer / r)); [reflexivity| |intros; reflexivity].
  intros n k' Hn Hk'. apply (shell_AB_pulled mass Hm inner outer a b Hout Ha Hb); assumption.
Qed.
(** Multiplication by the radius, and by the native coordinate. *)
Let shell_mult o w w' : (forall n, (1 <= n)%nat -> represents_at (sf mass inner outer a b) o (ptimes w) (Z.of_nat n, INR k, 0)) -> cod o = Jcod 1 0 0 false -> (forall r, 0 < r -> w r = w' r) ->
  multiplies N 1 (squared o (Z.of_nat N, INR k, 0)) (basis k) (basis k) w'.
Proof.
  intros H Ec Hw. apply (multiplies_of (sf mass inner outer a b) _ w).
  - apply sf_unsized.
  - exact HN.
  - exact H.
  - rewrite Ec. reflexivity.
  - rewrite Ec. cbn [shift flip dn da db]. rewrite !Rplus_0_l. apply (sf_independent mass Hm inner outer a b Hin Hout Ha Hb). exact kpos.
  - intros i r Hr. apply sf_shell; assumption.
  - rewrite Ec. eapply (smoved _ _ _ _ eq_refl). cbn [shift flip dn da db]. apply eqd3; [reflexivity|lra|lra].
  - exact Hw.
Qed.
Theorem shell_radius m s : multiplies N 1 (shell_operator_matrix inner outer a b k SR m s N) (basis k) (basis k) (fun r => r) /\ annulus_operator_matrix inner outer a b k SR m s N = shell_operator_matrix inner outer a b k SR m s N.
Proof.
  split; [|reflexivity]. unfold shell_operator_matrix, shell_plain; cbv zeta. destruct (shell_R_pulled mass Hm inner outer a b Hout Ha Hb N (INR k) HN kpos) as (o & Eo & Co & _). rewrite Eo. cbn [obind]. apply (shell_mult o (fun r => r)); [|exact Co|reflexivity].
  intros n Hn. destruct (shell_R_pulled mass Hm inner outer a b Hout Ha Hb n (INR k) Hn kpos) as (o' & Eo' & _ & H). rewrite Eo in Eo'. injection Eo' as <-. exact H.
Qed.
Theorem shell_native m s : multiplies N 1 (shell_operator_matrix inner outer a b k SZ m s N) (basis k) (basis k) (fun r => (2 * r - (outer + inner)) / (outer - inner)) /\ annulus_operator_matrix inner outer a b k SZ m s N = shell_operator_matrix inner outer a b k SZ m s N.
Proof.
  split; [|reflexivity]. unfold shell_operator_matrix, shell_plain; cbv zeta. unfold shell_Z. destruct (shell_Z_pulled mass Hm inner outer a b Ha Hb N (INR k) HN kpos) as (z & Ez & _). rewrite Ez. cbn [obind].
  apply (shell_mult (Op (at_k a b z) (Jcod 1 0 0 false)) (native inner outer)); [|reflexivity|reflexivity].
  intros n Hn. destruct (shell_Z_pulled mass Hm inner outer a b Ha Hb n (INR k) Hn kpos) as (z' & Ez' & H). rewrite Ez in Ez'. injection Ez' as <-. exact H.
Qed.
End Shell.
(** Without that room, conversion changes functions: a shell with one coefficient. *)
Theorem shell_conversion_refuted inner outer a b : 0 < inner -> inner < outer -> -1 < a -> -1 < b ->
  ~ multiplies 1 0 (shell_conversion_matrix inner outer a b 0 1 1) (shell_function mass inner outer a b 0) (shell_function mass inner outer a b 1) (fun _ => 1).
Proof.
  intros Hin Hout Ha Hb (A & _ & _ & Hc & H). specialize (H (fun _ => 1) ltac:(intros; lia)). unfold series, CSR_Spec.total in H. cbn [seq fold_right] in H. set (v := image A (fun _ => 1) 0) in H.
  pose proof (sqrt_lt_R0 _ (proj1 (Hm (a + 0) (b + 0) ltac:(lra) ltac:(lra)))) as P0. pose proof (sqrt_lt_R0 _ (proj1 (Hm (a + 1) (b + 1) ltac:(lra) ltac:(lra)))) as P1.
  unfold shell_function in H. cbn [INR] in H. set (s0 := sqrt (mass (a + 0) (b + 0))) in *. set (s1 := sqrt (mass (a + 1) (b + 1))) in *.
  assert (X : forall r, 0 < r -> v * ((outer - inner) / r) / s1 = 1 / s0) by (intros r Hr; specialize (H r Hr); rewrite !unit_0 in H; cbn [pow] in H; fold s0 s1 in H; transitivity (v * ((outer - inner) / r * 1 * (1 / s1)) + 0); [field; lra|rewrite H; field; lra]).
  pose proof (X 1 ltac:(lra)) as X1. pose proof (X 2 ltac:(lra)) as X2. assert (Y : 1 / s0 = 0) by (assert (v * ((outer - inner) / 2) / s1 = (v * ((outer - inner) / 1) / s1) / 2) by (field; lra); lra).
  pose proof (Rdiv_lt_0_compat 1 s0 ltac:(lra) P0). lra.
Qed.
(** Raising and then lowering the degree, and lowering and then raising it, are the Laplacian, on coefficients. *)
Theorem shell_factors inner outer a b k N ell reg : 0 < inner -> inner < outer -> -1 < a -> -1 < b -> (1 <= N)%nat ->
  exists L U D D' U', shell_operator_matrix inner outer a b k SL ell reg N = Some L /\ shell_operator_matrix inner outer a b k (SD true) ell reg N = Some U /\ shell_operator_matrix inner outer a b (S k) (SD false) ell (reg + 1) N = Some D
  /\ shell_operator_matrix inner outer a b k (SD false) ell reg N = Some D' /\ shell_operator_matrix inner outer a b (S k) (SD true) ell (reg - 1) N = Some U'
  /\ forall c i, (i < N)%nat -> image L c i = image D (image U c) i /\ image L c i = image U' (image D' c) i.
Proof.
  intros Hin Hout Ha Hb HN. pose proof (shell_laplacian inner outer a b Hout Ha Hb k N HN ell reg _ eq_refl) as HL. pose proof (fun p => shell_D_degree inner outer a b Hout Ha Hb k N HN p ell reg _ eq_refl) as H1. pose proof (fun p r => shell_D_degree inner outer a b Hout Ha Hb (S k) N HN p ell r _ eq_refl) as H2.
  assert (Hi : forall c, (forall r, 0 < r -> series N c (shell_function mass inner outer a b (S (S k))) r = 0) -> forall i, (i < N)%nat -> c i = 0).
  { intros c H. apply (sf_independent mass Hm inner outer a b Hin Hout Ha Hb 0%Z (INR (S (S k))) (pos_INR _)). intros r Hr. rewrite series_shell by assumption. apply H, Hr. }
  pose proof (H1 true) as HU. pose proof (H1 false) as HD'. pose proof (H2 false (reg + 1)%Z) as HD. pose proof (H2 true (reg - 1)%Z) as HU'. cbv beta iota in HU, HD', HD, HU'.
  destruct (HL) as (L & EL & _). destruct (HU) as (U & EU & _). destruct (HD) as (D & ED & _). destruct (HD') as (D' & ED' & _). destruct (HU') as (U' & EU' & _). exists L, U, D, D', U'. repeat (split; [assumption|]). rewrite EL, EU, ED, ED', EU' in *. intros c i Hlt. split.
  - apply (derives_twice_both N U D L _ _ _ _ _ _ _ HU HD HL); [|exact Hi|exact Hlt]. intros r Hr. rewrite Z.add_assoc, (plus_IZR (ell + reg) 1). split; field; lra.
  - apply (derives_twice_both N D' U' L _ _ _ _ _ _ _ HD' HU' HL); [|exact Hi|exact Hlt]. intros r Hr. rewrite Z.add_sub_assoc, (minus_IZR (ell + reg) 1). split; field; lra.
Qed.
End Mass.

(** Cases with numbers: masses that meet the rules, and components with room. *)
Example sample_ball : mass_rules sample_mass /\ derives 3 (ball_operator_matrix 2 0 1 (Signed LD false) 3 (-1) 3) (zernike sample_mass 3 2 (0 + INR 1) 2) (zernike sample_mass 3 2 (0 + INR 2) 1) (fun r => (INR 2 + 1) / r).
Proof. split; [exact sample_rules|]. apply (ball_D_minus sample_mass sample_rules); [lra|cbn; lra|lia|reflexivity]. Qed.
Example sample_disk : derives 3 (disk_operator_matrix 1 0 0 (Signed LD true) (-2) 1 3) (zernike sample_mass 2 1 (0 + INR 0) 1) (zernike sample_mass 2 1 (0 + INR 1) 0) (fun r => - (1 * -1) / r).
Proof. apply (disk_D sample_mass sample_rules 1 0 ltac:(lra) 0 ltac:(cbn; lra) 3 ltac:(lia) true (-2) 1). Qed.
Example sample_multiplication : multiplies 5 3 (ball_multiplication_matrix 0 0 2 0 (-1) 4 5) (zernike sample_mass 3 1 (0 + INR 0) 2) (zernike sample_mass 3 1 (0 + INR 0) 1) (fun r => (r / 1) ^ 5).
Proof. apply (ball_multiplication sample_mass sample_rules 1 0 ltac:(lra) 0 ltac:(cbn; lra) 5 ltac:(lia) 2 0 2 (-1) 4); [reflexivity|lia|lia]. Qed.
Example sample_shell : derives_twice 4 (shell_operator_matrix 1 2 (-1 / 2) (-1 / 2) 1 SL 2 1 4) (shell_function sample_mass 1 2 (-1 / 2) (-1 / 2) 1) (shell_function sample_mass 1 2 (-1 / 2) (-1 / 2) 3) (fun r => 2 / r) (fun r => - (3 * (3 + 1)) / r ^ 2)
  /\ derives 4 (annulus_operator_matrix 1 2 (-1 / 2) (-1 / 2) 1 (SD false) (-2) 0 4) (shell_function sample_mass 1 2 (-1 / 2) (-1 / 2) 1) (shell_function sample_mass 1 2 (-1 / 2) (-1 / 2) 2) (fun r => - (-1 * -2) / r).
Proof.
  split; [apply (shell_laplacian sample_mass sample_rules 1 2 (-1 / 2) (-1 / 2) ltac:(lra) ltac:(lra) ltac:(lra) 1 4 ltac:(lia) 2 1 3); reflexivity|
    apply (annulus_D sample_mass sample_rules 1 2 (-1 / 2) (-1 / 2) ltac:(lra) ltac:(lra) ltac:(lra) 1 4 ltac:(lia) false (-2) 0)].
Qed.

Print Assumptions ball_values.
Print Assumptions ball_D_plus.
Print Assumptions ball_D_minus.
Print Assumptions ball_laplacian.
Print Assumptions ball_conversion.
Print Assumptions ball_multiplication.
Print Assumptions ball_R_plus.
Print Assumptions ball_R_minus.
Print Assumptions ball_E_minus.
Print Assumptions disk_values.
Print Assumptions disk_D.
Print Assumptions disk_laplacian.
Print Assumptions disk_conversion.
Print Assumptions disk_multiplication.
Print Assumptions ball_factors.
Print Assumptions shell_values.
Print Assumptions shell_D_degree.
Print Assumptions shell_laplacian.
Print Assumptions annulus_D.
Print Assumptions annulus_laplacian.
Print Assumptions shell_conversion.
Print Assumptions shell_jacobi.
Print Assumptions shell_radius.
Print Assumptions shell_native.
Print Assumptions shell_conversion_refuted.
Print Assumptions shell_factors.
