(** Theorems about operators on tensor indices. *)
From Coq Require Import List Arith Bool ZArith Lia Field QArith Qcanon.
Import ListNotations.
From Verif Require Import CSR_Model CSR_Spec CSR_Proofs MatSolvers_Model MatSolvers_Proofs TensorArith_Model TensorArith_Spec TensorArith_Proofs TensorOps_Model TensorOps_Spec TensorOps_Proofs.
Local Open Scope nat_scope.

Section Props.
Context {K : Type} (k0 k1 ki : K) (kadd kmul ksub kdiv : K -> K -> K) (kopp kinv : K -> K).
Notation represents := (represents k0 kadd kmul).

(** C71.  The matrix of a component takes component [k] of the index, whichever index it is. *)
Theorem component_matrix_selects (Hf : field_theory k0 k1 kadd kmul ksub kopp kdiv kinv eq) (u w : tensorsig) cs k n : k < cs_dim cs ->
  component_sig (u ++ cs :: w) (Z.of_nat (length u)) = u ++ w /\
  exists M, component_matrix k0 k1 kmul (u ++ cs :: w) (Z.of_nat (length u)) k n = Some M /\
    represents M (dims (u ++ cs :: w) ++ [n]) (dims (u ++ w) ++ [n]) (selected (length u) k).
Proof. intros H. split; [apply component_sig_app|]. exact (component_right k0 k1 kadd kmul ksub kdiv kopp kinv Hf u cs w k n H). Qed.
(** Its evaluation takes component [k] of the first index. *)
Theorem component_evaluation (cs : coordsys) (w : tensorsig) k (spatial : list nat) (v : list nat -> K) : k < cs_dim cs ->
  evaluates (component_operate (cs :: w) 0 k spatial (dims (cs :: w) ++ spatial, v)) (dims w ++ spatial) (selected 0 k v).
Proof. apply component_first. Qed.
(** For a later index the evaluation also takes the component of the first index when all indices have the same range: never the one asked for, for some tensor. *)
Theorem component_evaluation_refuted (u w : tensorsig) cs k d (spatial : list nat) : k1 <> k0 -> u <> [] -> (forall c, In c (u ++ cs :: w) -> cs_dim c = d) -> 2 <= d -> k < d -> (forall n, In n spatial -> 0 < n) ->
  (forall v, evaluates (component_operate (K := K) (u ++ cs :: w) (Z.of_nat (length u)) k spatial (dims (u ++ cs :: w) ++ spatial, v)) (dims (u ++ w) ++ spatial) (selected 0 k v)) /\
  exists v b idx, component_operate (K := K) (u ++ cs :: w) (Z.of_nat (length u)) k spatial (dims (u ++ cs :: w) ++ spatial, v) = Some b /\ in_shape (dims (u ++ w) ++ spatial) idx /\
    b idx <> selected (length u) k v idx.
Proof.
  intros N1 Nu Hd H2 Hk Hs. destruct u as [|c0 u]; [congruence|]. clear Nu.
  assert (D : dims ((c0 :: u) ++ w) = dims (u ++ cs :: w)).
  { assert (X : forall l : tensorsig, (forall c, In c l -> cs_dim c = d) -> dims l = repeat d (length l)). { clear. induction l as [|c l IH]; intros H; [reflexivity|]. cbn. rewrite (H c (or_introl eq_refl)). f_equal. apply IH. intros x Hx. apply H. right. exact Hx. }
    rewrite !X; [f_equal; cbn; rewrite !app_length; cbn; lia|intros c Hc; apply Hd; right; exact Hc|intros c Hc; apply Hd; cbn in Hc |- *; rewrite in_app_iff in *; cbn; tauto]. }
  assert (E0 : cs_dim c0 = d) by (apply Hd; left; reflexivity).
  assert (A : forall v, evaluates (component_operate (K := K) ((c0 :: u) ++ cs :: w) (Z.of_nat (length (c0 :: u))) k spatial (dims ((c0 :: u) ++ cs :: w) ++ spatial, v)) (dims ((c0 :: u) ++ w) ++ spatial) (selected 0 k v)).
  { intros v. apply (component_later (c0 :: u) cs w c0 (u ++ cs :: w) k spatial v eq_refl D). lia. }
  split; [exact A|]. set (v := fun idx : list nat => if nth 0 idx 0 =? k then k1 else k0). destruct (A v) as (b & Eb & Vb). set (j := if k =? 0 then 1 else 0). set (rest := dims (u ++ w) ++ spatial).
  assert (Hin : in_shape (dims ((c0 :: u) ++ w) ++ spatial) (j :: map (fun _ => 0) rest)).
  { change (dims ((c0 :: u) ++ w) ++ spatial) with (cs_dim c0 :: rest). constructor; [rewrite E0; unfold j; destruct (k =? 0); lia|]. assert (P : forall n, In n rest -> 0 < n).
    { intros n Hn. unfold rest in Hn. apply in_app_iff in Hn. destruct Hn as [Hn|Hn]; [|apply Hs; exact Hn]. apply in_map_iff in Hn. destruct Hn as (c & <- & Hc). rewrite (Hd c); [lia|]. apply in_app_iff in Hc. cbn. rewrite in_app_iff. cbn. tauto. }
    clearbody rest. clear - P. induction rest as [|n l IH]; cbn; constructor; [apply P; left; reflexivity|]. apply IH. intros x Hx. apply P. right. exact Hx. }
  exists v, b, (j :: map (fun _ => 0) rest). split; [exact Eb|]. split; [exact Hin|]. rewrite Vb by exact Hin. unfold selected, v. cbn [put nth length]. 
  change (nth 0 (put 0 k (j :: map (fun _ => 0) rest)) 0) with k. change (nth 0 (put (S (length u)) k (j :: map (fun _ => 0) rest)) 0) with j. rewrite Nat.eqb_refl. replace (j =? k) with false; [exact N1|]. symmetry. apply Nat.eqb_neq. unfold j. destruct (Nat.eqb_spec k 0); lia.
Qed.
(** And it raises when two neighbouring indices up to it have different ranges.  With index -1 the signature is not that of a component. *)
Theorem component_evaluation_raises (u w : tensorsig) cs j k (spatial : list nat) (v : list nat -> K) :
  j < length u -> nth j (dims (u ++ cs :: w)) 0 <> nth (S j) (dims (u ++ cs :: w)) 0 -> nth (S j) (dims (u ++ cs :: w)) 0 <> 1 ->
  component_operate (u ++ cs :: w) (Z.of_nat (length u)) k spatial (dims (u ++ cs :: w) ++ spatial, v) = None.
Proof. apply component_raises. Qed.
Theorem component_negative_refuted (u : tensorsig) cs : component_sig (u ++ [cs]) (-1) = u ++ u ++ [cs].
Proof.
  unfold component_sig, upto, from. change (-1 + 1)%Z with (Z.of_nat 0). rewrite clip_nat, Nat.min_0_r. cbn [skipn]. f_equal. unfold clip. cbn [Z.ltb Z.compare]. rewrite app_length. cbn [length]. replace (Nat.min _ _) with (length u) by lia.
  rewrite firstn_app, Nat.sub_diag, firstn_all. apply app_nil_r.
Qed.
(** The components of a factor of a product of coordinate systems: the matrix is right for every index, the evaluation for the first, and raises for later ones. *)
Theorem direct_components (Hf : field_theory k0 k1 kadd kmul ksub kopp kdiv kinv eq) (u w : tensorsig) cs comp start n (spatial : list nat) (v : list nat -> K) : start + cs_dim comp <= cs_dim cs ->
  direct_sig (u ++ cs :: w) (Z.of_nat (length u)) comp = Some (u ++ comp :: w) /\
  (exists M, direct_matrix k0 k1 kmul (u ++ cs :: w) (Z.of_nat (length u)) comp start n = Some M /\
    represents M (dims (u ++ cs :: w) ++ [n]) (dims (u ++ comp :: w) ++ [n]) (part (length u) start)) /\
  (u = [] -> evaluates (direct_operate k0 (u ++ cs :: w) (Z.of_nat (length u)) comp start spatial (dims (u ++ cs :: w) ++ spatial, v)) (dims (u ++ comp :: w) ++ spatial) (part (length u) start v)) /\
  (u <> [] -> cs_dim comp <> cs_dim cs -> cs_dim cs <> 1 -> direct_operate k0 (u ++ cs :: w) (Z.of_nat (length u)) comp start spatial (dims (u ++ cs :: w) ++ spatial, v) = None).
Proof.
  intros H. split; [apply direct_sig_app|]. split; [exact (direct_right k0 k1 kadd kmul ksub kdiv kopp kinv Hf u cs w comp start n H)|]. split.
  - intros ->. apply direct_first. exact H.
  - intros Nu N1 N2. destruct u as [|c0 u]; [congruence|]. apply (direct_raises k0 c0 u cs w comp start spatial v N1 N2).
Qed.
(** A quarter turn: the matrix and the evaluation agree with the definition, two of them change the sign, and a negative index raises. *)
Theorem skew_turns (Hf : field_theory k0 k1 kadd kmul ksub kopp kdiv kinv eq) (u w : tensorsig) cs n (spatial : list nat) (old v : list nat -> K) : cs_dim cs = 2 ->
  (exists M, skew_matrix k0 k1 kmul kopp (u ++ cs :: w) (Z.of_nat (length u)) n = Some M /\
    represents M (dims (u ++ cs :: w) ++ [n]) (dims (u ++ cs :: w) ++ [n]) (turned kopp (length u))) /\
  evaluates (skew_operate kopp (Z.of_nat (length u)) old v) (dims (u ++ cs :: w) ++ spatial) (turned kopp (length u) v) /\
  (forall idx, in_shape (dims (u ++ cs :: w) ++ spatial) idx -> turned kopp (length u) (turned kopp (length u) v) idx = kopp (v idx)) /\
  forall index, (index < 0)%Z -> skew_operate kopp index old v = None.
Proof.
  intros H. assert (E : dims (u ++ cs :: w) ++ spatial = dims u ++ 2 :: dims w ++ spatial) by (rewrite dims_app, <- app_assoc; cbn; rewrite H; reflexivity).
  split; [exact (skew_right k0 k1 kadd kmul ksub kdiv kopp kinv Hf u cs w n H)|]. split; [|split].
  - rewrite E, <- (dims_length u). apply skew_value. apply nth_mid.
  - intros idx Hi. rewrite E in Hi. destruct (split_shape _ _ _ _ Hi) as (x & r & y & -> & L & Hx & Hr & Hy). rewrite dims_length in L. apply turned_twice; rewrite <- L; [rewrite app_length; cbn; lia|rewrite nth_mid; exact Hr].
  - intros index Hn. apply skew_negative. exact Hn.
Qed.
(** Traces: the matrix and the evaluation are the sum of the entries with equal first indices. *)
Theorem trace_sums (Hf : field_theory k0 k1 kadd kmul ksub kopp kdiv kinv eq) (rest : tensorsig) cs n (spatial : list nat) (v : list nat -> K) :
  (exists M, trace_matrix k0 k1 kmul (cs :: cs :: rest) n = Some M /\
    represents M (dims (cs :: cs :: rest) ++ [n]) (dims rest ++ [n]) (traced k0 kadd (cs_dim cs))) /\
  evaluates (trace_operate k0 kadd (dims (cs :: cs :: rest) ++ spatial) v) (dims rest ++ spatial) (traced k0 kadd (cs_dim cs) v).
Proof. split; [exact (trace_right k0 k1 kadd kmul ksub kdiv kopp kinv Hf cs rest n)|]. exact (trace_value k0 kadd (cs_dim cs) (dims rest ++ spatial) v). Qed.
(** Transposition of two indices given by their places. *)
Theorem transposition (Hf : field_theory k0 k1 kadd kmul ksub kopp kdiv kinv eq) sig i j cs n (spatial : list nat) (v : list nat -> K) : nth_error sig i = Some cs -> nth_error sig j = Some cs -> i <> j ->
  exists order, TransposeComponents sig (length spatial) (Z.of_nat i, Z.of_nat j) = Some order /\
    (exists M, transpose_matrix k0 k1 kmul sig order n = Some M /\ represents M (dims sig ++ [n]) (dims sig ++ [n]) (exchanged i j)) /\
    evaluates (transpose_operate (dims sig ++ spatial) order (dims sig ++ spatial, v)) (dims sig ++ spatial) (exchanged i j v).
Proof. intros Hi Hj N. exact (transpose_right k0 k1 kadd kmul ksub kdiv kopp kinv Hf sig (length spatial) i j cs n spatial v Hi Hj N eq_refl). Qed.
Theorem transposition_errors sig dim i j : (length sig <= i \/ length sig <= j) \/ i = j \/ (exists c d, nth_error sig i = Some c /\ nth_error sig j = Some d /\ cs_id c <> cs_id d) ->
  TransposeComponents sig dim (Z.of_nat i, Z.of_nat j) = None.
Proof. intros [H|[->|(c & d & Hc & Hd & N)]]; [apply transpose_high; exact H|apply transpose_same|exact (transpose_different sig dim i j c d Hc Hd N)]. Qed.
(** Indices counted from the end are accepted, but the last two indices of the tensor are not exchanged: the matrix is the identity, and evaluation
    exchanges the last two directions of the data, or raises if they have different lengths. *)
Theorem transposition_negative_refuted (Hf : field_theory k0 k1 kadd kmul ksub kopp kdiv kinv eq) (u : tensorsig) cs n (lead : list nat) n1 n2 (v : list nat -> K) :
  exists order, TransposeComponents (u ++ [cs; cs]) (length (lead ++ [n1; n2])) (-2, -1)%Z = Some order /\
    (exists M, transpose_matrix k0 k1 kmul (u ++ [cs; cs]) order n = Some M /\ represents M (dims (u ++ [cs; cs]) ++ [n]) (dims (u ++ [cs; cs]) ++ [n]) (fun a => a)) /\
    let sh := dims (u ++ [cs; cs]) ++ lead in
    (n1 = n2 -> evaluates (transpose_operate (sh ++ [n1; n2]) order (sh ++ [n1; n2], v)) (sh ++ [n1; n2]) (exchanged (length sh) (S (length sh)) v)) /\
    (n1 <> n2 -> transpose_operate (sh ++ [n1; n2]) order (sh ++ [n1; n2], v) = None).
Proof.
  pose proof (negative_order u cs (length lead)) as E. replace (length (lead ++ [n1; n2])) with (S (S (length lead))) by (rewrite app_length; cbn; lia). eexists. split; [exact E|]. split; [exact (negative_matrix k0 k1 kadd kmul ksub kdiv kopp kinv Hf u cs (length lead) n _ E)|].
  cbv zeta. set (sh := dims (u ++ [cs; cs]) ++ lead). replace (length u + 2 + length lead) with (length sh) by (unfold sh; rewrite app_length, dims_length, app_length; cbn; lia). apply negative_operate.
Qed.
(** Spin components: with complex numbers, and with real numbers if the axis read for the azimuth has as many pairs as the azimuth. *)
Theorem spins_complex (Hf : field_theory k0 k1 kadd kmul ksub kopp kdiv kinv eq) rank azimuth (u w : list nat) (old v : list nat -> K) :
  let shape := u ++ 2 :: w in
  (exists M, spin_matrix k0 k1 ki kmul kopp true rank azimuth (Z.of_nat (length u)) shape = Some M /\ represents M shape shape (spun_complex ki kmul kopp (length u))) /\
  evaluates (spin_operate ki kmul kopp true rank azimuth (Z.of_nat (length u)) shape old v) shape (spun_complex ki kmul kopp (length u) v).
Proof. split; [apply (spin_complex_matrix k0 k1 kadd kmul ksub kdiv kopp kinv Hf)|apply (spin_complex_value k0 k1 kadd kmul ksub kdiv kopp kinv Hf)]. Qed.
Theorem spins_real (Hf : field_theory k0 k1 kadd kmul ksub kopp kdiv kinv eq) rank azimuth (u v w : list nat) h (old a : list nat -> K) :
  let shape := u ++ 2 :: v ++ 2 * h :: w in
  rank + azimuth = length u + S (length v) ->
  evaluates (spin_operate ki kmul kopp false rank azimuth (Z.of_nat (length u)) shape old a) shape (spun_real kopp (length u) (rank + azimuth) a) /\
  (nth azimuth shape 0 / 2 = h ->
   exists M, spin_matrix k0 k1 ki kmul kopp false rank azimuth (Z.of_nat (length u)) shape = Some M /\ represents M shape shape (spun_real kopp (length u) (rank + azimuth))).
Proof.
  intros shape Ha. split; [exact (spin_real_value k0 k1 kadd kmul ksub kdiv kopp kinv Hf ki rank azimuth u v h w shape old a eq_refl Ha)|]. intros Hh. exact (spin_real_matrix k0 k1 kadd kmul ksub kdiv kopp kinv Hf ki rank azimuth u v h w shape eq_refl Ha Hh).
Qed.
(** Otherwise the matrix does not have the size of the field. *)
Theorem spins_real_refuted rank azimuth (u v w : list nat) h :
  let shape := u ++ 2 :: v ++ 2 * h :: w in
  rank + azimuth = length u + S (length v) -> nth azimuth shape 0 / 2 <> h -> size (u ++ v ++ w) <> 0 ->
  exists M, spin_matrix k0 k1 ki kmul kopp false rank azimuth (Z.of_nat (length u)) shape = Some M /\ nr M <> size shape /\ nc M <> size shape.
Proof. intros shape Ha Hh Hz. exact (spin_real_size k0 k1 kmul kopp ki rank azimuth u v h w shape eq_refl Ha Hh Hz). Qed.
End Props.

(** Concrete cases over the rationals. *)
Definition xy := {| cs_id := 1; cs_dim := 2; right_handed := true |}. Definition xyz := {| cs_id := 2; cs_dim := 3; right_handed := true |}.
Definition sample (idx : list nat) : Qc := Q2Qc (inject_Z (Z.of_nat (fold_left (fun a i => 10 * a + i) idx 1))).
Example second_component : exists b, component_operate [xy; xy] 1 1 [2] ([2; 2; 2], sample) = Some b /\ b [0; 1] = sample [1; 0; 1] /\ selected 1 1 sample [0; 1] = sample [0; 1; 1] /\ b [0; 1] <> selected 1 1 sample [0; 1].
Proof. eexists. split; [reflexivity|]. split; [reflexivity|]. split; [reflexivity|]. vm_compute. discriminate. Qed.
Example second_component_raises : component_operate [xy; xyz] 1 2 [4] ([2; 3; 4], sample) = None. Proof. reflexivity. Qed.
Example second_component_matrix : exists M, component_matrix (Q2Qc 0) (Q2Qc 1) Qcmult [xy; xyz] 1 2 4 = Some M /\ nr M = 8 /\ nc M = 24 /\ at_ M 5 21 = Q2Qc 1 /\ at_ M 5 20 = Q2Qc 0.
Proof. eexists. split; [reflexivity|]. repeat split; vm_compute; reflexivity. Qed.
Example negative_transpose : exists order b, TransposeComponents [xy; xy] 2 (-2, -1)%Z = Some order /\ transpose_operate [2; 2; 3; 3] order ([2; 2; 3; 3], sample) = Some b /\ b [0; 1; 2; 1] = sample [0; 1; 1; 2].
Proof. do 2 eexists. split; [reflexivity|]. split; [reflexivity|]. reflexivity. Qed.
Example mixed_transpose : exists order, TransposeComponents [xy; xy] 2 (0, -1)%Z = Some order /\ transpose_matrix (Q2Qc 0) (Q2Qc 1) Qcmult [xy; xy] order 4 = None.
Proof. eexists. split; reflexivity. Qed.
Example transpose_example : exists order b, TransposeComponents [xy; xyz; xy] 1 (0, 2)%Z = Some order /\ transpose_operate [2; 3; 2; 4] order ([2; 3; 2; 4], sample) = Some b /\ b [0; 2; 1; 3] = sample [1; 2; 0; 3].
Proof. do 2 eexists. split; [reflexivity|]. split; [reflexivity|]. reflexivity. Qed.
(** A vector on a line times a disk: the axis before the azimuth has another number of pairs. *)
Example spin_example : forall k0 k1 ki : Qc, exists M, spin_matrix k0 k1 ki Qcmult Qcopp false 1 1 0 [2; 8; 2; 3] = Some M /\ nr M = 384 /\ size [2; 8; 2; 3] = 96.
Proof. intros. eexists. split; [reflexivity|]. split; reflexivity. Qed.
Example spin_disk : forall k0 k1 ki : Qc, exists M, spin_matrix k0 k1 ki Qcmult Qcopp false 1 0 0 [2; 2; 5] = Some M /\ nr M = 20.
Proof. intros. eexists. split; reflexivity. Qed.
Example field_met : field_theory (Q2Qc 0) (Q2Qc 1) Qcplus Qcmult Qcminus Qcopp Qcdiv Qcinv eq. Proof. exact Qcft. Qed.

Print Assumptions component_matrix_selects.
Print Assumptions component_evaluation.
Print Assumptions component_evaluation_refuted.
Print Assumptions component_evaluation_raises.
Print Assumptions component_negative_refuted.
Print Assumptions direct_components.
Print Assumptions skew_turns.
Print Assumptions trace_sums.
Print Assumptions transposition.
Print Assumptions transposition_errors.
Print Assumptions transposition_negative_refuted.
Print Assumptions spins_complex.
Print Assumptions spins_real.
Print Assumptions spins_real_refuted.
