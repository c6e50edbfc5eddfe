(** Proofs about reductions and the adaptive time step. *)
From Coq Require Import Reals Lra.
From stdpp Require Import numbers list.
From Verif Require Import FlowTools_Model FlowTools_Spec.
Local Open Scope R_scope.

Lemma fold_Rmax l a : is_max (fold_left Rmax l a) (a :: l).
Proof.
  revert a. induction l as [|b l IH]; intros a; cbn; [split; [by left|intros x [->|[]]; lra]|].
  destruct (IH (Rmax a b)) as [Hin Hle]. split.
  - destruct Hin as [<-|Hin]; [|by right; right]. unfold Rmax. destruct (Rle_dec a b); [by right; left|by left].
  - assert (Rmax a b <= fold_left Rmax l (Rmax a b)) by (apply Hle; by left). pose proof (Rmax_l a b). pose proof (Rmax_r a b).
    intros x [<-|[<-|Hx]]; [lra|lra|]. apply Hle. by right.
Qed.
Lemma fold_Rmin l a : is_min (fold_left Rmin l a) (a :: l).
Proof.
  revert a. induction l as [|b l IH]; intros a; cbn; [split; [by left|intros x [->|[]]; lra]|].
  destruct (IH (Rmin a b)) as [Hin Hle]. split.
  - destruct Hin as [<-|Hin]; [|by right; right]. unfold Rmin. destruct (Rle_dec a b); [by left|by right; left].
  - assert (fold_left Rmin l (Rmin a b) <= Rmin a b) by (apply Hle; by left). pose proof (Rmin_l a b). pose proof (Rmin_r a b).
    intros x [<-|[<-|Hx]]; [lra|lra|]. apply Hle. by right.
Qed.

Definition max_of (x : flt) (l : list R) : Prop := match x with NInf => l = [] | Fin m => is_max m l | _ => False end.
Definition min_of (x : flt) (l : list R) : Prop := match x with PInf => l = [] | Fin m => is_min m l | _ => False end.
Lemma max_of_local l : max_of (local_max NInf l) l.
Proof. destruct l; cbn; [done|apply fold_Rmax]. Qed.
Lemma min_of_local l : min_of (local_min PInf l) l.
Proof. destruct l; cbn; [done|apply fold_Rmin]. Qed.
Lemma max_of_app x y l k : max_of x l -> max_of y k -> max_of (mpi_max x y) (l ++ k).
Proof.
  destruct x as [a| | |], y as [b| | |]; cbn; try done; intros Hx Hy; subst; rewrite ?app_nil_r; try done.
  unfold mpi_max. cbn. destruct Hx as [Ix Lx], Hy as [Iy Ly]. destruct (Rlt_dec a b); cbn; (split; [apply in_or_app; auto|]);
    intros z Hz; apply in_app_or in Hz as [Hz|Hz]; [specialize (Lx z Hz)|specialize (Ly z Hz)|specialize (Lx z Hz)|specialize (Ly z Hz)]; lra.
Qed.
Lemma min_of_app x y l k : min_of x l -> min_of y k -> min_of (mpi_min x y) (l ++ k).
Proof.
  destruct x as [a| | |], y as [b| | |]; cbn; try done; intros Hx Hy; subst; rewrite ?app_nil_r; try done.
  unfold mpi_min. cbn. destruct Hx as [Ix Lx], Hy as [Iy Ly]. destruct (Rlt_dec b a); cbn; (split; [apply in_or_app; auto|]);
    intros z Hz; apply in_app_or in Hz as [Hz|Hz]; [specialize (Lx z Hz)|specialize (Ly z Hz)|specialize (Lx z Hz)|specialize (Ly z Hz)]; lra.
Qed.
Lemma max_of_fold procs x l : max_of x l -> max_of (fold_left mpi_max (map (local_max NInf) procs) x) (l ++ concat procs).
Proof.
  revert x l. induction procs as [|p ps IH]; intros x l Hx; cbn [map fold_left concat]; [by rewrite app_nil_r|].
  rewrite app_assoc. apply IH. apply max_of_app; [done|apply max_of_local].
Qed.
Lemma min_of_fold procs x l : min_of x l -> min_of (fold_left mpi_min (map (local_min PInf) procs) x) (l ++ concat procs).
Proof.
  revert x l. induction procs as [|p ps IH]; intros x l Hx; cbn [map fold_left concat]; [by rewrite app_nil_r|].
  rewrite app_assoc. apply IH. apply min_of_app; [done|apply min_of_local].
Qed.
Lemma is_max_perm m l k : Permutation l k -> is_max m l -> is_max m k.
Proof.
  intros Hp [Hi Hl]. split; [by apply (Permutation_in _ Hp)|]. intros x Hx. apply Hl. by apply (Permutation_in _ (Permutation_sym Hp)).
Qed.
Lemma is_min_perm m l k : Permutation l k -> is_min m l -> is_min m k.
Proof.
  intros Hp [Hi Hl]. split; [by apply (Permutation_in _ Hp)|]. intros x Hx. apply Hl. by apply (Permutation_in _ (Permutation_sym Hp)).
Qed.
Lemma global_max_of procs : procs <> [] -> max_of (global_max NInf procs) (concat procs).
Proof. destruct procs as [|p ps]; [done|]. intros _. cbn. apply max_of_fold, max_of_local. Qed.
Lemma global_min_of procs : procs <> [] -> min_of (global_min PInf procs) (concat procs).
Proof. destruct procs as [|p ps]; [done|]. intros _. cbn. apply min_of_fold, min_of_local. Qed.
Lemma global_max_spec procs l : distributes procs l -> l <> [] -> exists m, global_max NInf procs = Fin m /\ is_max m l.
Proof.
  intros Hd Hl. assert (Hp : procs <> []) by (intros ->; apply Permutation_nil in Hd; done).
  pose proof (global_max_of procs Hp) as Hm. destruct (global_max NInf procs) as [m| | |]; cbn in Hm; try done.
  - exists m. split; [done|]. by apply (is_max_perm m (concat procs)).
  - unfold distributes in Hd. rewrite Hm in Hd. by apply Permutation_nil in Hd.
Qed.
Lemma global_min_spec procs l : distributes procs l -> l <> [] -> exists m, global_min PInf procs = Fin m /\ is_min m l.
Proof.
  intros Hd Hl. assert (Hp : procs <> []) by (intros ->; apply Permutation_nil in Hd; done).
  pose proof (global_min_of procs Hp) as Hm. destruct (global_min PInf procs) as [m| | |]; cbn in Hm; try done.
  - exists m. split; [done|]. by apply (is_min_perm m (concat procs)).
  - unfold distributes in Hd. rewrite Hm in Hd. by apply Permutation_nil in Hd.
Qed.

Lemma fold_plus l a : fold_left Rplus l a = a + total l.
Proof. unfold total. revert a. induction l as [|b l IH]; intros a; cbn; [lra|]. rewrite IH. lra. Qed.
Lemma np_sum_total l : np_sum l = total l.
Proof. unfold np_sum. rewrite fold_plus. lra. Qed.
Lemma total_app l k : total (l ++ k) = total l + total k.
Proof. unfold total. induction l as [|a l IH]; cbn; [lra|]. rewrite IH. lra. Qed.
Lemma total_perm l k : Permutation l k -> total l = total k.
Proof. unfold total. induction 1; cbn; lra. Qed.
Lemma reduce_plus {A} (f : A -> R) (l : list A) : reduce_scalar Rplus (map f l) 0 = total (map f l).
Proof. destruct l; [done|]. cbn. by rewrite fold_plus. Qed.
Lemma total_concat (g : R -> R) procs : total (map (fun d => total (map g d)) procs) = total (map g (concat procs)).
Proof. induction procs as [|p ps IH]; [done|]. cbn [map concat]. rewrite map_app, total_app, <- IH. done. Qed.
Lemma total_lengths procs : total (map (fun d : list R => INR (length d)) procs) = INR (length (concat procs)).
Proof. induction procs as [|p ps IH]; cbn [map concat total foldr]; [done|]. rewrite app_length, plus_INR. unfold total in *. cbn [foldr]. by rewrite IH. Qed.
Lemma global_mean_spec procs l : distributes procs l -> l <> [] -> global_mean procs = Fin (total l / INR (length l)).
Proof.
  intros Hd Hl. unfold global_mean. rewrite !reduce_plus, total_lengths. rewrite (Permutation_length Hd).
  destruct (Req_EM_T (INR (length l)) 0) as [E|_]; [apply (INR_eq _ 0) in E; by destruct l|]. f_equal. f_equal.
  rewrite <- (total_perm _ _ Hd). rewrite <- (map_id (concat procs)), <- total_concat. f_equal. apply map_ext. intros d. by rewrite np_sum_total, map_id.
Qed.

(** ** Norms *)
Lemma data_norm_sum p procs l : distributes procs l -> data_norm (Some p) procs = npow (total (map (fun x => npow (Rabs x) p) l)) (1 / p).
Proof.
  intros Hd. unfold data_norm. rewrite reduce_plus. f_equal. rewrite <- (total_perm _ _ (Permutation_map _ Hd)), <- total_concat. f_equal.
  apply map_ext. intros d. destruct d as [|a d]; cbn; [done|]. unfold np_sum. rewrite fold_plus. unfold total. cbn. lra.
Qed.
Definition abs_max_of (m : R) (l : list R) : Prop := (l = [] /\ m = 0) \/ is_max m (map Rabs l).
Lemma abs_max_local l : abs_max_of (local_norm None l) l.
Proof. destruct l as [|a l]; [by left|right]. cbn. apply fold_Rmax. Qed.
Lemma abs_max_nonneg m l : abs_max_of m l -> 0 <= m.
Proof. intros [[-> ->]|[Hi _]]; [lra|]. apply in_map_iff in Hi as (x & <- & _). apply Rabs_pos. Qed.
Lemma abs_max_app x y l k : abs_max_of x l -> abs_max_of y k -> abs_max_of (Rmax x y) (l ++ k).
Proof.
  intros Hx Hy. pose proof (abs_max_nonneg _ _ Hx). pose proof (abs_max_nonneg _ _ Hy). destruct Hx as [[-> ->]|[Ix Lx]].
  - cbn. by rewrite Rmax_right.
  - destruct Hy as [[-> ->]|[Iy Ly]]; [rewrite app_nil_r, Rmax_left by done; by right|]. right. rewrite map_app. split.
    + apply in_or_app. unfold Rmax. destruct (Rle_dec x y); auto.
    + pose proof (Rmax_l x y). pose proof (Rmax_r x y). intros z Hz. apply in_app_or in Hz as [Hz|Hz]; [specialize (Lx z Hz)|specialize (Ly z Hz)]; lra.
Qed.
Lemma abs_max_fold procs x l : abs_max_of x l -> abs_max_of (fold_left Rmax (map (local_norm None) procs) x) (l ++ concat procs).
Proof.
  revert x l. induction procs as [|p ps IH]; intros x l Hx; cbn [map fold_left concat]; [by rewrite app_nil_r|].
  rewrite app_assoc. apply IH. apply abs_max_app; [done|apply abs_max_local].
Qed.
Lemma data_max_spec procs l : distributes procs l -> l <> [] -> is_max (data_max procs) (map Rabs l).
Proof.
  intros Hd Hl. assert (Ha : abs_max_of (data_max procs) (concat procs)).
  { destruct procs as [|p ps]; [by apply Permutation_nil in Hd|]. cbn. apply abs_max_fold, abs_max_local. }
  destruct Ha as [[E _]|Ha]; [unfold distributes in Hd; rewrite E in Hd; by apply Permutation_nil in Hd|].
  by apply (is_max_perm _ _ _ (Permutation_map Rabs Hd)).
Qed.

(** ** The time step *)
Lemma zip_add_length l m : length l = length m -> length (zip_add l m) = length l.
Proof. revert m. induction l as [|a l IH]; intros [|b m] H; cbn in *; auto. Qed.
Lemma zip_add_nth l m i : length l = length m -> nth i (zip_add l m) 0 = nth i l 0 + nth i m 0.
Proof. revert m i. induction l as [|a l IH]; intros [|b m] [|i] H; cbn in *; try lra; try done. apply IH. lia. Qed.
Lemma nth_map_abs l i : nth i (map Rabs l) 0 = Rabs (nth i l 0).
Proof. revert i. induction l as [|a l IH]; intros [|i]; cbn; auto using Rabs_R0. Qed.
Lemma freqs_fold fs acc n : length acc = n -> Forall (fun f => length f = n) fs ->
  length (fold_left (fun acc g => zip_add acc (map Rabs g)) fs acc) = n /\
  forall i, nth i (fold_left (fun acc g => zip_add acc (map Rabs g)) fs acc) 0 = nth i acc 0 + point_freq i fs.
Proof.
  revert acc. induction fs as [|f fs IH]; intros acc Ha Hf; cbn [fold_left point_freq]; [split; [done|intros; lra]|].
  inversion Hf as [|? ? Hl Hf']; subst. destruct (IH (zip_add acc (map Rabs f))) as [H1 H2]; [by rewrite zip_add_length by (by rewrite map_length)|done|].
  split; [done|]. intros i. rewrite H2, zip_add_nth by (by rewrite map_length). rewrite nth_map_abs. lra.
Qed.
Lemma local_freqs_spec n fields l : Forall (fun f => length f = n) fields -> local_freqs fields = Some l ->
  length l = n /\ forall i, nth i l 0 = point_freq i fields.
Proof.
  intros Hf. destruct fields as [|f fs]; [done|]. intros [= <-]. inversion Hf as [|? ? Hl Hf']; subst.
  destruct (freqs_fold fs (map Rabs f) (length f)) as [H1 H2]; [by rewrite map_length|done|]. split; [done|].
  intros i. rewrite H2. cbn. by rewrite nth_map_abs.
Qed.
Lemma mapM_local procs locals : mapM local_freqs (map snd procs) = Some locals ->
  Forall (fun p : nat * list (list R) => Forall (fun f => length f = p.1) p.2) procs ->
  forall x, In x (concat locals) <-> exists n fields i, In (n, fields) procs /\ (i < n)%nat /\ x = point_freq i fields.
Proof.
  revert locals. induction procs as [|[n fields] procs IH]; intros locals Hm Hf x; cbn in Hm.
  - injection Hm as <-. cbn. split; [done|]. intros (?&?&?&[]&_).
  - destruct (local_freqs fields) as [l|] eqn:El; [|done]. cbn in Hm. destruct (mapM local_freqs (map snd procs)) as [ls|]; [|done]. cbn in Hm. injection Hm as <-.
    inversion Hf as [|? ? Hl Hf']; subst. cbn in Hl. destruct (local_freqs_spec n fields l Hl El) as [Hn Hv]. cbn [concat]. rewrite in_app_iff, (IH ls eq_refl Hf' x). split.
    + intros [Hx|(m&fs&i&?&?&?)].
      * apply (In_nth _ _ 0) in Hx as (i & Hi & <-). exists n, fields, i. split; [by left|]. split; [lia|apply Hv].
      * exists m, fs, i. split; [by right|done].
    + intros (m&fs&i&[[= <- <-]|Hin]&Hi&->).
      * left. rewrite <- Hv. apply nth_In. lia.
      * right. by exists m, fs, i.
Qed.
Lemma global_frequency procs locals f : mapM local_freqs (map snd procs) = Some locals ->
  Forall (fun p : nat * list (list R) => Forall (fun f => length f = p.1) p.2) procs ->
  global_max NInf locals = Fin f <-> largest_frequency f procs.
Proof.
  intros Hm Hf. pose proof (mapM_local procs locals Hm Hf) as Hin.
  assert (Hmax : forall g, is_max g (concat locals) <-> largest_frequency g procs).
  { intros g. unfold is_max, largest_frequency. rewrite Hin. split; intros [H1 H2]; (split; [done|]).
    - intros n fields i Hp Hi. apply H2, Hin. by exists n, fields, i.
    - intros x Hx. apply Hin in Hx as (n&fields&i&?&?&->). by eapply H2. }
  assert (Hne : procs <> [] -> locals <> []). { intros Hp ->. destruct procs as [|p ps]; [done|]. cbn in Hm. destruct (local_freqs p.2); [|done]. cbn in Hm. by destruct (mapM local_freqs (map snd ps)). }
  split.
  - intros Hg. apply Hmax. assert (Hl : locals <> []) by (intros ->; done). pose proof (global_max_of locals Hl) as H. by rewrite Hg in H.
  - intros Hl. assert (Hp : procs <> []) by (destruct Hl as [(?&?&?&H&_) _]; by intros ->). pose proof (global_max_of locals (Hne Hp)) as H.
    apply Hmax in Hl. destruct (global_max NInf locals) as [g| | |]; cbn in H; try done.
    + f_equal. destruct H as [H1 H2], Hl as [H3 H4]. specialize (H2 _ H3). specialize (H4 _ H1). lra.
    + rewrite H in Hl. by destruct Hl as [[] _].
Qed.

Lemma py_min2 x y z : py_min x [y; z] = mpi_min (mpi_min x y) z.
Proof. done. Qed.
Lemma py_max2 x y z : py_max x [y; z] = mpi_max (mpi_max x y) z.
Proof. done. Qed.
(** Frequencies are not negative, so a step's limit is positive, infinite, or (with no points) zero. *)
Definition limit (c : cfl) (freq : flt) : flt :=
  flt_mul (match freq with Fin f => if Req_EM_T f 0 then PInf else flt_inv freq | _ => flt_inv freq end) (Fin (safety c)).
Lemma limit_cases c freq : 0 < safety c -> freq <> NaN -> (forall f, freq = Fin f -> 0 <= f) -> limit c freq = PInf \/ exists r, limit c freq = Fin r /\ 0 <= r.
Proof.
  intros Hs Hn Hf. unfold limit. destruct freq as [f| | |]; try done; cbn.
  - destruct (Req_EM_T f 0); cbn.
    + left. unfold inf_times. destruct (Rlt_dec 0 (safety c)); [done|lra].
    + right. eexists. split; [done|]. specialize (Hf f eq_refl). assert (0 < / f) by (apply Rinv_0_lt_compat; lra). apply Rmult_le_pos; lra.
  - right. eexists. split; [done|lra].
  - right. eexists. split; [done|lra].
Qed.
Lemma mul_Fin_pos x s : 0 < s -> x <> NaN -> fle (Fin 1) x -> (exists m, x = Fin m /\ flt_mul x (Fin s) = Fin (m * s) /\ s <= m * s) \/ (x = PInf /\ flt_mul x (Fin s) = PInf).
Proof.
  intros Hs Hn H1. destruct x as [m| | |]; try done; cbn in *.
  - left. exists m. split; [done|]. split; [done|]. assert (0 <= (m - 1) * s) by (apply Rmult_le_pos; lra). lra.
  - right. split; [done|]. unfold inf_times. by destruct (Rlt_dec 0 s).
Qed.

(** What [new_dt] is under the guards. *)
Lemma new_dt_spec c s freq : 0 < s -> min_dt c <= s -> fle (Fin s) (max_dt c) -> 0 < min_dt c -> min_change c <= 1 -> fle (Fin 1) (max_change c) -> 0 < safety c ->
  (max_dt c <> PInf \/ max_change c <> PInf) -> freq <> NaN -> (forall f, freq = Fin f -> 0 <= f) ->
  exists r, new_dt c (Fin s) freq = Fin r /\ min_dt c <= r /\ fle (Fin r) (max_dt c) /\ min_change c * s <= r /\ fle (Fin r) (flt_mul (max_change c) (Fin s))
    /\ (forall u, limit c freq = Fin u -> min_dt c <= u -> min_change c * s <= u -> r <= u).
Proof.
  intros Hs Hlo Hhi Hm Hsh Hgr Hsa Hfin Hn Hf. unfold new_dt. fold (limit c freq). rewrite py_min2, py_max2.
  assert (Hms : min_change c * s <= s). { assert (0 <= (1 - min_change c) * s) by (apply Rmult_le_pos; lra). lra. }
  assert (Hcn : max_change c <> NaN) by (intros E; rewrite E in Hgr; done).
  destruct (mul_Fin_pos (max_change c) s Hs Hcn Hgr) as [(k & Ek & -> & Hk)|[Ek ->]];
  destruct (max_dt c) as [M| | |] eqn:EM; cbn in Hhi; try done; try (by destruct Hfin);
  destruct (limit_cases c freq Hsa Hn Hf) as [->|(u & -> & Hu)]; cbn [flt_mul];
  unfold mpi_min, mpi_max; cbn [flt_lt];
  repeat match goal with |- context [Rlt_dec ?a ?b] => destruct (Rlt_dec a b) end; cbn [flt_lt];
  repeat match goal with |- context [Rlt_dec ?a ?b] => destruct (Rlt_dec a b) end; cbn [flt_lt];
  repeat match goal with |- context [Rlt_dec ?a ?b] => destruct (Rlt_dec a b) end; cbn [flt_lt];
  repeat match goal with |- context [Rlt_dec ?a ?b] => destruct (Rlt_dec a b) end; cbn [flt_lt];
  (eexists; split; [reflexivity|]); cbn [fle]; repeat split; try lra; intros ? [= <-]; lra.
Qed.

Lemma zip_add_nonneg l m : Forall (fun x => 0 <= x) l -> Forall (fun x => 0 <= x) m -> Forall (fun x => 0 <= x) (zip_add l m).
Proof. revert m. induction l as [|a l IH]; intros [|b m] Hl Hm; cbn; try constructor; inversion Hl; inversion Hm; subst; [lra|by apply IH]. Qed.
Lemma abs_nonneg l : Forall (fun x => 0 <= x) (map Rabs l).
Proof. induction l; cbn; constructor; [apply Rabs_pos|done]. Qed.
Lemma local_freqs_nonneg fields l : local_freqs fields = Some l -> Forall (fun x => 0 <= x) l.
Proof.
  destruct fields as [|f fs]; [done|]. intros [= <-]. assert (H : Forall (fun x => 0 <= x) (map Rabs f)) by apply abs_nonneg. revert H. generalize (map Rabs f).
  induction fs as [|g fs IH]; intros acc H; cbn; [done|]. apply IH, zip_add_nonneg; [done|apply abs_nonneg].
Qed.
Lemma mapM_nonneg procs locals : mapM local_freqs procs = Some locals -> Forall (fun x => 0 <= x) (concat locals) /\ (procs <> [] -> locals <> []).
Proof.
  revert locals. induction procs as [|p ps IH]; intros locals Hm; cbn in Hm; [injection Hm as <-; split; [constructor|done]|].
  destruct (local_freqs p) as [l|] eqn:El; [|done]. cbn in Hm. destruct (mapM local_freqs ps) as [ls|]; [|done]. cbn in Hm. injection Hm as <-.
  split; [|done]. cbn. apply Forall_app. split; [by eapply local_freqs_nonneg|by apply IH].
Qed.
Lemma freq_nonneg procs locals : procs <> [] -> mapM local_freqs procs = Some locals ->
  global_max NInf locals <> NaN /\ forall f, global_max NInf locals = Fin f -> 0 <= f.
Proof.
  intros Hp Hm. destruct (mapM_nonneg _ _ Hm) as [Hn Hl]. pose proof (global_max_of locals (Hl Hp)) as H. split; [by intros E; rewrite E in H|].
  intros f E. rewrite E in H. destruct H as [Hi _]. by apply (proj1 (List.Forall_forall _ _) Hn) in Hi.
Qed.

Lemma compute_timestep_step c s initial it procs d : guarded c s -> procs <> [] -> compute_timestep c initial it procs (Fin s) = Some d ->
  exists r, d = Fin r /\ guarded c r /\ min_change c * s <= r /\ fle (Fin r) (flt_mul (max_change c) (Fin s)).
Proof.
  intros [Hm Hlo Hhi Hsh Hgr Hsa Hfin] Hp Hd. assert (Hs : 0 < s) by lra.
  assert (Hsame : exists r, Fin s = Fin r /\ guarded c r /\ min_change c * s <= r /\ fle (Fin r) (flt_mul (max_change c) (Fin s))).
  { exists s. split; [done|]. split; [by split|]. split.
    - assert (0 <= (1 - min_change c) * s) by (apply Rmult_le_pos; lra). lra.
    - destruct (mul_Fin_pos (max_change c) s Hs ltac:(intros E; rewrite E in Hgr; done) Hgr) as [(k & _ & -> & Hk)|[_ ->]]; done. }
  unfold compute_timestep in Hd. destruct (decide _); [|by injection Hd as <-]. destruct (decide _); [by injection Hd as <-|].
  destruct (mapM local_freqs procs) as [locals|] eqn:El; [|done]. cbn [mbind option_bind] in Hd. apply Some_inj in Hd. subst d. destruct (freq_nonneg procs locals Hp El) as [Hn Hf].
  destruct (new_dt_spec c s (global_max NInf locals) Hs Hlo Hhi Hm Hsh Hgr Hsa Hfin Hn Hf) as (r & -> & Hr1 & Hr2 & Hr3 & Hr4 & _).
  destruct (flt_lt _ _); [|done]. exists r. split; [done|]. split; [by split|done].
Qed.
