(** C45, C46 and C63: matrix solvers solve, and the solvers built on them. *)
From Coq Require Import List Arith ZArith Bool Lia Reals Lra Field.
From Coquelicot Require Import Complex.
Import ListNotations.
From Verif Require Import MatSolvers_Model CSR_Spec MatSolvers_Spec MatSolvers_Proofs.
Local Open Scope nat_scope.

Section Props.
Context {K : Type} (k0 k1 : K) (kadd kmul ksub kdiv : K -> K -> K) (kopp kinv conj : K -> K).
Context (Hf : field_theory k0 k1 kadd kmul ksub kopp kdiv kinv eq).
Notation applied := (applied k0 kadd kmul).
Notation equation := (equation k0 kadd kmul).
Notation adjoint := (adjoint conj).
Notation inverses := (inverses k0 k1 kadd kmul).
Notation eigenpair := (eigenpair k0 kadd kmul).

(** ** C45 *)
(** The solution solves the bordered system, for every rank, if the solver of the matrix without borders and the
    inversion of the Schur complement are exact. *)
Theorem woodbury_solves base inv (M : mat K) R w Y : nc M = nr M -> nr Y = nr M -> 0 < R -> R <= nr M ->
  exact_base k0 kadd kmul base -> exact_inverse k0 k1 kadd kmul inv ->
  woodbury_init k0 k1 kadd kmul ksub base inv M R = Some w -> solves k0 kadd kmul M (woodbury_solve k0 kadd kmul ksub w Y) Y.
Proof. intros Hc HY H0 HR Hb Hi HW. eapply woodbury_ok; eauto. Qed.
(** The base solver is given the matrix with the borders removed. *)
Theorem woodbury_base base inv (M : mat K) R w : nc M = nr M -> 0 < R -> R <= nr M -> woodbury_init k0 k1 kadd kmul ksub base inv M R = Some w ->
  forall i j, i < nr M -> j < nr M -> at_ (wA w) i j = unbordered k0 M R i j.
Proof.
  intros Hc H0 HR HW. unfold woodbury_init in HW. destruct (woodbury_factors k0 k1 M R) as [[U V]|] eqn:EF; [|discriminate].
  destruct (base _); [|discriminate]. destruct (inv _); [|discriminate]. injection HW as <-. cbn [wA]. eapply factors_base; eauto.
Qed.
(** It is set up for every invertible matrix that is invertible without its borders. *)
Theorem woodbury_succeeds base inv (M : mat K) R Mi Ai : nc M = nr M -> 0 < R -> R <= nr M -> exact_base k0 kadd kmul base ->
  (forall A B, nr A = nr M -> nc A = nr M -> inverses (nr M) (at_ A) B -> exists s, base A = Some s) ->
  (forall A B, nr A = 2 * R -> nc A = 2 * R -> inverses (2 * R) (at_ A) B -> exists C, inv A = Some C) ->
  inverses (nr M) (at_ M) Mi -> inverses (nr M) (unbordered k0 M R) Ai ->
  exists w, woodbury_init k0 k1 kadd kmul ksub base inv M R = Some w.
Proof. intros Hc H0 HR Hex Hb Hi HM HA. eapply woodbury_defined; eauto. Qed.
(** Without borders, or with borders larger than the matrix, it raises an exception, for every matrix. *)
Theorem woodbury_rank_refuted base inv (M : mat K) R : nc M = nr M -> 0 < nr M -> R = 0 \/ nr M < R -> woodbury_init k0 k1 kadd kmul ksub base inv M R = None.
Proof. intros Hc Hn [->|HR]; [eapply woodbury_zero|eapply woodbury_large]; eauto. Qed.

(** ** C46 *)
(** Factorised solvers solve with the matrix and with its adjoint, whichever of the matrix, its transpose or its
    adjoint is factorised. *)
Theorem superlu_solves splu t (A : mat K) v : conjugation k0 k1 kadd kmul conj -> nc A = nr A ->
  (forall B, nr B = nr A -> nc B = nr A -> (exists Bi, inverses (nr A) (at_ B) Bi) -> factorises k0 kadd kmul conj (nr A) (at_ B) (splu B)) ->
  (exists Ai, inverses (nr A) (at_ A) Ai) ->
  equation (nr A) (at_ A) (superlu_solve t (superlu_init conj splu t A) v) v
  /\ equation (nr A) (adjoint (at_ A)) (superlu_solve_H conj t (superlu_init conj splu t A) v) v.
Proof.
  intros Hc Hs HLU HA. eapply superlu_ok; eauto. unfold superlu_init. apply HLU; [destruct t; cbn; congruence..|]. eapply superlu_invertible; eauto.
Qed.
(** Banded storage holds the matrix. *)
Theorem banded_value (m : coo K) : coo_valid m -> column_used m (cols m - 1) -> exists l u ab, sparse_to_banded k0 m = Some (l, u, ab)
  /\ nr ab = u + l + 1 /\ nc ab = cols m /\ forall i j, i < rows m -> j < cols m -> banded_entry k0 l u ab i j = dense k0 kadd m i j.
Proof.
  intros Hv Hl. destruct (banded_defined k0 conj m Hv Hl) as [[[l u] ab] E]. exists l, u, ab. split; [exact E|]. eapply banded_ok; eauto.
Qed.
(** So the banded solver solves with the matrix, if LAPACK does with the banded storage. *)
Theorem banded_solves solve_banded (m : coo K) v : coo_valid m -> rows m = cols m -> column_used m (cols m - 1) ->
  (forall l u ab, nc ab = cols m -> (exists B, inverses (cols m) (banded_entry k0 l u ab) B) -> equation (cols m) (banded_entry k0 l u ab) (solve_banded (l, u, ab) v) v) ->
  (exists B, inverses (cols m) (dense k0 kadd m) B) ->
  exists x, scipy_banded k0 solve_banded m v = Some x /\ equation (cols m) (dense k0 kadd m) x v.
Proof.
  intros Hv Hs Hl Hb [B HB]. destruct (banded_value m Hv Hl) as (l & u & ab & E & _ & Hc & He). unfold scipy_banded. rewrite E. eexists. split; [reflexivity|].
  assert (Hinv : exists B, inverses (cols m) (banded_entry k0 l u ab) B).
  { exists B. apply (inverses_ext k0 k1 kadd kmul ksub kdiv kopp kinv Hf (cols m) (dense k0 kadd m) _ B B); [|reflexivity|exact HB]. intros i j Hi Hj. symmetry. apply He; [lia|exact Hj]. }
  intros i Hi. rewrite <- (Hb l u ab Hc Hinv i Hi). apply (applied_ext k0 k1 kadd kmul ksub kdiv kopp kinv Hf); [|reflexivity]. intros j Hj. symmetry. apply He; [lia|exact Hj].
Qed.
(** Without an entry in the last column it raises an exception, unless all entries are in the first column. *)
Theorem banded_unused_column (m : coo K) : coo_valid m -> 1 < cols m -> ~ column_used m (cols m - 1) -> (exists i j v, In (i, S j, v) (stored m)) \/ stored m = [] ->
  sparse_to_banded k0 m = None.
Proof.
  intros Hv Hc Hn [(i & j & v & Hin)|He].
  - apply (banded_fails k0 m Hv Hc Hn). apply (width_ge k0 conj) in Hin. cbn [fst snd] in Hin. lia.
  - unfold sparse_to_banded, offsets. rewrite He. reflexivity.
Qed.

(** ** C63: eigenvalues *)
(** The pairs of the shift-invert search are eigenpairs of the generalised problem. *)
Theorem sparse_eigs_sound ms eigs (A B : mat K) N target : nc A = nr A -> nr B = nr A -> nc B = nr A ->
  (forall v, equation (nr A) (at_ (shifted kmul ksub A B target)) (fst (ms (shifted kmul ksub A B target)) v) v) ->
  (forall mu x, In (mu, x) (eigs (right_operator k0 kadd kmul ksub ms A B target) N) -> mu <> k0 /\ forall i, i < nr A -> right_operator k0 kadd kmul ksub ms A B target x i = kmul mu (x i)) ->
  forall lambda x, In (lambda, x) (sparse_eigs k0 k1 kadd kmul ksub kdiv ms eigs A B N target) -> eigenpair (nr A) (at_ A) (at_ B) lambda x.
Proof.
  intros Hs HB HB' Hms Heigs lambda x Hin. unfold sparse_eigs, rectify in Hin. apply in_map_iff in Hin. destruct Hin as ([mu y] & E & Hin). cbn in E. injection E as <- ->.
  destruct (Heigs _ _ Hin) as [Hmu Hop]. eapply right_sound; eauto.
Qed.
(** Every eigenpair of the generalised problem is one of the operator of the search, if the target is no eigenvalue. *)
Theorem sparse_eigs_complete ms (A B : mat K) target : nc A = nr A -> nr B = nr A -> nc B = nr A ->
  (forall v, equation (nr A) (at_ (shifted kmul ksub A B target)) (fst (ms (shifted kmul ksub A B target)) v) v) ->
  (exists Ci, inverses (nr A) (at_ (shifted kmul ksub A B target)) Ci) ->
  forall lambda x, lambda <> target -> eigenpair (nr A) (at_ A) (at_ B) lambda x ->
  forall i, i < nr A -> right_operator k0 kadd kmul ksub ms A B target x i = kmul (kdiv k1 (ksub lambda target)) (x i).
Proof. intros. eapply right_complete; eauto. Qed.
(** The left search finds eigenpairs of the adjoint problem. *)
Theorem sparse_eigs_left_sound ms eigs (A B : mat K) N target : conjugation k0 k1 kadd kmul conj -> nc A = nr A -> nr B = nr A -> nc B = nr A ->
  (forall v, equation (nr A) (adjoint (at_ (shifted kmul ksub A B target))) (snd (ms (shifted kmul ksub A B target)) v) v) ->
  (forall mu x, In (mu, x) (eigs (left_operator k0 kadd kmul ksub conj ms A B target) N) -> mu <> k0 /\ forall i, i < nr A -> left_operator k0 kadd kmul ksub conj ms A B target x i = kmul mu (x i)) ->
  forall lambda x, In (lambda, x) (sparse_eigs_left k0 k1 kadd kmul ksub kdiv conj ms eigs A B N target) -> eigenpair (nr A) (adjoint (at_ A)) (adjoint (at_ B)) lambda x.
Proof.
  intros Hc Hs HB HB' Hms Heigs lambda x Hin. unfold sparse_eigs_left, rectify in Hin. apply in_map_iff in Hin. destruct Hin as ([mu y] & E & Hin). cbn in E. injection E as <- ->.
  destruct (Heigs _ _ Hin) as [Hmu Hop]. eapply left_sound; eauto.
Qed.

(** The eigenvectors of the solver: [L x + lambda M x = 0] in the valid equations, and the same from the left. *)
Theorem right_eigenvectors_value n m sp L M lambda (rv : mat K) j : shaped n m sp -> reduced_from k0 kadd kmul n m sp L M ->
  eigenpair m (at_ (fst (pencil kopp sp))) (at_ (snd (pencil kopp sp))) lambda (fun i => at_ rv i j) ->
  forall i, i < m -> applied n (at_ (pre_left sp)) (fun k =>
    kadd (applied n L (fun q => at_ (right_eigenvectors k0 kadd kmul sp rv) q j) k) (kmul lambda (applied n M (fun q => at_ (right_eigenvectors k0 kadd kmul sp rv) q j) k))) i = k0.
Proof.
  intros (HL & HM & Hpl & Hpr & Hpp) HR He i Hi.
  pose proof (evp_right k0 k1 kadd kmul ksub kdiv kopp kinv Hf n m sp L M Hpr (fun i j Hi Hj => proj1 (HR i j Hi Hj)) (fun i j Hi Hj => proj2 (HR i j Hi Hj)) lambda rv j He i Hi) as E.
  etransitivity; [|exact E]. apply (applied_ext k0 k1 kadd kmul ksub kdiv kopp kinv Hf); [reflexivity|]. intros k Hk.
  rewrite (applied_add_m k0 k1 kadd kmul ksub kdiv kopp kinv Hf), (applied_scale_m k0 k1 kadd kmul ksub kdiv kopp kinv Hf). reflexivity.
Qed.
Theorem left_eigenvectors_value n m sp L M lambda (lv rv : mat K) j normalize x : conjugation k0 k1 kadd kmul conj -> shaped n m sp -> reduced_from k0 kadd kmul n m sp L M -> nr lv = m ->
  (normalize = true -> norms k0 kadd kmul conj sp lv rv j <> k0) ->
  eigenpair m (adjoint (at_ (fst (pencil kopp sp)))) (adjoint (at_ (snd (pencil kopp sp)))) (conj lambda) (fun i => at_ lv i j) ->
  CSR_Spec.total k0 kadd n (fun p => kmul (conj (at_ (left_eigenvectors k0 kadd kmul kdiv conj sp normalize lv rv) p j))
    (applied n (fun p q => kadd (L p q) (kmul lambda (M p q))) (fun q => applied m (at_ (pre_right sp)) x q) p)) = k0.
Proof.
  intros Hc (HL & HM & Hpl & Hpr & Hpp) HR Hlv Hn He.
  eapply evp_left; eauto; intros a b Ha Hb; apply HR; assumption.
Qed.
(** Normalised modified left eigenvectors and right eigenvectors of distinct eigenvalues are biorthonormal. *)
Theorem eigenvectors_biorthonormal n m sp (evals : nat -> K) count (lv rv : mat K) : conjugation k0 k1 kadd kmul conj -> shaped n m sp -> nr lv = m ->
  (forall a b, a < m -> b < m -> applied n (at_ (pre_right_pinv sp)) (fun k => at_ (pre_right sp) k b) a = delta k0 k1 a b) ->
  (forall i, i < count -> norms k0 kadd kmul conj sp lv rv i <> k0) ->
  (forall i j, i < count -> j < count -> i <> j -> evals i <> evals j) ->
  (forall j, j < count -> eigenpair m (at_ (fst (pencil kopp sp))) (at_ (snd (pencil kopp sp))) (evals j) (fun k => at_ rv k j)) ->
  (forall i, i < count -> eigenpair m (adjoint (at_ (fst (pencil kopp sp)))) (adjoint (at_ (snd (pencil kopp sp)))) (conj (evals i)) (fun k => at_ lv k i)) ->
  forall i j, i < count -> j < count ->
  CSR_Spec.total k0 kadd n (fun p => kmul (conj (at_ (modified_left_eigenvectors k0 kadd kmul kdiv conj sp true lv rv) p i)) (at_ (right_eigenvectors k0 kadd kmul sp rv) p j)) = delta k0 k1 i j.
Proof.
  intros Hc (HL & HM & Hpl & Hpr & Hpp) Hlv Hpinv Hn Hd Hr Hl i j Hi Hj.
  eapply evp_biorthonormal; eauto.
Qed.
(** Setting the state: the eigenvector in the chosen subsystem, zero elsewhere. *)
Theorem set_state_value (evals : vec K) evecs index idxs state : NoDup idxs ->
  let st := set_state k0 evals evecs index idxs state in
  snd st = evals index /\ (forall k p, nth_error idxs k = Some p -> fst st p = at_ evecs k index) /\ (forall p, ~ In p idxs -> fst st p = k0).
Proof.
  intros Hnd. split; [reflexivity|]. split.
  - intros k p Hk. unfold set_state. cbn [fst]. exact (scatter_in idxs (fun i => at_ evecs i index) _ k p Hnd Hk).
  - intros p Hp. unfold set_state. cbn [fst]. exact (scatter_out idxs (fun i => at_ evecs i index) (fun _ => k0) p Hp).
Qed.

(** ** C63: boundary value problems *)
(** Each solve of a history solves the selected subproblems with the matrices in force. *)
Theorem lbvp_solution solve d (h : list (call K)) c s n : In s (c_selected c) ->
  (forall A v, in_force (c :: rev h) s = Some A -> equation n (at_ A) (solve A v) v) ->
  exists A, in_force (c :: rev h) s = Some A
  /\ equation n (at_ A) (data (fold_left (fun st c => lbvp_solve solve (c_matrices c) (c_rhs c) (c_selected c) (c_rebuild c) st) (h ++ [c]) (lbvp_new d)) s) (c_rhs c s).
Proof.
  intros Hs Hsolve. assert (Hsel : existsb (Nat.eqb s) (c_selected c) = true) by (apply existsb_exists; exists s; split; [exact Hs|apply Nat.eqb_refl]).
  assert (exists A, in_force (c :: rev h) s = Some A) as [A EA].
  { cbn [in_force]. rewrite Hsel. destruct (in_force (rev h) s); [destruct (c_rebuild c)|]; eexists; reflexivity. }
  exists A. split; [exact EA|].
  change (fun st c => lbvp_solve solve (c_matrices c) (c_rhs c) (c_selected c) (c_rebuild c) st) with (@solve_call K solve).
  rewrite fold_left_app. cbn [fold_left]. rewrite solve_data, Hsel.
  pose proof (cache_in_force solve d (h ++ [c]) s) as Ec. rewrite fold_left_app, rev_app_distr in Ec. cbn [fold_left rev app] in Ec. rewrite Ec, EA. apply Hsolve. exact EA.
Qed.
(** In particular with the present matrices when rebuilding, or when they never change. *)
Corollary lbvp_rebuild solve d (h : list (call K)) c s n : In s (c_selected c) -> c_rebuild c = true \/ Forall (fun c' => c_matrices c' s = c_matrices c s) h ->
  (forall v, equation n (at_ (c_matrices c s)) (solve (c_matrices c s) v) v) ->
  equation n (at_ (c_matrices c s)) (data (fold_left (fun st c => lbvp_solve solve (c_matrices c) (c_rhs c) (c_selected c) (c_rebuild c) st) (h ++ [c]) (lbvp_new d)) s) (c_rhs c s).
Proof.
  intros Hs Hr Hsolve. assert (Hsel : existsb (Nat.eqb s) (c_selected c) = true) by (apply existsb_exists; exists s; split; [exact Hs|apply Nat.eqb_refl]).
  assert (E : in_force (c :: rev h) s = Some (c_matrices c s)).
  { cbn [in_force]. rewrite Hsel. destruct (in_force (rev h) s) as [A|] eqn:EA; [|reflexivity]. destruct Hr as [->|Hh]; [reflexivity|].
    destruct (c_rebuild c); [reflexivity|]. rewrite <- EA. apply Forall_rev in Hh. clear -Hh EA.
    revert A EA. induction Hh as [|c' l Hc' Hl IH]; intros A EA; [discriminate|]. cbn [in_force] in *. rewrite Hc' in *.
    destruct (existsb _ _); [|eapply IH; exact EA]. destruct (in_force l s); [|reflexivity]. destruct (c_rebuild c'); [reflexivity|]. eapply IH. reflexivity. }
  destruct (lbvp_solution solve d h c s n Hs) as (A & EA & Heq).
  - intros A v EA. rewrite E in EA. injection EA as <-. apply Hsolve.
  - rewrite E in EA. injection EA as <-. exact Heq.
Qed.
(** Subproblems not selected keep their coefficients, if the state is in coefficient layout. *)
Theorem lbvp_unselected solve (matrices : nat -> mat K) F sel rebuild st s : ~ In s sel ->
  data (lbvp_solve solve matrices F sel rebuild st) s = data st s /\ grid_layout (lbvp_solve solve matrices F sel rebuild st) = false.
Proof.
  intros Hs. split; [|reflexivity]. change (lbvp_solve solve matrices F sel rebuild st) with (solve_call solve st (Call matrices F sel rebuild)). rewrite solve_data. cbn [c_selected].
  destruct (existsb (Nat.eqb s) sel) eqn:E; [|reflexivity]. exfalso. apply existsb_exists in E. destruct E as (s' & Hin & Es). apply Nat.eqb_eq in Es. subst s'. contradiction.
Qed.
(** A Newton step: the Jacobian times the change of the state is the damped residual, for any problem. *)
Theorem newton_step solve F dF subproblems damping (X : nat -> vec K) s n : In s subproblems ->
  (forall v, equation n (at_ (dF X s)) (solve (dF X s) v) v) ->
  equation n (at_ (dF X s)) (fun j => ksub (X s j) (newton_iteration k0 kmul ksub solve F dF subproblems damping X s j)) (fun i => kmul damping (F X s i)).
Proof. intros Hs Hsolve i Hi. eapply newton_eq; eauto. Qed.
(** On affine problems every step multiplies the residual by one minus the damping, from every start. *)
Theorem newton_affine solve F dF subproblems damping J b n (X : nat -> vec K) k : (forall s v, In s subproblems -> equation (n s) (at_ (J s)) (solve (J s) v) v) ->
  (forall X s, In s subproblems -> dF X s = J s) -> (forall X s i, In s subproblems -> i < n s -> F X s i = ksub (applied (n s) (at_ (J s)) (X s) i) (b s i)) ->
  forall s i, In s subproblems -> i < n s ->
  F (Nat.iter k (newton_iteration k0 kmul ksub solve F dF subproblems damping) X) s i = Nat.iter k (kmul (ksub k1 damping)) (F X s i).
Proof.
  intros Hsolve HdF HF s i Hs Hi. induction k as [|k IH]; [reflexivity|].
  change (F (newton_iteration k0 kmul ksub solve F dF subproblems damping (Nat.iter k (newton_iteration k0 kmul ksub solve F dF subproblems damping) X)) s i = kmul (ksub k1 damping) (Nat.iter k (kmul (ksub k1 damping)) (F X s i))). rewrite <- IH.
  apply (newton_affine_step k0 k1 kadd kmul ksub kdiv kopp kinv Hf solve F dF subproblems damping J b n); assumption.
Qed.
(** Undamped, one step is enough. *)
Corollary newton_affine_once solve F dF subproblems J b n (X : nat -> vec K) k : (forall s v, In s subproblems -> equation (n s) (at_ (J s)) (solve (J s) v) v) ->
  (forall X s, In s subproblems -> dF X s = J s) -> (forall X s i, In s subproblems -> i < n s -> F X s i = ksub (applied (n s) (at_ (J s)) (X s) i) (b s i)) ->
  forall s i, In s subproblems -> i < n s -> F (Nat.iter (S k) (newton_iteration k0 kmul ksub solve F dF subproblems k1) X) s i = k0.
Proof.
  intros Hsolve HdF HF s i Hs Hi. rewrite (newton_affine solve F dF subproblems k1 J b n X (S k)) by assumption. change (kmul (ksub k1 k1) (Nat.iter k (kmul (ksub k1 k1)) (F X s i)) = k0).
 assert (E : ksub k1 k1 = k0) by (destruct Hf as [Hr _ _ _]; rewrite (Rsub_def Hr); apply (Ropp_def Hr)). rewrite E.
  destruct Hf as [Hr _ _ _]. rewrite (ARmul_0_l (Rth_ARth (Eqsth K) (Eq_ext kadd kmul kopp) Hr)). reflexivity.
Qed.
End Props.

(** ** C45: by name *)
(** Solvers with a Woodbury name cannot be given to a problem solver, whichever classes are registered and
    whatever the options. *)
Theorem woodbury_named_refuted classes opts n : In n (map fst classes) -> configure (table classes) opts (true, n) = AttributeError.
Proof.
  intros Hin. unfold configure, table, find_name.
  assert (forall l, find (fun e : name * registered => Bool.eqb (fst (fst e)) true && (snd (fst e) =? n)) (map (fun c : nat * list (nat * bool) => ((false, fst c), ASolver (snd c))) l
     ++ map (fun c => ((true, fst c), APartial [(0, true)])) classes) = find (fun e => Bool.eqb (fst (fst e)) true && (snd (fst e) =? n)) (map (fun c => ((true, fst c), APartial [(0, true)])) classes)) as H.
  { induction l as [|c l IH]; [reflexivity|]. cbn [map app find fst snd Bool.eqb andb]. exact IH. }
  rewrite H. clear H. induction classes as [|c classes IH]; [destruct Hin|]. cbn [map find fst snd Bool.eqb andb] in *.
  destruct (Nat.eqb_spec (fst c) n) as [->|Hne]; [reflexivity|]. apply IH. destruct Hin as [E|Hin]; [contradiction|exact Hin].
Qed.
(** Other names can. *)
Theorem plain_named classes opts n : In n (map fst classes) -> Forall (fun c => snd c = []) classes -> configure (table classes) opts (false, n) = Configured.
Proof.
  intros Hin Hall. unfold configure, table, find_name.
  assert (H : exists c, find (fun e : name * registered => Bool.eqb (fst (fst e)) false && (snd (fst e) =? n)) (map (fun c : nat * list (nat * bool) => ((false, fst c), ASolver (snd c))) classes
     ++ map (fun c => ((true, fst c), APartial [(0, true)])) classes) = Some (c, ASolver [])).
  { generalize (map (fun c : nat * list (nat * bool) => ((true, fst c), APartial [(0, true)])) classes). intros rest.
    induction Hall as [|c classes Hc Hall IH]; [destruct Hin|]. cbn [map app find fst snd Bool.eqb andb] in *. rewrite Hc.
    destruct (Nat.eqb_spec (fst c) n) as [->|Hne]; [eexists; reflexivity|]. apply IH. destruct Hin as [E|Hin]; [contradiction|exact Hin]. }
  destruct H as [c H]. unfold name in *. cbn [fst snd] in *. rewrite H. reflexivity.
Qed.

(** ** Refutations and instances over the reals *)
(** A matrix with entries in its first column only is stored as another one. *)
Theorem banded_first_column_refuted : exists m, coo_valid m /\ rows m = 2 /\ cols m = 2 /\ exists l u ab, sparse_to_banded 0%R m = Some (l, u, ab)
  /\ banded_entry 0%R l u ab 1 1 <> dense 0%R Rplus m 1 1.
Proof.
  exists (Coo 2 2 [(0, 0, 1%R)]). split; [|split; [reflexivity|split; [reflexivity|]]].
  - split; [repeat constructor; intros []|]. repeat constructor; cbn; lia.
  - exists 0, 0. eexists. split; [reflexivity|]. cbn. lra.
Qed.
(** A solve of some subproblems of a state in grid layout leaves grid values as coefficients of the others. *)
Theorem lbvp_grid_refuted : exists (forward : (nat -> vec R) -> nat -> vec R) solve matrices F sel st s, ~ In s sel /\ grid_layout st = true
  /\ data (lbvp_solve solve matrices F sel false st) s 0 <> forward (data st) s 0.
Proof.
  exists (fun x s i => (x s i / 2)%R), (fun _ v => v), (fun _ => Mat 1 1 (fun _ _ => 1%R)), (fun _ _ => 1%R), [0], (Lbvp (fun _ => None) true (fun _ _ => 1%R)), 1.
  split; [intros [H|[]]; discriminate|]. split; [reflexivity|]. cbn. lra.
Qed.
(** The search returns the eigenvalues nearest the target, if the library returns those of largest modulus. *)
Theorem sparse_eigs_nearest ms eigs (A B : mat C) N target : nc A = nr A -> nr B = nr A -> nc B = nr A ->
  (forall v, equation (RtoC 0) Cplus Cmult (nr A) (at_ (shifted Cmult Cminus A B target)) (fst (ms (shifted Cmult Cminus A B target)) v) v) ->
  (exists Ci, inverses (RtoC 0) (RtoC 1) Cplus Cmult (nr A) (at_ (shifted Cmult Cminus A B target)) Ci) ->
  (forall mu x, In (mu, x) (eigs (right_operator (RtoC 0) Cplus Cmult Cminus ms A B target) N) -> mu <> RtoC 0) ->
  (let op := right_operator (RtoC 0) Cplus Cmult Cminus ms A B target in forall mu' x', (exists i, i < nr A /\ x' i <> RtoC 0) -> (forall i, i < nr A -> op x' i = Cmult mu' (x' i)) ->
     (exists x, In (mu', x) (eigs op N)) \/ (forall mu x, In (mu, x) (eigs op N) -> (Cmod mu' <= Cmod mu)%R)) ->
  forall lambda x lambda' x', In (lambda, x) (sparse_eigs (RtoC 0) (RtoC 1) Cplus Cmult Cminus Cdiv ms eigs A B N target) ->
  (exists i, i < nr A /\ x' i <> RtoC 0) -> lambda' <> target -> eigenpair (RtoC 0) Cplus Cmult (nr A) (at_ A) (at_ B) lambda' x' ->
  (exists x, In (lambda', x) (sparse_eigs (RtoC 0) (RtoC 1) Cplus Cmult Cminus Cdiv ms eigs A B N target)) \/ (Cmod (Cminus lambda target) <= Cmod (Cminus lambda' target))%R.
Proof.
  intros Hs HB HB' Hms HC Hnz Hlarge lambda x lambda' x' Hin Hx' Hne He.
  pose proof (sparse_eigs_complete (RtoC 0) (RtoC 1) Cplus Cmult Cminus Cdiv Copp Cinv C_field_theory ms A B target Hs HB HB' Hms HC lambda' x' Hne He) as Hop.
  assert (Hd : (lambda' - target)%C <> RtoC 0). { intros E. apply Hne. transitivity ((lambda' - target) + target)%C; [ring|]. rewrite E. ring. }
  destruct (Hlarge _ x' Hx' Hop) as [[y Hy]|Hall].
  - left. exists y. unfold sparse_eigs, rectify. apply in_map_iff. eexists. split; [|exact Hy]. cbn [fst snd]. f_equal. field. split; [exact Hd|]. intros E0. injection E0. lra.
  - right. unfold sparse_eigs, rectify in Hin. apply in_map_iff in Hin. destruct Hin as ([mu y] & E & Hin). cbn [fst snd] in E. injection E as E1 E2. subst y.
    specialize (Hall _ _ Hin). pose proof (Hnz _ _ Hin) as Hmu.
    assert (El : (lambda - target)%C = (/ mu)%C). { rewrite <- E1. field. exact Hmu. }
    rewrite El, Cmod_inv by exact Hmu. rewrite Cmod_div in Hall by exact Hd. rewrite Cmod_1 in Hall.
    apply Cmod_gt_0 in Hmu. apply Cmod_gt_0 in Hd. unfold Rdiv in Hall. rewrite Rmult_1_l in Hall.
    apply Rinv_le_contravar in Hall; [|apply Rinv_0_lt_compat; exact Hd]. rewrite Rinv_inv in Hall. exact Hall.
Qed.

(** ** Instances: the hypotheses hold for the complex numbers, and for concrete matrices *)
Example complex_conjugation : conjugation (RtoC 0) (RtoC 1) Cplus Cmult Cconj.
Proof. split; [intros [a b] [c d]; unfold Cconj, Cplus; cbn; f_equal; ring|]. split; [intros [a b] [c d]; unfold Cconj, Cmult; cbn; f_equal; ring|]. split; [intros [a b]; unfold Cconj; cbn; f_equal; ring|]. unfold Cconj, RtoC. cbn. split; f_equal; ring. Qed.
(** Cramer's rule, a solver of two by two matrices. *)
Definition det2 (A : mat R) : R := (at_ A 0%nat 0%nat * at_ A 1%nat 1%nat - at_ A 0%nat 1%nat * at_ A 1%nat 0%nat)%R.
Definition cramer (A : mat R) : option (mat R -> mat R) :=
  if Nat.eq_dec (nr A) 2 then if Nat.eq_dec (nc A) 2 then if Req_EM_T (det2 A) 0 then None else
    Some (fun Y => Mat 2 (nc Y) (fun i j => match i with
      | O => ((at_ A 1%nat 1%nat * at_ Y 0%nat j - at_ A 0%nat 1%nat * at_ Y 1%nat j) / det2 A)%R
      | _ => ((at_ A 0%nat 0%nat * at_ Y 1%nat j - at_ A 1%nat 0%nat * at_ Y 0%nat j) / det2 A)%R end)) else None else None.
Definition inverse2 (A : mat R) : option (mat R) := match cramer A with Some s => Some (s (Mat 2 2 (delta 0%R 1%R))) | None => None end.
Example cramer_exact : exact_base 0%R Rplus Rmult cramer.
Proof.
  intros A s Hs Y HY. unfold cramer in Hs. destruct (Nat.eq_dec (nr A) 2) as [Hr|]; [|discriminate]. destruct (Nat.eq_dec (nc A) 2) as [Hc|]; [|discriminate].
  destruct (Req_EM_T (det2 A) 0) as [|Hd]; [discriminate|]. injection Hs as <-. split; [cbn; lia|]. split; [reflexivity|].
  intros j Hj i Hi. rewrite Hc. unfold applied, total. cbn [seq fold_right at_]. unfold det2 in *. destruct i as [|[|i]]; [| |lia]; field; exact Hd.
Qed.
Example inverse2_exact : exact_inverse 0%R 1%R Rplus Rmult inverse2.
Proof.
  intros A B HB. unfold inverse2 in HB. destruct (cramer A) as [s|] eqn:E; [|discriminate]. injection HB as <-.
  assert (Hr : nr A = 2%nat). { unfold cramer in E. destruct (Nat.eq_dec (nr A) 2); [assumption|discriminate]. }
  rewrite Hr. apply (cramer_exact A s E). symmetry. exact Hr.
Qed.
Lemma det2_inverse (A : mat R) B : inverses 0%R 1%R Rplus Rmult 2 (at_ A) B -> det2 A <> 0%R.
Proof.
  intros H. unfold inverses, applied, total, delta in H. cbn [seq fold_right] in H. unfold det2.
  destruct (H 0%nat 0%nat ltac:(lia) ltac:(lia)) as [H00 _]. destruct (H 0%nat 1%nat ltac:(lia) ltac:(lia)) as [H01 _].
  destruct (H 1%nat 0%nat ltac:(lia) ltac:(lia)) as [H10 _]. destruct (H 1%nat 1%nat ltac:(lia) ltac:(lia)) as [H11 _]. cbn [Nat.eqb] in *.
  set (a := at_ A 0%nat 0%nat) in *. set (b := at_ A 0%nat 1%nat) in *. set (c := at_ A 1%nat 0%nat) in *. set (d := at_ A 1%nat 1%nat) in *.
  intros E. assert (X : ((a * d - b * c) * (B 0%nat 0%nat * B 1%nat 1%nat - B 0%nat 1%nat * B 1%nat 0%nat) = 1)%R).
  { transitivity ((a * B 0%nat 0%nat + (b * B 1%nat 0%nat + 0)) * (c * B 0%nat 1%nat + (d * B 1%nat 1%nat + 0)) - (a * B 0%nat 1%nat + (b * B 1%nat 1%nat + 0)) * (c * B 0%nat 0%nat + (d * B 1%nat 0%nat + 0)))%R; [ring|].
    rewrite H00, H01, H10, H11. ring. }
  rewrite E in X. lra.
Qed.
(** The matrix [[2, 1], [1, 3]] with border of rank one. *)
Definition ex_M : mat R := Mat 2 2 (fun i j => match i, j with 0%nat, 0%nat => 2%R | 0%nat, _ => 1%R | _, 0%nat => 1%R | _, _ => 3%R end).
Example ex_woodbury : exists w, woodbury_init 0%R 1%R Rplus Rmult Rminus cramer inverse2 ex_M 1 = Some w
  /\ forall Y, nr Y = 2%nat -> solves 0%R Rplus Rmult ex_M (woodbury_solve 0%R Rplus Rmult Rminus w Y) Y.
Proof.
  assert (E : exists w, woodbury_init 0%R 1%R Rplus Rmult Rminus cramer inverse2 ex_M 1 = Some w).
  { apply (woodbury_succeeds 0%R 1%R Rplus Rmult Rminus Rdiv Ropp Rinv RealField.Rfield cramer inverse2 ex_M 1
      (fun i j => match i, j with 0%nat, 0%nat => (3 / 5)%R | 0%nat, _ => (- 1 / 5)%R | _, 0%nat => (- 1 / 5)%R | _, _ => (2 / 5)%R end)
      (fun i j => match i, j with 0%nat, 0%nat => (1 / 2)%R | 0%nat, _ => 0%R | _, 0%nat => (- 1 / 6)%R | _, _ => (1 / 3)%R end));
      [reflexivity|lia|cbn; lia|apply cramer_exact| | | |].
    - intros A B Hr Hc HI. unfold cramer. destruct (Nat.eq_dec (nr A) 2); [|contradiction]. destruct (Nat.eq_dec (nc A) 2); [|contradiction].
      destruct (Req_EM_T (det2 A) 0) as [E|]; [|eexists; reflexivity]. destruct (det2_inverse A B HI E).
    - intros A B Hr Hc HI. unfold inverse2, cramer. destruct (Nat.eq_dec (nr A) 2); [|contradiction]. destruct (Nat.eq_dec (nc A) 2); [|contradiction].
      destruct (Req_EM_T (det2 A) 0) as [E|]; [|eexists; reflexivity]. destruct (det2_inverse A B HI E).
    - intros i j Hi Hj. cbn [nr ex_M] in *. unfold applied, total, delta. destruct i as [|[|i]], j as [|[|j]]; try lia; cbn; split; field.
    - intros i j Hi Hj. cbn [nr ex_M] in *. unfold applied, total, delta, unbordered. destruct i as [|[|i]], j as [|[|j]]; try lia; cbn; split; field. }
  destruct E as [w E]. exists w. split; [exact E|]. intros Y HY.
  apply (woodbury_solves 0%R 1%R Rplus Rmult Rminus Rdiv Ropp Rinv RealField.Rfield cramer inverse2 ex_M 1 w Y); try reflexivity; try assumption; cbn; try lia; [apply cramer_exact|apply inverse2_exact].
Qed.
(** A tridiagonal corner in banded storage. *)
Example ex_banded : coo_valid (Coo 2 2 [(0, 0, 2%R); (1, 0, 1%R); (1, 1, 3%R)]) /\ column_used (Coo 2 2 [(0, 0, 2%R); (1, 0, 1%R); (1, 1, 3%R)]) 1.
Proof.
  split; [split; [repeat constructor; cbn; intuition discriminate|repeat constructor; cbn; lia]|]. exists 1, 3%R. cbn. tauto.
Qed.
(** A pencil with distinct eigenvalues 1 and 2: the diagonal matrix, with [M_min] minus the identity. *)
Definition ex_sp : subproblem R := Subproblem (Mat 2 2 (fun i j => if i =? j then INR (S i) else 0%R)) (Mat 2 2 (fun i j => if i =? j then (-1)%R else 0%R))
  (Mat 2 2 (delta 0%R 1%R)) (Mat 2 2 (delta 0%R 1%R)) (Mat 2 2 (delta 0%R 1%R)).
Example ex_biorthonormal i j : i < 2 -> j < 2 ->
  CSR_Spec.total 0%R Rplus 2 (fun p => Rmult (at_ (modified_left_eigenvectors 0%R Rplus Rmult Rdiv (fun x => x) ex_sp true (Mat 2 2 (delta 0%R 1%R)) (Mat 2 2 (delta 0%R 1%R))) p i)
    (at_ (right_eigenvectors 0%R Rplus Rmult ex_sp (Mat 2 2 (delta 0%R 1%R))) p j)) = delta 0%R 1%R i j.
Proof.
  apply (eigenvectors_biorthonormal 0%R 1%R Rplus Rmult Rminus Rdiv Ropp Rinv (fun x => x) RealField.Rfield 2 2 ex_sp (fun i => INR (S i)) 2).
  - repeat split; reflexivity.
  - repeat split; reflexivity.
  - reflexivity.
  - intros a b Ha Hb. destruct a as [|[|a]], b as [|[|b]]; try lia; unfold applied, total, delta; cbn; ring.
  - intros a Ha. destruct a as [|[|a]]; try lia; unfold norms, mmul, msum; cbn; lra.
  - intros a b Ha Hb Hne. destruct a as [|[|a]], b as [|[|b]]; try lia; cbn; lra.
  - intros b Hb a Ha. destruct a as [|[|a]], b as [|[|b]]; try lia; unfold applied, total, delta; cbn; ring.
  - intros b Hb a Ha. unfold adjoint. destruct a as [|[|a]], b as [|[|b]]; try lia; unfold applied, total, delta; cbn; ring.
Qed.
(** An affine problem of one subproblem with two unknowns meets the hypotheses of [newton_affine_once]. *)
Example ex_newton (X : nat -> vec R) i : i < 2 ->
  (INR (S i) * newton_iteration 0%R Rmult Rminus (fun A v i => v i / at_ A i i)%R (fun X _ i => INR (S i) * X 0%nat i - 7)%R (fun _ _ => Mat 2 2 (fun i j => if i =? j then INR (S i) else 0%R)) [0%nat] 1%R X 0%nat i - 7 = 0)%R.
Proof.
  intros Hi.
  refine (newton_affine_once 0%R 1%R Rplus Rmult Rminus Rdiv Ropp Rinv RealField.Rfield (fun A v i => v i / at_ A i i)%R (fun X _ i => INR (S i) * X 0%nat i - 7)%R
    (fun _ _ => Mat 2 2 (fun i j => if i =? j then INR (S i) else 0%R)) [0%nat] (fun _ => Mat 2 2 (fun i j => if i =? j then INR (S i) else 0%R)) (fun _ _ => 7%R) (fun _ => 2) X 0 _ _ _ 0%nat i _ Hi).
  - intros s v _ a Ha. destruct a as [|[|a]]; try lia; unfold applied, total; cbn; field.
  - reflexivity.
  - intros Y s a [<-|[]] Ha. destruct a as [|[|a]]; try lia; unfold applied, total; cbn; ring.
  - left. reflexivity.
Qed.

Print Assumptions woodbury_solves.
Print Assumptions woodbury_base.
Print Assumptions woodbury_succeeds.
Print Assumptions woodbury_rank_refuted.
Print Assumptions woodbury_named_refuted.
Print Assumptions plain_named.
Print Assumptions superlu_solves.
Print Assumptions banded_value.
Print Assumptions banded_solves.
Print Assumptions banded_unused_column.
Print Assumptions banded_first_column_refuted.
Print Assumptions sparse_eigs_sound.
Print Assumptions sparse_eigs_complete.
Print Assumptions sparse_eigs_left_sound.
Print Assumptions sparse_eigs_nearest.
Print Assumptions right_eigenvectors_value.
Print Assumptions left_eigenvectors_value.
Print Assumptions eigenvectors_biorthonormal.
Print Assumptions set_state_value.
Print Assumptions lbvp_solution.
Print Assumptions lbvp_rebuild.
Print Assumptions lbvp_unselected.
Print Assumptions lbvp_grid_refuted.
Print Assumptions newton_step.
Print Assumptions newton_affine.
Print Assumptions newton_affine_once.
