(** C70: the matrices of left-hand sides. *)
From Coq Require Import List Arith Bool Lia Field QArith Qcanon.
Import ListNotations.
From Verif Require Import CSR_Spec MatSolvers_Model LHS_Model LHS_Spec LHS_Proofs.
Local Open Scope nat_scope.

Section Props.
Context {K : Type} (k0 k1 : K) (kadd kmul ksub kdiv : K -> K -> K) (kopp kinv : K -> K).
Context (Hf : field_theory k0 k1 kadd kmul ksub kopp kdiv kinv eq).

(** A problem in [dim] dimensions: operators and products that mix no groups along the axes they are said not to couple, equations
    whose left-hand sides are linear in the variables, and the coupling a solver settles on.  In every subproblem that fixes groups
    along uncoupled axes only, the matrices exist, have one row for each coefficient of the equation and one column for each
    coefficient of a variable, and applying them to the variables gives the coefficients of the left-hand side. *)
Theorem lhs_matrices dim msize group number G N phi op_couples ncc_couples local specified vars eqs pc mc :
  separate k0 dim msize group op_couples Lin G -> separate k0 dim msize group ncc_couples Prod N ->
  problem_variables vars -> problem_coupling op_couples ncc_couples vars eqs = Some pc -> solver_coupling dim local pc specified = Some mc ->
  forall p, respects dim mc p -> forall e, In e eqs -> consistent msize group e -> built vars vars e ->
  exists d, matrices k0 k1 kadd kmul dim msize group number G N p vars vars e = Some d /\
    (forall v M, find v d = Some M -> In v vars /\ nr M = count dim msize group p e /\ nc M = count dim msize group p v) /\
    forall x i, i < count dim msize group p e ->
      gathered dim msize group p e (value k0 kadd kmul msize number G N phi x e) i =
      applied k0 kadd kmul dim msize group p d vars (value k0 kadd kmul msize number G N phi x) i.
Proof.
  intros HG HN Hv Hp Hs p Hr e He C B. destruct (problem_covers _ _ _ _ _ _ Hp He) as (c & Hc & Hcp).
  apply (problem_right k0 k1 kadd kmul ksub kdiv kopp kinv Hf dim msize group number G N phi op_couples ncc_couples HG HN p vars vars e c Hv C B Hc).
  intros a k Ha Hk. destruct (c a) eqn:E; [|reflexivity]. destruct (solver_covers _ _ _ _ _ Hs a Ha) as [H1 _]. rewrite (Hr a k Ha Hk) in H1. symmetry. apply H1, Hcp, E.
Qed.

(** The coupling a solver settles on covers that of every equation and only axes that are not distributed; one that does not cover it
    is refused, and so is any that is coupled along a distributed axis. *)
Theorem solver_coupling_right dim local op_couples ncc_couples vars eqs pc specified :
  problem_coupling op_couples ncc_couples vars eqs = Some pc ->
  match solver_coupling dim local pc specified with
  | Some mc => (forall a, a < dim -> mc a = true -> local a = true) /\ (forall f, specified = Some f -> mc = f) /\
               (forall e c a, In e eqs -> matrix_coupling op_couples ncc_couples vars e = Some c -> a < dim -> c a = true -> mc a = true) /\
               (specified = None -> forall a, a < dim -> mc a = true -> a = dim - 1 \/ exists e c, In e eqs /\ matrix_coupling op_couples ncc_couples vars e = Some c /\ c a = true)
  | None => exists a, a < dim /\
      (local a = false \/ exists f e c, specified = Some f /\ f a = false /\ In e eqs /\ matrix_coupling op_couples ncc_couples vars e = Some c /\ c a = true)
  end.
Proof.
  intros Hp. assert (Hback : forall a, pc a = true -> exists e c, In e eqs /\ matrix_coupling op_couples ncc_couples vars e = Some c /\ c a = true).
  { clear - Hp. revert pc Hp. induction eqs as [|e l IH]; intros pc; cbn [problem_coupling]; [intros [= <-] a; discriminate|].
    destruct (matrix_coupling op_couples ncc_couples vars e) as [c|] eqn:E; [|discriminate]. destruct (problem_coupling _ _ vars l) as [q|] eqn:E2; [|discriminate]. cbn [either]. intros [= <-] a Ha. apply orb_true_iff in Ha. destruct Ha as [Ha|Ha].
    - exists e, c. cbn. auto.
    - destruct (IH q eq_refl a Ha) as (e' & c' & ? & ? & ?). exists e', c'. cbn. auto. }
  destruct (solver_coupling dim local pc specified) as [mc|] eqn:Hs.
  - pose proof (solver_covers _ _ _ _ _ Hs) as Hc. split; [intros a Ha; apply Hc; exact Ha|]. split; [|split].
    + intros f ->. unfold solver_coupling in Hs. destruct (existsb (fun a => negb (f a) && pc a) (seq 0 dim)); [discriminate|]. destruct (existsb _ _); [discriminate|]. injection Hs as <-. reflexivity.
    + intros e c a He Ec Ha Hca. destruct (problem_covers _ _ _ _ _ _ Hp He) as (c' & Ec' & H). rewrite Ec in Ec'. injection Ec' as <-. apply (Hc a Ha), H, Hca.
    + intros -> a Ha Hm. unfold solver_coupling in Hs. destruct (existsb pc (seq 0 dim)); (match type of Hs with (if ?b then _ else _) = _ => destruct b; [discriminate|] end); injection Hs as <-.
      * right. apply Hback. exact Hm.
      * apply orb_true_iff in Hm. destruct Hm as [Hm|Hm]; [left; apply Nat.eqb_eq; exact Hm|right; apply Hback; exact Hm].
  - unfold solver_coupling in Hs.
    assert (X : forall f, (if existsb (fun b => f b && negb (local b)) (seq 0 dim) then None else Some f) = None (A:=nat->bool) -> exists a, a < dim /\ local a = false).
    { intros f H. destruct (existsb _ _) eqn:E in H; [|discriminate]. apply existsb_exists in E. destruct E as (a & Ha & E). apply in_seq in Ha. exists a. split; [lia|]. apply andb_true_iff in E. destruct E as [_ E]. apply negb_true_iff. exact E. }
    destruct specified as [f|].
    + destruct (existsb (fun a => negb (f a) && pc a) (seq 0 dim)) eqn:E.
      * apply existsb_exists in E. destruct E as (a & Ha & E). apply in_seq in Ha. apply andb_true_iff in E. destruct E as [E1 E2]. destruct (Hback a E2) as (e & c & ? & ? & ?). exists a. split; [lia|]. right. exists f, e, c. apply negb_true_iff in E1. auto 6.
      * destruct (X _ Hs) as (a & ? & ?). exists a. auto.
    + destruct (existsb pc (seq 0 dim)); destruct (X _ Hs) as (a & ? & ?); exists a; auto.
Qed.

(** A derived operator on a Cartesian curl: [w] stands for lap(curl(u)), whose definition is the operator [L] applied to curl(u), and
    curl(u) is defined by products with unit vectors.  It is linear in [u], but its matrices cannot be built, in any subproblem that
    has coefficients of it. *)
Theorem curl_operand_refuted dim msize group number (G N : nat -> expr -> nat -> nat -> K) p vars u n D L :
  problem_variables vars -> In u vars ->
  let c := Curl u (Prod n (Lin D u)) in let w := Wrap c (Lin L c) in
  alike msize group w (Lin L c) -> count dim msize group p w <> 0 ->
  matrices k0 k1 kadd kmul dim msize group number G N p vars vars w = None.
Proof.
  intros (NE & _ & Hv) Hu c w A Hc. unfold matrices, w. cbn [expression_matrices]. unfold linear.
  assert (Hm : forall a b, mem (Wrap a b) vars = false). { intros a b. destruct (mem_dec (Wrap a b) vars) as [[_ HI]|[E _]]; [|exact E]. destruct (Hv _ HI); discriminate. }
  rewrite Hm. fold w. replace (count dim msize group p w =? 0) with false by (symmetry; apply Nat.eqb_neq; exact Hc).
  rewrite <- (alike_count dim msize group p w (Lin L c) A). replace (count dim msize group p w =? 0) with false by (symmetry; apply Nat.eqb_neq; exact Hc).
  match goal with |- context [expression_matrices k0 k1 kadd kmul number ?cnt ?om ?nm vars [c] c] => assert (X : expression_matrices k0 k1 kadd kmul number cnt om nm vars [c] c = None) end.
  { unfold c at 2. cbn [expression_matrices mem existsb same orb]. replace (same_list [c] vars) with false; [reflexivity|].
    destruct vars as [|v l]; [congruence|]. destruct (Hv v (or_introl eq_refl)) as [f ->]. reflexivity. }
  cbn [mem existsb same orb]. rewrite X. destruct (expression_matrices _ _ _ _ _ _ _ _ vars vars c); reflexivity.
Qed.
End Props.

(** ** A problem *)
(** Two axes with two groups each; operator 0 is a diagonal derivative, operator 1 mixes the second axis, and so does coefficient 0. *)
Definition q (n : Z) : Qc := Q2Qc (inject_Z n).
Fixpoint ex_size (e : expr) : nat := match e with Stack _ args => list_sum (map ex_size args) | _ => 4 end.
Definition ex_group (e : expr) (i a : nat) : nat := match a with 0 => (i mod 4) / 2 | _ => i mod 2 end.
Definition ex_G (L : nat) (e : expr) (i j : nat) : Qc :=
  match L with
  | 0 => if i =? j then q (Z.of_nat i + 1) else q 0
  | _ => if i / 2 =? j / 2 then q (Z.of_nat (2 * i + j)) else q 0
  end.
Definition ex_N (n : nat) (e : expr) (i j : nat) : Qc := if i / 2 =? j / 2 then q 3 else q 0.
Definition ex_opc (L : nat) (e : expr) (a : nat) : bool := match L with 0 => false | _ => a =? 1 end.
Definition ex_nc (n : nat) (e : expr) (a : nat) : bool := a =? 1.
Definition u := Field 0. Definition v := Field 1.
Definition eq1 : expr := Add (Scale 0 u) (Add (Wrap v (Add (Lin 0 (Lin 0 v)) (Lin 1 v))) (Prod 0 u)).
Definition eq2 : expr := Stack u [Lin 0 u; Lin 1 u].
Notation ex_matrices := (matrices (q 0) (q 1) Qcplus Qcmult 2 ex_size ex_group (fun _ => q 5) ex_G ex_N).

Example hypotheses_met :
  separate (q 0) 2 ex_size ex_group ex_opc Lin ex_G /\ separate (q 0) 2 ex_size ex_group ex_nc Prod ex_N /\ problem_variables [u; v] /\
  consistent ex_size ex_group eq1 /\ consistent ex_size ex_group eq2 /\ built [u; v] [u; v] eq1 /\ built [u; v] [u; v] eq2 /\
  (exists pc mc, problem_coupling ex_opc ex_nc [u; v] [eq1; eq2] = Some pc /\ solver_coupling 2 (fun _ => true) pc None = Some mc /\
     map mc [0; 1] = [false; true] /\ respects 2 mc [Some 1; None]).
Proof.
  assert (Pu : built [u; v] [u; v] u) by (apply b_var; cbn; auto). assert (Pv : built [u; v] [u; v] v) by (apply b_var; cbn; auto).
  assert (Qu : built [u; v] [u] u) by (apply b_var; cbn; auto). assert (Qv : built [u; v] [v] v) by (apply b_var; cbn; auto).
  assert (SE : forall i j a, a < 2 -> (a =? 1) = false -> i < 4 -> (i / 2 =? j / 2) = true -> ex_group u i a = ex_group u j a).
  { intros i j a Ha E Hi D. assert (a = 0) by (apply Nat.eqb_neq in E; lia). subst a. apply Nat.eqb_eq in D. cbn [ex_group].
    assert (j < 4) by (pose proof (Nat.div_mod j 2); pose proof (Nat.div_mod i 2); pose proof (Nat.mod_upper_bound i 2); pose proof (Nat.mod_upper_bound j 2); lia). rewrite !Nat.mod_small by lia. exact D. }
  split; [|split; [|split; [|split; [|split; [|split; [|split]]]]]].
  - intros [|L] e i j a Ha Hc Hi _ D; unfold ex_G.
    + destruct (i =? j) eqn:E; [|reflexivity]. apply Nat.eqb_eq in E. subst. exfalso. apply D. reflexivity.
    + destruct (i / 2 =? j / 2) eqn:E; [|reflexivity]. exfalso. apply D. exact (SE i j a Ha Hc Hi E).
  - intros n e i j a Ha Hc Hi _ D; unfold ex_N. destruct (i / 2 =? j / 2) eqn:E; [|reflexivity]. exfalso. apply D. exact (SE i j a Ha Hc Hi E).
  - split; [discriminate|]. split; [repeat constructor; cbn; intuition discriminate|]. intros w [<-|[<-|[]]]; eexists; reflexivity.
  - cbn. repeat split.
  - cbn. repeat split; [discriminate|]. intros i a Hi. destruct (Nat.leb_spec i 3) as [E|E]; [reflexivity|]. replace (i - 4 <=? 3) with true by (symmetry; apply Nat.leb_le; lia).
    unfold ex_group. destruct (Nat.le_exists_sub 4 i ltac:(lia)) as (k & -> & _). replace (k + 4 - 4) with k by lia. destruct a; [rewrite <- (Nat.mod_add k 1 4) by lia; reflexivity|]. rewrite <- (Nat.mod_add k 2 2) by lia. reflexivity.
  - apply b_add; [apply b_scale; exact Pu|]. apply b_add; [|apply b_prod; auto]. apply b_wrap; [exact Pv|]. apply b_add; [apply b_lin, b_lin, Qv|apply b_lin, Qv].
  - apply b_stack; [exact Pu|]. intros a [<-|[<-|[]]]; apply b_lin, Qu.
  - do 2 eexists. split; [reflexivity|]. split; [reflexivity|]. split; [reflexivity|]. intros [|[|a]] k Ha; cbn; [reflexivity|discriminate|lia].
Qed.
(** The matrices of both equations in the subproblem of group 1 along the first axis. *)
Definition entries (M : mat Qc) : nat * nat * list (list (Z * positive)) := (nr M, nc M, map (fun i => map (fun j => (Qnum (at_ M i j), Qden (at_ M i j))) (seq 0 (nc M))) (seq 0 (nr M))).
Definition ints (l : list (list Z)) : list (list (Z * positive)) := map (map (fun n => (n, 1%positive))) l.
Example matrices_computed :
  option_map (map (fun vM => (fst vM, entries (snd vM)))) (ex_matrices [Some 1; None] [u; v] [u; v] eq1) =
    Some [(u, (2, 2, ints [[8; 3]; [3; 8]]%Z)); (v, (2, 2, ints [[15; 7]; [8; 25]]%Z))] /\
  option_map (map (fun vM => (fst vM, entries (snd vM)))) (ex_matrices [Some 1; None] [u; v] [u; v] eq2) =
    Some [(u, (4, 2, ints [[3; 0]; [0; 4]; [6; 7]; [8; 9]]%Z))].
Proof. split; vm_compute; reflexivity. Qed.
(** lap(curl(u)) meets the hypotheses of [curl_operand_refuted]. *)
Example curl_example :
  let c := Curl u (Prod 0 (Lin 1 u)) in let w := Wrap c (Lin 0 c) in
  alike ex_size ex_group w (Lin 0 c) /\ count 2 ex_size ex_group [Some 1; None] w = 2 /\ ex_matrices [Some 1; None] [u; v] [u; v] w = None.
Proof. cbn zeta. split; [split; reflexivity|]. split; vm_compute; reflexivity. Qed.

Print Assumptions lhs_matrices.
Print Assumptions solver_coupling_right.
Print Assumptions curl_operand_refuted.
