(** C34 to C39 and C66: symbolic expressions. *)
From Coq Require Import Reals Lra.
From Coquelicot Require Import Coquelicot.
From stdpp Require Import numbers list.
From Verif Require Import Expressions_Model Expressions_Spec Expressions_Proofs ExpressionsSplit_Proofs ExpressionsLinear_Proofs
  ExpressionsTotal_Proofs Ufuncs_Proofs ExpressionsDiff_Proofs.
Local Open Scope R_scope.

(** ** A world for the examples *)
(** Points are natural numbers.  Operator 0 is a forward difference, 1 the time derivative, 2 interpolation
    at the first point, 3 a copy, the others are the identity and accept only zero as a number.  Fields are
    scalars, but field 3 is a vector in three dimensions.  Field 9 is constant in space, and its difference is
    recognised to be zero. *)
Definition ex_world : world :=
  World (fun v => if decide (v = 3%nat) then [0%nat] else []) (fun _ => 3%nat) (fun L s => s)
    (fun L => match L with 0 => ZeroNumber | 1 => NoNewOperand | 2 => KeepNumber | 3 => NumberFails | _ => ZeroOnly end%nat)
    (fun L e => match L, e with 0%nat, Var 9 => true | _, _ => false end) (fun _ _ => (1, 0)%nat).
Definition ex_interp : interp :=
  Interp nat
    (fun L s c x => match L with 0%nat => [(1, (c, S x)); (-1, (c, x))] | 2%nat => [(1, (c, 0%nat))] | _ => [(1, (c, x))] end)
    (fun _ => None) (fun _ => true) (fun rho => forall c x y, rho 9%nat c x = rho 9%nat c y).
Lemma ex_lawful : lawful ex_world ex_interp.
Proof.
  split; cbn.
  - intros L s c x q c' y Hc Hin. destruct L as [|[|[|L]]]; cbn in Hin; repeat destruct Hin as [[= <- <- <-]|Hin]; done.
  - done.
  - intros [|[|[|[|L]]]] c x HL; try done. unfold sum_list. cbn. lra.
  - intros [|[|[|[|L]]]] c x HL; try done. unfold sum_list. cbn. lra.
  - done.
  - intros [|L] e rho c x Hv Hadm Hc; [|done]. destruct e as [|v| | | | | | | | | |]; try done. do 9 (destruct v as [|v]; [done|]). destruct v; [|done].
    unfold sum_list. cbn. rewrite (Hadm c (S x) x). lra.
Qed.
Definition ex_data : data ex_interp := fun v c x => INR (v + x * (if decide (v = 9%nat) then 0 else 1)).
Lemma ex_admissible : admissible ex_interp ex_data.
Proof. intros c x y. unfold ex_data. cbn. by rewrite !Nat.mul_0_r. Qed.
Definition ex_time : cls -> bool := fun c => match c with CLin 1 => true | _ => false end.
Ltac exs := repeat (progress (esimp; cbn [rule vanishes conversions var_sig lin_sig cs_dim ex_world ex_time orb fst snd convert])).

(** ** C39: the values of sums, products, negations, differences and powers *)
Theorem sum_value w I rho s a b va vb e :
  denotes w I rho s a va -> denotes w I rho s b vb -> py_add w a b = Some e -> denotes w I rho s e (fun c x => va c x + vb c x).
Proof. apply py_add_denotes. Qed.
Print Assumptions sum_value.

Theorem sum_of_list_value w I rho s l vs e :
  Forall2 (denotes w I rho s) l vs -> py_sum w l = Some e -> denotes w I rho s e (fun c x => sum_list (map (fun v => v c x) vs)).
Proof. apply py_sum_denotes. Qed.
Print Assumptions sum_of_list_value.

Theorem product_value w I rho s1 s2 a b va vb e :
  denotes w I rho s1 a va -> denotes w I rho s2 b vb -> py_mul a b = Some e ->
  denotes w I rho (s1 ++ s2) e (fun c x => va (take (length s1) c) x * vb (drop (length s1) c) x).
Proof. apply py_mul_denotes. Qed.
Print Assumptions product_value.

Theorem negation_value w I rho s a va e : denotes w I rho s a va -> py_neg a = Some e -> denotes w I rho s e (fun c x => - va c x).
Proof. apply py_neg_denotes. Qed.
Print Assumptions negation_value.

Theorem difference_value w I rho s a b va vb e :
  denotes w I rho s a va -> denotes w I rho s b vb -> py_sub w a b = Some e -> denotes w I rho s e (fun c x => va c x - vb c x).
Proof. apply py_sub_denotes. Qed.
Print Assumptions difference_value.

(** The power zero of a tensor becomes the number one, which is a scalar: the signature must be empty for it. *)
Theorem power_value w I rho s a va p e :
  denotes w I rho s a va -> (p = 0 -> s = []) -> py_pow a p = Some e -> denotes w I rho s e (fun c x => pow_val (va c x) p).
Proof. apply py_pow_denotes. Qed.
Print Assumptions power_value.

(** Zeros and ones are dropped, numbers are folded, and operands of the same signature always have a sum. *)
Theorem sum_drops_zero w e : add w (Num 0) e = Some e /\ add w e (Num 0) = Some e.
Proof. split; [apply add_zero_l|apply add_zero_r]. Qed.
Print Assumptions sum_drops_zero.

Theorem sum_folds_numbers w p q : add w (Num p) (Num q) = Some (Num (p + q)).
Proof.
  destruct (Req_dec p 0) as [->|Hp]; [by rewrite add_zero_l, Rplus_0_l|]. destruct (Req_dec q 0) as [->|Hq]; [by rewrite add_zero_r, Rplus_0_r|].
  unfold add. rewrite filter_cons_True by (cbn; by destruct (Req_EM_T p 0)). rewrite filter_cons_True by (cbn; by destruct (Req_EM_T q 0)).
  rewrite filter_nil. cbn. by rewrite Rplus_0_l.
Qed.
Print Assumptions sum_folds_numbers.

Theorem product_drops_one e : mul (Num 1) e = Some e /\ mul e (Num 1) = Some e.
Proof. split; [apply mul_one_l|apply mul_one_r]. Qed.
Print Assumptions product_drops_one.

Theorem product_with_zero e : mul (Num 0) e = Some (Num 0) /\ mul e (Num 0) = Some (Num 0).
Proof. split; [apply mul_zero_l|apply mul_zero_r]. Qed.
Print Assumptions product_with_zero.

Theorem product_folds_numbers p q : mul (Num p) (Num q) = Some (Num (p * q)).
Proof.
  destruct (Req_dec p 1) as [->|Hp1]; [by rewrite mul_one_l, Rmult_1_l|]. destruct (Req_dec q 1) as [->|Hq1]; [by rewrite mul_one_r, Rmult_1_r|].
  destruct (Req_dec p 0) as [->|Hp]; [by rewrite mul_zero_l, Rmult_0_l|]. destruct (Req_dec q 0) as [->|Hq]; [by rewrite mul_zero_r, Rmult_0_r|].
  unfold mul. rewrite filter_cons_True by (cbn; by destruct (Req_EM_T p 1)). rewrite filter_cons_True by (cbn; by destruct (Req_EM_T q 1)).
  rewrite filter_nil. cbn. destruct (Req_EM_T p 0); [done|]. destruct (Req_EM_T q 0); [done|]. cbn. by rewrite Rmult_1_l.
Qed.
Print Assumptions product_folds_numbers.

Theorem power_shortcuts a : is_num a = false -> py_pow a 0 = Some (Num 1) /\ py_pow a 1 = Some a.
Proof.
  intros Ha. unfold py_pow. rewrite Ha. split; [by destruct (Req_EM_T 0 0)|]. destruct (Req_EM_T 1 0); [lra|]. by destruct (Req_EM_T 1 1).
Qed.
Print Assumptions power_shortcuts.

Theorem operands_combine w a b : is_num a = false -> is_num b = false ->
  (esig w a = esig w b -> exists e, py_add w a b = Some e) /\ exists e, py_mul a b = Some e.
Proof.
  intros Ha Hb. split.
  - intros Hs. rewrite py_add_operand_l, add_operands by done. by eexists.
  - rewrite py_mul_operand_l, mul_operands by done. by eexists.
Qed.
Print Assumptions operands_combine.

Example sum_value_ex : exists e, py_add ex_world (MulN 2 (Var 0)) (Num 5) = Some e /\ sem ex_world ex_interp ex_data e [] 3%nat = 11.
Proof.
  exists (AddE (Conv (MulN 2 (Var 0))) (Cast 5 [])). rewrite py_add_operand_l by done. split.
  - unfold add. rewrite filter_cons_True by done. rewrite filter_cons_True by (cbn; destruct (Req_EM_T 5 0); [lra|done]). rewrite filter_nil. done.
  - cbn [sem]. replace (ex_data 0%nat [] 3%nat) with (INR 3) by reflexivity. cbn. lra.
Qed.

(** ** C34: splitting *)
Theorem split_value w I rho keys e p n :
  lawful w I -> admissible I rho -> operand w e -> split w keys e = Some (p, n) ->
  fits w (esig w e) p /\ fits w (esig w e) n /\ well_formed w p /\ well_formed w n /\
  forall c x, length c = length (esig w e) -> sem w I rho e c x = sem w I rho p c x + sem w I rho n c x.
Proof.
  intros HL Hadm [Ne We] Hs. destruct (split_splits w I HL rho keys e p n Hadm Ne We Hs) as (vp & vn & (Fp & Wp & Ep) & (Fn & Wn & En) & Hv).
  do 4 (split; [done|]). intros c x Hc. by rewrite Hv, Ep, En by done.
Qed.
Print Assumptions split_value.

Theorem split_second_without w keys e p n :
  keys <> [] -> Forall proper_key keys -> split w keys e = Some (p, n) -> forall k, In k keys -> ~ contains k n.
Proof.
  intros Hk Hp Hs k Hin Hc. destruct (split_contents w keys Hk Hp e p n Hs) as [_ Hf]. unfold free in Hf.
  assert (has keys n = true); [|congruence]. apply has_spec; [done..|]. by exists k.
Qed.
Print Assumptions split_second_without.

Theorem split_first_with w keys e p n :
  keys <> [] -> Forall proper_key keys -> split w keys e = Some (p, n) ->
  p = Num 0 \/ forall t, In t (summands p) -> exists k, In k keys /\ contains k t.
Proof.
  intros Hk Hp Hs. destruct (split_contents w keys Hk Hp e p n Hs) as [[?|[_ Hc]] _]; [by left|right]. intros t Ht. apply has_spec; [done..|]. by apply Hc.
Qed.
Print Assumptions split_first_with.

Theorem split_returns w keys e : operand w e -> rebuildable w keys e -> exists p n, split w keys e = Some (p, n).
Proof.
  intros [Ne We] Hr. destruct (split_good w keys e Ne We (rebuildable_splittable w keys e Hr)) as (p & n & Hs & _). by exists p, n.
Qed.
Print Assumptions split_returns.

(** Operators that cannot be applied to zero, or not be rebuilt at all, make [split] raise whatever it looks for. *)
Theorem split_returns_refuted w keys L v :
  rule w L = NumberFails \/ rule w L = NoNewOperand -> type_in (CLin L) keys = false -> split w keys (Lin L (Var v)) = None.
Proof. intros HL Hk. cbn. unfold class_in. cbn. rewrite Hk. destruct (var_in v keys); cbn; unfold lin; destruct HL as [-> | ->]; cbn; by destruct (vanishes w L (Var v)). Qed.
Print Assumptions split_returns_refuted.

(** With nothing to look for, a nonlinear function is returned as containing it. *)
Theorem split_nothing_refuted w f v : split w [] (Fun f (Var v)) = Some (Fun f (Var v), Num 0).
Proof. done. Qed.
Print Assumptions split_nothing_refuted.

(** A product with a difference of a sum. *)
Definition ex_product : expr := MulE (Var 0) (Lin 0 (AddE (Var 1) (Var 2))).
Example split_ex : operand ex_world ex_product /\ rebuildable ex_world [KVar 1] ex_product /\
  split ex_world [KVar 1] ex_product = Some (MulE (Var 0) (Lin 0 (Var 1)), MulE (Var 0) (Lin 0 (Var 2))).
Proof. split; [done|]. split.
  { cbn. split; [done|]. right. done. }
  unfold ex_product. exs.
  done.
Qed.
(** The difference of field 9 is zero, and so is the product. *)
Example split_vanishing_ex : split ex_world [KVar 9] (MulE (Var 1) (Lin 0 (AddE (Var 9) (Var 2)))) = Some (Num 0, MulE (Var 1) (Lin 0 (Var 2))).
Proof. exs. done. Qed.

(** ** C35: linearity *)
Theorem linear_sound w I vars e rho rho1 rho2 a1 a2 :
  require_linearity (map KVar vars) false e = true -> transparent I e ->
  (forall v, In v vars -> forall c x, rho v c x = a1 * rho1 v c x + a2 * rho2 v c x) ->
  (forall v, ~ In v vars -> forall c x, rho v c x = rho1 v c x /\ rho v c x = rho2 v c x) ->
  forall c x, sem w I rho e c x = a1 * sem w I rho1 e c x + a2 * sem w I rho2 e c x.
Proof.
  intros Hr Ht H1 H2. eapply require_linearity_sound; [exact Hr|done| | |done].
  - intros v Hv. apply H1, (var_in_vars vars v), Hv.
  - intros v Hv. apply H2. intros Hin. apply (var_in_vars vars v) in Hin. congruence.
Qed.
Print Assumptions linear_sound.

Theorem affine_sound w I vars e rho rho1 rho2 a1 a2 :
  require_linearity (map KVar vars) true e = true -> transparent I e -> a1 + a2 = 1 ->
  (forall v, In v vars -> forall c x, rho v c x = a1 * rho1 v c x + a2 * rho2 v c x) ->
  (forall v, ~ In v vars -> forall c x, rho v c x = rho1 v c x /\ rho v c x = rho2 v c x) ->
  forall c x, sem w I rho e c x = a1 * sem w I rho1 e c x + a2 * sem w I rho2 e c x.
Proof.
  intros Hr Ht Ha H1 H2. eapply require_linearity_sound; [exact Hr|done| | |done].
  - intros v Hv. apply H1, (var_in_vars vars v), Hv.
  - intros v Hv. apply H2. intros Hin. apply (var_in_vars vars v) in Hin. congruence.
Qed.
Print Assumptions affine_sound.

Theorem independent_sound w I vars e rho1 rho2 :
  vars <> [] -> require_independent (map KVar vars) e = true -> transparent I e ->
  (forall v, ~ In v vars -> forall c x, rho1 v c x = rho2 v c x) -> forall c x, sem w I rho1 e c x = sem w I rho2 e c x.
Proof.
  intros Hv Hr Ht H. unfold require_independent in Hr. apply negb_true_iff in Hr. eapply (has_false_sem w I (map KVar vars)); [done|].
  intros v Hin. apply H. intros Hv'. apply (var_in_vars vars v) in Hv'. congruence.
Qed.
Print Assumptions independent_sound.

Theorem independent_spec keys e : keys <> [] -> Forall proper_key keys ->
  require_independent keys e = true <-> forall k, In k keys -> ~ contains k e.
Proof.
  intros Hk Hp. unfold require_independent. rewrite negb_true_iff. split.
  - intros Hf k Hin Hc. assert (has keys e = true); [|congruence]. apply has_spec; [done..|]. by exists k.
  - intros Hf. destruct (has keys e) eqn:E; [|done]. apply has_spec in E as (k & Hin & Hc); [|done..]. by destruct (Hf k Hin).
Qed.
Print Assumptions independent_spec.

Theorem first_order_spec T e : linear_class T -> require_first_order T e = true <-> (depth T e <= 1)%nat.
Proof. apply require_first_order_spec. Qed.
Print Assumptions first_order_spec.

Example linearity_ex :
  require_linearity (map KVar [1%nat; 2%nat]) false ex_product = true /\ require_linearity (map KVar [0%nat; 1%nat]) true ex_product = false
  /\ require_linearity (map KVar [1%nat]) true (AddE ex_product (Fun Exp (Var 0))) = true
  /\ require_independent (map KVar [5%nat]) ex_product = true /\ transparent ex_interp ex_product.
Proof. done. Qed.
Example first_order_ex : require_first_order (fun c => match c with CLin 1 => true | _ => false end) (Lin 0 (Lin 1 (Var 0))) = true
  /\ require_first_order (fun c => match c with CLin 1 => true | _ => false end) (Lin 1 (Lin 0 (Lin 1 (Var 0)))) = false.
Proof. done. Qed.

(** ** C38: substitution *)
Theorem replace_variable_value w I rho v new vnew e e' :
  lawful w I -> admissible I rho -> operand w e -> denotes w I rho (var_sig w v) new vnew -> replace_var w v new e = Some e' ->
  denotes w I rho (esig w e) e' (sem w I (update rho v vnew) e).
Proof.
  intros HL Hadm [Ne We] Hn He.
  refine (walk_denotes w I HL rho (update rho v vnew) (fun y => if decide (y = v) then new else Var y) e e' Hadm Ne We _ He).
  intros y _. unfold update. destruct (decide (y = v)) as [->|]; [done|]. repeat split.
Qed.
Print Assumptions replace_variable_value.

Theorem replace_variable_removes w v new e e' : ~ mentions v new -> replace_var w v new e = Some e' -> ~ mentions v e'.
Proof.
  intros Hn He. apply free_var_spec. refine (walk_free w v _ e e' _ He). intros y _. apply free_var_spec. destruct (decide (y = v)); [done|]. cbn. done.
Qed.
Print Assumptions replace_variable_removes.

(** [G a] is the value the replacement gives for operand [a]. *)
Theorem replace_operator_value w I T new rho G e e' :
  lawful w I -> linear_class T -> admissible I rho ->
  (forall L a a' r, T (CLin L) = true -> operand w a -> denotes w I rho (esig w a) a' (sem w I rho a) -> new [a'] = Some r ->
    denotes w I rho (lin_sig w L (esig w a)) r (G a)) ->
  operand w e -> replace_type w T new e = Some e' ->
  denotes w I rho (esig w e) e' (sem w (with_operator I T G) rho e).
Proof. intros HL HT Hadm Hnew. by apply replace_type_denotes. Qed.
Print Assumptions replace_operator_value.

Theorem replace_operator_removes w T new e e' : linear_class T -> (depth T e <= 1)%nat ->
  (forall a r, ~ uses T a -> new [a] = Some r -> ~ uses T r) -> replace_type w T new e = Some e' -> ~ uses T e'.
Proof. apply replace_type_free. Qed.
Print Assumptions replace_operator_removes.

(** Of two nested operators only the outer one is replaced; if the class has no [new_operand] the call raises. *)
Theorem replace_nested_refuted w T new L v :
  T (CLin L) = true -> rule w L <> NoNewOperand -> vanishes w L (Var v) = false -> replace_type w T new (Lin L (Lin L (Var v))) = new [Lin L (Var v)].
Proof. intros HT Hr Hv. cbn. rewrite HT, Hv. cbn. by destruct (rule w L). Qed.
Print Assumptions replace_nested_refuted.
Theorem replace_nested_raises w T new L v : T (CLin L) = true -> rule w L = NoNewOperand -> replace_type w T new (Lin L (Lin L (Var v))) = None.
Proof. intros HT Hr. cbn. by rewrite HT, Hr. Qed.
Print Assumptions replace_nested_raises.

Example replace_variable_ex : replace_var ex_world 1 (MulE (Var 0) (Var 5)) ex_product
  = Some (MulE (Var 0) (Lin 0 (AddE (Conv (MulE (Var 0) (Var 5))) (Var 2)))).
Proof. unfold ex_product. exs. done. Qed.
Example replace_operator_ex : replace_type ex_world ex_time (fun l => match l with [e] => Some e | _ => None end) (AddE (Lin 1 (Var 0)) (Lin 0 (Lin 1 (Var 2))))
  = Some (AddE (Conv (Var 0)) (Lin 0 (Var 2))).
Proof. exs. done. Qed.

(** ** C37: derivatives of functions and powers *)
Theorem function_derivative f t x : derivative f = Some t -> fun_dom f x -> is_derive (fun_val f) x (body_val t x).
Proof. apply derivative_table. Qed.
Print Assumptions function_derivative.
Theorem power_derivative p x : pow_dom p x -> is_derive (fun y => pow_val y p) x (p * pow_val x (p - 1)).
Proof. apply is_derive_pow_val. Qed.
Print Assumptions power_derivative.
Theorem derivatives_listed f : f <> Conjugate -> exists t, derivative f = Some t.
Proof. destruct f; intros; try done; by eexists. Qed.
Print Assumptions derivatives_listed.
Example function_derivative_ex : is_derive (fun_val Arcsin) 0 1 /\ fun_dom Log 2 /\ pow_dom (-3) (-2).
Proof.
  split; [|split]; [|cbn; lra|].
  - eapply is_derive_value; [apply (function_derivative Arcsin _ 0 eq_refl); cbn; lra|]. cbn. rewrite pow_val_2, pow_val_mhalf by lra.
    replace (1 - 0 ^ 2) with 1 by ring. rewrite R_sqrt.sqrt_1. lra.
  - right. split; [apply (is_integer_IZR (-3))|]. right. lra.
Qed.

(** ** C36: the Frechet differential *)
(** [eps] is the field the method makes: it occurs nowhere else. *)
Theorem frechet_is_derivative w I eps vars perts bgs e d rho c x :
  lawful w I -> operand w e -> admissible I rho ->
  var_sig w eps = [] -> ~ In eps vars -> ~ In eps perts -> ~ mentions eps e ->
  (forall rho t, admissible I rho -> admissible I (update rho eps (fun _ _ => t))) ->
  NoDup vars -> (forall v, In v vars -> ~ In v perts) -> movable I vars perts ->
  match bgs with
  | Some fields => assignable I vars fields /\ (forall v f, In (v, f) (zip vars fields) -> var_sig w f = var_sig w v) /\ (forall v, In v vars -> ~ In v fields)
  | None => True
  end ->
  let base := match bgs with Some fields => assigned vars fields rho | None => rho end in
  regular w I base e -> frechet w eps vars perts bgs e = Some d -> length c = length (esig w e) ->
  is_derive (fun t => sem w I (displaced base (direction vars perts rho) t) e c x) 0 (sem w I rho d c x).
Proof.
  intros HL [Ne We] Hadm Heps Hev Hep Hee Hconst Hnd Hdis Hmov Hb base Hreg Hd Hc.
  destruct (frechet_denotes w I HL eps Heps vars perts e Ne We Hnd Hdis Hev Hep Hee Hmov Hconst bgs d rho Hd Hadm Hb Hreg) as (_ & _ & Hv).
  rewrite Hv by done.
  assert (Ht : transparent I e).
  { unfold frechet in Hd. destruct (perturb w eps vars perts e) as [e1|] eqn:E1; [|done]. cbn in Hd.
    destruct (sym_diff w eps e1) as [e2|] eqn:E2; [|done]. exact (perturb_transparent w I HL eps vars perts e e1 e2 E1 E2). }
  refine (dsem_derive w I HL (fun t => displaced base (direction vars perts rho) t) 0 base (direction vars perts rho) e _ _ We Ht Hreg c x Hc).
  - intros v c' x'. unfold displaced. ring.
  - intros v c' x'. unfold displaced. auto_derive; [done|]. ring.
Qed.
Print Assumptions frechet_is_derivative.

Theorem frechet_linear w I eps vars perts bgs e d rho rho1 rho2 a1 a2 c x :
  lawful w I -> operand w e -> admissible I rho -> admissible I rho1 -> admissible I rho2 ->
  var_sig w eps = [] -> ~ In eps vars -> ~ In eps perts -> ~ mentions eps e ->
  (forall rho t, admissible I rho -> admissible I (update rho eps (fun _ _ => t))) ->
  NoDup vars -> (forall v, In v vars -> ~ In v perts) -> (forall v, mentions v e -> ~ In v perts) -> movable I vars perts ->
  match bgs with
  | Some fields => assignable I vars fields /\ (forall v f, In (v, f) (zip vars fields) -> var_sig w f = var_sig w v) /\ (forall v, In v vars -> ~ In v fields)
      /\ (forall v, In v fields -> ~ In v perts)
  | None => True
  end ->
  regular w I (match bgs with Some fields => assigned vars fields rho | None => rho end) e ->
  frechet w eps vars perts bgs e = Some d -> length c = length (esig w e) ->
  (forall v, In v perts -> forall c x, rho v c x = a1 * rho1 v c x + a2 * rho2 v c x) ->
  (forall v, ~ In v perts -> forall c x, rho v c x = rho1 v c x /\ rho v c x = rho2 v c x) ->
  sem w I rho d c x = a1 * sem w I rho1 d c x + a2 * sem w I rho2 d c x.
Proof.
  intros HL [Ne We] Hadm Hadm1 Hadm2 Heps Hev Hep Hee Hconst Hnd Hdis Hme Hmov Hb Hreg Hd Hc Hp Ho.
  assert (Hb' : match bgs with Some fields => assignable I vars fields /\ (forall v f, In (v, f) (zip vars fields) -> var_sig w f = var_sig w v) /\ (forall v, In v vars -> ~ In v fields) | None => True end) by (destruct bgs; tauto).
  set (base (r : data I) := match bgs with Some fields => assigned vars fields r | None => r end) in *.
  assert (Hbase : forall r, (forall v, ~ In v perts -> forall c x, rho v c x = r v c x) -> forall v, mentions v e -> forall c x, base rho v c x = base r v c x).
  { intros r Hr v Hm c' x'. unfold base. destruct bgs as [fields|]; [|by apply Hr, Hme]. destruct Hb as (_ & _ & _ & Hf). clear -Hr Hm Hf Hme.
    revert fields Hf. induction vars as [|u us IH]; intros [|f fs] Hf; cbn; try (by apply Hr, Hme). destruct (decide (v = u)).
    - apply Hr, Hf. by left.
    - apply IH. intros y Hy. apply Hf. by right. }
  pose proof (frechet_denotes w I HL eps Heps vars perts e Ne We Hnd Hdis Hev Hep Hee Hmov Hconst bgs d rho Hd Hadm Hb' Hreg) as (_ & _ & Hv).
  assert (Hd' : forall r, admissible I r -> (forall v, ~ In v perts -> forall c x, rho v c x = r v c x) -> sem w I r d c x = dsem w I (base rho) (direction vars perts r) e c x).
  { intros r Hr Hor.
    assert (Hreg' : regular w I (base r) e) by (refine (regular_agree w I (base rho) (base r) e _ Hreg); by apply Hbase).
    destruct (frechet_denotes w I HL eps Heps vars perts e Ne We Hnd Hdis Hev Hep Hee Hmov Hconst bgs d r Hd Hr Hb' Hreg') as (_ & _ & Hv').
    rewrite Hv' by done. symmetry. apply dsem_agree. by apply Hbase. }
  rewrite Hv by done. rewrite (Hd' rho1), (Hd' rho2) by (try done; intros v Hv' c' x'; by destruct (Ho v Hv' c' x')).
  apply dsem_linear. clear -Hp. intros v c' x'. revert perts Hp. induction vars as [|u us IH]; intros [|f fs] Hp; cbn; try lra.
  destruct (decide (v = u)); [apply Hp; by left|]. apply IH. intros y Hy. apply Hp. by right.
Qed.
Print Assumptions frechet_linear.

(** Backgrounds are substituted one after the other, so they must not be among the variables. *)
Theorem frechet_overlap_refuted :
  exists d, frechet ex_world 7 [0%nat; 1%nat] [4%nat; 5%nat] (Some [1%nat; 0%nat]) (MulE (Var 0) (Var 0)) = Some d
  /\ ~ is_derive (fun t => sem ex_world ex_interp (displaced (assigned [0%nat; 1%nat] [1%nat; 0%nat] ex_data) (direction [0%nat; 1%nat] [4%nat; 5%nat] ex_data) t) (MulE (Var 0) (Var 0)) [] 0%nat) 0
        (sem ex_world ex_interp ex_data d [] 0%nat).
Proof.
  eexists. split; [exs; reflexivity|]. intros Hd.
  assert (H0 : is_derive (fun t => (1 + t * 4) * (1 + t * 4)) 0 0).
  { eapply is_derive_value; [eapply is_derive_ext; [|exact Hd]|].
    - intros t. transitivity ((INR 1 + t * INR 4) * (INR 1 + t * INR 4)); [reflexivity|cbn; lra].
    - transitivity (INR 4 * INR 0 + INR 0 * INR 4); [reflexivity|cbn; lra]. }
  assert (H8 : is_derive (fun t => (1 + t * 4) * (1 + t * 4)) 0 8) by (auto_derive; [done|ring]).
  apply is_derive_unique in H0, H8. lra.
Qed.
Print Assumptions frechet_overlap_refuted.

(** The differential of u times its difference plus an exponential. *)
Definition ex_nonlinear : expr := AddE (MulE (Var 0) (Lin 0 (Var 0))) (Fun Exp (Var 0)).
Example frechet_ex : exists d, frechet ex_world 7 [0%nat] [5%nat] (Some [2%nat]) ex_nonlinear = Some d
  /\ operand ex_world ex_nonlinear /\ var_sig ex_world 7 = [] /\ movable ex_interp [0%nat] [5%nat] /\ assignable ex_interp [0%nat] [2%nat]
  /\ regular ex_world ex_interp (assigned [0%nat] [2%nat] ex_data) ex_nonlinear.
Proof.
  eexists. split; [unfold ex_nonlinear; exs; reflexivity|].
  split; [done|]. split; [done|]. split; [|split].
  - intros v d rho t [[= <- <-]|[]] Hadm c x y. unfold update. cbn. apply Hadm.
  - intros v d rho [[= <- <-]|[]] Hadm c x y. unfold update. cbn. apply Hadm.
  - done.
Qed.

(** ** C66: the matrix expressions of a problem *)
(** [state t'] is the data at time [t'], in which only the variables move, and [rate] their rates at time [t]:
    the left-hand side, with the operators of class [T] as time derivatives, is the first expression at the
    rates plus the second at the state. *)
Theorem ivp_matrices_value w I T vars (state : R -> data I) (rate : data I) t lhs m l :
  let I' := with_operator I T (fun a c x => Derive (fun t' => sem w I (state t') a c x) t) in
  lawful w I -> lawful w I' -> linear_class T -> (forall L, opaque I L = None) ->
  (forall L, T (CLin L) = true -> rule w L = NoNewOperand /\ forall s, lin_sig w L s = s) ->
  (forall v, In v vars -> forall c x, is_derive (fun t' => state t' v c x) t (rate v c x)) ->
  (forall v, ~ In v vars -> forall c x, rate v c x = state t v c x /\ forall t', state t' v c x = state t v c x) ->
  admissible I (state t) -> admissible I rate ->
  vars <> [] -> operand w lhs -> acts_on T vars lhs ->
  require_linearity (map KVar vars) false lhs = true -> require_first_order T lhs = true ->
  ivp_matrices w T lhs = Some (m, l) ->
  forall c x, length c = length (esig w lhs) -> sem w I' (state t) lhs c x = sem w I rate m c x + sem w I (state t) l c x.
Proof.
  intros I' HL HL' HT Hclear Hrule Hvars Hothers Ha Hr Hne Hop Hacts Hlin Hfo Hm.
  refine (ivp_matrices_denotes w I HL T HT vars Hclear Hrule state rate t Hvars Hothers lhs m l Hne HL' Ha Hr Hop Hlin Hfo _ Hm).
  by apply acts_on_variables.
Qed.
Print Assumptions ivp_matrices_value.

(** The left-hand side dt(u) + u * f - dx(dt(v)) for fields u, v, f numbered 0, 1, 2. *)
Definition ex_lhs : expr := AddE (AddE (Lin 1 (Var 0)) (MulE (Var 0) (Var 2))) (MulN (-1) (Lin 0 (Lin 1 (Var 1)))).
Definition ex_state (t : R) : data ex_interp := fun v c x => if decide (v = 0%nat) then t * t else if decide (v = 1%nat) then t * INR x else 1.
Definition ex_rate (t : R) : data ex_interp := fun v c x => if decide (v = 0%nat) then 2 * t else if decide (v = 1%nat) then INR x else 1.
Lemma ex_lawful_time G : lawful ex_world (with_operator ex_interp ex_time G).
Proof.
  destruct ex_lawful as [H1 H2 H3 H4 H5 H6]. split; try done.
  - intros [|[|L]] HL; cbn in *; try done.
  - intros [|L] e rho c x Hv Hadm Hc; [|done]. specialize (H6 0%nat e rho c x Hv Hadm Hc). cbn in *. destruct e; try done.
Qed.
Example ivp_matrices_ex :
  (forall v, In v [0%nat; 1%nat] -> forall c x, is_derive (fun t' => ex_state t' v c x) 3 (ex_rate 3 v c x))
  /\ (forall v, ~ In v [0%nat; 1%nat] -> forall c x, ex_rate 3 v c x = ex_state 3 v c x /\ forall t', ex_state t' v c x = ex_state 3 v c x)
  /\ operand ex_world ex_lhs /\ acts_on ex_time [0%nat; 1%nat] ex_lhs
  /\ require_linearity (map KVar [0%nat; 1%nat]) false ex_lhs = true /\ require_first_order ex_time ex_lhs = true
  /\ exists m l, ivp_matrices ex_world ex_time ex_lhs = Some (m, l).
Proof.
  split; [|split; [|split; [|split; [|split; [|split]]]]].
  - intros v [<-|[<-|[]]] c x.
    + change (is_derive (fun t : R => t * t) 3 (2 * 3)). auto_derive; [done|ring].
    + change (is_derive (fun t : R => t * INR x) 3 (INR x)). auto_derive; [done|ring].
  - intros v Hv c x. unfold ex_rate, ex_state. destruct (decide (v = 0%nat)) as [->|]; [destruct Hv; by left|]. destruct (decide (v = 1%nat)) as [->|]; [destruct Hv; right; by left|]. done.
  - done.
  - cbn. repeat split; try done; intros _; [exists 0%nat|exists 1%nat]; auto.
  - done.
  - done.
  - do 2 eexists. unfold ex_lhs. exs. reflexivity.
Qed.

(** Without the condition that time derivatives act on variables the matrices can be wrong: for u * dt(f) with
    f given, M is u * f. *)
Theorem ivp_given_field_refuted :
  exists m l, ivp_matrices ex_world ex_time (MulE (Var 0) (Lin 1 (Var 2))) = Some (m, l)
  /\ require_linearity (map KVar [0%nat; 1%nat]) false (MulE (Var 0) (Lin 1 (Var 2))) = true /\ require_first_order ex_time (MulE (Var 0) (Lin 1 (Var 2))) = true
  /\ sem ex_world (with_operator ex_interp ex_time (fun a c x => Derive (fun t' => sem ex_world ex_interp (ex_state t') a c x) 3)) (ex_state 3) (MulE (Var 0) (Lin 1 (Var 2))) [] 0%nat
     <> sem ex_world ex_interp (ex_rate 3) m [] 0%nat + sem ex_world ex_interp (ex_state 3) l [] 0%nat.
Proof.
  do 2 eexists. split; [exs; reflexivity|]. split; [done|]. split; [done|].
  intros H. assert (H' : 3 * 3 * Derive (fun _ : R => 1) 3 = 2 * 3 * 1 + 0) by exact H. rewrite Derive_const in H'. lra.
Qed.
Print Assumptions ivp_given_field_refuted.

(** At data where the eigenvalue field is the constant [lam], the left-hand side is [lam] times the first
    expression plus the second, and neither contains the eigenvalue. *)
Theorem evp_matrices_value w I ev rho lam lhs m l :
  lawful w I -> admissible I rho -> operand w lhs -> var_sig w ev = [] -> (forall c x, rho ev c x = lam) ->
  require_linearity [KVar ev] true lhs = true -> evp_matrices w ev lhs = Some (m, l) ->
  (forall c x, length c = length (esig w lhs) -> sem w I rho lhs c x = lam * sem w I rho m c x + sem w I rho l c x)
  /\ ~ mentions ev m /\ ~ mentions ev l.
Proof.
  intros HL Ha Hop Hs Hlam Hlin Hm. destruct (evp_matrices_denotes w I HL ev rho lam lhs m l Ha Hop Hs Hlam Hlin Hm) as (Hv & H1 & H2).
  split; [done|]. split; by apply free_var_spec.
Qed.
Print Assumptions evp_matrices_value.

Example evp_matrices_ex : require_linearity [KVar 9] true (AddE (MulE (Var 9) (Var 0)) (Lin 0 (Var 1))) = true
  /\ evp_matrices ex_world 9 (AddE (MulE (Var 9) (Var 0)) (Lin 0 (Var 1))) = Some (Var 0, Lin 0 (Var 1)).
Proof. split; [done|]. exs. done. Qed.
