(** When symbolic methods return, and what class replacement leaves. *)
From Coq Require Import Reals Lra.
From Coquelicot Require Import Coquelicot.
From stdpp Require Import numbers list.
From Verif Require Import Expressions_Model Expressions_Spec Expressions_Proofs ExpressionsSplit_Proofs ExpressionsLinear_Proofs.
Local Open Scope R_scope.

Section Total.
  Context (w : world).

  Lemma add_zero_l e : add w (Num 0) e = Some e.
  Proof.
    unfold add. rewrite filter_cons_False by (cbn; by destruct (Req_EM_T 0 0)). destruct (is_zero e) eqn:Z.
    - apply is_zero_spec in Z as ->. rewrite filter_cons_False by (cbn; by destruct (Req_EM_T 0 0)). done.
    - by rewrite filter_cons_True.
  Qed.
  Lemma add_zero_r e : add w e (Num 0) = Some e.
  Proof.
    unfold add. destruct (is_zero e) eqn:Z.
    - apply is_zero_spec in Z as ->. rewrite !filter_cons_False by (cbn; by destruct (Req_EM_T 0 0)). done.
    - rewrite filter_cons_True by done. rewrite filter_cons_False by (cbn; by destruct (Req_EM_T 0 0)). done.
  Qed.
  Lemma add_operands a b : is_num a = false -> is_num b = false -> esig w a = esig w b ->
    add w a b = Some (AddE (convert (conversions w a b).1 a) (convert (conversions w a b).2 b)).
  Proof.
    intros Na Nb Hs. unfold add. rewrite (filter_cons_True _ a) by (by destruct a). rewrite (filter_cons_True _ b) by (by destruct b). rewrite filter_nil.
    unfold operand_sig. rewrite (filter_cons_True _ a) by done. unfold cast. destruct a, b; try done; cbn [esig] in *; rewrite !decide_True by done; done.
  Qed.
  Lemma py_add_operand_l a b : is_num a = false -> py_add w a b = add w a b.
  Proof. by destruct a. Qed.
  Lemma py_add_operand_r a b : is_num b = false -> py_add w a b = add w a b.
  Proof. by destruct a, b. Qed.

  Definition good (s : sig) (e : expr) : Prop := e = Num 0 \/ (is_num e = false /\ esig w e = s).
  Lemma py_add_good s a b : good s a -> good s b -> exists e, py_add w a b = Some e /\ good s e.
  Proof.
    intros [->|[Na Sa]] [->|[Nb Sb]].
    - exists (Num 0). cbn. rewrite Rplus_0_l. split; [done|by left].
    - exists b. rewrite py_add_operand_r, add_zero_l by done. split; [done|by right].
    - exists a. rewrite py_add_operand_l, add_zero_r by done. split; [done|by right].
    - rewrite py_add_operand_l, add_operands by congruence. eexists. split; [done|]. right. split; [done|]. cbn. by rewrite convert_sig.
  Qed.
  Lemma py_sum_good s l : Forall (good s) l -> exists e, py_sum w l = Some e /\ good s e.
  Proof.
    unfold py_sum. assert (good s (Num 0)) as H0 by (by left). revert H0. generalize (Num 0) as acc. induction l as [|a l IH]; intros acc Hacc Hl; [by exists acc|].
    inversion_clear Hl as [|? ? Ha Hl']. cbn. destruct (py_add_good s acc a Hacc Ha) as (acc' & -> & Hacc'). by apply IH.
  Qed.
  Lemma product_split_good s op p0 n0 p1 n1 :
    (forall a b, a = p0 \/ a = n0 -> b = p1 \/ b = n1 -> truthy a = true -> truthy b = true -> exists e, op a b = Some e /\ good s e) ->
    exists p n, product_split w op (p0, n0) (p1, n1) = Some (p, n) /\ good s p /\ good s n.
  Proof.
    intros Hop. unfold product_split. cbn [fst snd]. rewrite filter_bool.
    set (kept := List.filter _ _).
    assert (forall l, (forall c, In c l -> exists e, op c.1 c.2 = Some e /\ good s e) -> exists ops, mapM (fun c => op c.1 c.2) l = Some ops /\ Forall (good s) ops /\ length ops = length l) as Hm.
    { clear. induction l as [|c l IH]; intros H; [by exists []|]. destruct (H c) as (e & E & He); [by left|]. destruct IH as (ops & E' & Hops & Hl); [intros; apply H; by right|].
      exists (e :: ops). cbn. rewrite E. cbn. rewrite E'. cbn. split_and!; [done|by constructor|by rewrite Hl]. }
    destruct (Hm kept) as (ops & -> & Hops & Hl).
    { intros [a b] Hin. apply filter_In in Hin as [Hin Ht]. cbn in *. apply andb_prop in Ht as [Ta Tb].
      apply Hop; try done; repeat (destruct Hin as [[= <- <-]|Hin]; [by auto|]); destruct Hin. }
    cbn [mbind option_bind].
    set (ops' := if negb (truthy n0 && truthy n1) then ops ++ [Num 0] else ops).
    assert (Forall (good s) ops' /\ ops' <> []) as [Hg Hne].
    { unfold ops'. destruct (truthy n0 && truthy n1) eqn:T; cbn [negb].
      - split; [done|]. intros ->. cbn [length] in Hl. apply andb_prop in T as [T0 T1].
        assert (In (n0, n1) kept) as Hin by (unfold kept; apply filter_In; split; [cbn; tauto|cbn; by rewrite T0, T1]).
        clearbody kept. by destruct kept.
      - split; [apply Forall_app; split; [done|constructor; [by left|done]]|]. by destruct ops. }
    destruct (py_sum_good s (take (length ops' - 1) ops')) as (p & -> & Hp); [by apply Forall_take|]. cbn [mbind option_bind].
    destruct (last ops') as [n|] eqn:El; [|by apply last_None in El]. cbn. exists p, n. split_and!; [done|done|].
    rewrite Forall_forall in Hg. apply Hg. by apply last_Some_elem_of.
  Qed.
  Lemma truthy_good s e : good s e -> truthy e = true -> is_num e = false /\ esig w e = s.
  Proof. intros [->|H] Ht; [|done]. unfold truthy in Ht. by rewrite (proj2 (is_zero_spec _)) in Ht. Qed.

  (** The operators that an expression is split through: all but those that match a key. *)
  Fixpoint splittable (keys : list key) (e : expr) : Prop :=
    match e with
    | Num _ | Var _ | Cast _ _ | Pow _ _ | Fun _ _ => True
    | AddE a b | MulE a b | Dot _ _ a b | Cross a b => splittable keys a /\ splittable keys b
    | MulN _ a => splittable keys a
    | Conv a => class_in e keys = true \/ splittable keys a
    | Lin L a => class_in e keys = true \/ (rule w L <> NumberFails /\ rule w L <> NoNewOperand /\ splittable keys a)
    end.
  Lemma mul_operands a b : is_num a = false -> is_num b = false -> mul a b = Some (MulE a b).
  Proof.
    intros Na Nb. unfold mul. rewrite (filter_cons_True _ a) by (by destruct a). rewrite (filter_cons_True _ b) by (by destruct b). rewrite filter_nil.
    destruct a, b; try done; by cbn.
  Qed.
  Lemma mul_number q b : q <> 0 -> is_num b = false -> exists e, mul (Num q) b = Some e /\ is_num e = false /\ esig w e = esig w b.
  Proof.
    intros Hq Nb. unfold mul. destruct (is_one (Num q)) eqn:O.
    - exists b. rewrite filter_cons_False by (by rewrite O). rewrite filter_cons_True by (by destruct b). done.
    - exists (MulN q b). rewrite filter_cons_True by done. rewrite filter_cons_True by (by destruct b). rewrite filter_nil.
      cbn [existsb is_zero]. destruct (Req_EM_T q 0); [done|]. cbn. destruct b; try done; by cbn.
  Qed.
  Lemma split_good keys e : is_num e = false -> well_formed w e -> splittable keys e ->
    exists p n, split w keys e = Some (p, n) /\ good (esig w e) p /\ good (esig w e) n.
  Proof.
    assert (forall s, good s (Num 0)) as G0 by (intros; by left).
    expr_induction e; intros Hn Hw Hs; try done; cbn [split].
    - destruct (var_in v keys); eexists _, _; (split; [done|]); split; try done; by right.
    - eexists _, _; (split; [done|]); split; try done; by right.
    - destruct Hw as (Na & Nb & Wa & Wb & Hsig), Hs as [Sa Sb]. destruct (IHa Na Wa Sa) as (pa & na & -> & Gpa & Gna). destruct (IHb Nb Wb Sb) as (pb & nb & -> & Gpb & Gnb).
      rewrite <- Hsig in *. cbn [mbind option_bind fst snd esig].
      destruct (py_sum_good (esig w a) [pa; pb]) as (p & -> & Gp); [by apply Forall_cons_2; [|apply Forall_cons_2]|]. destruct (py_sum_good (esig w a) [na; nb]) as (n & -> & Gn); [by apply Forall_cons_2; [|apply Forall_cons_2]|].
      by exists p, n.
    - destruct Hw as (Na & Wa). destruct (IHa Na Wa Hs) as (pa & na & -> & Gpa & Gna). cbn [mbind option_bind esig].
      apply product_split_good. intros x y Hx Hy Tx Ty.
      assert (is_num y = false /\ esig w y = esig w a) as [Ny Sy] by (destruct Hy as [-> | ->]; by apply truthy_good).
      destruct Hx as [-> | ->]; [unfold truthy in Tx; by rewrite (proj2 (is_zero_spec _)) in Tx|].
      destruct (mul_number q y) as (e & E & Ne & Se); [|done|].
      { intros ->. unfold truthy in Tx. by rewrite (proj2 (is_zero_spec _)) in Tx. }
      exists e. split; [done|]. right. split; [done|]. by rewrite Se.
    - destruct Hw as (Na & Nb & Wa & Wb), Hs as [Sa Sb]. destruct (IHa Na Wa Sa) as (pa & na & -> & Gpa & Gna). destruct (IHb Nb Wb Sb) as (pb & nb & -> & Gpb & Gnb).
      cbn [mbind option_bind esig]. apply product_split_good. intros x y Hx Hy Tx Ty.
      assert (is_num x = false /\ esig w x = esig w a) as [Nx Sx] by (destruct Hx as [-> | ->]; by apply truthy_good).
      assert (is_num y = false /\ esig w y = esig w b) as [Ny Sy] by (destruct Hy as [-> | ->]; by apply truthy_good).
      exists (MulE x y). split; [by apply mul_operands|]. right. split; [done|]. cbn. by rewrite Sx, Sy.
    - destruct Hw as (Na & Nb & Wa & Wb & Hi & Hj), Hs as [Sa Sb]. destruct (IHa Na Wa Sa) as (pa & na & -> & Gpa & Gna). destruct (IHb Nb Wb Sb) as (pb & nb & -> & Gpb & Gnb).
      cbn [mbind option_bind esig]. apply product_split_good. intros x y Hx Hy Tx Ty.
      assert (is_num x = false /\ esig w x = esig w a) as [Nx Sx] by (destruct Hx as [-> | ->]; by apply truthy_good).
      assert (is_num y = false /\ esig w y = esig w b) as [Ny Sy] by (destruct Hy as [-> | ->]; by apply truthy_good).
      exists (Dot i j x y). split.
      + unfold dot. rewrite !operand_nonzero, Nx, Ny by done. cbn. rewrite decide_True by (by rewrite Sx, Sy). done.
      + right. split; [done|]. cbn. by rewrite Sx, Sy.
    - destruct Hw as (Na & Nb & Wa & Wb & cs & Ca & Cb & Hd), Hs as [Sa Sb]. destruct (IHa Na Wa Sa) as (pa & na & -> & Gpa & Gna). destruct (IHb Nb Wb Sb) as (pb & nb & -> & Gpb & Gnb).
      cbn [mbind option_bind esig]. apply product_split_good. intros x y Hx Hy Tx Ty.
      assert (is_num x = false /\ esig w x = esig w a) as [Nx Sx] by (destruct Hx as [-> | ->]; by apply truthy_good).
      assert (is_num y = false /\ esig w y = esig w b) as [Ny Sy] by (destruct Hy as [-> | ->]; by apply truthy_good).
      exists (Cross x y). split.
      + unfold cross. rewrite !operand_nonzero, Nx, Ny by done. cbn. rewrite Sx, Sy, Ca, Cb. by rewrite decide_True.
      + right. split; [done|]. cbn. by rewrite Sx.
    - destruct Hw as (Na & Wa), Hs as [Hc|Hs].
      + rewrite Hc. eexists _, _. split; [done|]. split; [by right|done].
      + destruct (class_in (Conv a) keys); [|by apply IHa]. eexists _, _. split; [done|]. split; [by right|done].
    - destruct Hw as (Na & Wa). cbn [splittable] in Hs. destruct (class_in (Lin L a) keys).
      { eexists _, _. split; [done|]. split; [by right|done]. }
      destruct Hs as [|(Hf & Hnn & Hs)]; [done|]. destruct (IHa Na Wa Hs) as (pa & na & -> & Gpa & Gna). cbn [mbind option_bind fst snd esig].
      assert (forall x, good (esig w a) x -> exists e, lin w L x = Some e /\ good (lin_sig w L (esig w a)) e) as Hl.
      { intros x [->|[Nx Sx]].
        - exists (Num 0). split; [|done]. unfold lin. rewrite (proj2 (is_zero_spec _)) by done. by destruct (rule w L).
        - assert (lin w L x = if vanishes w L x then Some (Num 0) else Some (Lin L x)) as ->.
          { unfold lin. destruct x; try done; by destruct (rule w L). }
          destruct (vanishes w L x); eexists; (split; [done|]); [done|]. right. split; [done|]. cbn. by rewrite Sx. }
      destruct (Hl pa Gpa) as (p & -> & Gp). destruct (Hl na Gna) as (n & -> & Gn). by exists p, n.
    - destruct (has keys (Pow a pw)); eexists _, _; (split; [done|]); split; try done; by right.
    - destruct (has keys (Fun f a)); eexists _, _; (split; [done|]); split; try done; by right.
  Qed.

  (** Class replacement leaves none of the class, unless two are nested. *)
  Lemma replace_type_free T new e e' : linear_class T -> (depth T e <= 1)%nat ->
    (forall a r, ~ uses T a -> new [a] = Some r -> ~ uses T r) -> replace_type w T new e = Some e' -> ~ uses T e'.
  Proof.
    intros HT Hd Hnew Hr. rewrite <- has_type_uses. intros Hh. apply not_false_iff_true in Hh. apply Hh. clear Hh.
    assert ([KType T] <> []) as Hk by done. assert (Forall proper_key [KType T]) as Hp by (repeat constructor; apply HT).
    pose proof HT as ((H1 & H2 & H3 & H4 & H5) & H6 & H7).
    assert (forall e e', ~ uses T e -> walk w Var e = Some e' -> free [KType T] e') as Hreb.
    { clear e e' Hd Hr. intros e. expr_induction e; intros e' Hu Hw; cbn [walk] in Hw; cbn [uses] in Hu; try done.
      - by injection Hw as <-.
      - by injection Hw as <-.
      - destruct (walk w Var a) as [a'|]; [|done]. destruct (walk w Var b) as [b'|]; [|done]. eapply (add_free w _ Hk Hp a' b'); [apply IHa; tauto|apply IHb; tauto|done].
      - destruct (walk w Var a) as [a'|]; [|done]. eapply (mul_free _ Hp (Num q) a'); [done|apply IHa; tauto|done].
      - destruct (walk w Var a) as [a'|]; [|done]. destruct (walk w Var b) as [b'|]; [|done]. eapply (mul_free _ Hp a' b'); [apply IHa; tauto|apply IHb; tauto|done].
      - destruct (walk w Var a) as [a'|]; [|done]. destruct (walk w Var b) as [b'|]; [|done]. eapply (dot_free w _ Hp i j a' b'); [apply IHa; tauto|apply IHb; tauto|done].
      - destruct (walk w Var a) as [a'|]; [|done]. destruct (walk w Var b) as [b'|]; [|done]. eapply (cross_free w _ Hp a' b'); [apply IHa; tauto|apply IHb; tauto|done].
      - apply IHa; [tauto|done].
      - destruct (walk w Var a) as [a'|]; [|done]. cbn in Hw. assert (free [KType T] a') as Fa by (apply IHa; tauto).
        destruct (lin_cases w L a' e' Hw) as [(q & -> & [-> | ->])|(Nn & [-> | ->])]; try done. unfold free in *. cbn [has]. rewrite Fa. unfold class_in. cbn.
        destruct (T (CLin L)); [tauto|done].
      - destruct (walk w Var a) as [a'|]; [|done]. cbn in Hw. assert (free [KType T] a') as Fa by (apply IHa; tauto).
        unfold power in Hw. destruct (is_num a'); [done|]. injection Hw as <-. unfold free in *. cbn [has]. rewrite Fa. unfold class_in. cbn. by rewrite H6.
      - destruct (walk w Var a) as [a'|]; [|done]. cbn in Hw. assert (free [KType T] a') as Fa by (apply IHa; tauto).
        unfold ufun in Hw. destruct (is_num a'); [done|]. injection Hw as <-. unfold free in *. cbn [has]. rewrite Fa. unfold class_in. cbn. by rewrite H7. }
    assert (forall r, ~ uses T r -> free [KType T] r) as Hfree.
    { intros r Hu. unfold free. destruct (has [KType T] r) eqn:E; [|done]. by apply has_type_uses in E. }
    assert (forall r, free [KType T] r -> ~ uses T r) as Hfree'.
    { intros r Hf Hu. apply has_type_uses in Hu. unfold free in Hf. congruence. }
    change (free [KType T] e'). revert e' Hd Hr. expr_induction e; intros e' Hd Hr; cbn [replace_type depth] in Hr, Hd; rewrite ?H1, ?H2, ?H3, ?H4, ?H5, ?H6, ?H7 in Hr; try done.
    - by injection Hr as <-.
    - by injection Hr as <-.
    - destruct (replace_type w T new a) as [a'|]; [|done]. destruct (replace_type w T new b) as [b'|]; [|done]. eapply (add_free w _ Hk Hp a' b'); [apply IHa; [lia|done]|apply IHb; [lia|done]|done].
    - destruct (replace_type w T new a) as [a'|]; [|done]. eapply (mul_free _ Hp (Num q) a'); [done|apply IHa; [lia|done]|done].
    - destruct (replace_type w T new a) as [a'|]; [|done]. destruct (replace_type w T new b) as [b'|]; [|done]. eapply (mul_free _ Hp a' b'); [apply IHa; [lia|done]|apply IHb; [lia|done]|done].
    - destruct (replace_type w T new a) as [a'|]; [|done]. destruct (replace_type w T new b) as [b'|]; [|done]. eapply (dot_free w _ Hp i j a' b'); [apply IHa; [lia|done]|apply IHb; [lia|done]|done].
    - destruct (replace_type w T new a) as [a'|]; [|done]. destruct (replace_type w T new b) as [b'|]; [|done]. eapply (cross_free w _ Hp a' b'); [apply IHa; [lia|done]|apply IHb; [lia|done]|done].
    - apply IHa; [lia|done].
    - destruct (T (CLin L)) eqn:E.
      + unfold rebuild in Hr. destruct (walk w Var a) as [a'|] eqn:Ea; [|done]. cbn in Hr. apply Hfree. apply (Hnew a'); [|done].
        apply Hfree'. apply (Hreb a); [|done]. apply (uses_depth T a HT). lia.
      + destruct (replace_type w T new a) as [a'|]; [|done]. cbn in Hr. assert (free [KType T] a') as Fa by (apply IHa; [lia|done]).
        destruct (lin_cases w L a' e' Hr) as [(q & -> & [-> | ->])|(Nn & [-> | ->])]; try done. unfold free in *. cbn [has]. rewrite Fa. unfold class_in. cbn. by rewrite E.
    - destruct (replace_type w T new a) as [a'|]; [|done]. cbn in Hr. assert (free [KType T] a') as Fa by (apply IHa; [lia|done]).
      unfold power in Hr. destruct (is_num a'); [done|]. injection Hr as <-. unfold free in *. cbn [has]. rewrite Fa. unfold class_in. cbn. by rewrite H6.
    - destruct (replace_type w T new a) as [a'|]; [|done]. cbn in Hr. assert (free [KType T] a') as Fa by (apply IHa; [lia|done]).
      unfold ufun in Hr. destruct (is_num a'); [done|]. injection Hr as <-. unfold free in *. cbn [has]. rewrite Fa. unfold class_in. cbn. by rewrite H7.
  Qed.
  Lemma rebuildable_splittable keys e : rebuildable w keys e -> splittable keys e.
  Proof.
    expr_induction e; cbn [rebuildable splittable]; intros H; try done; try tauto.
    destruct H as [(T & Hin & HT)|(? & ? & ?)]; [left|right; tauto].
    unfold class_in. cbn. apply type_in_spec. by exists T.
  Qed.
End Total.
Lemma acts_on_variables T vars e : acts_on T vars e -> on_variables T (map KVar vars) e = true.
Proof.
  expr_induction e; cbn [acts_on on_variables]; intros H; try done; try (apply andb_true_iff; tauto); try tauto.
  destruct H as [Hv Ha]. apply andb_true_iff. split; [|tauto]. destruct (T (CLin L)); [|done]. cbn.
  destruct (Hv eq_refl) as (v & Hin & Hm). apply has_spec; [by destruct vars|]. exists (KVar v). split; [by apply in_map|done].
Qed.

(** Evaluating symbolic methods on examples. *)
Lemma truthy_0 : truthy (Num 0) = false.
Proof. unfold truthy. cbn. by destruct (Req_EM_T 0 0). Qed.
Lemma truthy_nonzero q : q <> 0 -> truthy (Num q) = true.
Proof. intros. unfold truthy. cbn. by destruct (Req_EM_T q 0). Qed.
Lemma truthy_operand e : is_num e = false -> truthy e = true.
Proof. by destruct e. Qed.
Lemma py_add_00 w : py_add w (Num 0) (Num 0) = Some (Num 0).
Proof. cbn. by rewrite Rplus_0_l. Qed.
Lemma mul_one_l e : mul (Num 1) e = Some e.
Proof.
  unfold mul. rewrite filter_cons_False by (cbn; by destruct (Req_EM_T 1 1)). destruct (is_one e) eqn:O.
  - rewrite filter_cons_False by (by rewrite O). apply is_one_spec in O as ->. done.
  - by rewrite filter_cons_True.
Qed.
Lemma mul_one_r e : mul e (Num 1) = Some e.
Proof.
  unfold mul. destruct (is_one e) eqn:O.
  - apply is_one_spec in O as ->. rewrite !filter_cons_False by (cbn; by destruct (Req_EM_T 1 1)). done.
  - rewrite filter_cons_True by done. rewrite filter_cons_False by (cbn; by destruct (Req_EM_T 1 1)). done.
Qed.
Lemma is_one_0 : is_one (Num 0) = false.
Proof. cbn. destruct (Req_EM_T 0 1); [lra|done]. Qed.
Lemma mul_zero_l e : mul (Num 0) e = Some (Num 0).
Proof.
  unfold mul. rewrite filter_cons_True by apply is_one_0. destruct (is_one e) eqn:O.
  - by rewrite filter_cons_False by (by rewrite O).
  - rewrite filter_cons_True by done. rewrite filter_nil. cbn [existsb]. by rewrite (proj2 (is_zero_spec (Num 0)) eq_refl).
Qed.
Lemma mul_zero_r e : mul e (Num 0) = Some (Num 0).
Proof.
  unfold mul. destruct (is_one e) eqn:O.
  - rewrite filter_cons_False by (by rewrite O). by rewrite filter_cons_True by apply is_one_0.
  - rewrite filter_cons_True by done. rewrite filter_cons_True by apply is_one_0. rewrite filter_nil. cbn [existsb].
    rewrite (proj2 (is_zero_spec (Num 0)) eq_refl). by rewrite orb_true_r.
Qed.
Lemma py_mul_operand_r a b : is_num b = false -> py_mul a b = mul a b.
Proof. by destruct a, b. Qed.
Lemma py_mul_operand_l a b : is_num a = false -> py_mul a b = mul a b.
Proof. by destruct a. Qed.
Lemma mul_number' q b : q <> 0 -> q <> 1 -> is_num b = false -> mul (Num q) b = Some (MulN q b).
Proof.
  intros H0 H1 Nb. unfold mul. rewrite filter_cons_True by (cbn; by destruct (Req_EM_T q 1)). rewrite filter_cons_True by (by destruct b). rewrite filter_nil.
  cbn [existsb is_zero]. destruct (Req_EM_T q 0); [done|]. cbn. destruct b; try done; by cbn.
Qed.
Ltac estep :=
  first [ rewrite bool_decide_eq_true_2 by reflexivity | rewrite bool_decide_eq_false_2 by discriminate | rewrite decide_True by reflexivity | rewrite decide_False by discriminate
  | rewrite py_add_00 | rewrite truthy_0 | rewrite truthy_operand by reflexivity | rewrite truthy_nonzero by lra
  | rewrite py_add_operand_l by reflexivity | rewrite py_add_operand_r by reflexivity
  | rewrite py_mul_operand_l by reflexivity | rewrite py_mul_operand_r by reflexivity
  | rewrite add_zero_l | rewrite add_zero_r | rewrite add_operands by reflexivity
  | rewrite mul_one_l | rewrite mul_one_r | rewrite mul_zero_l | rewrite mul_zero_r | rewrite mul_operands by reflexivity | rewrite mul_number' by (reflexivity || lra) ].
Ltac esimp :=
  unfold frechet, ivp_matrices, evp_matrices, replace_var, rebuild;
  repeat first [ progress (try unfold product_split; try unfold py_sum; try unfold class_in; rewrite ?filter_bool; cbn [split product_split py_sum class_in walk sym_diff perturb replace_vars replace_var rebuild replace_type var_in type_in class List.filter foldl mapM mret option_ret mbind option_bind fst snd app length take last Nat.sub negb andb orb lin rule vanishes ufun power is_num cast convert has derivative apply_body]) | estep ].
