(** Linearity checks, class replacement, and the matrices of initial and eigenvalue problems. *)
From Coq Require Import Reals Lra.
From Coquelicot Require Import Coquelicot.
From stdpp Require Import numbers list.
From Verif Require Import Expressions_Model Expressions_Spec Expressions_Proofs ExpressionsSplit_Proofs.
Local Open Scope R_scope.

Ltac expr_induction e :=
  induction e as [q|v|q s|a IHa b IHb|q a IHa|a IHa b IHb|i j a IHa b IHb|a IHa b IHb|a IHa|L a IHa|a IHa pw|f a IHa].
Ltac orf H := repeat (apply orb_false_iff in H; let H' := fresh H in destruct H as [H' H]).

Section Linear.
  Context (w : world) (I : interp).
  Notation sem := (sem w I).

  Lemma has_false_args keys e : has keys e = false -> forall v, mentions v e -> var_in v keys = false.
  Proof.
    expr_induction e; cbn [has mentions]; intros Hh x Hx; try done.
    - subst x. by destruct keys.
    - rewrite !orb_false_iff in Hh. destruct Hh as [[_ Ha] Hb], Hx; eauto.
    - rewrite !orb_false_iff in Hh. destruct Hh as [_ Ha]; eauto.
    - rewrite !orb_false_iff in Hh. destruct Hh as [[_ Ha] Hb], Hx; eauto.
    - rewrite !orb_false_iff in Hh. destruct Hh as [[_ Ha] Hb], Hx; eauto.
    - rewrite !orb_false_iff in Hh. destruct Hh as [[_ Ha] Hb], Hx; eauto.
    - rewrite !orb_false_iff in Hh. destruct Hh as [_ Ha]; eauto.
    - rewrite !orb_false_iff in Hh. destruct Hh as [_ Ha]; eauto.
    - rewrite !orb_false_iff in Hh. destruct Hh as [_ Ha]; eauto.
    - rewrite !orb_false_iff in Hh. destruct Hh as [_ Ha]; eauto.
  Qed.
  Lemma sem_agree rho rho' e : (forall v, mentions v e -> forall c x, rho v c x = rho' v c x) -> forall c x, sem rho e c x = sem rho' e c x.
  Proof.
    expr_induction e; intros H c x; cbn [Expressions_Spec.sem]; cbn [mentions] in H; try done; try (by apply H).
    - rewrite IHa, IHb; eauto.
    - rewrite IHa; eauto.
    - rewrite IHa, IHb; eauto.
    - apply sum_list_ext. intros m _. rewrite IHa, IHb; eauto.
    - assert (forall k, sem rho a [k] x = sem rho' a [k] x) as Ha by (intros; apply IHa; eauto).
      assert (forall k, sem rho b [k] x = sem rho' b [k] x) as Hb by (intros; apply IHb; eauto). rewrite !Ha, !Hb. done.
    - eauto.
    - destruct (opaque I L); [done|]. apply sum_list_ext. intros t _. rewrite IHa; eauto.
    - rewrite IHa; eauto.
    - rewrite IHa; eauto.
  Qed.
  Lemma has_false_sem keys rho rho' e : has keys e = false -> (forall v, var_in v keys = false -> forall c x, rho v c x = rho' v c x) ->
    forall c x, sem rho e c x = sem rho' e c x.
  Proof. intros Hh H. apply sem_agree. intros v Hv. apply H. by eapply has_false_args. Qed.

  Lemma require_linearity_sound keys affine e rho rho1 rho2 a1 a2 :
    require_linearity keys affine e = true -> transparent I e ->
    (forall v, var_in v keys = true -> forall c x, rho v c x = a1 * rho1 v c x + a2 * rho2 v c x) ->
    (forall v, var_in v keys = false -> forall c x, rho v c x = rho1 v c x /\ rho v c x = rho2 v c x) ->
    (affine = true -> a1 + a2 = 1) ->
    forall c x, sem rho e c x = a1 * sem rho1 e c x + a2 * sem rho2 e c x.
  Proof.
    intros Hr Ht Hin Hout Haff.
    assert (forall e, has keys e = false -> forall c x, sem rho1 e c x = sem rho e c x /\ sem rho2 e c x = sem rho e c x) as Hc.
    { intros e' Hh c x. split; apply (has_false_sem keys); try done; intros v Hv c' x'; by destruct (Hout v Hv c' x'). }
    revert Hr Ht. expr_induction e; cbn [require_linearity transparent]; intros Hr Ht c x; try done.
    - cbn. destruct (var_in v keys) eqn:Hv; [by apply Hin|].
      rewrite orb_false_r in Hr. destruct (Hout v Hv c x) as [<- <-]. specialize (Haff Hr). replace a1 with (1 - a2) by lra. lra.
    - cbn. specialize (Haff Hr). replace a1 with (1 - a2) by lra. lra.
    - apply andb_prop in Hr as [Ha Hb]. cbn. rewrite IHa, IHb by tauto. lra.
    - cbn. destruct (has keys a) eqn:Ha.
      + rewrite IHa by done. lra.
      + destruct (Hc a Ha c x) as [-> ->]. specialize (Haff Hr). replace a1 with (1 - a2) by lra. lra.
    - cbn. destruct (has keys a) eqn:Ha, (has keys b) eqn:Hb; cbn in Hr; try done.
      + rewrite IHa by tauto. destruct (Hc b Hb (drop (length (esig w a)) c) x) as [-> ->]. lra.
      + rewrite IHb by tauto. destruct (Hc a Ha (take (length (esig w a)) c) x) as [-> ->]. lra.
      + destruct (Hc b Hb (drop (length (esig w a)) c) x) as [-> ->]. destruct (Hc a Ha (take (length (esig w a)) c) x) as [-> ->].
        specialize (Haff Hr). replace a1 with (1 - a2) by lra. lra.
    - cbn. rewrite <- !sum_list_scal, <- sum_list_plus. apply sum_list_ext. intros m _.
      set (ca := insert_index i m _). set (cb := insert_index j m _).
      destruct (has keys a) eqn:Ha, (has keys b) eqn:Hb; cbn in Hr; try done.
      + rewrite IHa by tauto. destruct (Hc b Hb cb x) as [-> ->]. lra.
      + rewrite IHb by tauto. destruct (Hc a Ha ca x) as [-> ->]. lra.
      + destruct (Hc b Hb cb x) as [-> ->]. destruct (Hc a Ha ca x) as [-> ->].
        specialize (Haff Hr). replace a1 with (1 - a2) by lra. lra.
    - cbn. assert (forall k l, sem rho a [k] x * sem rho b [l] x = a1 * (sem rho1 a [k] x * sem rho1 b [l] x) + a2 * (sem rho2 a [k] x * sem rho2 b [l] x)) as E.
      { intros k l. destruct (has keys a) eqn:Ha, (has keys b) eqn:Hb; cbn in Hr; try done.
        + rewrite IHa by tauto. destruct (Hc b Hb [l] x) as [-> ->]. lra.
        + rewrite IHb by tauto. destruct (Hc a Ha [k] x) as [-> ->]. lra.
        + destruct (Hc b Hb [l] x) as [-> ->]. destruct (Hc a Ha [k] x) as [-> ->].
          specialize (Haff Hr). replace a1 with (1 - a2) by lra. lra. }
      rewrite !E. destruct (right_handed I _), c as [|[|[|[|]]] []]; lra.
    - cbn. by apply IHa.
    - destruct Ht as [Ho Ht]. cbn. rewrite Ho. rewrite <- !sum_list_scal, <- sum_list_plus. apply sum_list_ext. intros t _. rewrite IHa by done. lra.
    - destruct (has keys (Pow a pw)) eqn:Hh; [done|]. destruct (Hc _ Hh c x) as [-> ->]. specialize (Haff Hr). replace a1 with (1 - a2) by lra. lra.
    - destruct (has keys (Fun f a)) eqn:Hh; [done|]. destruct (Hc _ Hh c x) as [-> ->]. specialize (Haff Hr). replace a1 with (1 - a2) by lra. lra.
  Qed.
End Linear.

Lemma uses_depth T e : linear_class T -> depth T e = 0%nat <-> ~ uses T e.
Proof.
  intros ((H1 & H2 & H3 & H4 & H5) & H6 & H7). expr_induction e; cbn [depth uses]; rewrite ?H1, ?H2, ?H3, ?H4, ?H5, ?H6, ?H7; try tauto.
  all: try (assert (forall m n, Nat.max m n = 0%nat <-> m = 0%nat /\ n = 0%nat) as -> by (intros; lia); rewrite IHa, IHb; naive_solver).
  all: try naive_solver.
  destruct (T (CLin L)); [split; [lia|naive_solver]|]. naive_solver.
Qed.
Lemma has_type_uses T e : has [KType T] e = true <-> uses T e.
Proof.
  rewrite has_spec by done. split.
  - by intros (k & [<-|[]] & Hc).
  - intros Hu. exists (KType T). split; [by left|done].
Qed.
Lemma require_first_order_spec T e : linear_class T -> require_first_order T e = true <-> (depth T e <= 1)%nat.
Proof.
  intros HT. pose proof HT as ((H1 & H2 & H3 & H4 & H5) & H6 & H7).
  expr_induction e; cbn [depth require_first_order]; rewrite ?H1, ?H2, ?H3, ?H4, ?H5, ?H6, ?H7; cbn [negb andb]; try (split; intros; lia || done); try done;
    try (rewrite andb_true_iff, IHa, IHb; lia).
  destruct (T (CLin L)).
  - rewrite negb_true_iff. split.
    + intros Hh. assert (depth T a = 0%nat); [|lia]. apply (uses_depth T a HT). intros Hu. apply has_type_uses in Hu. congruence.
    + intros Hd. destruct (has [KType T] a) eqn:Hh; [|done]. apply has_type_uses in Hh.
      assert (depth T a = 0%nat) as H0 by lia. by apply (uses_depth T a HT) in H0.
  - rewrite IHa. lia.
Qed.

(** Without operators of class [T], their meaning does not matter. *)
Lemma sem_with_operator w I T G rho e : ~ uses T e -> forall c x, sem w (with_operator I T G) rho e c x = sem w I rho e c x.
Proof.
  expr_induction e; cbn [uses]; intros Hu c x; cbn [sem with_operator right_handed point]; try done.
  - rewrite IHa, IHb by tauto. done.
  - rewrite IHa by tauto. done.
  - rewrite IHa, IHb by tauto. done.
  - apply sum_list_ext. intros m _. rewrite IHa, IHb by tauto. done.
  - assert (forall k, sem w (with_operator I T G) rho a [k] x = sem w I rho a [k] x) as Ha by (intros; apply IHa; tauto).
    assert (forall k, sem w (with_operator I T G) rho b [k] x = sem w I rho b [k] x) as Hb by (intros; apply IHb; tauto).
    rewrite !Ha, !Hb. done.
  - apply IHa. tauto.
  - destruct (T (CLin L)) eqn:HT; [tauto|].
    assert (opaque (with_operator I T G) L = opaque I L) as -> by (cbn; by rewrite HT). destruct (opaque I L); [reflexivity|]. apply sum_list_ext. intros t _. rewrite IHa by tauto. reflexivity.
  - rewrite IHa by tauto. done.
  - rewrite IHa by tauto. done.
Qed.

(** ** Replacing a class *)
Section ReplaceType.
  Context (w : world) (I : interp) (HL : lawful w I) (T : cls -> bool) (HT : linear_class T) (new : list expr -> option expr).
  Context (rho : data I) (Hadm : admissible I rho) (G : expr -> list nat -> point I -> R).
  Context (Hnew : forall L a a' r, T (CLin L) = true -> operand w a -> denotes w I rho (esig w a) a' (sem w I rho a) -> new [a'] = Some r -> denotes w I rho (lin_sig w L (esig w a)) r (G a)).

  Lemma rebuild_denotes e e' : operand w e -> rebuild w e = Some e' -> denotes w I rho (esig w e) e' (sem w I rho e).
  Proof using HL Hadm.
    intros [Hn Hw]. by apply (walk_denotes w I HL).
  Qed.
  Lemma replace_type_denotes e e' : operand w e -> replace_type w T new e = Some e' ->
    denotes w I rho (esig w e) e' (sem w (with_operator I T G) rho e).
  Proof using HL HT Hadm Hnew.
    pose proof HT as ((H1 & H2 & H3 & H4 & H5) & H6 & H7).
    revert e'. expr_induction e; intros e' [Hn Hw] Hr; try done; cbn [replace_type] in Hr; rewrite ?H1, ?H2, ?H3, ?H4, ?H5, ?H6, ?H7 in Hr.
    - injection Hr as <-. by apply (denotes_self w I rho (Var v)).
    - injection Hr as <-. by apply (denotes_self w I rho (Cast q s)).
    - destruct Hw as (Na & Nb & Hwa & Hwb & Hs).
      destruct (replace_type w T new a) as [a'|] eqn:Ea; [|done]. destruct (replace_type w T new b) as [b'|] eqn:Eb; [|done]. cbn in Hr.
      eapply (add_denotes w I rho (esig w a) a' b'); [apply IHa; done|rewrite Hs; apply IHb; done|done].
    - destruct Hw as (Na & Hwa). destruct (replace_type w T new a) as [a'|] eqn:Ea; [|done]. cbn in Hr.
      eapply denotes_ext; [eapply (mul_denotes w I rho [] (esig w a) (Num q) a'); [apply denotes_num|by apply IHa|done]|].
      intros c x Hc. done.
    - destruct Hw as (Na & Nb & Hwa & Hwb).
      destruct (replace_type w T new a) as [a'|] eqn:Ea; [|done]. destruct (replace_type w T new b) as [b'|] eqn:Eb; [|done]. cbn in Hr.
      eapply (mul_denotes w I rho _ _ a' b'); [apply IHa; done|apply IHb; done|done].
    - destruct Hw as (Na & Nb & Hwa & Hwb & Hi & Hj).
      destruct (replace_type w T new a) as [a'|] eqn:Ea; [|done]. destruct (replace_type w T new b) as [b'|] eqn:Eb; [|done]. cbn in Hr.
      eapply (dot_denotes w I rho _ _ i j a' b'); [apply IHa; done|apply IHb; done|done..].
    - destruct Hw as (Na & Nb & Hwa & Hwb & cs & Hsa & Hsb & Hd).
      destruct (replace_type w T new a) as [a'|] eqn:Ea; [|done]. destruct (replace_type w T new b) as [b'|] eqn:Eb; [|done]. cbn in Hr.
      cbn [esig]. rewrite Hsa.
      eapply denotes_ext; [eapply (cross_denotes w I rho cs a' b'); [rewrite <- Hsa; apply IHa; done|rewrite <- Hsb; apply IHb; done|done..]|].
      intros c x Hc. cbn [sem]. rewrite Hsa. done.
    - destruct Hw as (Na & Hwa). by apply IHa.
    - destruct Hw as (Na & Hwa). destruct (T (CLin L)) eqn:HTL.
      + destruct (rebuild w a) as [a'|] eqn:Ea; [|done]. cbn in Hr.
        eapply denotes_ext; [eapply (Hnew L a a' e'); [done|done|by apply rebuild_denotes|done]|].
        intros c x Hc. cbn. by rewrite HTL.
      + destruct (replace_type w T new a) as [a'|] eqn:Ea; [|done]. cbn in Hr.
        destruct (lin_denotes w I HL rho L (esig w a) a' _ e' Hadm (IHa a' (conj Na Hwa) eq_refl) Hr) as [Hd Ho].
        eapply denotes_ext; [done|]. intros c x Hc. cbn. by rewrite HTL, Ho.
    - destruct Hw as (Na & Hwa). destruct (replace_type w T new a) as [a'|] eqn:Ea; [|done]. cbn in Hr.
      by eapply (power_denotes w I rho _ a'); [apply IHa|].
    - destruct Hw as (Na & Hwa). destruct (replace_type w T new a) as [a'|] eqn:Ea; [|done]. cbn in Hr.
      by eapply (ufun_denotes w I rho _ a'); [apply IHa|].
  Qed.
End ReplaceType.

(** ** The part of an expression with the keys is linear in them *)
(** Splitting adds no keys. *)
Lemma product_split_free w keys' op p0 n0 p1 n1 p n : keys' <> [] -> Forall proper_key keys' ->
  (forall a b e, free keys' a -> free keys' b -> op a b = Some e -> free keys' e) ->
  free keys' p0 -> free keys' n0 -> free keys' p1 -> free keys' n1 ->
  product_split w op (p0, n0) (p1, n1) = Some (p, n) -> free keys' p /\ free keys' n.
Proof.
  intros Hk' Hp' Hf Hp0 Hn0 Hp1 Hn1 H. unfold product_split in H. cbn [fst snd] in H.
  rewrite filter_bool in H.
  destruct (mapM _ _) as [ops|] eqn:E; [|done]. cbn [mbind option_bind] in H.
  assert (Forall (free keys') ops) as Hops.
  { apply mapM_Some in E. apply Forall_forall. intros e He. apply elem_of_list_lookup in He as [k Hk].
    destruct (Forall2_lookup_r _ _ _ _ _ E Hk) as ([a b] & Hab & Hop). cbn in Hop.
    apply elem_of_list_lookup_2, elem_of_list_In, filter_In in Hab as [Hab _].
    eapply Hf; [| |exact Hop]; cbn in Hab; repeat (destruct Hab as [[= <- <-]|Hab]; [assumption|]); destruct Hab. }
  set (ops' := if negb (truthy n0 && truthy n1) then ops ++ [Num 0] else ops) in *.
  assert (Forall (free keys') ops') as Hops'.
  { unfold ops'. destruct (negb _); [|done]. apply Forall_app. split; [done|]. by constructor. }
  destruct (py_sum w _) as [p'|] eqn:Sp; [|done]. destruct (last ops') as [n'|] eqn:Sn; [|done]. cbn in H. injection H as <- <-. split.
  - eapply (py_sum_free w keys' Hk' Hp'); [|exact Sp]. by apply Forall_take.
  - rewrite Forall_forall in Hops'. apply Hops'. by apply last_Some_elem_of.
Qed.
Lemma split_free w keys keys' e p n : keys' <> [] -> Forall proper_key keys' -> free keys' e -> split w keys e = Some (p, n) -> free keys' p /\ free keys' n.
Proof.
  intros Hk' Hp'. revert p n. expr_induction e; intros p n Hh Hs; try done.
  - cbn in Hs. by destruct (var_in v keys); injection Hs as <- <-.
  - by injection Hs as <- <-.
  - unfold free in Hh. rewrite (has_add keys' Hp'), orb_false_iff in Hh. destruct Hh as [Ha Hb]. cbn [split] in Hs.
    destruct (split w keys a) as [[pa na]|]; [|done]. destruct (split w keys b) as [[pb nb]|]; [|done].
    destruct (IHa pa na), (IHb pb nb); [done..|].
    cbn [mbind option_bind fst snd] in Hs. destruct (py_sum w [pa; pb]) as [p'|] eqn:Sp; [|done]. destruct (py_sum w [na; nb]) as [n'|] eqn:Sn; [|done]. cbn in Hs. injection Hs as <- <-.
    split; eapply (py_sum_free w keys' Hk' Hp'); [|exact Sp| |exact Sn]; (constructor; [assumption|]; constructor; [assumption|]; constructor).
  - unfold free in Hh. rewrite (has_muln keys' Hp') in Hh. cbn [split] in Hs. destruct (split w keys a) as [[pa na]|]; [|done]. destruct (IHa pa na); [done..|].
    cbn [mbind option_bind] in Hs. by eapply (product_split_free w keys' mul (Num 0) (Num q) pa na); [..|exact Hs]; [done|done|apply (mul_free keys' Hp')|..].
  - unfold free in Hh. rewrite (has_mul keys' Hp'), orb_false_iff in Hh. destruct Hh as [Ha Hb]. cbn [split] in Hs.
    destruct (split w keys a) as [[pa na]|]; [|done]. destruct (split w keys b) as [[pb nb]|]; [|done]. destruct (IHa pa na), (IHb pb nb); [done..|].
    cbn [mbind option_bind] in Hs. by eapply (product_split_free w keys' mul pa na pb nb); [..|exact Hs]; [done|done|apply (mul_free keys' Hp')|..].
  - unfold free in Hh. rewrite (has_dot keys' Hp'), orb_false_iff in Hh. destruct Hh as [Ha Hb]. cbn [split] in Hs.
    destruct (split w keys a) as [[pa na]|]; [|done]. destruct (split w keys b) as [[pb nb]|]; [|done]. destruct (IHa pa na), (IHb pb nb); [done..|].
    cbn [mbind option_bind] in Hs. by eapply (product_split_free w keys' (dot w i j) pa na pb nb); [..|exact Hs]; [done|done|apply (dot_free w keys' Hp')|..].
  - unfold free in Hh. rewrite (has_cross keys' Hp'), orb_false_iff in Hh. destruct Hh as [Ha Hb]. cbn [split] in Hs.
    destruct (split w keys a) as [[pa na]|]; [|done]. destruct (split w keys b) as [[pb nb]|]; [|done]. destruct (IHa pa na), (IHb pb nb); [done..|].
    cbn [mbind option_bind] in Hs. by eapply (product_split_free w keys' (cross w) pa na pb nb); [..|exact Hs]; [done|done|apply (cross_free w keys' Hp')|..].
  - cbn [split] in Hs. destruct (class_in (Conv a) keys); [by injection Hs as <- <-|]. unfold free in Hh. rewrite (has_conv keys' Hp') in Hh. by apply IHa.
  - cbn [split] in Hs. destruct (class_in (Lin L a) keys); [by injection Hs as <- <-|]. unfold free in Hh.
    assert (forall e', has keys' e' = false -> has keys' (Lin L e') = false) as Hlin.
    { intros e' He'. cbn [has] in Hh |- *. unfold class_in in *. cbn [class] in *. apply orb_false_iff in Hh as [-> _]. done. }
    cbn [has] in Hh. apply orb_false_iff in Hh as [_ Hh].
    destruct (split w keys a) as [[pa na]|]; [|done]. cbn [mbind option_bind fst snd] in Hs. destruct (IHa pa na Hh eq_refl) as [Ha Hb].
    destruct (lin w L pa) as [p'|] eqn:Lp; [|done]. destruct (lin w L na) as [n'|] eqn:Ln; [|done]. cbn in Hs. injection Hs as <- <-. split.
    + destruct (lin_cases w L pa p' Lp) as [(q & -> & [-> | ->])|(Na & [-> | ->])]; try done. by apply Hlin.
    + destruct (lin_cases w L na n' Ln) as [(q & -> & [-> | ->])|(Na & [-> | ->])]; try done. by apply Hlin.
  - cbn [split] in Hs. by destruct (has keys (Pow a pw)); injection Hs as <- <-.
  - cbn [split] in Hs. by destruct (has keys (Fun f a)); injection Hs as <- <-.
Qed.
Lemma carries_free w keys e p n : keys <> [] -> Forall proper_key keys -> free keys e -> split w keys e = Some (p, n) -> p = Num 0.
Proof.
  intros Hk Hp Hh Hs. destruct (split_free w keys keys e p n Hk Hp Hh Hs) as [Hf _], (split_contents w keys Hk Hp e p n Hs) as [Hc _].
  destruct Hc as [->|[Hn Hc]]; [done|]. unfold free in Hf. rewrite (carries_has keys p Hn (or_intror (conj Hn Hc))) in Hf. done.
Qed.

Section Atoms.
  Context (w : world) (keys keys' : list key) (Hk : keys <> []) (Hp : Forall proper_key keys) (Hk' : keys' <> []) (Hp' : Forall proper_key keys').
  Context (atom : expr -> Prop) (Hatom : forall e, atom e -> is_num e = false).

  Definition coefficient (e : expr) : Prop := has keys e = false /\ has keys' e = false.
  (** Sums, multiples and operators of atoms; products with coefficients. *)
  Fixpoint atomic (e : expr) : Prop :=
    atom e \/
    match e with
    | AddE a b => atomic a /\ atomic b
    | MulN _ a | Conv a => atomic a
    | Lin L a => rule w L <> NoNewOperand /\ atomic a
    | MulE a b | Dot _ _ a b | Cross a b => (atomic a /\ coefficient b) \/ (coefficient a /\ atomic b)
    | _ => False
    end.
  (** The same with other terms that have no key. *)
  Fixpoint affine (e : expr) : Prop :=
    has keys e = false \/
    match e with
    | Var v => var_in v keys = true /\ atom e
    | Lin L a => (class_in e keys = true /\ atom e) \/ (class_in e keys = false /\ affine a)
    | AddE a b => affine a /\ affine b
    | MulN _ a | Conv a => affine a
    | MulE a b | Dot _ _ a b | Cross a b => (affine a /\ coefficient b) \/ (coefficient a /\ affine b)
    | _ => False
    end.
  Lemma atomic_operand e : atomic e -> is_num e = false.
  Proof using Hatom. destruct e; try done. intros [H|[]]. by apply (Hatom (Num q)). Qed.
  Definition part (e : expr) : Prop := e = Num 0 \/ atomic e.
  Lemma atomic_convert n e : atomic e -> atomic (convert n e).
  Proof using. clear. revert e. induction n as [|n IH]; intros e He; [done|]. cbn [convert]. apply IH. by right. Qed.
  Lemma cast_operand s e e' : is_num e = false -> cast w s e = Some e' -> e' = e.
  Proof using. clear. intros Hn H. destruct e; try done; cbn in H; destruct (decide _); congruence. Qed.
  Lemma py_add_part a b e : part a -> part b -> py_add w a b = Some e -> part e.
  Proof using Hatom.
    intros [->|Ha] [->|Hb] He.
    - injection He as <-. left. f_equal. lra.
    - apply atomic_operand in Hb as Nb. assert (add w (Num 0) b = Some e) as He' by (by destruct b).
      destruct (add_cases w _ _ _ He') as [(_ & ->)|[(-> & ->)|[(p & q & _ & -> & _)|(s & a' & b' & n & m & _ & _ & _ & Hz & _)]]]; try done; [by right|].
      by rewrite (proj2 (is_zero_spec _)) in Hz.
    - apply atomic_operand in Ha as Na. assert (add w a (Num 0) = Some e) as He' by (by destruct a).
      destruct (add_cases w _ _ _ He') as [(-> & ->)|[(_ & ->)|[(p & q & -> & _ & _)|(s & a' & b' & n & m & _ & _ & _ & _ & Hz & _)]]]; try done; [by right|].
      by rewrite (proj2 (is_zero_spec _)) in Hz.
    - apply atomic_operand in Ha as Na. apply atomic_operand in Hb as Nb. assert (add w a b = Some e) as He' by (by destruct a).
      destruct (add_cases w _ _ _ He') as [(-> & ->)|[(-> & ->)|[(p & q & -> & _ & _)|(s & a' & b' & n & m & Ca & Cb & _ & _ & _ & ->)]]]; try done.
      apply cast_operand in Ca as ->; [|done]. apply cast_operand in Cb as ->; [|done]. right. right. split; by apply atomic_convert.
  Qed.
  Lemma py_sum_part l e : Forall part l -> py_sum w l = Some e -> part e.
  Proof using Hatom.
    unfold py_sum. assert (part (Num 0)) as H0 by (by left). revert H0. generalize (Num 0). induction l as [|b l IH]; intros acc Hacc Hl He.
    - by injection He as <-.
    - inversion_clear Hl as [|? ? Hb Hl']. cbn [foldl mbind option_bind] in He. destruct (py_add w acc b) as [acc'|] eqn:E.
      + eapply IH; [|done..]. by eapply (py_add_part _ _ _ Hacc Hb).
      + exfalso. clear -He. induction l; cbn in He; [done|by apply IHl].
  Qed.
  Lemma mul_part a b e : (atomic a /\ coefficient b) \/ (coefficient a /\ atomic b) -> mul a b = Some e -> part e.
  Proof using Hatom.
    intros H He. assert (is_num a = false \/ is_num b = false) as Hn by (destruct H as [[Ha _]|[_ Hb]]; [left|right]; by apply atomic_operand).
    destruct (mul_cases a b e He) as [(-> & -> & ->)|[(-> & ->)|[(-> & ->)|[(_ & ->)|[(q & Nb & -> & Hq & ->)|[(q & Na & -> & Hq & ->)|[(p & q & -> & -> & _ & _ & ->)|(Na & Nb & ->)]]]]]]].
    - by destruct Hn.
    - right. destruct H as [[Ha _]|[_ Hb]]; [by apply atomic_operand in Ha|done].
    - right. destruct H as [[Ha _]|[_ Hb]]; [done|by apply atomic_operand in Hb].
    - by left.
    - right. destruct H as [[Ha _]|[_ Hb]]; [by apply atomic_operand in Ha|by right].
    - right. destruct H as [[Ha _]|[_ Hb]]; [by right|by apply atomic_operand in Hb].
    - by destruct Hn.
    - right. by right.
  Qed.
  Lemma dot_part i j a b e : (atomic a /\ coefficient b) \/ (coefficient a /\ atomic b) -> dot w i j a b = Some e -> part e.
  Proof using.
    unfold dot. intros H He. destruct (is_zero a || is_zero b); [injection He as <-; by left|]. destruct (is_num a || is_num b); [done|].
    destruct (decide _); [|done]. injection He as <-. right. by right.
  Qed.
  Lemma cross_part a b e : (atomic a /\ coefficient b) \/ (coefficient a /\ atomic b) -> cross w a b = Some e -> part e.
  Proof using.
    unfold cross. intros H He. destruct (is_zero a || is_zero b); [injection He as <-; by left|]. destruct (is_num a || is_num b); [done|].
    destruct (esig w a) as [|cs [|]], (esig w b) as [|cs' [|]]; try done. destruct (decide _); [|done]. injection He as <-. right. by right.
  Qed.
  (** A product of an affine factor and a coefficient. *)
  Lemma product_part op p0 n0 p1 n1 p n :
    (forall a b e, (atomic a /\ coefficient b) \/ (coefficient a /\ atomic b) -> op a b = Some e -> part e) ->
    (part p0 /\ p1 = Num 0 /\ coefficient n1) \/ (p0 = Num 0 /\ coefficient n0 /\ part p1) ->
    product_split w op (p0, n0) (p1, n1) = Some (p, n) -> part p.
  Proof using Hatom.
    intros Hop H Hs. unfold product_split in Hs. cbn [fst snd] in Hs. rewrite filter_bool in Hs. cbn [List.filter fst snd] in Hs.
    assert (truthy (Num 0) = false) as H0. { unfold truthy. by rewrite (proj2 (is_zero_spec _)). }
    assert (forall e, part e -> truthy e = true -> atomic e) as Ht. { intros e [->|He] Hz; [congruence|done]. }
    destruct H as [(Hp0 & -> & Hn1)|(-> & Hn0 & Hp1)]; rewrite H0, ?andb_false_r, ?andb_false_l in Hs.
    - destruct (truthy p0) eqn:T1, (truthy n1) eqn:T4, (truthy n0) eqn:T2; cbn [andb negb] in Hs;
        repeat match type of Hs with context [mapM _ ?l] => progress cbn [mapM mbind option_bind fst snd] in Hs end;
        repeat match type of Hs with context [op ?a ?b] => let E := fresh "E" in destruct (op a b) eqn:E; cbn [mbind option_bind] in Hs; [|discriminate Hs] end;
        cbn [mret option_ret mbind option_bind app length Nat.sub take last] in Hs;
        (match type of Hs with context [py_sum w ?l] => let E := fresh "S" in destruct (py_sum w l) eqn:E; cbn [mbind option_bind] in Hs; [|discriminate Hs] end);
        (injection Hs as <- _); (eapply py_sum_part; [|eassumption]; repeat (constructor; [eapply Hop; [|eassumption]; left; auto|]); constructor).
    - destruct (truthy p1) eqn:T1, (truthy n1) eqn:T4, (truthy n0) eqn:T2; cbn [andb negb] in Hs;
        repeat match type of Hs with context [mapM _ ?l] => progress cbn [mapM mbind option_bind fst snd] in Hs end;
        repeat match type of Hs with context [op ?a ?b] => let E := fresh "E" in destruct (op a b) eqn:E; cbn [mbind option_bind] in Hs; [|discriminate Hs] end;
        cbn [mret option_ret mbind option_bind app length Nat.sub take last] in Hs;
        (match type of Hs with context [py_sum w ?l] => let E := fresh "S" in destruct (py_sum w l) eqn:E; cbn [mbind option_bind] in Hs; [|discriminate Hs] end);
        (injection Hs as <- _); (eapply py_sum_part; [|eassumption]; repeat (constructor; [eapply Hop; [|eassumption]; right; auto|]); constructor).
  Qed.
  Lemma coefficient_split e p n : coefficient e -> split w keys e = Some (p, n) -> p = Num 0 /\ coefficient n.
  Proof using Hk Hp Hk' Hp'.
    intros [H1 H2] Hs. split; [by eapply (carries_free w keys)|].
    destruct (split_free w keys keys e p n Hk Hp H1 Hs), (split_free w keys keys' e p n Hk' Hp' H2 Hs). done.
  Qed.
  Lemma split_part e p n : affine e -> split w keys e = Some (p, n) -> part p.
  Proof using Hatom Hk Hp Hk' Hp'.
    revert p n. expr_induction e; intros p n Ha Hs; (destruct Ha as [Hh|Ha]; [left; by eapply (carries_free w keys)|]); try done.
    - cbn in Hs. destruct Ha as [Hv Ha]. rewrite Hv in Hs. injection Hs as <- <-. right. by left.
    - destruct Ha as [Ha Hb]. cbn [split] in Hs. destruct (split w keys a) as [[pa na]|]; [|done]. destruct (split w keys b) as [[pb nb]|]; [|done].
      cbn [mbind option_bind fst snd] in Hs. destruct (py_sum w [pa; pb]) as [p'|] eqn:Sp; [|done]. destruct (py_sum w [na; nb]) as [n'|] eqn:Sn; [|done]. cbn in Hs. injection Hs as <- <-.
      eapply py_sum_part; [|exact Sp]. constructor; [by eapply IHa|]. constructor; [by eapply IHb|]. constructor.
    - cbn [split] in Hs. destruct (split w keys a) as [[pa na]|]; [|done]. cbn [mbind option_bind] in Hs.
      eapply (product_part mul (Num 0) (Num q) pa na); [apply mul_part| |exact Hs]. right. split_and!; [done| |by eapply IHa]. done.
    - cbn [split] in Hs. destruct (split w keys a) as [[pa na]|] eqn:Ea; [|done]. destruct (split w keys b) as [[pb nb]|] eqn:Eb; [|done]. cbn [mbind option_bind] in Hs.
      eapply (product_part mul pa na pb nb); [apply mul_part| |exact Hs].
      destruct Ha as [[Ha Hc]|[Hc Hb]]; [left; destruct (coefficient_split b pb nb Hc Eb); split_and!; try done; by eapply IHa|right; destruct (coefficient_split a pa na Hc Ea); split_and!; try done; by eapply IHb].
    - cbn [split] in Hs. destruct (split w keys a) as [[pa na]|] eqn:Ea; [|done]. destruct (split w keys b) as [[pb nb]|] eqn:Eb; [|done]. cbn [mbind option_bind] in Hs.
      eapply (product_part (dot w i j) pa na pb nb); [apply dot_part| |exact Hs].
      destruct Ha as [[Ha Hc]|[Hc Hb]]; [left; destruct (coefficient_split b pb nb Hc Eb); split_and!; try done; by eapply IHa|right; destruct (coefficient_split a pa na Hc Ea); split_and!; try done; by eapply IHb].
    - cbn [split] in Hs. destruct (split w keys a) as [[pa na]|] eqn:Ea; [|done]. destruct (split w keys b) as [[pb nb]|] eqn:Eb; [|done]. cbn [mbind option_bind] in Hs.
      eapply (product_part (cross w) pa na pb nb); [apply cross_part| |exact Hs].
      destruct Ha as [[Ha Hc]|[Hc Hb]]; [left; destruct (coefficient_split b pb nb Hc Eb); split_and!; try done; by eapply IHa|right; destruct (coefficient_split a pa na Hc Ea); split_and!; try done; by eapply IHb].
    - cbn [split] in Hs. unfold class_in in Hs. cbn [class] in Hs. rewrite (proper_classes keys Hp) in Hs by auto 10. by eapply IHa.
    - cbn [split] in Hs. destruct Ha as [[Hc Ha]|[Hc Ha]]; rewrite Hc in Hs.
      + injection Hs as <- <-. right. by left.
      + destruct (split w keys a) as [[pa na]|]; [|done]. cbn [mbind option_bind fst snd] in Hs.
        destruct (lin w L pa) as [p'|] eqn:Lp; [|done]. destruct (lin w L na) as [n'|] eqn:Ln; [|done]. cbn in Hs. injection Hs as <- <-.
        destruct (IHa pa na Ha eq_refl) as [->|Hpa].
        * left. destruct (lin_cases w L (Num 0) p' Lp) as [(q & [= ->] & [-> | ->])|(Na & _)]; done.
        * destruct (lin_cases w L pa p' Lp) as [(q & -> & _)|(Na & [-> | ->])]; [by apply atomic_operand in Hpa|by left|].
          right. right. split; [|done]. intros Hr. unfold lin in Lp. rewrite Hr in Lp. by destruct pa.
  Qed.
End Atoms.

(** ** Replacing fields replaces all of them *)
Lemma walk_free w x onvar e e' : (forall v, mentions v e -> free [KVar x] (onvar v)) -> walk w onvar e = Some e' -> free [KVar x] e'.
Proof.
  assert ([KVar x] <> []) as Hk by done. assert (Forall proper_key [KVar x]) as Hp by (by repeat constructor).
  revert e'. expr_induction e; intros e' Hv Hw; cbn [walk] in Hw; cbn [mentions] in Hv; try done.
  - injection Hw as <-. auto.
  - by injection Hw as <-.
  - destruct (walk w onvar a) as [a'|] eqn:Ea; [|done]. destruct (walk w onvar b) as [b'|] eqn:Eb; [|done].
    eapply (add_free w _ Hk Hp a' b'); eauto.
  - destruct (walk w onvar a) as [a'|] eqn:Ea; [|done]. eapply (mul_free _ Hp (Num q) a'); eauto. done.
  - destruct (walk w onvar a) as [a'|] eqn:Ea; [|done]. destruct (walk w onvar b) as [b'|] eqn:Eb; [|done].
    eapply (mul_free _ Hp a' b'); eauto.
  - destruct (walk w onvar a) as [a'|] eqn:Ea; [|done]. destruct (walk w onvar b) as [b'|] eqn:Eb; [|done].
    eapply (dot_free w _ Hp i j a' b'); eauto.
  - destruct (walk w onvar a) as [a'|] eqn:Ea; [|done]. destruct (walk w onvar b) as [b'|] eqn:Eb; [|done].
    eapply (cross_free w _ Hp a' b'); eauto.
  - eauto.
  - destruct (walk w onvar a) as [a'|] eqn:Ea; [|done]. cbn in Hw. specialize (IHa a' Hv eq_refl).
    destruct (lin_cases w L a' e' Hw) as [(q & -> & [-> | ->])|(Na & [-> | ->])]; done.
  - destruct (walk w onvar a) as [a'|] eqn:Ea; [|done]. cbn in Hw. specialize (IHa a' Hv eq_refl).
    unfold power in Hw. destruct (is_num a'); [done|]. by injection Hw as <-.
  - destruct (walk w onvar a) as [a'|] eqn:Ea; [|done]. cbn in Hw. specialize (IHa a' Hv eq_refl).
    unfold ufun in Hw. destruct (is_num a'); [done|]. by injection Hw as <-.
Qed.
Lemma free_var_spec x e : free [KVar x] e <-> ~ mentions x e.
Proof.
  unfold free. rewrite <- not_true_iff_false, has_spec by done. split.
  - intros H Hm. apply H. exists (KVar x). split; [by left|done].
  - intros H (k & [<-|[]] & Hc). done.
Qed.

(** ** Eigenvalue problems *)
Section EVP.
  Context (w : world) (I : interp) (HL : lawful w I) (ev : nat).
  Notation keys := [KVar ev].
  Definition ev_atom (e : expr) : Prop := e = Var ev.
  Lemma linear_affine e : require_linearity keys true e = true -> affine keys keys ev_atom e.
  Proof using.
    clear HL. expr_induction e; cbn [require_linearity]; intros Hr; cbn [affine]; try done.
    - destruct (decide (v = ev)) as [->|Hne]; [right; split; [cbn; by rewrite bool_decide_true|done]|].
      left. cbn. by rewrite bool_decide_false.
    - by left.
    - apply andb_prop in Hr as [Ha Hb]. right. auto.
    - destruct (has keys a) eqn:Ha; [right; auto|]. left. cbn. by rewrite Ha.
    - destruct (has keys a) eqn:Ha, (has keys b) eqn:Hb; cbn in Hr; try done.
      + right. left. split; [auto|by split].
      + right. right. split; [by split|auto].
      + left. cbn. by rewrite Ha, Hb.
    - destruct (has keys a) eqn:Ha, (has keys b) eqn:Hb; cbn in Hr; try done.
      + right. left. split; [auto|by split].
      + right. right. split; [by split|auto].
      + left. cbn. by rewrite Ha, Hb.
    - destruct (has keys a) eqn:Ha, (has keys b) eqn:Hb; cbn in Hr; try done.
      + right. left. split; [auto|by split].
      + right. right. split; [by split|auto].
      + left. cbn. by rewrite Ha, Hb.
    - right. auto.
    - right. right. split; [done|auto].
    - left. by destruct (has keys (Pow a pw)).
    - left. by destruct (has keys (Fun f a)).
  Qed.
  Lemma atomic_scale rho lam e : (forall c x, rho ev c x = lam) -> atomic w keys keys ev_atom e ->
    forall c x, sem w I rho e c x = lam * sem w I (update rho ev (fun _ _ => 1)) e c x.
  Proof using HL.
    intros Hev. assert (forall e, coefficient keys keys e -> forall c x, sem w I (update rho ev (fun _ _ => 1)) e c x = sem w I rho e c x) as Hc.
    { intros e' [Hh _]. apply (has_false_sem w I keys); [done|]. intros v Hv c x. unfold update. cbn in Hv.
      rewrite orb_false_r, bool_decide_eq_false in Hv. by rewrite decide_False. }
    assert (forall e, ev_atom e -> forall c x, sem w I rho e c x = lam * sem w I (update rho ev (fun _ _ => 1)) e c x) as Hat.
    { intros e' -> c x. cbn. unfold update. rewrite decide_True by done. rewrite Hev. lra. }
    expr_induction e; intros [Ha|Ha]; try (by apply Hat); intros c x; try done; cbn [sem].
    - destruct Ha as [Ha Hb]. rewrite IHa, IHb by done. lra.
    - rewrite IHa by done. lra.
    - destruct Ha as [[Ha Hb]|[Ha Hb]].
      + rewrite IHa by done. rewrite (Hc b) by done. lra.
      + rewrite IHb by done. rewrite (Hc a) by done. lra.
    - rewrite <- sum_list_scal. apply sum_list_ext. intros m _. destruct Ha as [[Ha Hb]|[Ha Hb]].
      + rewrite IHa by done. rewrite (Hc b) by done. lra.
      + rewrite IHb by done. rewrite (Hc a) by done. lra.
    - set (rho1 := update rho ev _) in *.
      assert (forall k l, sem w I rho a [k] x * sem w I rho b [l] x = lam * (sem w I rho1 a [k] x * sem w I rho1 b [l] x)) as E.
      { intros k l. destruct Ha as [[Ha Hb]|[Ha Hb]].
        + rewrite IHa by done. rewrite (Hc b) by done. lra.
        + rewrite IHb by done. rewrite (Hc a) by done. lra. }
      rewrite !E. destruct (right_handed I _), c as [|[|[|[|]]] []]; lra.
    - by rewrite IHa.
    - destruct Ha as [Hr Ha]. assert (opaque I L = None) as ->.
      { destruct (opaque I L) eqn:E; [|done]. destruct Hr. apply (opaque_rule w I HL). by rewrite E. }
      rewrite <- sum_list_scal. apply sum_list_ext. intros t _. rewrite IHa by done. lra.
  Qed.
  Lemma evp_matrices_denotes rho lam lhs m l : admissible I rho -> operand w lhs -> var_sig w ev = [] -> (forall c x, rho ev c x = lam) ->
    require_linearity keys true lhs = true -> evp_matrices w ev lhs = Some (m, l) ->
    (forall c x, length c = length (esig w lhs) -> sem w I rho lhs c x = lam * sem w I rho m c x + sem w I rho l c x)
    /\ free keys m /\ free keys l.
  Proof using HL.
    intros Hadm [Hn Hw] Hs Hev Hlin H. unfold evp_matrices in H.
    assert (Forall proper_key keys) as Hp by (by repeat constructor).
    destruct (split w keys lhs) as [[p n]|] eqn:Es; [|done]. cbn [mbind option_bind] in H.
    destruct (split_splits w I HL rho keys lhs p n Hadm Hn Hw Es) as (vp & vn & (Hfp & Hwp & Hvp) & (_ & _ & Hvn) & Hv).
    destruct (split_contents w keys ltac:(done) Hp lhs p n Es) as [_ Hfree].
    assert (part w keys keys ev_atom p) as Hpart.
    { eapply (split_part w keys keys); [done|done|done|done| |by apply linear_affine|exact Es]. by intros e ->. }
    destruct Hpart as [->|Hat].
    - unfold truthy in H. rewrite (proj2 (is_zero_spec _)) in H by done. cbn in H. injection H as <- <-. split_and!; [|done|done].
      intros c x Hc. rewrite Hv, <- Hvp, <- Hvn by done. cbn. lra.
    - assert (is_num p = false) as Np by (eapply (atomic_operand w keys keys ev_atom); [by intros e ->|exact Hat]).
      unfold truthy in H. rewrite operand_nonzero in H by done. cbn [negb] in H.
      destruct (replace_var w ev (Num 1) p) as [m'|] eqn:Em; [|done]. cbn in H. injection H as <- <-. split_and!; [|..].
      + intros c x Hc. rewrite Hv, <- Hvp, <- Hvn by done. f_equal.
        rewrite (atomic_scale rho lam p Hev Hat). f_equal.
        assert (denotes w I rho (esig w p) m' (sem w I (update rho ev (fun _ _ => 1)) p)) as (_ & _ & Hm).
        { apply (walk_denotes w I HL rho _ (fun y => if decide (y = ev) then Num 1 else Var y) p m' Hadm Np Hwp); [|exact Em].
          intros v Hv'. destruct (decide (v = ev)) as [->|Hne].
          - rewrite Hs. eapply denotes_ext; [apply denotes_num|]. intros. unfold update. by rewrite decide_True.
          - eapply denotes_ext; [by apply (denotes_self w I rho (Var v))|]. intros. unfold update. by rewrite decide_False. }
        rewrite Hm; [done|]. by rewrite (fits_operand w _ _ Np Hfp).
      + eapply walk_free; [|exact Em]. intros v _. cbn. destruct (decide (v = ev)); [done|]. unfold free. cbn. by rewrite bool_decide_false.
      + done.
  Qed.
End EVP.

(** ** Initial value problems *)
(** Every operator of class [T] is applied to an expression of the variables. *)
Fixpoint on_variables (T : cls -> bool) (keys : list key) (e : expr) : bool :=
  match e with
  | Num _ | Var _ | Cast _ _ => true
  | AddE a b | MulE a b | Dot _ _ a b | Cross a b => on_variables T keys a && on_variables T keys b
  | MulN _ a | Conv a | Pow a _ | Fun _ a => on_variables T keys a
  | Lin L a => (negb (T (CLin L)) || has keys a) && on_variables T keys a
  end.
Lemma on_variables_free T keys e : linear_class T -> on_variables T keys e = true -> has keys e = false -> has [KType T] e = false.
Proof.
  intros ((H1 & H2 & H3 & H4 & H5) & H6 & H7). expr_induction e; intros Ho Hh; try done; cbn [on_variables] in Ho; cbn [has] in Hh |- *;
    unfold class_in in *; cbn [class type_in existsb] in *; rewrite ?H1, ?H2, ?H3, ?H4, ?H5, ?H6, ?H7, ?orb_false_r in *; cbn [orb].
  all: repeat match goal with H : _ && _ = true |- _ => apply andb_prop in H as [? ?] | H : _ || _ = false |- _ => apply orb_false_iff in H as [? ?] end.
  all: rewrite ?IHa, ?IHb by done; try done.
  destruct (T (CLin L)); [|done]. cbn in *. congruence.
Qed.

Section IVP.
  Context (w : world) (I : interp) (HL : lawful w I) (T : cls -> bool) (HT : linear_class T) (vars : list nat).
  Context (Hclear : forall L, opaque I L = None).
  Context (Hrule : forall L, T (CLin L) = true -> rule w L = NoNewOperand /\ forall s, lin_sig w L s = s).
  Notation keys := [KType T].
  Notation keys' := (map KVar vars).
  Lemma var_in_vars v : var_in v keys' = true <-> In v vars.
  Proof using.
    clear. induction vars as [|u l IH]; [by split|]. cbn. rewrite orb_true_iff, IH, bool_decide_eq_true. split; intros [->|]; auto.
  Qed.
  Definition dt_atom (e : expr) : Prop :=
    match e with Lin L a => T (CLin L) = true /\ has keys a = false /\ require_linearity keys' false a = true | _ => False end.
  Lemma linear_dt e : require_linearity keys' false e = true -> require_first_order T e = true -> on_variables T keys' e = true ->
    affine keys keys' dt_atom e.
  Proof using HT.
    clear HL Hclear Hrule. pose proof HT as ((H1 & H2 & H3 & H4 & H5) & H6 & H7).
    expr_induction e; cbn [require_linearity require_first_order on_variables]; intros Hr Hf Ho; cbn [affine]; try done.
    - left. done.
    - apply andb_prop in Hr as [? ?], Hf as [? ?], Ho as [? ?]. right. auto.
    - destruct (has keys' a); [|done]. right. auto.
    - apply andb_prop in Hf as [? ?], Ho as [? ?].
      destruct (has keys' a) eqn:Ha, (has keys' b) eqn:Hb; cbn in Hr; try done; right.
      + left. split; [auto|]. split; [|done]. by eapply on_variables_free.
      + right. split; [|auto]. split; [|done]. by eapply on_variables_free.
    - apply andb_prop in Hf as [? ?], Ho as [? ?].
      destruct (has keys' a) eqn:Ha, (has keys' b) eqn:Hb; cbn in Hr; try done; right.
      + left. split; [auto|]. split; [|done]. by eapply on_variables_free.
      + right. split; [|auto]. split; [|done]. by eapply on_variables_free.
    - apply andb_prop in Hf as [? ?], Ho as [? ?].
      destruct (has keys' a) eqn:Ha, (has keys' b) eqn:Hb; cbn in Hr; try done; right.
      + left. split; [auto|]. split; [|done]. by eapply on_variables_free.
      + right. split; [|auto]. split; [|done]. by eapply on_variables_free.
    - rewrite H5 in Hf. right. auto.
    - apply andb_prop in Ho as [? ?]. unfold class_in. cbn [class type_in existsb]. rewrite orb_false_r.
      right. destruct (T (CLin L)) eqn:E.
      + left. split; [done|]. cbn. rewrite E. split_and!; [done| |done]. by apply negb_true_iff.
      + right. auto.
    - by destruct (has keys' (Pow a pw)).
    - by destruct (has keys' (Fun f a)).
  Qed.

  Context (state : R -> data I) (rate : data I) (t : R).
  Context (Hvars : forall v, In v vars -> forall c x, is_derive (fun t' => state t' v c x) t (rate v c x)).
  Context (Hothers : forall v, ~ In v vars -> forall c x, rate v c x = state t v c x /\ forall t', state t' v c x = state t v c x).
  Lemma coefficient_steady e : has keys' e = false -> forall c x, sem w I rate e c x = sem w I (state t) e c x /\ forall t', sem w I (state t') e c x = sem w I (state t) e c x.
  Proof using Hothers.
    intros Hh c x. split; [|intros t']; apply (has_false_sem w I keys'); try done; intros v Hv c' x';
      apply Hothers; intros Hi; apply var_in_vars in Hi; congruence.
  Qed.
  Lemma is_derive_sum {A} (l : list A) (f : A -> R -> R) (f' : A -> R) :
    (forall a, In a l -> is_derive (f a) t (f' a)) -> is_derive (fun t' => sum_list (map (fun a => f a t') l)) t (sum_list (map f' l)).
  Proof using.
    intros H. induction l as [|a l IH].
    - apply (is_derive_ext (fun _ => 0)); [done|]. apply is_derive_Reals, derivable_pt_lim_const.
    - unfold sum_list. cbn [map foldr]. apply (is_derive_plus (f a)); [apply H; by left|]. apply IH. intros b Hb. apply H. by right.
  Qed.
  Lemma linear_derive e : require_linearity keys' false e = true ->
    forall c x, is_derive (fun t' => sem w I (state t') e c x) t (sem w I rate e c x).
  Proof using Hvars Hothers Hclear.
    assert (forall k (f g : R -> R) f', (forall t', f t' = k * g t') -> is_derive g t f' -> is_derive f t (k * f')) as Hscal.
    { intros k f g f' Hf Hg. apply (is_derive_ext (fun t' => scal k (g t'))); [intros; by rewrite Hf|]. by apply (is_derive_scal g t k f'). }
    assert (forall a b c c' x, (has keys' b = false /\ (forall c x, is_derive (fun t' => sem w I (state t') a c x) t (sem w I rate a c x))) \/
                               (has keys' a = false /\ (forall c x, is_derive (fun t' => sem w I (state t') b c x) t (sem w I rate b c x))) ->
      is_derive (fun t' => sem w I (state t') a c x * sem w I (state t') b c' x) t (sem w I rate a c x * sem w I rate b c' x)) as Hprod.
    { intros a b c c' x [[Hb Ha]|[Ha Hb]].
      - destruct (coefficient_steady b Hb c' x) as [E1 E2]. rewrite E1, Rmult_comm. eapply Hscal; [|apply Ha]. intros t'. cbn. rewrite E2. lra.
      - destruct (coefficient_steady a Ha c x) as [E1 E2]. rewrite E1. eapply Hscal; [|apply Hb]. intros t'. cbn. by rewrite E2. }
    assert (forall a b, (if has keys' a && has keys' b then false else if has keys' a then require_linearity keys' false a else if has keys' b then require_linearity keys' false b else false) = true ->
      (has keys' b = false /\ require_linearity keys' false a = true) \/ (has keys' a = false /\ require_linearity keys' false b = true)) as Hcase.
    { intros a b. destruct (has keys' a), (has keys' b); cbn; auto; done. }
    expr_induction e; cbn [require_linearity]; intros Hr c x; try done; cbn [sem].
    - apply Hvars. by apply var_in_vars.
    - apply andb_prop in Hr as [? ?]. by apply (is_derive_plus (fun t' => sem w I (state t') a c x)); auto.
    - destruct (has keys' a); [|done]. eapply Hscal; [|by apply IHa]. done.
    - apply Hprod. destruct (Hcase _ _ Hr) as [[? ?]|[? ?]]; auto.
    - apply (is_derive_sum _ (fun m t' => sem w I (state t') a _ x * sem w I (state t') b _ x)). intros m _. apply Hprod. destruct (Hcase _ _ Hr) as [[? ?]|[? ?]]; auto.
    - assert (forall k l, is_derive (fun t' => sem w I (state t') a [k] x * sem w I (state t') b [l] x) t (sem w I rate a [k] x * sem w I rate b [l] x)) as E.
      { intros k l. apply Hprod. destruct (Hcase _ _ Hr) as [[? ?]|[? ?]]; auto. }
      assert (is_derive (fun _ => 0) t 0) as E0 by apply is_derive_Reals, derivable_pt_lim_const.
      destruct (right_handed I _), c as [|[|[|[|]]] []];
      repeat match goal with
      | |- is_derive (fun t' => - 0) _ _ => apply (is_derive_opp (fun _ => 0))
      | |- is_derive (fun t' => - (_ - _)) _ _ => apply (is_derive_opp (fun t' => _ - _))
      | |- is_derive (fun t' => _ * _ - _) _ _ => apply (is_derive_minus (fun t' => _ * _))
      end; auto.
    - by apply IHa.
    - rewrite Hclear. apply (is_derive_sum _ (fun u t' => u.1 * sem w I (state t') a u.2.1 u.2.2)). intros u _. eapply Hscal; [|by apply IHa]. done.
    - by destruct (has keys' (Pow a pw)).
    - by destruct (has keys' (Fun f a)).
  Qed.

  Definition dt (a : expr) (c : list nat) (x : point I) : R := Derive (fun t' => sem w I (state t') a c x) t.
  Lemma atomic_rate e : atomic w keys keys' dt_atom e ->
    forall c x, sem w (with_operator I T dt) (state t) e c x = sem w (with_operator I T (sem w I rate)) rate e c x.
  Proof using HT Hvars Hothers Hclear Hrule.
    assert (forall e, coefficient keys keys' e -> forall c x, sem w (with_operator I T dt) (state t) e c x = sem w (with_operator I T (sem w I rate)) rate e c x) as Hc.
    { intros e' [H1 H2] c x. assert (~ uses T e') as Hu by (rewrite <- has_type_uses; by rewrite H1).
      rewrite !sem_with_operator by done. symmetry. by apply coefficient_steady. }
    assert (forall e, dt_atom e -> forall c x, sem w (with_operator I T dt) (state t) e c x = sem w (with_operator I T (sem w I rate)) rate e c x) as Hat.
    { intros e' He c x. destruct e' as [| | | | | | | | |L a| |]; try done. destruct He as (H1 & H2 & H3). cbn [sem].
      unfold with_operator. cbn [opaque]. rewrite H1. unfold dt. apply is_derive_unique. by apply linear_derive. }
    expr_induction e; intros [Ha|Ha]; try (by apply Hat); intros c x; try done; cbn [sem].
    - destruct Ha as [Ha Hb]. rewrite IHa, IHb by done. done.
    - rewrite IHa by done. done.
    - destruct Ha as [[Ha Hb]|[Ha Hb]].
      + rewrite IHa by done. rewrite (Hc b) by done. done.
      + rewrite IHb by done. rewrite (Hc a) by done. done.
    - apply sum_list_ext. intros m _. destruct Ha as [[Ha Hb]|[Ha Hb]].
      + rewrite IHa by done. rewrite (Hc b) by done. done.
      + rewrite IHb by done. rewrite (Hc a) by done. done.
    - assert (forall k l, sem w (with_operator I T dt) (state t) a [k] x * sem w (with_operator I T dt) (state t) b [l] x
        = sem w (with_operator I T (sem w I rate)) rate a [k] x * sem w (with_operator I T (sem w I rate)) rate b [l] x) as E.
      { intros k l. destruct Ha as [[Ha Hb]|[Ha Hb]].
        + rewrite IHa by done. rewrite (Hc b) by done. done.
        + rewrite IHb by done. rewrite (Hc a) by done. done. }
      rewrite !E. done.
    - by rewrite IHa.
    - destruct Ha as [Hr Ha]. assert (forall G, opaque (with_operator I T G) L = None) as EG.
      { intros G. cbn. destruct (T (CLin L)) eqn:E; [by destruct (Hrule L E)|]. apply Hclear. }
      rewrite !EG. apply sum_list_ext. intros u _. by rewrite IHa.
  Qed.
  Lemma ivp_matrices_denotes lhs m l : vars <> [] -> lawful w (with_operator I T dt) -> admissible I (state t) -> admissible I rate ->
    operand w lhs -> require_linearity keys' false lhs = true -> require_first_order T lhs = true -> on_variables T keys' lhs = true ->
    ivp_matrices w T lhs = Some (m, l) ->
    (forall c x, length c = length (esig w lhs) -> sem w (with_operator I T dt) (state t) lhs c x = sem w I rate m c x + sem w I (state t) l c x).
  Proof using HL HT Hvars Hothers Hclear Hrule.
    intros Hne HLt Hadm Hadm' [Hn Hw] Hlin Hfo Hon H. unfold ivp_matrices in H.
    assert (Forall proper_key keys) as Hp by (repeat constructor; apply HT).
    assert (Forall proper_key keys') as Hp' by (apply Forall_forall; intros k Hk%elem_of_list_In%in_map_iff; destruct Hk as (? & <- & _); done).
    destruct (split w keys lhs) as [[p n]|] eqn:Es; [|done]. cbn [mbind option_bind] in H.
    destruct (split_splits w _ HLt (state t) keys lhs p n Hadm Hn Hw Es) as (vp & vn & (Hfp & Hwp & Hvp) & (_ & _ & Hvn) & Hv).
    destruct (split_contents w keys ltac:(done) Hp lhs p n Es) as [_ Hfree].
    assert (forall c x, sem w (with_operator I T dt) (state t) n c x = sem w I (state t) n c x) as En.
    { intros c x. apply sem_with_operator. rewrite <- has_type_uses. by rewrite Hfree. }
    assert (part w keys keys' dt_atom p) as Hpart.
    { eapply (split_part w keys keys'); [done|done|by destruct vars|done| |by apply linear_dt|exact Es]. by intros []. }
    destruct Hpart as [->|Hat].
    - unfold truthy in H. rewrite (proj2 (is_zero_spec _)) in H by done. cbn in H. injection H as <- <-.
      intros c x Hc. rewrite Hv, <- Hvp, <- Hvn, En by done. cbn. lra.
    - assert (is_num p = false) as Np by (eapply (atomic_operand w keys keys' dt_atom); [by intros []|exact Hat]).
      unfold truthy in H. rewrite operand_nonzero in H by done. cbn [negb] in H.
      destruct (replace_type w T _ p) as [m'|] eqn:Em; [|done]. cbn in H. injection H as <- <-.
      intros c x Hc. rewrite Hv, <- Hvp, <- Hvn, En by done. f_equal.
      rewrite (atomic_rate p Hat).
      assert (denotes w I rate (esig w p) m' (sem w (with_operator I T (sem w I rate)) rate p)) as (_ & _ & Hm).
      { eapply (replace_type_denotes w I HL T HT _ rate Hadm' (sem w I rate)); [|by split|exact Em].
        intros L a a' r HTL _ Hd [= <-]. by rewrite (proj2 (Hrule L HTL)). }
      rewrite Hm; [done|]. by rewrite (fits_operand w _ _ Np Hfp).
  Qed.
End IVP.
