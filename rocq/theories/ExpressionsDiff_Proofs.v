(** Symbolic derivatives. *)
From Coq Require Import Reals Lra.
From Coquelicot Require Import Coquelicot.
From stdpp Require Import numbers list.
From Verif Require Import Expressions_Model Expressions_Spec Expressions_Proofs ExpressionsSplit_Proofs ExpressionsLinear_Proofs Ufuncs_Proofs.
Local Open Scope R_scope.

Section Diff.
  Context (w : world) (I : interp) (HL : lawful w I).
  Notation sem := (sem w I).
  Notation denotes := (denotes w I).
  Notation well_formed := (well_formed w).
  Notation vmul := (vmul I). Notation vdot := (vdot w I). Notation vcross := (vcross I). Notation vlin := (vlin I).

  (** ** The derivative in a direction *)
  Fixpoint dsem (rho h : data I) (e : expr) (c : list nat) (x : point I) : R :=
    match e with
    | Num _ | Cast _ _ => 0
    | Var v => h v c x
    | AddE a b => dsem rho h a c x + dsem rho h b c x
    | MulN q a => q * dsem rho h a c x
    | MulE a b => vmul (esig w a) (dsem rho h a) (sem rho b) c x + vmul (esig w a) (sem rho a) (dsem rho h b) c x
    | Dot i j a b => vdot (esig w a) i j (dsem rho h a) (sem rho b) c x + vdot (esig w a) i j (sem rho a) (dsem rho h b) c x
    | Cross a b => let cs := nth 0 (esig w a) 0%nat in vcross cs (dsem rho h a) (sem rho b) c x + vcross cs (sem rho a) (dsem rho h b) c x
    | Conv a => dsem rho h a c x
    | Lin L a => vlin L (esig w a) (dsem rho h a) c x
    | Pow a p => p * pow_val (sem rho a c x) (p - 1) * dsem rho h a c x
    | Fun f a => Derive (fun_val f) (sem rho a c x) * dsem rho h a c x
    end.

  Lemma vcross_plus cs ua va ub vb c x : (forall k l, ua [k] x * va [l] x = ub [k] x * vb [l] x) -> vcross cs ua va c x = vcross cs ub vb c x.
  Proof using. clear HL. intros H. unfold vcross, Expressions_Proofs.vcross. by rewrite !H. Qed.

  Lemma dsem_linear rho h1 h2 h a1 a2 e : (forall v c x, h v c x = a1 * h1 v c x + a2 * h2 v c x) ->
    forall c x, dsem rho h e c x = a1 * dsem rho h1 e c x + a2 * dsem rho h2 e c x.
  Proof using.
    clear HL. intros Hh. expr_induction e; intros c x; cbn [dsem]; rewrite ?IHa, ?IHb; try lra.
    - apply Hh.
    - unfold vmul. rewrite IHa, IHb. lra.
    - unfold vdot. rewrite !Rmult_plus_distr_l, <- !sum_list_scal.
      rewrite (sum_list_ext _ (fun m => a1 * (dsem rho h1 a (insert_index i m (take (length (esig w a) - 1) c)) x * sem rho b (insert_index j m (drop (length (esig w a) - 1) c)) x)
         + a2 * (dsem rho h2 a (insert_index i m (take (length (esig w a) - 1) c)) x * sem rho b (insert_index j m (drop (length (esig w a) - 1) c)) x)))
        by (intros; rewrite IHa; lra).
      rewrite (sum_list_ext (fun m => _ * dsem rho h b _ x) (fun m => a1 * (sem rho a (insert_index i m (take (length (esig w a) - 1) c)) x * dsem rho h1 b (insert_index j m (drop (length (esig w a) - 1) c)) x)
         + a2 * (sem rho a (insert_index i m (take (length (esig w a) - 1) c)) x * dsem rho h2 b (insert_index j m (drop (length (esig w a) - 1) c)) x)))
        by (intros; rewrite IHb; lra).
      rewrite !sum_list_plus. lra.
    - unfold vcross, Expressions_Proofs.vcross. rewrite !IHa, !IHb. destruct (right_handed I _), c as [|[|[|[|]]] []]; lra.
    - unfold vlin. rewrite <- !sum_list_scal, <- sum_list_plus. apply sum_list_ext. intros t _. rewrite IHa. lra.
  Qed.

  Lemma fun_ex_derive f x : fun_dom f x -> ex_derive (fun_val f) x.
  Proof using.
    clear HL. intros Hd. destruct (derivative f) as [t|] eqn:E.
    - eexists. by apply (derivative_table f t).
    - destruct f; try done. exists 1. apply (is_derive_ext (fun y => y)); [done|]. apply is_derive_Reals, derivable_pt_lim_id.
  Qed.
  Lemma is_derive_prod (f g : R -> R) t f' g' : is_derive f t f' -> is_derive g t g' -> is_derive (fun t => f t * g t) t (f' * g t + f t * g').
  Proof using. clear HL. intros Hf Hg. apply (is_derive_mult f g t f' g' Hf Hg). intros. apply Rmult_comm. Qed.

  (** It is the derivative along any curve through the data with that velocity. *)
  Lemma dsem_derive (path : R -> data I) t (rho h : data I) e :
    (forall v c x, path t v c x = rho v c x) -> (forall v c x, is_derive (fun t => path t v c x) t (h v c x)) ->
    well_formed e -> transparent I e -> regular w I rho e ->
    forall c x, length c = length (esig w e) -> is_derive (fun t => sem (path t) e c x) t (dsem rho h e c x).
  Proof using HL.
    intros Hp Hd. assert (forall e c x, sem (path t) e c x = sem rho e c x) as Hsem.
    { intros. apply sem_agree. intros. apply Hp. }
    expr_induction e; intros Hw Ht Hr c x Hc; cbn [Expressions_Spec.sem dsem].
    - apply is_derive_Reals, derivable_pt_lim_const.
    - apply Hd.
    - apply is_derive_Reals, derivable_pt_lim_const.
    - destruct Hw as (_ & _ & Wa & Wb & Hs), Ht, Hr. apply (is_derive_plus (fun t => sem (path t) a c x)); [by apply IHa|]. apply IHb; try done. by rewrite <- Hs.
    - destruct Hw as (_ & Wa). apply (is_derive_scal (fun t => sem (path t) a c x)). by apply IHa.
    - destruct Hw as (_ & _ & Wa & Wb), Ht, Hr. unfold vmul. cbn [esig] in Hc. rewrite app_length in Hc. rewrite <- !Hsem.
      apply is_derive_prod; [apply IHa|apply IHb]; try done; [rewrite take_length|rewrite drop_length]; lia.
    - destruct Hw as (_ & _ & Wa & Wb & Hi & Hj), Ht, Hr. unfold vdot. cbn [esig] in Hc. rewrite app_length, !delete_length in Hc by done.
      rewrite <- sum_list_plus.
      apply (is_derive_sum t _ (fun m t => sem (path t) a _ x * sem (path t) b _ x)). intros m _. rewrite <- !Hsem.
      apply is_derive_prod; [apply IHa|apply IHb]; try done; apply insert_index_length; try done; [rewrite take_length|rewrite drop_length]; lia.
    - destruct Hw as (_ & _ & Wa & Wb & cs & Sa & Sb & Hdim), Ht as [Ta Tb], Hr as [Ra Rb]. rewrite Sa, Sb in *. cbn [nth].
      assert (forall k l, is_derive (fun t' => sem (path t') a [k] x * sem (path t') b [l] x) t (dsem rho h a [k] x * sem rho b [l] x + sem rho a [k] x * dsem rho h b [l] x)) as E.
      { intros k l. rewrite <- !Hsem. apply is_derive_prod; [apply IHa|apply IHb]; done. }
      assert (forall k l k' l', is_derive (fun t' => sem (path t') a [k] x * sem (path t') b [l] x - sem (path t') a [k'] x * sem (path t') b [l'] x) t
        ((dsem rho h a [k] x * sem rho b [l] x + sem rho a [k] x * dsem rho h b [l] x) - (dsem rho h a [k'] x * sem rho b [l'] x + sem rho a [k'] x * dsem rho h b [l'] x))) as E2.
      { intros. apply (is_derive_minus (fun t' => _ * _)); apply E. }
      assert (forall k l k' l', is_derive (fun t' => - (sem (path t') a [k] x * sem (path t') b [l] x - sem (path t') a [k'] x * sem (path t') b [l'] x)) t
        (- ((dsem rho h a [k] x * sem rho b [l] x + sem rho a [k] x * dsem rho h b [l] x) - (dsem rho h a [k'] x * sem rho b [l'] x + sem rho a [k'] x * dsem rho h b [l'] x)))) as E3.
      { intros. apply (is_derive_opp (fun t' => _ - _)); apply E2. }
      assert (is_derive (fun _ => 0) t 0) as E0 by apply is_derive_Reals, derivable_pt_lim_const.
      assert (is_derive (fun _ => - 0) t 0) as E0' by apply is_derive_Reals, derivable_pt_lim_const.
      clear - E2 E3 E0 E0'.
      unfold vcross, Expressions_Proofs.vcross. destruct (right_handed I cs), c as [|[|[|[|]]] []];
        match goal with |- is_derive ?f _ _ =>
          lazymatch f with
          | (fun _ => Ropp (IZR _)) => refine (is_derive_value _ _ _ _ E0' _); lra
          | (fun _ => IZR _) => refine (is_derive_value _ _ _ _ E0 _); lra
          | (fun t => Rminus (Rmult (sem _ _ [?k] _) (sem _ _ [?l] _)) (Rmult (sem _ _ [?k'] _) (sem _ _ [?l'] _))) => refine (is_derive_value _ _ _ _ (E2 k l k' l') _); lra
          | (fun t => Ropp (Rminus (Rmult (sem _ _ [?k] _) (sem _ _ [?l] _)) (Rmult (sem _ _ [?k'] _) (sem _ _ [?l'] _)))) => refine (is_derive_value _ _ _ _ (E3 k l k' l') _); lra
          end
        end.
    - destruct Hw as (_ & Wa). by apply IHa.
    - destruct Hw as (_ & Wa), Ht as [Ho Ta]. rewrite Ho. unfold vlin.
      apply (is_derive_sum t _ (fun u t => u.1 * sem (path t) a u.2.1 u.2.2)). intros (q & c' & y) Hin. cbn.
      apply (is_derive_scal (fun t => sem (path t) a c' y)). apply IHa; try done. by eapply (terms_rank w I HL L (esig w a) c x q c' y).
    - destruct Hw as (_ & Wa), Hr as (Ra & Sa & Hdom). cbn [esig] in Hc. rewrite Sa in *. destruct c; [|done].
      rewrite <- Hsem. eapply is_derive_value; [apply (is_derive_comp (fun y => pow_val y pw) (fun t => sem (path t) a [] x)); [|by apply IHa]|].
      + apply is_derive_pow_val. rewrite Hsem. apply Hdom.
      + unfold scal. cbn. unfold mult. cbn. lra.
    - destruct Hw as (_ & Wa), Hr as (Ra & Sa & Hdom). cbn [esig] in Hc. rewrite Sa in *. destruct c; [|done].
      rewrite <- Hsem. eapply is_derive_value; [apply (is_derive_comp (fun_val f) (fun t => sem (path t) a [] x)); [|by apply IHa]|].
      + apply Derive_correct, fun_ex_derive. rewrite Hsem. apply Hdom.
      + unfold scal. cbn. unfold mult. cbn. lra.
  Qed.

  (** ** [sym_diff] *)
  Lemma apply_body_denotes rho t a va d : denotes rho [] a va -> apply_body w t a = Some d -> denotes rho [] d (fun c x => body_val t (va c x)).
  Proof using.
    clear HL. intros Ha. revert d. induction t as [|q|t1 IH1 t2 IH2|t1 IH1 t2 IH2|t1 IH1 t2 IH2|t1 IH1|t1 IH1 p|f t1 IH1]; intros d Hd; cbn [apply_body] in Hd; cbn [body_val].
    - by injection Hd as <-.
    - injection Hd as <-. apply denotes_num.
    - destruct (apply_body w t1 a); [|done]. destruct (apply_body w t2 a); [|done]. eapply py_add_denotes; eauto.
    - destruct (apply_body w t1 a); [|done]. destruct (apply_body w t2 a); [|done]. eapply py_sub_denotes; eauto.
    - destruct (apply_body w t1 a); [|done]. destruct (apply_body w t2 a); [|done].
      refine (denotes_ext w I rho [] d _ _ (py_mul_denotes w I rho [] [] _ _ _ _ d (IH1 _ eq_refl) (IH2 _ eq_refl) Hd) _).
      intros [] x Hc; done.
    - destruct (apply_body w t1 a); [|done]. eapply py_neg_denotes; eauto.
    - destruct (apply_body w t1 a); [|done]. eapply py_pow_denotes; eauto.
    - destruct (apply_body w t1 a); [|done]. eapply ufun_denotes; eauto.
  Qed.
  Definition unit_direction (eps : nat) : data I := fun v _ _ => if decide (v = eps) then 1 else 0.
  Lemma sym_diff_denotes rho eps e d : admissible I rho -> var_sig w eps = [] -> is_num e = false -> well_formed e -> regular w I rho e -> sym_diff w eps e = Some d ->
    denotes rho (esig w e) d (dsem rho (unit_direction eps) e).
  Proof using HL.
    intros Hadm Hs. revert d. expr_induction e; intros d Hn Hw Hr Hd; try done; cbn [sym_diff] in Hd; cbn [dsem esig].
    - injection Hd as <-. unfold unit_direction. destruct (decide (v = eps)) as [->|]; [rewrite Hs; apply denotes_num|apply denotes_zero].
    - injection Hd as <-. apply denotes_zero.
    - destruct Hw as (Na & Nb & Wa & Wb & Hss), Hr. destruct (sym_diff w eps a); [|done]. destruct (sym_diff w eps b); [|done].
      eapply py_sum2_denotes; [by apply IHa|rewrite Hss; by apply IHb|done].
    - destruct Hw as (Na & Wa). destruct (sym_diff w eps a); [|done].
      eapply denotes_ext; [eapply (py_mul_denotes w I rho [] (esig w a)); [apply denotes_num|by apply IHa|done]|]. done.
    - destruct Hw as (Na & Nb & Wa & Wb), Hr. destruct (sym_diff w eps a) as [da|]; [|done]. destruct (sym_diff w eps b) as [db|]; [|done].
      cbn [mbind option_bind] in Hd. destruct (mul da b) eqn:E1; [|done]. destruct (mul a db) eqn:E2; [|done].
      eapply py_sum2_denotes; [| |done].
      + eapply mul_denotes; [by apply IHa|by apply denotes_self|done].
      + eapply mul_denotes; [by apply denotes_self|by apply IHb|done].
    - destruct Hw as (Na & Nb & Wa & Wb & Hi & Hj), Hr. destruct (sym_diff w eps a) as [da|]; [|done]. destruct (sym_diff w eps b) as [db|]; [|done].
      cbn [mbind option_bind] in Hd. destruct (dot w i j da b) eqn:E1; [|done]. destruct (dot w i j a db) eqn:E2; [|done].
      eapply py_sum2_denotes; [| |done].
      + eapply dot_denotes; [by apply IHa|by apply denotes_self|done..].
      + eapply dot_denotes; [by apply denotes_self|by apply IHb|done..].
    - destruct Hw as (Na & Nb & Wa & Wb & cs & Sa & Sb & Hdim), Hr. destruct (sym_diff w eps a) as [da|]; [|done]. destruct (sym_diff w eps b) as [db|]; [|done].
      cbn [mbind option_bind] in Hd. destruct (cross w da b) eqn:E1; [|done]. destruct (cross w a db) eqn:E2; [|done].
      assert (denotes rho [cs] da (dsem rho (unit_direction eps) a)) as Ha by (rewrite <- Sa; by apply IHa).
      assert (denotes rho [cs] db (dsem rho (unit_direction eps) b)) as Hb by (rewrite <- Sb; by apply IHb).
      rewrite Sa. cbn [nth].
      eapply py_sum2_denotes; [| |done].
      + eapply cross_denotes; [done|rewrite <- Sb; by apply denotes_self|done..].
      + eapply cross_denotes; [rewrite <- Sa; by apply denotes_self|done..].
    - destruct Hw as (Na & Wa). by apply IHa.
    - destruct Hw as (Na & Wa). destruct (sym_diff w eps a) as [da|]; [|done]. cbn in Hd.
      exact (proj1 (lin_denotes w I HL rho L _ da _ d Hadm (IHa da Na Wa Hr eq_refl) Hd)).
    - destruct Hw as (Na & Wa), Hr as (Ra & Sa & Hdom). destruct (py_pow a (pw - 1)) as [b|] eqn:Eb; [|done]. cbn [mbind option_bind] in Hd.
      destruct (py_mul (Num pw) b) as [c|] eqn:Ec; [|done]. cbn [mbind option_bind] in Hd. destruct (sym_diff w eps a) as [da|]; [|done]. cbn [mbind option_bind] in Hd.
      rewrite Sa in *. eapply denotes_ext.
      + eapply (py_mul_denotes w I rho [] []); [|by apply IHa|done].
        eapply (py_mul_denotes w I rho [] []); [apply denotes_num| |done].
        eapply (py_pow_denotes w I rho []); [|done|done]. rewrite <- Sa. by apply denotes_self.
      + intros [] x Hc; done.
    - destruct Hw as (Na & Wa), Hr as (Ra & Sa & Hdom). destruct (derivative f) as [t|] eqn:Et; [|done]. cbn [mbind option_bind] in Hd.
      destruct (apply_body w t a) as [b|] eqn:Eb; [|done]. cbn [mbind option_bind] in Hd. destruct (sym_diff w eps a) as [da|]; [|done]. cbn [mbind option_bind] in Hd.
      rewrite Sa in *. eapply denotes_ext.
      + eapply (py_mul_denotes w I rho [] []); [|by apply IHa|done].
        eapply apply_body_denotes; [|done]. rewrite <- Sa. by apply denotes_self.
      + intros [] x Hc; [|done]. unfold vmul. cbn. f_equal. symmetry. apply is_derive_unique. by apply derivative_table.
  Qed.

  (** ** Substitution keeps functions and powers in their domains *)
  Notation regular := (regular w I).
  Lemma convert_regular rho n e : regular rho e -> regular rho (convert n e).
  Proof using. clear HL. revert e; induction n; [done|]. intros e He. cbn. auto. Qed.
  Lemma cast_regular rho s e e' : regular rho e -> cast w s e = Some e' -> regular rho e'.
  Proof using. clear HL. intros He Hc. destruct e; cbn in Hc; try (by injection Hc as <-); destruct (decide _); try done; by injection Hc as <-. Qed.
  Lemma add_regular rho a b e : regular rho a -> regular rho b -> add w a b = Some e -> regular rho e.
  Proof using.
    clear HL. intros Ha Hb He. destruct (add_cases w a b e He) as [(-> & ->)|[(-> & ->)|[(p & q & -> & -> & ->)|(s & a' & b' & n & m & Ca & Cb & _ & _ & _ & ->)]]]; try done.
    split; apply convert_regular; [exact (cast_regular rho s a a' Ha Ca)|exact (cast_regular rho s b b' Hb Cb)].
  Qed.
  Lemma mul_regular rho a b e : regular rho a -> regular rho b -> mul a b = Some e -> regular rho e.
  Proof using.
    clear HL. intros Ha Hb He. destruct (mul_cases a b e He) as [(-> & -> & ->)|[(-> & ->)|[(-> & ->)|[([-> | ->] & ->)|[(q & Nb & -> & Hq & ->)|[(q & Na & -> & Hq & ->)|[(p & q & -> & -> & Hp & Hq & ->)|(Na & Nb & ->)]]]]]]]; done.
  Qed.
  Lemma dot_regular rho i j a b e : regular rho a -> regular rho b -> dot w i j a b = Some e -> regular rho e.
  Proof using.
    clear HL. intros Ha Hb. unfold dot. destruct (is_zero a || is_zero b); [by intros [= <-]|]. destruct (is_num a || is_num b); [done|].
    destruct (decide _); [|done]. by intros [= <-].
  Qed.
  Lemma cross_regular rho a b e : regular rho a -> regular rho b -> cross w a b = Some e -> regular rho e.
  Proof using.
    clear HL. intros Ha Hb. unfold cross. destruct (is_zero a || is_zero b); [by intros [= <-]|]. destruct (is_num a || is_num b); [done|].
    destruct (esig w a) as [|cs []]; try done. destruct (esig w b) as [|cs' []]; try done. destruct (decide _); [|done]. by intros [= <-].
  Qed.
  Lemma walk_regular rho rho' onvar e e' : admissible I rho -> is_num e = false -> well_formed e ->
    (forall v, mentions v e -> denotes rho (var_sig w v) (onvar v) (rho' v)) -> (forall v, mentions v e -> regular rho (onvar v)) ->
    regular rho' e -> walk w onvar e = Some e' -> regular rho e'.
  Proof using HL.
    intros Hadm. revert e'. expr_induction e; intros e' Hn Hw Hv Hrv Hr Hwalk; try done; cbn [mentions] in Hv, Hrv.
    - injection Hwalk as <-. by apply Hrv.
    - by injection Hwalk as <-.
    - destruct Hw as (Na & Nb & Wa & Wb & _), Hr. cbn in Hwalk. destruct (walk w onvar a) as [a'|] eqn:Ea; [|done]. destruct (walk w onvar b) as [b'|] eqn:Eb; [|done].
      eapply (add_regular rho a' b'); [apply IHa; try done; intros v0 Hv0; [apply Hv|apply Hrv]; by left|apply IHb; try done; intros v0 Hv0; [apply Hv|apply Hrv]; by right|done].
    - destruct Hw as (Na & Wa). cbn in Hwalk. destruct (walk w onvar a) as [a'|] eqn:Ea; [|done]. eapply (mul_regular rho (Num q) a'); [done|by apply IHa|done].
    - destruct Hw as (Na & Nb & Wa & Wb), Hr. cbn in Hwalk. destruct (walk w onvar a) as [a'|] eqn:Ea; [|done]. destruct (walk w onvar b) as [b'|] eqn:Eb; [|done].
      eapply (mul_regular rho a' b'); [apply IHa; try done; intros v0 Hv0; [apply Hv|apply Hrv]; by left|apply IHb; try done; intros v0 Hv0; [apply Hv|apply Hrv]; by right|done].
    - destruct Hw as (Na & Nb & Wa & Wb & _), Hr. cbn in Hwalk. destruct (walk w onvar a) as [a'|] eqn:Ea; [|done]. destruct (walk w onvar b) as [b'|] eqn:Eb; [|done].
      eapply (dot_regular rho i j a' b'); [apply IHa; try done; intros v0 Hv0; [apply Hv|apply Hrv]; by left|apply IHb; try done; intros v0 Hv0; [apply Hv|apply Hrv]; by right|done].
    - destruct Hw as (Na & Nb & Wa & Wb & _), Hr. cbn in Hwalk. destruct (walk w onvar a) as [a'|] eqn:Ea; [|done]. destruct (walk w onvar b) as [b'|] eqn:Eb; [|done].
      eapply (cross_regular rho a' b'); [apply IHa; try done; intros v0 Hv0; [apply Hv|apply Hrv]; by left|apply IHb; try done; intros v0 Hv0; [apply Hv|apply Hrv]; by right|done].
    - destruct Hw as (Na & Wa). by apply IHa.
    - destruct Hw as (Na & Wa). cbn in Hwalk. destruct (walk w onvar a) as [a'|] eqn:Ea; [|done]. cbn in Hwalk.
      destruct (lin_cases w L a' e' Hwalk) as [(q & -> & [-> | ->])|(N & [-> | ->])]; try done. cbn. by apply IHa.
    - destruct Hw as (Na & Wa), Hr as (Ra & Sa & Hd). cbn in Hwalk. destruct (walk w onvar a) as [a'|] eqn:Ea; [|done]. cbn in Hwalk.
      unfold power in Hwalk. destruct (is_num a') eqn:N'; [done|]. injection Hwalk as <-.
      destruct (walk_denotes w I HL rho rho' onvar a a' Hadm Na Wa Hv Ea) as (Hf & _ & Hval). rewrite Sa in *. apply fits_operand in Hf; [|done].
      split_and!; [by apply IHa|done|]. intros x. rewrite Hval by done. apply Hd.
    - destruct Hw as (Na & Wa), Hr as (Ra & Sa & Hd). cbn in Hwalk. destruct (walk w onvar a) as [a'|] eqn:Ea; [|done]. cbn in Hwalk.
      unfold ufun in Hwalk. destruct (is_num a') eqn:N'; [done|]. injection Hwalk as <-.
      destruct (walk_denotes w I HL rho rho' onvar a a' Hadm Na Wa Hv Ea) as (Hf & _ & Hval). rewrite Sa in *. apply fits_operand in Hf; [|done].
      split_and!; [by apply IHa|done|]. intros x. rewrite Hval by done. apply Hd.
  Qed.
  Lemma walk_transparent onvar e e' : walk w onvar e = Some e' -> transparent I e.
  Proof using HL.
    revert e'. expr_induction e; intros e' Hwalk; try done; cbn [walk] in Hwalk; cbn [transparent].
    all: try (destruct (walk w onvar a) as [a'|]; [|discriminate Hwalk]).
    all: try (destruct (walk w onvar b) as [b'|]; [|discriminate Hwalk]).
    all: eauto.
    split; [|eauto]. destruct (opaque I L) eqn:E; [|done]. assert (rule w L = NoNewOperand) as Hr by (apply (opaque_rule w I HL); by rewrite E).
    cbn in Hwalk. unfold lin in Hwalk. rewrite Hr in Hwalk. by destruct a'.
  Qed.
  Lemma sym_diff_transparent eps e d : sym_diff w eps e = Some d -> transparent I e.
  Proof using HL.
    revert d. expr_induction e; intros d Hd; try done; cbn [sym_diff] in Hd.
    1-7: cbn [transparent]; (destruct (sym_diff w eps a) as [da|]; [|discriminate Hd]); try (destruct (sym_diff w eps b) as [db|]; [|discriminate Hd]); eauto.
    - cbn in Hd. split; [|eauto].
      destruct (opaque I L) eqn:E; [|done]. assert (rule w L = NoNewOperand) as Hr by (apply (opaque_rule w I HL); by rewrite E).
      unfold lin in Hd. rewrite Hr in Hd. by destruct da.
    - destruct (py_pow a (pw - 1)); [|done]. cbn [mbind option_bind] in Hd. destruct (py_mul (Num pw) e); [|done]. cbn [mbind option_bind] in Hd.
      destruct (sym_diff w eps a); [|done]. cbn; eauto.
    - destruct (derivative f); [|done]. cbn [mbind option_bind] in Hd. destruct (apply_body w b a); [|done]. cbn [mbind option_bind] in Hd.
      destruct (sym_diff w eps a); [|done]. cbn; eauto.
  Qed.
End Diff.

(** ** The Frechet differential *)
Lemma regular_agree w I rho rho' e : (forall v, mentions v e -> forall c x, rho v c x = rho' v c x) -> regular w I rho e -> regular w I rho' e.
Proof.
  expr_induction e; intros Hv Hr; try done; cbn [mentions] in Hv; cbn [regular] in *.
  1,3-5: destruct Hr; split; [apply IHa|apply IHb]; auto.
  1-3: by apply IHa.
  all: destruct Hr as (Ra & Sa & Hd); split_and!; [by apply IHa|done|]; intros x; rewrite <- (sem_agree w I rho rho' a Hv); apply Hd.
Qed.
Lemma dsem_agree w I rho rho' h e : (forall v, mentions v e -> forall c x, rho v c x = rho' v c x) -> forall c x, dsem w I rho h e c x = dsem w I rho' h e c x.
Proof.
  assert (Hs : forall a, (forall v, mentions v a -> forall c x, rho v c x = rho' v c x) -> forall c x, sem w I rho a c x = sem w I rho' a c x) by (intros a; apply sem_agree).
  induction e as [q|v|q s|a IHa b IHb|q a IHa|a IHa b IHb|i j a IHa b IHb|a IHa b IHb|a IHa|L a IHa|a IHa p|f a IHa]; intros H c x; cbn in *; auto.
  - rewrite IHa, IHb by auto. done.
  - rewrite IHa by auto. done.
  - unfold vmul. rewrite IHa, IHb, !Hs by auto. done.
  - f_equal; apply sum_list_ext; intros m _; rewrite ?IHa, ?IHb, !Hs by auto; done.
  - unfold vcross. destruct (right_handed I _), c as [|[|[|[|]]] []]; rewrite ?IHa, ?IHb, ?Hs by auto; rewrite ?(Hs a), ?(Hs b), ?IHa, ?IHb by auto; done.
  - unfold vlin. apply sum_list_ext. intros m _. by rewrite IHa by auto.
  - by rewrite IHa, Hs by auto.
  - by rewrite IHa, Hs by auto.
Qed.
Lemma direction_other {P} vars perts (rho : nat -> list nat -> P -> R) v c x : ~ In v vars -> direction vars perts rho v c x = 0.
Proof. revert perts; induction vars as [|u vars IH]; intros perts Hv; [done|]. destruct perts; [done|]. cbn. rewrite decide_False by (intros ->; apply Hv; by left). apply IH. intros ?; apply Hv; by right. Qed.
Lemma direction_agree {P} vars perts (rho rho' : nat -> list nat -> P -> R) v c x : (forall d, In d perts -> forall c x, rho d c x = rho' d c x) -> direction vars perts rho v c x = direction vars perts rho' v c x.
Proof.
  revert perts; induction vars as [|u vars IH]; intros perts Hd; [done|]. destruct perts as [|d perts]; [done|]. cbn. destruct (decide _); [apply Hd; by left|].
  apply IH. intros; apply Hd; by right.
Qed.

Fixpoint moved {P} (t : R) (vars perts : list nat) (rho : nat -> list nat -> P -> R) : nat -> list nat -> P -> R :=
  match vars, perts with
  | v :: vars, d :: perts => let r := moved t vars perts rho in update r v (fun c x => r v c x + t * r d c x)
  | _, _ => rho
  end.
Lemma moved_other {P} t vars perts (rho : nat -> list nat -> P -> R) v : ~ In v vars -> moved t vars perts rho v = rho v.
Proof.
  revert perts; induction vars as [|u vars IH]; intros perts Hv; [done|]. destruct perts; [done|]. cbn. unfold update.
  rewrite decide_False by (intros ->; apply Hv; by left). apply IH. intros ?; apply Hv; by right.
Qed.
Lemma moved_spec {P} t vars perts (rho : nat -> list nat -> P -> R) : NoDup vars -> (forall v, In v vars -> ~ In v perts) ->
  forall v c x, moved t vars perts rho v c x = displaced rho (direction vars perts rho) t v c x.
Proof.
  revert perts; induction vars as [|u vars IH]; intros perts Hnd Hdis v c x; [unfold displaced; cbn; lra|].
  destruct perts as [|d perts]; [unfold displaced; cbn; lra|]. apply NoDup_cons in Hnd as [Hu Hnd]. rewrite elem_of_list_In in Hu.
  cbn. unfold update, displaced. cbn. destruct (decide (v = u)) as [->|Hne].
  - rewrite !moved_other; [done| |done]. intros Hd. apply (Hdis d); [by right|by left].
  - rewrite IH; [done|done|]. intros v' Hv' Hp. apply (Hdis v'); by right.
Qed.
Fixpoint reassigned {P} (vars fields : list nat) (rho : nat -> list nat -> P -> R) : nat -> list nat -> P -> R :=
  match vars, fields with
  | v :: vars, f :: fields => let r := reassigned vars fields rho in update r v (r f)
  | _, _ => rho
  end.
Lemma assigned_other {P} vars fields (rho : nat -> list nat -> P -> R) v : ~ In v vars -> assigned vars fields rho v = rho v.
Proof. revert fields; induction vars as [|u vars IH]; intros fields Hv; [done|]. destruct fields; [done|]. cbn. rewrite decide_False by (intros ->; apply Hv; by left). apply IH. intros ?; apply Hv; by right. Qed.
Lemma reassigned_spec {P} vars fields (rho : nat -> list nat -> P -> R) : (forall v, In v vars -> ~ In v fields) ->
  forall v, reassigned vars fields rho v = assigned vars fields rho v.
Proof.
  revert fields; induction vars as [|u vars IH]; intros fields Hdis v; [done|]. destruct fields as [|f fields]; [done|]. cbn. unfold update.
  assert (forall v, reassigned vars fields rho v = assigned vars fields rho v) as E.
  { apply IH. intros v' Hv' Hp. apply (Hdis v'); by right. }
  destruct (decide (v = u)); [|apply E]. rewrite E. apply assigned_other. intros Hd. apply (Hdis f); [by right|by left].
Qed.

Section Frechet.
  Context (w : world) (I : interp) (HL : lawful w I) (eps : nat) (Heps : var_sig w eps = []).
  Notation sem := (sem w I).
  Notation denotes := (denotes w I).
  Notation movable := (movable I).
  Notation assignable := (assignable I).

  Lemma perturb_denotes t vars perts s e0 e e' P : ~ In eps vars -> movable vars perts ->
    (forall rho, admissible I rho -> (forall c x, rho eps c x = t) -> denotes rho s e (sem (P rho) e0) /\ (regular w I (P rho) e0 -> regular w I rho e)) ->
    perturb w eps vars perts e = Some e' ->
    forall rho, admissible I rho -> (forall c x, rho eps c x = t) ->
      denotes rho s e' (sem (P (moved t vars perts rho)) e0) /\ (regular w I (P (moved t vars perts rho)) e0 -> regular w I rho e').
  Proof using HL Heps.
    revert perts e P. induction vars as [|v vars IH]; intros perts e P Hev Hmov He Hp; [by injection Hp as <-|].
    destruct perts as [|d perts]; [by injection Hp as <-|]. cbn [perturb] in Hp.
    destruct (py_mul (Var eps) (Var d)) as [tm|] eqn:Et; [|done]. cbn [mbind option_bind] in Hp.
    destruct (py_add w (Var v) tm) as [new|] eqn:En; [|done]. cbn [mbind option_bind] in Hp.
    destruct (replace_var w v new e) as [e1|] eqn:E1; [|done]. cbn [mbind option_bind] in Hp.
    assert (is_num e = false) as Ne by (by destruct e).
    assert (is_num tm = false /\ tm = MulE (Var eps) (Var d)) as [Ntm Etm].
    { destruct (mul_cases _ _ _ Et) as [(? & ? & ?)|[(? & ?)|[(? & ?)|[([? | ?] & ?)|[(q & ? & ? & ?)|[(q & ? & ? & ?)|[(p & q & ? & ? & ?)|(Na & Nb & ->)]]]]]]]; done. }
    assert (var_sig w v = var_sig w d) as Hsig.
    { assert (add w (Var v) tm = Some new) as Ha by done.
      destruct (add_cases w _ _ _ Ha) as [(? & ?)|[(-> & ?)|[(p & q & ? & ? & ?)|(s' & a' & b' & n & m & Ca & Cb & _ & _ & _ & ->)]]]; try done.
      subst tm. cbn in Ca, Cb. rewrite Heps in Cb. cbn in Cb. destruct (decide (var_sig w v = s')); [|done]. destruct (decide (var_sig w d = s')); [|done]. congruence. }
    change (moved t (v :: vars) (d :: perts)) with (fun rho : data I => let r := moved t vars perts rho in update r v (fun c x => r v c x + t * r d c x)).
    cbn beta. apply (IH perts e1 (fun rho => P (update rho v (fun c x => rho v c x + t * rho d c x)))); [intros ?; apply Hev; by right| | |done].
    { intros v' d' rho t' Hin. apply Hmov. by right. }
    intros rho Hadm Ht. set (rho' := update rho v _).
    assert (admissible I rho') as Hadm' by (apply Hmov; [by left|done]).
    assert (forall c x, rho' eps c x = t) as Ht'.
    { intros c x. unfold rho', update. rewrite decide_False; [done|]. intros ->. apply Hev. by left. }
    destruct (He rho' Hadm' Ht') as [(Hf & Hw & Hv) Hr]. apply fits_operand in Hf; [|done].
    assert (denotes rho (var_sig w v) new (fun c x => rho v c x + t * rho d c x)) as Hnew.
    { refine (py_add_denotes w I rho (var_sig w v) (Var v) tm (fun c x => rho v c x) (fun c x => t * rho d c x) new _ _ En); [by apply (denotes_self w I rho (Var v))|].
      rewrite Hsig. assert (denotes rho [] (Var eps) (sem rho (Var eps))) as Dep by (rewrite <- Heps; by apply (denotes_self w I rho (Var eps))).
      refine (denotes_ext w I rho _ _ _ _ (py_mul_denotes w I rho [] (var_sig w d) _ _ _ _ tm Dep (denotes_self w I rho (Var d) eq_refl Logic.I) Et) _).
      intros c x _. unfold vmul. cbn. by rewrite Ht. }
    assert (forall y, mentions y e -> denotes rho (var_sig w y) (if decide (y = v) then new else Var y) (rho' y)) as Hon.
    { intros y _. unfold rho', update. destruct (decide (y = v)) as [->|]; [done|]. by apply (denotes_self w I rho (Var y)). }
    split.
    - rewrite <- Hf. eapply denotes_ext; [eapply (walk_denotes w I HL rho rho' _ e e1 Hadm Ne Hw Hon E1)|].
      intros c x Hc. rewrite Hv; [done|]. by rewrite <- Hf.
    - intros Hreg. eapply (walk_regular w I HL rho rho' _ e e1 Hadm Ne Hw Hon); [|by apply Hr|exact E1].
      intros y _. destruct (decide (y = v)); [|done]. eapply (add_regular w I rho (Var v) tm); [done| |exact En]. by rewrite Etm.
  Qed.
  Lemma perturb_transparent vars perts e e' d : perturb w eps vars perts e = Some e' -> sym_diff w eps e' = Some d -> transparent I e.
  Proof using HL.
    intros Hp Hd. destruct vars as [|v vars]; [injection Hp as <-; by eapply sym_diff_transparent|].
    destruct perts as [|p perts]; [injection Hp as <-; by eapply sym_diff_transparent|].
    cbn [perturb] in Hp. destruct (py_mul (Var eps) (Var p)) as [tm|]; [|done]. cbn [mbind option_bind] in Hp.
    destruct (py_add w (Var v) tm) as [new|]; [|done]. cbn [mbind option_bind] in Hp.
    destruct (replace_var w v new e) as [e1|] eqn:E1; [|done]. by eapply walk_transparent.
  Qed.

  (** Before backgrounds are put in. *)
  Context (vars perts : list nat) (e : expr) (Ne : is_num e = false) (We : well_formed w e).
  Context (Hnd : NoDup vars) (Hdis : forall v, In v vars -> ~ In v perts) (Hev : ~ In eps vars) (Hep : ~ In eps perts) (Hee : ~ mentions eps e).
  Context (Hmov : movable vars perts) (Hconst : forall rho t, admissible I rho -> admissible I (update rho eps (fun _ _ => t))).
  Lemma frechet_dsem d rho : frechet w eps vars perts None e = Some d -> admissible I rho -> regular w I rho e ->
    denotes rho (esig w e) d (dsem w I rho (direction vars perts rho) e).
  Proof using HL Heps Ne We Hnd Hdis Hev Hep Hee Hmov Hconst.
    intros H Hadm Hreg. unfold frechet in H.
    destruct (perturb w eps vars perts e) as [e'|] eqn:Ep; [|done]. cbn [mbind option_bind] in H.
    destruct (sym_diff w eps e') as [d1|] eqn:Ed; [|done]. cbn [mbind option_bind] in H.
    set (path t := update rho eps (fun (_ : list nat) (_ : point I) => t)).
    assert (forall t, admissible I (path t)) as Hap by (intros t; by apply Hconst).
    assert (forall t c x, path t eps c x = t) as Hpe by (intros; unfold path, update; by rewrite decide_True).
    assert (forall t, denotes (path t) (esig w e) e' (sem (moved t vars perts (path t)) e) /\ (regular w I (moved t vars perts (path t)) e -> regular w I (path t) e')) as Hpert.
    { intros t. apply (perturb_denotes t vars perts (esig w e) e e e' (fun rho => rho) Hev Hmov); [|done..].
      intros rho' _ _. split; [by apply denotes_self|done]. }
    set (h := direction vars perts rho).
    assert (forall t v c x, mentions v e -> moved t vars perts (path t) v c x = displaced rho h t v c x) as Hmoved.
    { intros t v c x Hv. rewrite moved_spec by done. unfold displaced. f_equal.
      - unfold path, update. rewrite decide_False; [done|]. by intros ->.
      - f_equal. apply direction_agree. intros p Hp c' x'. unfold path, update. rewrite decide_False; [done|]. by intros ->. }
    assert (is_num e' = false) as Ne' by (by destruct e').
    destruct (Hpert 0) as [(Hf & We' & _) Hr0]. apply fits_operand in Hf; [|done].
    assert (regular w I (path 0) e') as Hreg'.
    { apply Hr0. eapply regular_agree; [|exact Hreg]. intros v Hv c x. rewrite Hmoved by done. unfold displaced. lra. }
    assert (denotes (path 0) (esig w e) d1 (dsem w I rho h e)) as Hd1.
    { rewrite <- Hf. eapply denotes_ext; [eapply (sym_diff_denotes w I HL (path 0) eps e' d1); done|].
      intros c x Hc.
      assert (is_derive (fun t => sem (path t) e' c x) 0 (dsem w I (path 0) (unit_direction I eps) e' c x)) as D1.
      { apply (dsem_derive w I HL path 0 (path 0)); try done.
        - intros v c' x'. unfold path, update, unit_direction. destruct (decide (v = eps)).
          + apply is_derive_Reals, derivable_pt_lim_id.
          + apply is_derive_Reals, derivable_pt_lim_const.
        - by eapply (sym_diff_transparent w I HL). }
      assert (is_derive (fun t => sem (displaced rho h t) e c x) 0 (dsem w I rho h e c x)) as D2.
      { apply (dsem_derive w I HL (displaced rho h) 0 rho h); try done.
        - intros. unfold displaced. lra.
        - intros v c' x'. unfold displaced. auto_derive; [done|lra].
        - by eapply perturb_transparent.
        - by rewrite <- Hf. }
      apply is_derive_unique in D1, D2. rewrite <- D1, <- D2. apply Derive_ext. intros t.
      destruct (Hpert t) as [(_ & _ & Hv) _]. rewrite Hv by (by rewrite <- Hf). apply sem_agree. intros v Hm c' x'. by apply Hmoved. }
    destruct (truthy d1) eqn:T1.
    - destruct (cast w (esig w e) d1) as [d2|] eqn:E2; [|done]. cbn [mbind option_bind] in H.
      destruct (replace_var w eps (Num 0) d2) as [d3|] eqn:E3; [|done]. cbn [mbind option_bind] in H.
      assert (d = d3) as -> by (destruct (truthy d3); by injection H as <-).
      destruct (cast_denotes w I (path 0) _ _ _ _ Hd1 E2) as ((_ & W2 & V2) & N2 & S2).
      rewrite <- S2. eapply denotes_ext.
      + eapply (walk_denotes w I HL rho (path 0) (fun y => if decide (y = eps) then Num 0 else Var y) d2 d3 Hadm N2 W2); [|exact E3].
        intros v _. unfold path, update. destruct (decide (v = eps)) as [->|]; [apply denotes_zero|]. by apply (denotes_self w I rho (Var v)).
      + intros c x Hc. apply V2. by rewrite <- S2.
    - cbn [mbind option_bind] in H. rewrite T1 in H. injection H as <-.
      unfold truthy in T1. apply negb_false_iff, is_zero_spec in T1 as ->. destruct Hd1 as (Hf1 & _ & Hv1).
      eapply denotes_ext; [apply denotes_zero|]. intros c x Hc. by rewrite <- Hv1.
  Qed.
  Lemma replace_vars_denotes vs fields s e0 d d' P : assignable vs fields ->
    (forall v f, In (v, f) (zip vs fields) -> var_sig w f = var_sig w v) ->
    (forall rho, admissible I rho -> fits w s d /\ well_formed w d /\ forall c x, length c = length s -> sem rho d c x = sem (P rho) e0 c x) ->
    replace_vars w vs fields d = Some d' ->
    forall rho, admissible I rho -> fits w s d' /\ well_formed w d' /\ forall c x, length c = length s -> sem rho d' c x = sem (P (reassigned vs fields rho)) e0 c x.
  Proof using HL.
    clear - HL. revert fields d P. induction vs as [|v vs IH]; intros fields d P Has Hsig Hd Hr; [by injection Hr as <-|].
    destruct fields as [|f fields]; [by injection Hr as <-|]. cbn [replace_vars] in Hr.
    destruct (replace_var w v (Var f) d) as [d1|] eqn:E1; [|done]. cbn [mbind option_bind] in Hr.
    assert (is_num d = false) as Nd by (by destruct d).
    change (reassigned (v :: vs) (f :: fields)) with (fun rho : data I => let r := reassigned vs fields rho in update r v (r f)). cbn beta.
    apply (IH fields d1 (fun rho => P (update rho v (rho f)))); [| | |done].
    { intros v' f' rho Hin. apply Has. by right. } { intros v' f' Hin. apply Hsig. by right. }
    intros rho Hadm. set (rho' := update rho v (rho f)).
    assert (admissible I rho') as Hadm' by (apply Has; [by left|done]).
    destruct (Hd rho' Hadm') as (Hf & Hw & Hv). apply fits_operand in Hf; [|done].
    assert (denotes rho (esig w d) d1 (sem rho' d)) as (Hf1 & Hw1 & Hv1).
    { eapply (walk_denotes w I HL rho rho' _ d d1 Hadm Nd Hw); [|exact E1]. intros y _. unfold rho', update. destruct (decide (y = v)) as [->|].
      - rewrite <- (Hsig v f) by (by left). by apply (denotes_self w I rho (Var f)).
      - by apply (denotes_self w I rho (Var y)). }
    rewrite Hf in Hf1, Hv1. split_and!; [done|done|]. intros c x Hc. rewrite Hv1 by done. by apply Hv.
  Qed.
  Lemma frechet_denotes bgs d rho : frechet w eps vars perts bgs e = Some d -> admissible I rho ->
    (match bgs with Some fields => assignable vars fields /\ (forall v f, In (v, f) (zip vars fields) -> var_sig w f = var_sig w v) /\ (forall v, In v vars -> ~ In v fields) | None => True end) ->
    let base := match bgs with Some fields => assigned vars fields rho | None => rho end in
    regular w I base e ->
    denotes rho (esig w e) d (dsem w I base (direction vars perts rho) e).
  Proof using HL Heps Ne We Hnd Hdis Hev Hep Hee Hmov Hconst.
    destruct bgs as [fields|]; [|by intros; apply frechet_dsem].
    intros H Hadm (Has & Hsig & Hfd) base Hreg.
    assert (exists d0, frechet w eps vars perts None e = Some d0 /\ (if truthy d0 then replace_vars w vars fields d0 = Some d else d = d0)) as (d0 & H0 & H1).
    { unfold frechet in *. destruct (perturb w eps vars perts e) as [e'|]; [|done]. cbn [mbind option_bind] in *.
      destruct (sym_diff w eps e') as [d1|]; [|done]. cbn [mbind option_bind] in *.
      destruct (if truthy d1 then _ else _) as [d2|]; [|done]. cbn [mbind option_bind] in *. exists d2. destruct (truthy d2); [done|]. by injection H as <-. }
    assert (admissible I (reassigned vars fields rho)) as Hadmb.
    { clear - Has Hadm. revert fields Has. induction vars as [|v vs IH]; intros fields Has; [done|]. destruct fields as [|f fields]; [done|]. cbn.
      apply Has; [by left|]. apply IH. intros v' f' rho' Hin. apply Has. by right. }
    assert (forall v, reassigned vars fields rho v = base v) as Hb by (by apply reassigned_spec).
    assert (denotes (reassigned vars fields rho) (esig w e) d0 (dsem w I (reassigned vars fields rho) (direction vars perts (reassigned vars fields rho)) e)) as Hden.
    { apply frechet_dsem; [done|done|]. eapply regular_agree; [|exact Hreg]. intros v _ c x. by rewrite Hb. }
    assert (forall c x, dsem w I (reassigned vars fields rho) (direction vars perts (reassigned vars fields rho)) e c x = dsem w I base (direction vars perts rho) e c x) as Edsem.
    { assert (forall e' c x, sem (reassigned vars fields rho) e' c x = sem base e' c x) as Es by (intros; apply sem_agree; intros; by rewrite Hb).
      assert (forall v c x, direction vars perts (reassigned vars fields rho) v c x = direction vars perts rho v c x) as Edir.
      { intros. apply direction_agree. intros p Hp c' x'. rewrite Hb. unfold base. rewrite assigned_other; [done|]. intros Hv. by apply (Hdis p). }
      generalize e as e'. clear - Es Edir. intros e'. expr_induction e'; intros c x; cbn [dsem]; rewrite ?IHa, ?IHb, ?Es; try done.
      - unfold vmul. by rewrite !IHa, !IHb, !Es.
      - unfold vdot. f_equal; apply sum_list_ext; intros; by rewrite ?IHa, ?IHb, ?Es.
      - f_equal; apply vcross_ext; intros; by rewrite ?IHa, ?IHb, ?Es.
      - unfold vlin. apply sum_list_ext. intros. by rewrite IHa. }
    destruct (truthy d0) eqn:T0.
    - assert (forall rho', fits w (esig w e) d0 /\ well_formed w d0 /\ forall c x, length c = length (esig w e) -> sem rho' d0 c x = sem rho' d0 c x) as Hself.
      { intros. destruct Hden as (? & ? & _). done. }
      destruct (replace_vars_denotes vars fields (esig w e) d0 d0 d (fun r => r) Has Hsig ltac:(done) H1 rho Hadm) as (F & W & V).
      split_and!; [done|done|]. intros c x Hc. rewrite V by done. destruct Hden as (_ & _ & Hval). rewrite Hval by done. apply Edsem.
    - subst d0. unfold truthy in T0. apply negb_false_iff, is_zero_spec in T0 as ->. destruct Hden as (_ & _ & Hval).
      eapply denotes_ext; [apply denotes_zero|]. intros c x Hc. rewrite <- Edsem, <- Hval by done. done.
  Qed.
End Frechet.
