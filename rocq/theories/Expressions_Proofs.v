(** Values of the expressions that the constructors, [split] and [replace] return. *)
From Coq Require Import Reals Lra.
From stdpp Require Import numbers list.
From Verif Require Import Expressions_Model Expressions_Spec.
Local Open Scope R_scope.

Section Values.
  Context (w : world) (I : interp).
  Notation sem := (sem w I).
  Notation denotes := (denotes w I).
  Notation fits := (fits w).
  Notation well_formed := (well_formed w).

  Lemma sum_list_ext {A} (f g : A -> R) l : (forall a, In a l -> f a = g a) -> sum_list (map f l) = sum_list (map g l).
  Proof.
    induction l as [|a l IH]; intros H; [done|]. cbn. rewrite (H a) by (left; done).
    f_equal. apply IH. intros b Hb. apply H. by right.
  Qed.
  Lemma sum_list_plus {A} (f g : A -> R) l : sum_list (map (fun a => f a + g a) l) = sum_list (map f l) + sum_list (map g l).
  Proof. unfold sum_list; induction l as [|a l IH]; cbn in *; [lra|]. rewrite IH. lra. Qed.
  Lemma sum_list_scal {A} (f : A -> R) q l : sum_list (map (fun a => q * f a) l) = q * sum_list (map f l).
  Proof. unfold sum_list; induction l as [|a l IH]; cbn in *; [lra|]. rewrite IH. lra. Qed.
  Lemma sum_list_zero {A} (f : A -> R) l : (forall a, In a l -> f a = 0) -> sum_list (map f l) = 0.
  Proof. intros H. rewrite (sum_list_ext f (fun _ => 0 * 0) l). { rewrite sum_list_scal. lra. } intros a Ha. rewrite (H a Ha). lra. Qed.

  Lemma is_zero_spec e : is_zero e = true <-> e = Num 0.
  Proof. destruct e; cbn; try done. destruct (Req_EM_T q 0) as [->|Hn]; split; try done. intros [= ->]. done. Qed.
  Lemma is_one_spec e : is_one e = true <-> e = Num 1.
  Proof. destruct e; cbn; try done. destruct (Req_EM_T q 1) as [->|Hn]; split; try done. intros [= ->]. done. Qed.
  Lemma not_zero_num q : is_zero (Num q) = false -> q <> 0.
  Proof. cbn. destruct (Req_EM_T q 0); done. Qed.
  Lemma fits_operand s e : is_num e = false -> fits s e -> esig w e = s.
  Proof. by destruct e. Qed.
  Lemma operand_fits s e : is_num e = false -> esig w e = s -> fits s e.
  Proof. by destruct e. Qed.
  Lemma operand_nonzero e : is_num e = false -> is_zero e = false.
  Proof. by destruct e. Qed.

  Lemma denotes_ext rho s e v v' : denotes rho s e v -> (forall c x, length c = length s -> v c x = v' c x) -> denotes rho s e v'.
  Proof. intros (H1 & H2 & H3) Hv. split_and!; [done..|]. intros c x Hc. rewrite H3 by done. by apply Hv. Qed.
  Lemma denotes_self rho e : is_num e = false -> well_formed e -> denotes rho (esig w e) e (sem rho e).
  Proof. intros Hn Hw. split_and!; [by apply operand_fits|done|done]. Qed.
  Lemma denotes_num rho q : denotes rho [] (Num q) (fun _ _ => q).
  Proof. split_and!; [by right|done|done]. Qed.
  Lemma denotes_zero rho s : denotes rho s (Num 0) (fun _ _ => 0).
  Proof. split_and!; [by left|done|done]. Qed.

  (** Conversions change nothing. *)
  Lemma convert_num n e : is_num (convert n e) = if n then is_num e else false.
  Proof. revert e; induction n as [|n IH]; intros e; [done|]. cbn. rewrite IH. by destruct n. Qed.
  Lemma convert_sem rho n e c x : sem rho (convert n e) c x = sem rho e c x.
  Proof. revert e; induction n as [|n IH]; intros e; [done|]. cbn [convert]. by rewrite IH. Qed.
  Lemma convert_sig n e : esig w (convert n e) = esig w e.
  Proof. revert e; induction n as [|n IH]; intros e; [done|]. cbn [convert]. by rewrite IH. Qed.
  Lemma convert_wf n e : is_num e = false -> well_formed e -> well_formed (convert n e) /\ is_num (convert n e) = false.
  Proof. revert e; induction n as [|n IH]; intros e Hn Hw; [done|]. cbn [convert]. by apply IH. Qed.

  Lemma cast_denotes rho s e v e' : denotes rho s e v -> cast w s e = Some e' -> denotes rho s e' v /\ is_num e' = false /\ esig w e' = s.
  Proof.
    intros (Hf & Hw & Hv) Hc. destruct e; cbn in Hc; try (destruct (decide _) as [Hs|]; [|done]; injection Hc as <-; split_and!; try done).
    injection Hc as <-. split_and!; done.
  Qed.
  Lemma add_fields_denotes rho s a b va vb n m :
    denotes rho s a va -> denotes rho s b vb -> is_num a = false -> is_num b = false ->
    denotes rho s (AddE (convert n a) (convert m b)) (fun c x => va c x + vb c x).
  Proof.
    intros (Hfa & Hwa & Hva) (Hfb & Hwb & Hvb) Hna Hnb.
    apply fits_operand in Hfa, Hfb; [|done..].
    destruct (convert_wf n a Hna Hwa), (convert_wf m b Hnb Hwb).
    split_and!.
    - cbn. by rewrite convert_sig.
    - cbn. rewrite !convert_sig. split_and!; try done. congruence.
    - intros c x Hc. cbn [Expressions_Spec.sem]. by rewrite !convert_sem, Hva, Hvb.
  Qed.

  Lemma add_denotes rho s a b va vb e : denotes rho s a va -> denotes rho s b vb -> add w a b = Some e ->
    denotes rho s e (fun c x => va c x + vb c x).
  Proof.
    intros Ha Hb. pose proof Ha as (Hfa & Hwa & Hva). pose proof Hb as (Hfb & Hwb & Hvb).
    unfold add.
    destruct (is_zero a) eqn:Za.
    - apply is_zero_spec in Za as ->. rewrite filter_cons_False by (cbn; by destruct (Req_EM_T 0 0)).
      destruct (is_zero b) eqn:Zb.
      + apply is_zero_spec in Zb as ->. rewrite filter_cons_False by (cbn; by destruct (Req_EM_T 0 0)).
        cbn. intros [= <-]. eapply denotes_ext; [apply denotes_zero|]. intros c x Hc. cbn.
        rewrite <- Hva, <- Hvb by done. cbn. lra.
      + rewrite filter_cons_True by done. intros [= <-]. eapply denotes_ext; [done|]. intros c x Hc. cbn.
        rewrite <- Hva by done. cbn. lra.
    - rewrite filter_cons_True by done. destruct (is_zero b) eqn:Zb.
      + apply is_zero_spec in Zb as ->. rewrite filter_cons_False by (cbn; by destruct (Req_EM_T 0 0)).
        intros [= <-]. eapply denotes_ext; [done|]. intros c x Hc. cbn. rewrite <- Hvb by done. cbn. lra.
      + rewrite filter_cons_True by done. cbn [filter list_filter].
        destruct (is_num a) eqn:Na, (is_num b) eqn:Nb.
        * destruct a, b; try done. cbn. intros [= <-].
          destruct Hfa as [->|Hs]; [by rewrite (proj2 (is_zero_spec _)) in Za|]. subst s.
          eapply denotes_ext; [apply denotes_num|]. intros c x Hc. rewrite <- Hva, <- Hvb by done. cbn. lra.
        * unfold operand_sig. rewrite filter_cons_False by congruence. rewrite filter_cons_True by done.
          pose proof (fits_operand _ _ Nb Hfb) as ->.
          destruct (cast w s a) as [a'|] eqn:Ca; [|done].
          destruct (cast w s b) as [b'|] eqn:Cb; [|done]. cbn. intros [= <-].
          destruct (cast_denotes _ _ _ _ _ Ha Ca) as (Ha' & Na' & _), (cast_denotes _ _ _ _ _ Hb Cb) as (Hb' & Nb' & _).
          by apply add_fields_denotes.
        * unfold operand_sig. rewrite filter_cons_True by done.
          pose proof (fits_operand _ _ Na Hfa) as ->.
          destruct (cast w s a) as [a'|] eqn:Ca; [|done].
          destruct (cast w s b) as [b'|] eqn:Cb; [|done]. cbn. intros [= <-].
          destruct (cast_denotes _ _ _ _ _ Ha Ca) as (Ha' & Na' & _), (cast_denotes _ _ _ _ _ Hb Cb) as (Hb' & Nb' & _).
          by apply add_fields_denotes.
        * unfold operand_sig. rewrite filter_cons_True by done.
          pose proof (fits_operand _ _ Na Hfa) as ->.
          destruct (cast w s a) as [a'|] eqn:Ca; [|done].
          destruct (cast w s b) as [b'|] eqn:Cb; [|done]. cbn. intros [= <-].
          destruct (cast_denotes _ _ _ _ _ Ha Ca) as (Ha' & Na' & _), (cast_denotes _ _ _ _ _ Hb Cb) as (Hb' & Nb' & _).
          by apply add_fields_denotes.
  Qed.

  Definition vmul (s : sig) (va vb : list nat -> point I -> R) : list nat -> point I -> R :=
    fun c x => va (take (length s) c) x * vb (drop (length s) c) x.

  (** What [Multiply] returns. *)
  Lemma mul_cases a b e : mul a b = Some e ->
    (a = Num 1 /\ b = Num 1 /\ e = Num 1) \/ (a = Num 1 /\ e = b) \/ (b = Num 1 /\ e = a) \/
    ((a = Num 0 \/ b = Num 0) /\ e = Num 0) \/
    (exists q, is_num b = false /\ a = Num q /\ q <> 0 /\ e = MulN q b) \/
    (exists q, is_num a = false /\ b = Num q /\ q <> 0 /\ e = MulN q a) \/
    (exists p q, a = Num p /\ b = Num q /\ p <> 0 /\ q <> 0 /\ e = Num (p * q)) \/
    (is_num a = false /\ is_num b = false /\ e = MulE a b).
  Proof.
    unfold mul.
    destruct (is_one a) eqn:Oa.
    - apply is_one_spec in Oa as ->. rewrite filter_cons_False by (cbn; by destruct (Req_EM_T 1 1)).
      destruct (is_one b) eqn:Ob.
      + apply is_one_spec in Ob as ->. rewrite filter_cons_False by (cbn; by destruct (Req_EM_T 1 1)).
        cbn. intros [= <-]. by left.
      + rewrite filter_cons_True by done. intros [= <-]. by right; left.
    - rewrite filter_cons_True by done. destruct (is_one b) eqn:Ob.
      + apply is_one_spec in Ob as ->. rewrite filter_cons_False by (cbn; by destruct (Req_EM_T 1 1)).
        intros [= <-]. by do 2 right; left.
      + rewrite filter_cons_True by done. cbn [filter list_filter existsb]. rewrite orb_false_r.
        destruct (is_zero a) eqn:Za.
        { apply is_zero_spec in Za as ->. cbn [orb]. intros [= <-]. do 3 right; left. split; [by left|done]. }
        destruct (is_zero b) eqn:Zb.
        { apply is_zero_spec in Zb as ->. cbn [orb]. intros [= <-]. do 3 right; left. split; [by right|done]. }
        cbn [orb].
        destruct (is_num a) eqn:Na.
        * destruct a as [p| | | | | | | | | | |]; try done. apply not_zero_num in Za.
          destruct (is_num b) eqn:Nb.
          -- destruct b as [q| | | | | | | | | | |]; try done. apply not_zero_num in Zb.
             cbn. intros [= <-]. do 6 right; left. exists p, q. split_and!; try done. f_equal. lra.
          -- intros H. do 4 right; left. exists p. split_and!; try done. destruct b; try done; by injection H as <-.
        * destruct (is_num b) eqn:Nb.
          -- destruct b as [q| | | | | | | | | | |]; try done. apply not_zero_num in Zb.
             intros H. do 5 right; left. exists q. split_and!; try done. destruct a; try done; by injection H as <-.
          -- intros H. do 7 right. split_and!; try done. destruct a; try done; destruct b; try done; by injection H as <-.
  Qed.

  Lemma mul_denotes rho s1 s2 a b va vb e : denotes rho s1 a va -> denotes rho s2 b vb -> mul a b = Some e ->
    denotes rho (s1 ++ s2) e (vmul s1 va vb).
  Proof.
    intros Ha Hb He. pose proof Ha as (Hfa & Hwa & Hva). pose proof Hb as (Hfb & Hwb & Hvb).
    assert (Hlen : forall c : list nat, length c = length (s1 ++ s2) -> length (take (length s1) c) = length s1 /\ length (drop (length s1) c) = length s2).
    { intros c Hc. rewrite app_length in Hc. rewrite take_length, drop_length. lia. }
    destruct (mul_cases a b e He) as [(-> & -> & ->)|[(-> & ->)|[(-> & ->)|[([-> | ->] & ->)|[(q & Nb & -> & Hq & ->)|[(q & Na & -> & Hq & ->)|[(p & q & -> & -> & Hp & Hq & ->)|(Na & Nb & ->)]]]]]]].
    - destruct Hfa as [?| ->]; [lra|]. destruct Hfb as [?| ->]; [lra|]. eapply denotes_ext; [apply denotes_num|].
      intros c x Hc. unfold vmul. rewrite <- Hva, <- Hvb by (apply Hlen; done). cbn. lra.
    - destruct Hfa as [?| ->]; [lra|]. eapply denotes_ext; [done|]. intros c x Hc. unfold vmul. cbn [length take drop].
      rewrite <- Hva by done. cbn. rewrite drop_0. lra.
    - destruct Hfb as [?| ->]; [lra|]. rewrite app_nil_r in *. eapply denotes_ext; [done|]. intros c x Hc. unfold vmul.
      rewrite take_ge by lia. rewrite <- (Hvb (drop _ _)) by (apply (proj2 (Hlen c Hc))). cbn. lra.
    - eapply denotes_ext; [apply denotes_zero|]. intros c x Hc. unfold vmul. rewrite <- Hva by (by apply Hlen). cbn. lra.
    - eapply denotes_ext; [apply denotes_zero|]. intros c x Hc. unfold vmul. rewrite <- Hvb by (by apply Hlen). cbn. lra.
    - destruct Hfa as [?| ->]; [lra|]. apply fits_operand in Hfb; [|done]. split_and!; [done|done|].
      intros c x Hc. unfold vmul. cbn [length]. rewrite drop_0. cbn. rewrite <- Hva by done. rewrite <- Hvb by done. cbn. lra.
    - destruct Hfb as [?| ->]; [lra|]. rewrite app_nil_r in *. apply fits_operand in Hfa; [|done]. split_and!; [done|done|].
      intros c x Hc. unfold vmul. cbn. rewrite take_ge by lia. rewrite <- Hva by done. rewrite <- (Hvb (drop _ _)) by (by apply Hlen). cbn. lra.
    - destruct Hfa as [?| ->]; [lra|]. destruct Hfb as [?| ->]; [lra|]. eapply denotes_ext; [apply denotes_num|].
      intros c x Hc. unfold vmul. cbn [take drop length]. rewrite <- Hva, <- Hvb by done. cbn. lra.
    - apply fits_operand in Hfa, Hfb; [|done..]. subst s1 s2. split_and!; [done|done|].
      intros c x Hc. unfold vmul. cbn. rewrite Hva, Hvb by (by apply Hlen). done.
  Qed.

  Definition vdot (s : sig) (i j : nat) (va vb : list nat -> point I -> R) : list nat -> point I -> R :=
    fun c x => let r := (length s - 1)%nat in
      sum_list (map (fun m => va (insert_index i m (take r c)) x * vb (insert_index j m (drop r c)) x) (seq 0 (cs_dim w (nth i s 0%nat)))).
  Lemma insert_index_length i m c n : (i < n)%nat -> length c = (n - 1)%nat -> length (insert_index i m c) = n.
  Proof. intros Hi Hc. unfold insert_index. rewrite app_length, take_length. cbn. rewrite drop_length. lia. Qed.
  Lemma delete_length {A} (l : list A) i : (i < length l)%nat -> length (delete i l) = (length l - 1)%nat.
  Proof. intros Hi. apply lookup_lt_is_Some_2 in Hi as [x Hx]. by rewrite (length_delete l i). Qed.

  Lemma dot_denotes rho s1 s2 i j a b va vb e : denotes rho s1 a va -> denotes rho s2 b vb ->
    (i < length s1)%nat -> (j < length s2)%nat -> dot w i j a b = Some e ->
    denotes rho (delete i s1 ++ delete j s2) e (vdot s1 i j va vb).
  Proof.
    intros (Hfa & Hwa & Hva) (Hfb & Hwb & Hvb) Hi Hj.
    assert (Hlen : forall (c : list nat) m, length c = length (delete i s1 ++ delete j s2) ->
      length (insert_index i m (take (length s1 - 1) c)) = length s1 /\ length (insert_index j m (drop (length s1 - 1) c)) = length s2).
    { intros c m Hc. rewrite app_length, !delete_length in Hc by done.
      split; apply insert_index_length; try done; rewrite ?take_length, ?drop_length; lia. }
    unfold dot. destruct (is_zero a) eqn:Za.
    { intros [= <-]. apply is_zero_spec in Za as ->. eapply denotes_ext; [apply denotes_zero|]. intros c x Hc.
      symmetry. apply sum_list_zero. intros m _. rewrite <- Hva by (by apply Hlen). cbn. lra. }
    destruct (is_zero b) eqn:Zb.
    { intros [= <-]. apply is_zero_spec in Zb as ->. eapply denotes_ext; [apply denotes_zero|]. intros c x Hc.
      symmetry. apply sum_list_zero. intros m _. rewrite <- Hvb by (by apply Hlen). cbn. lra. }
    cbn [orb]. destruct (is_num a) eqn:Na; [done|]. destruct (is_num b) eqn:Nb; [done|]. cbn [orb].
    apply fits_operand in Hfa, Hfb; [|done..]. subst s1 s2. rewrite decide_True by done. intros [= <-].
    split_and!; [done|done|]. intros c x Hc. cbn. apply sum_list_ext. intros m _. by rewrite Hva, Hvb by (by apply Hlen).
  Qed.

  Definition vcross (cs : nat) (va vb : list nat -> point I -> R) : list nat -> point I -> R :=
    fun c x => let u k := va [k] x in let v k := vb [k] x in
      let right := match c with
        | [0%nat] => u 1%nat * v 2%nat - u 2%nat * v 1%nat
        | [1%nat] => u 2%nat * v 0%nat - u 0%nat * v 2%nat
        | [2%nat] => u 0%nat * v 1%nat - u 1%nat * v 0%nat
        | _ => 0 end in
      if right_handed I cs then right else - right.
  Lemma vcross_zero cs va vb c x : (forall k, va [k] x = 0) \/ (forall k, vb [k] x = 0) -> vcross cs va vb c x = 0.
  Proof.
    intros H. unfold vcross. assert (forall i j, va [i] x * vb [j] x = 0) as E.
    { intros i j. destruct H as [H|H]; rewrite H; lra. }
    rewrite !E. destruct (right_handed I cs), c as [|[|[|[|]]] []]; lra.
  Qed.
  Lemma vcross_ext cs va vb va' vb' c x : (forall k, va [k] x = va' [k] x) -> (forall k, vb [k] x = vb' [k] x) -> vcross cs va vb c x = vcross cs va' vb' c x.
  Proof. intros H1 H2. unfold vcross. by rewrite !H1, !H2. Qed.
  Lemma cross_denotes rho cs a b va vb e : denotes rho [cs] a va -> denotes rho [cs] b vb -> cs_dim w cs = 3%nat ->
    cross w a b = Some e -> denotes rho [cs] e (vcross cs va vb).
  Proof.
    intros (Hfa & Hwa & Hva) (Hfb & Hwb & Hvb) Hd. unfold cross.
    destruct (is_zero a) eqn:Za.
    { intros [= <-]. apply is_zero_spec in Za as ->. eapply denotes_ext; [apply denotes_zero|]. intros c x Hc.
      symmetry. apply vcross_zero. left. intros k. by rewrite <- Hva. }
    destruct (is_zero b) eqn:Zb.
    { intros [= <-]. apply is_zero_spec in Zb as ->. eapply denotes_ext; [apply denotes_zero|]. intros c x Hc.
      symmetry. apply vcross_zero. right. intros k. by rewrite <- Hvb. }
    cbn [orb]. destruct (is_num a) eqn:Na; [done|]. destruct (is_num b) eqn:Nb; [done|]. cbn [orb].
    apply fits_operand in Hfa, Hfb; [|done..]. rewrite Hfa, Hfb, decide_True by done. intros [= <-].
    split_and!; [done| |]. { cbn. split_and!; try done. by exists cs. }
    intros c x Hc. cbn [Expressions_Spec.sem]. rewrite Hfa. cbn [nth].
    change (vcross cs (sem rho a) (sem rho b) c x = vcross cs va vb c x). apply vcross_ext; intros k; [by rewrite Hva|by rewrite Hvb].
  Qed.

  Definition vlin (L : nat) (s : sig) (va : list nat -> point I -> R) : list nat -> point I -> R :=
    fun c x => sum_list (map (fun t => t.1 * va t.2.1 t.2.2) (terms I L s c x)).
  Context (HL : lawful w I).
  Lemma vlin_ext L s va va' c x : length c = length (lin_sig w L s) -> (forall c x, length c = length s -> va c x = va' c x) ->
    vlin L s va c x = vlin L s va' c x.
  Proof using HL.
    intros Hc H. apply sum_list_ext. intros (q & c' & y) Hin. cbn. rewrite H; [done|]. by eapply (terms_rank w I HL L s c x q c' y).
  Qed.
  Lemma sum_fst_const (q : R) {A} (l : list (R * A)) : sum_list (map (fun t => t.1 * q) l) = q * sum_list (map fst l).
  Proof. unfold sum_list; induction l as [|a l IH]; cbn in *; [lra|]. rewrite IH. lra. Qed.
  Lemma lin_denotes rho L s a va e : admissible I rho -> denotes rho s a va -> lin w L a = Some e ->
    denotes rho (lin_sig w L s) e (vlin L s va) /\ opaque I L = None.
  Proof using HL.
    intros Hadm (Hf & Hw & Hv) He.
    assert (opaque I L = None) as Ho.
    { destruct (opaque I L) eqn:E; [|done]. assert (rule w L = NoNewOperand) as Hr by (apply (opaque_rule w I HL); by rewrite E).
      unfold lin in He. rewrite Hr in He. by destruct a. }
    split; [|done].
    destruct (is_num a) eqn:Na.
    - destruct a as [q| | | | | | | | | | |]; try done.
      assert (forall c x, length c = length (lin_sig w L s) -> q = 0 -> vlin L s va c x = 0) as Hz.
      { intros c x Hc ->. apply sum_list_zero. intros (r & c' & y) Hin. cbn. rewrite <- Hv; [cbn; lra|].
        by eapply (terms_rank w I HL L s c x r c' y). }
      unfold lin in He. destruct (rule w L) eqn:Hr; cbn in Hf.
      + injection He as <-. destruct Hf as [-> | ->].
        * eapply denotes_ext; [apply denotes_zero|]. intros c x Hc. cbn. by rewrite Hz.
        * rewrite (keep_sig w I HL L Hr) in *. eapply denotes_ext; [apply denotes_num|].
          intros c x Hc. cbn. rewrite (vlin_ext L [] va (fun _ _ => q) c x).
          -- unfold vlin. rewrite sum_fst_const, (keep_number w I HL) by done. lra.
          -- by rewrite (keep_sig w I HL L Hr).
          -- intros c' y Hc'. by rewrite <- Hv.
      + injection He as <-. eapply denotes_ext; [apply denotes_zero|]. intros c x Hc. cbn.
        destruct Hf as [-> | ->]; [by rewrite Hz|].
        rewrite (vlin_ext L [] va (fun _ _ => q) c x).
        -- unfold vlin. rewrite sum_fst_const, (zero_number w I HL) by done. lra.
        -- done.
        -- intros c' y Hc'. by rewrite <- Hv.
      + destruct (is_zero (Num q)) eqn:Z; [|done]. injection He as <-. apply is_zero_spec in Z as [= ->].
        eapply denotes_ext; [apply denotes_zero|]. intros c x Hc. cbn. by rewrite Hz.
      + done.
      + done.
    - apply fits_operand in Hf; [|done]. subst s.
      assert (He' : (if vanishes w L a then Some (Num 0) else Some (Lin L a)) = Some e).
      { unfold lin in He. destruct (rule w L), a; try done. }
      assert (forall c x, length c = length (lin_sig w L (esig w a)) -> sem rho (Lin L a) c x = vlin L (esig w a) va c x) as Hs.
      { intros c x Hc. cbn. rewrite Ho. by apply vlin_ext. }
      destruct (vanishes w L a) eqn:Hvan; injection He' as <-.
      + eapply denotes_ext; [apply denotes_zero|]. intros c x Hc. cbn.
        rewrite <- Hs by done. by rewrite (vanishing w I HL).
      + split_and!; done.
  Qed.

  Lemma power_denotes rho s a va p e : denotes rho s a va -> power a p = Some e -> denotes rho s e (fun c x => pow_val (va c x) p).
  Proof.
    intros (Hf & Hw & Hv). unfold power. destruct (is_num a) eqn:Na; [done|]. intros [= <-].
    apply fits_operand in Hf; [|done]. split_and!; [done|done|]. intros c x Hc. cbn. by rewrite Hv.
  Qed.
  Lemma ufun_denotes rho s a va f e : denotes rho s a va -> ufun f a = Some e -> denotes rho s e (fun c x => fun_val f (va c x)).
  Proof.
    intros (Hf & Hw & Hv). unfold ufun. destruct (is_num a) eqn:Na; [done|]. intros [= <-].
    apply fits_operand in Hf; [|done]. split_and!; [done|done|]. intros c x Hc. cbn. by rewrite Hv.
  Qed.
  Lemma fits_num_scalar s p q : fits s (Num p) -> fits s (Num q) -> (p = 0 /\ q = 0) \/ s = [].
  Proof. cbn. intros [-> |?] [-> |?]; eauto. Qed.
  Lemma py_add_denotes rho s a b va vb e : denotes rho s a va -> denotes rho s b vb -> py_add w a b = Some e ->
    denotes rho s e (fun c x => va c x + vb c x).
  Proof.
    intros Ha Hb He. destruct (is_num a) eqn:Na; [destruct (is_num b) eqn:Nb|].
    - destruct a, b; try done. injection He as <-. destruct Ha as (Hfa & _ & Hva), Hb as (Hfb & _ & Hvb).
      split_and!; [|done|].
      + destruct (fits_num_scalar _ _ _ Hfa Hfb) as [[-> ->]| ->]; [left; lra|by right].
      + intros c x Hc. rewrite <- Hva, <- Hvb by done. done.
    - apply (add_denotes rho s a b); try done. by destruct a, b.
    - apply (add_denotes rho s a b); try done. by destruct a, b.
  Qed.
  Lemma py_mul_denotes rho s1 s2 a b va vb e : denotes rho s1 a va -> denotes rho s2 b vb -> py_mul a b = Some e ->
    denotes rho (s1 ++ s2) e (vmul s1 va vb).
  Proof.
    intros Ha Hb He. destruct (is_num a) eqn:Na; [destruct (is_num b) eqn:Nb|].
    - destruct a as [p| | | | | | | | | | |]; try done. destruct b as [q| | | | | | | | | | |]; try done. injection He as <-. destruct Ha as (Hfa & _ & Hva), Hb as (Hfb & _ & Hvb).
      split_and!; [|done|].
      + cbn in *. destruct Hfa as [-> | ->]; [left; lra|]. destruct Hfb as [-> | ->]; [left; lra|by right].
      + intros c x Hc. rewrite app_length in Hc. unfold vmul.
        rewrite <- Hva by (rewrite take_length; lia). rewrite <- Hvb by (rewrite drop_length; lia). done.
    - apply (mul_denotes rho s1 s2 a b); try done. by destruct a, b.
    - apply (mul_denotes rho s1 s2 a b); try done. by destruct a, b.
  Qed.
  Lemma py_neg_denotes rho s a va e : denotes rho s a va -> py_neg a = Some e -> denotes rho s e (fun c x => - va c x).
  Proof.
    intros Ha He. destruct (is_num a) eqn:Na.
    - destruct a; try done. injection He as <-. destruct Ha as (Hfa & _ & Hva). split_and!; [|done|].
      + cbn in *. destruct Hfa as [-> |?]; [left; lra|by right].
      + intros c x Hc. rewrite <- Hva by done. done.
    - assert (mul (Num (-1)) a = Some e) as Hm by (by destruct a).
      eapply denotes_ext; [apply (mul_denotes rho [] s (Num (-1)) a _ va e (denotes_num rho (-1)) Ha Hm)|].
      intros c x Hc. unfold vmul. cbn [length]. rewrite drop_0. lra.
  Qed.
  Lemma py_sub_denotes rho s a b va vb e : denotes rho s a va -> denotes rho s b vb -> py_sub w a b = Some e ->
    denotes rho s e (fun c x => va c x - vb c x).
  Proof.
    intros Ha Hb He. destruct (is_num a && is_num b) eqn:Nab.
    - apply andb_prop in Nab as [Na Nb]. destruct a, b; try done. injection He as <-. destruct Ha as (Hfa & _ & Hva), Hb as (Hfb & _ & Hvb).
      split_and!; [|done|].
      + destruct (fits_num_scalar _ _ _ Hfa Hfb) as [[-> ->]| ->]; [left; lra|by right].
      + intros c x Hc. rewrite <- Hva, <- Hvb by done. done.
    - assert ((b' ← py_neg b; add w a b') = Some e) as He'. { destruct a, b; done. }
      destruct (py_neg b) as [b'|] eqn:Hn; [|done]. cbn in He'.
      eapply denotes_ext; [eapply (add_denotes rho s a b'); [done|by eapply py_neg_denotes|done]|].
      intros c x Hc. cbn. lra.
  Qed.
  Lemma Int_part_IZR z : Int_part (IZR z) = z.
  Proof.
    unfold Int_part. rewrite <- (tech_up (IZR z) (z + 1)); [lia| |]; rewrite plus_IZR; lra.
  Qed.
  Lemma pow_val_0 x : pow_val x 0 = 1.
  Proof.
    unfold pow_val, is_integer. replace (Int_part 0) with 0%Z.
    - destruct (Req_EM_T 0 0); [done|lra].
    - symmetry. apply (Int_part_IZR 0).
  Qed.
  Lemma pow_val_1 x : pow_val x 1 = x.
  Proof.
    unfold pow_val, is_integer. replace (Int_part 1) with 1%Z.
    - destruct (Req_EM_T 1 1); [apply powerRZ_1|lra].
    - symmetry. apply (Int_part_IZR 1).
  Qed.
  (** Zero to the power zero is one, of any signature: only for scalars or other exponents. *)
  Lemma py_pow_denotes rho s a va p e : denotes rho s a va -> (p = 0 -> s = []) -> py_pow a p = Some e ->
    denotes rho s e (fun c x => pow_val (va c x) p).
  Proof.
    intros Ha Hs. unfold py_pow. destruct (is_num a) eqn:Na; [done|].
    destruct (Req_EM_T p 0) as [->|Hp0].
    - rewrite (Hs eq_refl) in *. intros [= <-]. eapply denotes_ext; [apply denotes_num|]. intros c x Hc. cbn. by rewrite pow_val_0.
    - destruct (Req_EM_T p 1) as [->|Hp1].
      + intros [= <-]. eapply denotes_ext; [done|]. intros c x Hc. cbn. by rewrite pow_val_1.
      + intros He. by eapply power_denotes.
  Qed.
  Lemma py_sum2_denotes rho s a b va vb e : denotes rho s a va -> denotes rho s b vb -> py_sum w [a; b] = Some e ->
    denotes rho s e (fun c x => va c x + vb c x).
  Proof.
    intros Ha Hb. unfold py_sum. cbn [foldl mbind option_bind].
    destruct (py_add w (Num 0) a) as [a'|] eqn:Ea; [|done]. cbn. intros He.
    eapply denotes_ext.
    - eapply (py_add_denotes rho s a' b); [|done|done]. eapply (py_add_denotes rho s (Num 0) a); [apply denotes_zero|done|done].
    - intros c x Hc. cbn. lra.
  Qed.

  (** ** Replacing fields *)
  Lemma walk_denotes rho rho' onvar e e' : admissible I rho ->
    is_num e = false -> well_formed e ->
    (forall v, mentions v e -> denotes rho (var_sig w v) (onvar v) (rho' v)) ->
    walk w onvar e = Some e' ->
    denotes rho (esig w e) e' (sem rho' e).
  Proof using HL.
    intros Hadm. revert e'. induction e as [q|v|q s|a IHa b IHb|q a IHa|a IHa b IHb|i j a IHa b IHb|a IHa b IHb|a IHa|L a IHa|a IHa p|f a IHa]; intros e' Hn Hw Hv Hwalk; try done.
    - injection Hwalk as <-. by apply Hv.
    - injection Hwalk as <-. by split_and!.
    - destruct Hw as (Na & Nb & Hwa & Hwb & Hs). cbn in Hwalk.
      destruct (walk w onvar a) as [a'|] eqn:Ea; [|done]. destruct (walk w onvar b) as [b'|] eqn:Eb; [|done]. cbn in Hwalk.
      eapply (add_denotes rho (esig w a) a' b'); [apply IHa; try done; cbn in Hv; eauto|rewrite Hs; apply IHb; try done; cbn in Hv; eauto|done].
    - destruct Hw as (Na & Hwa). cbn in Hwalk. destruct (walk w onvar a) as [a'|] eqn:Ea; [|done]. cbn in Hwalk.
      eapply denotes_ext; [eapply (mul_denotes rho [] (esig w a) (Num q) a'); [apply denotes_num|by apply IHa|done]|].
      intros c x Hc. done.
    - destruct Hw as (Na & Nb & Hwa & Hwb). cbn in Hwalk.
      destruct (walk w onvar a) as [a'|] eqn:Ea; [|done]. destruct (walk w onvar b) as [b'|] eqn:Eb; [|done]. cbn in Hwalk.
      eapply (mul_denotes rho _ _ a' b'); [apply IHa; try done; cbn in Hv; eauto|apply IHb; try done; cbn in Hv; eauto|done].
    - destruct Hw as (Na & Nb & Hwa & Hwb & Hi & Hj). cbn in Hwalk.
      destruct (walk w onvar a) as [a'|] eqn:Ea; [|done]. destruct (walk w onvar b) as [b'|] eqn:Eb; [|done]. cbn in Hwalk.
      eapply (dot_denotes rho _ _ i j a' b'); [apply IHa; try done; cbn in Hv; eauto|apply IHb; try done; cbn in Hv; eauto|done..].
    - destruct Hw as (Na & Nb & Hwa & Hwb & cs & Hsa & Hsb & Hd). cbn in Hwalk.
      destruct (walk w onvar a) as [a'|] eqn:Ea; [|done]. destruct (walk w onvar b) as [b'|] eqn:Eb; [|done]. cbn in Hwalk.
      cbn [esig]. rewrite Hsa.
      eapply denotes_ext; [eapply (cross_denotes rho cs a' b'); [rewrite <- Hsa; apply IHa; try done; cbn in Hv; eauto|rewrite <- Hsb; apply IHb; try done; cbn in Hv; eauto|done..]|].
      intros c x Hc. cbn [Expressions_Spec.sem]. rewrite Hsa. done.
    - destruct Hw as (Na & Hwa). by apply IHa.
    - destruct Hw as (Na & Hwa). cbn in Hwalk. destruct (walk w onvar a) as [a'|] eqn:Ea; [|done]. cbn in Hwalk.
      destruct (lin_denotes rho L (esig w a) a' (sem rho' a) e' Hadm (IHa a' Na Hwa Hv eq_refl) Hwalk) as [Hd Ho].
      eapply denotes_ext; [done|]. intros c x Hc. cbn. by rewrite Ho.
    - destruct Hw as (Na & Hwa). cbn in Hwalk. destruct (walk w onvar a) as [a'|] eqn:Ea; [|done]. cbn in Hwalk.
      by eapply (power_denotes rho _ a'); [apply IHa|].
    - destruct Hw as (Na & Hwa). cbn in Hwalk. destruct (walk w onvar a) as [a'|] eqn:Ea; [|done]. cbn in Hwalk.
      by eapply (ufun_denotes rho _ a'); [apply IHa|].
  Qed.
End Values.
