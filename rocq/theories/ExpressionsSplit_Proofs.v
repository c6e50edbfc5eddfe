(** [split]: values and contents of its two parts. *)
From Coq Require Import Reals Lra.
From stdpp Require Import numbers list.
From Verif Require Import Expressions_Model Expressions_Spec Expressions_Proofs.
Local Open Scope R_scope.

Lemma filter_bool {A} (f : A -> bool) (l : list A) : filter (fun c => f c = true) l = List.filter f l.
Proof.
  induction l as [|a l IH]; [done|]. cbn [List.filter]. destruct (f a) eqn:E.
  - rewrite filter_cons_True by done. by rewrite IH.
  - rewrite filter_cons_False by congruence. done.
Qed.

Section Split.
  Context (w : world) (I : interp) (HL : lawful w I).
  Notation sem := (sem w I).
  Notation denotes := (denotes w I).
  Notation fits := (fits w).
  Notation well_formed := (well_formed w).

  Lemma py_sum_acc rho s l vs acc va e : denotes rho s acc va -> Forall2 (denotes rho s) l vs ->
    foldl (fun acc e => a ← acc; py_add w a e) (Some acc) l = Some e ->
    denotes rho s e (fun c x => va c x + sum_list (map (fun v => v c x) vs)).
  Proof.
    intros Ha Hl. revert acc va Ha. induction Hl as [|b vb l vs Hb Hl IH]; intros acc va Ha He; cbn [foldl mbind option_bind] in He.
    - injection He as <-. eapply denotes_ext; [done|]. intros c x Hc. cbn. lra.
    - destruct (py_add w acc b) as [acc'|] eqn:E.
      + eapply denotes_ext; [exact (IH acc' _ (py_add_denotes w I rho s acc b va vb acc' Ha Hb E) He)|]. intros c x Hc. unfold sum_list. cbn. lra.
      + exfalso. clear -He. induction l; cbn in He; [done|by apply IHl].
  Qed.
  Lemma py_sum_denotes rho s l vs e : Forall2 (denotes rho s) l vs -> py_sum w l = Some e ->
    denotes rho s e (fun c x => sum_list (map (fun v => v c x) vs)).
  Proof.
    intros Hl He. eapply denotes_ext; [eapply py_sum_acc; [apply denotes_zero|done|done]|]. intros c x Hc. cbn. lra.
  Qed.

  Local Opaque py_sum.
  Section Product.
    Context (rho : data I) (s1 s2 s : sig) (op : expr -> expr -> option expr)
      (vop : (list nat -> point I -> R) -> (list nat -> point I -> R) -> list nat -> point I -> R)
      (Hop : forall a b va vb e, denotes rho s1 a va -> denotes rho s2 b vb -> op a b = Some e -> denotes rho s e (vop va vb))
      (Hz1 : forall va vb c x, (forall c x, length c = length s1 -> va c x = 0) -> length c = length s -> vop va vb c x = 0)
      (Hz2 : forall va vb c x, (forall c x, length c = length s2 -> vb c x = 0) -> length c = length s -> vop va vb c x = 0).
    Lemma falsy_zero s' e v : denotes rho s' e v -> truthy e = false -> forall c x, length c = length s' -> v c x = 0.
    Proof.
      intros (_ & _ & Hv) Ht c x Hc. unfold truthy in Ht. apply negb_false_iff, is_zero_spec in Ht as ->. by rewrite <- Hv.
    Qed.
    Lemma product_split_denotes p0 n0 p1 n1 vp0 vn0 vp1 vn1 p n :
      denotes rho s1 p0 vp0 -> denotes rho s1 n0 vn0 -> denotes rho s2 p1 vp1 -> denotes rho s2 n1 vn1 ->
      product_split w op (p0, n0) (p1, n1) = Some (p, n) ->
      denotes rho s p (fun c x => vop vp0 vp1 c x + vop vp0 vn1 c x + vop vn0 vp1 c x) /\ denotes rho s n (vop vn0 vn1).
    Proof using Hop Hz1 Hz2.
      intros Hp0 Hn0 Hp1 Hn1 H. unfold product_split in H. cbn [fst snd] in H.
      pose proof (falsy_zero _ _ _ Hp0) as Zp0. pose proof (falsy_zero _ _ _ Hn0) as Zn0.
      pose proof (falsy_zero _ _ _ Hp1) as Zp1. pose proof (falsy_zero _ _ _ Hn1) as Zn1.
      assert (forall c x, truthy p0 = false -> length c = length s -> vop vp0 vp1 c x = 0 /\ vop vp0 vn1 c x = 0) as Z1.
      { intros c x Ht Hc. split; apply Hz1; auto. }
      assert (forall c x, truthy n0 = false -> length c = length s -> vop vn0 vp1 c x = 0 /\ vop vn0 vn1 c x = 0) as Z2.
      { intros c x Ht Hc. split; apply Hz1; auto. }
      assert (forall c x, truthy p1 = false -> length c = length s -> vop vp0 vp1 c x = 0 /\ vop vn0 vp1 c x = 0) as Z3.
      { intros c x Ht Hc. split; apply Hz2; auto. }
      assert (forall c x, truthy n1 = false -> length c = length s -> vop vp0 vn1 c x = 0 /\ vop vn0 vn1 c x = 0) as Z4.
      { intros c x Ht Hc. split; apply Hz2; auto. }
      destruct (truthy p0) eqn:T1, (truthy n0) eqn:T2, (truthy p1) eqn:T3, (truthy n1) eqn:T4;
        rewrite filter_bool in H; cbn [List.filter fst snd] in H; rewrite ?T1, ?T2, ?T3, ?T4 in H; cbn in H;
        repeat match type of H with context [mbind _ (op ?a ?b)] =>
          let E := fresh "E" in destruct (op a b) eqn:E; cbn in H; [|discriminate H] end;
        repeat match type of H with context [mbind _ (py_sum w ?l)] =>
          let E := fresh "E" in destruct (py_sum w l) eqn:E; cbn in H; [|discriminate H] end;
        (injection H as <- <-);
        (split; [eapply denotes_ext; [eapply py_sum_denotes; [|eassumption]; repeat (constructor; [eapply Hop; [| |eassumption]; eassumption|]); constructor|]
                |eapply denotes_ext; [first [eapply Hop; [| |eassumption]; eassumption | apply denotes_zero]|]]);
        intros c x Hc; cbn;
        repeat match goal with Z : forall _ _, false = false -> _ |- _ => let A := fresh in let B := fresh in destruct (Z c x eq_refl Hc) as [A B]; rewrite ?A, ?B; clear Z end; try lra.
    Qed.
  End Product.

  Lemma take_drop_len s1 s2 (c : list nat) : length c = length (s1 ++ s2 : sig) -> length (take (length s1) c) = length s1 /\ length (drop (length s1) c) = length s2.
  Proof. intros Hc. rewrite app_length in Hc. rewrite take_length, drop_length. lia. Qed.
  Lemma dot_len s1 s2 i j (c : list nat) m : (i < length s1)%nat -> (j < length s2)%nat -> length c = length (delete i s1 ++ delete j s2 : sig) ->
    length (insert_index i m (take (length s1 - 1) c)) = length s1 /\ length (insert_index j m (drop (length s1 - 1) c)) = length s2.
  Proof.
    intros Hi Hj Hc. rewrite app_length, !delete_length in Hc by done.
    split; apply insert_index_length; try done; rewrite ?take_length, ?drop_length; lia.
  Qed.
  Lemma vmul_distr s1 s2 va vb va1 va2 vb1 vb2 c (x : point I) :
    (forall c x, length c = length s1 -> va c x = va1 c x + va2 c x) -> (forall c x, length c = length s2 -> vb c x = vb1 c x + vb2 c x) ->
    length c = length (s1 ++ s2) ->
    vmul I s1 va vb c x = vmul I s1 va1 vb1 c x + vmul I s1 va1 vb2 c x + vmul I s1 va2 vb1 c x + vmul I s1 va2 vb2 c x.
  Proof. intros Ha Hb Hc. apply take_drop_len in Hc as [H1 H2]. unfold vmul. rewrite Ha, Hb by done. lra. Qed.
  Lemma vdot_distr s1 s2 i j va vb va1 va2 vb1 vb2 c (x : point I) : (i < length s1)%nat -> (j < length s2)%nat ->
    (forall c x, length c = length s1 -> va c x = va1 c x + va2 c x) -> (forall c x, length c = length s2 -> vb c x = vb1 c x + vb2 c x) ->
    length c = length (delete i s1 ++ delete j s2) ->
    vdot w I s1 i j va vb c x = vdot w I s1 i j va1 vb1 c x + vdot w I s1 i j va1 vb2 c x + vdot w I s1 i j va2 vb1 c x + vdot w I s1 i j va2 vb2 c x.
  Proof.
    intros Hi Hj Ha Hb Hc. unfold vdot. rewrite <- !sum_list_plus. apply sum_list_ext. intros m _.
    destruct (dot_len s1 s2 i j c m Hi Hj Hc). rewrite Ha, Hb by done. lra.
  Qed.
  Lemma vcross_distr cs va vb va1 va2 vb1 vb2 c (x : point I) :
    (forall c x, length c = 1%nat -> va c x = va1 c x + va2 c x) -> (forall c x, length c = 1%nat -> vb c x = vb1 c x + vb2 c x) ->
    vcross I cs va vb c x = vcross I cs va1 vb1 c x + vcross I cs va1 vb2 c x + vcross I cs va2 vb1 c x + vcross I cs va2 vb2 c x.
  Proof.
    intros Ha Hb. unfold vcross. rewrite !Ha, !Hb by done.
    destruct (right_handed I cs), c as [|[|[|[|]]] []]; lra.
  Qed.
  Lemma vlin_plus L s va vb (c : list nat) (x : point I) : vlin I L s (fun c x => va c x + vb c x) c x = vlin I L s va c x + vlin I L s vb c x.
  Proof. unfold vlin. rewrite <- sum_list_plus. apply sum_list_ext. intros t _. lra. Qed.

  (** The parts have the signature of the expression, and its value is the sum of theirs. *)
  Definition splits (rho : data I) (e p n : expr) : Prop :=
    exists vp vn, denotes rho (esig w e) p vp /\ denotes rho (esig w e) n vn /\
      forall c x, length c = length (esig w e) -> sem rho e c x = vp c x + vn c x.

  Lemma denotes_self' rho s e : is_num e = false -> well_formed e -> esig w e = s -> denotes rho s e (sem rho e).
  Proof. intros Hn Hw <-. by apply denotes_self. Qed.
  Lemma whole_left rho e : is_num e = false -> well_formed e -> splits rho e e (Num 0).
  Proof. intros Hn Hw. exists (sem rho e), (fun _ _ => 0). split_and!; [by apply denotes_self|apply denotes_zero|]. intros. lra. Qed.
  Lemma whole_right rho e : is_num e = false -> well_formed e -> splits rho e (Num 0) e.
  Proof. intros Hn Hw. exists (fun _ _ => 0), (sem rho e). split_and!; [apply denotes_zero|by apply denotes_self|]. intros. lra. Qed.

  Lemma split_splits rho keys e p n : admissible I rho -> is_num e = false -> well_formed e -> split w keys e = Some (p, n) -> splits rho e p n.
  Proof using HL.
    intros Hadm. revert p n. induction e as [q|v|q s|a IHa b IHb|q a IHa|a IHa b IHb|i j a IHa b IHb|a IHa b IHb|a IHa|L a IHa|a IHa pw|f a IHa]; intros p n Hn Hw Hs; try done.
    - cbn in Hs. destruct (var_in v keys); injection Hs as <- <-; [by apply whole_left|by apply whole_right].
    - injection Hs as <- <-. by apply whole_right.
    - destruct Hw as (Na & Nb & Hwa & Hwb & Hsig). cbn [split] in Hs.
      destruct (split w keys a) as [[pa na]|] eqn:Ea; [|done]. destruct (split w keys b) as [[pb nb]|] eqn:Eb; [|done].
      cbn [mbind option_bind fst snd] in Hs.
      destruct (IHa pa na) as (vpa & vna & Hpa & Hna & Hva); [done..|]. destruct (IHb pb nb) as (vpb & vnb & Hpb & Hnb & Hvb); [done..|].
      rewrite <- Hsig in *.
      destruct (py_sum w [pa; pb]) as [p'|] eqn:Sp; [|done]. destruct (py_sum w [na; nb]) as [n'|] eqn:Sn; [|done]. cbn in Hs. injection Hs as <- <-.
      eexists _, _. split_and!.
      + eapply (py_sum2_denotes w I rho (esig w a) pa pb); done.
      + eapply (py_sum2_denotes w I rho (esig w a) na nb); done.
      + intros c x Hc. cbn. rewrite Hva, Hvb by done. lra.
    - destruct Hw as (Na & Hwa). cbn [split] in Hs.
      destruct (split w keys a) as [[pa na]|] eqn:Ea; [|done]. cbn [mbind option_bind] in Hs.
      destruct (IHa pa na) as (vpa & vna & Hpa & Hna & Hva); [done..|].
      destruct (product_split_denotes rho [] (esig w a) (esig w a) mul (vmul I [])) with (1 := mul_denotes w I rho [] (esig w a)) (4 := denotes_zero w I rho []) (5 := denotes_num w I rho q) (6 := Hpa) (7 := Hna) (8 := Hs) as [Hp Hn'].
      { intros va vb c x Hz Hc. unfold vmul. rewrite Hz by done. lra. }
      { intros va vb c x Hz Hc. unfold vmul. rewrite (Hz (drop _ _)) by done. lra. }
      eexists _, _. split_and!; [done|done|]. intros c x Hc. cbn. rewrite Hva by done. unfold vmul. cbn [length]. rewrite drop_0. lra.
    - destruct Hw as (Na & Nb & Hwa & Hwb). cbn [split] in Hs.
      destruct (split w keys a) as [[pa na]|] eqn:Ea; [|done]. destruct (split w keys b) as [[pb nb]|] eqn:Eb; [|done].
      cbn [mbind option_bind] in Hs.
      destruct (IHa pa na) as (vpa & vna & Hpa & Hna & Hva); [done..|]. destruct (IHb pb nb) as (vpb & vnb & Hpb & Hnb & Hvb); [done..|].
      destruct (product_split_denotes rho (esig w a) (esig w b) (esig w a ++ esig w b) mul (vmul I (esig w a))) with (1 := mul_denotes w I rho (esig w a) (esig w b)) (4 := Hpa) (5 := Hna) (6 := Hpb) (7 := Hnb) (8 := Hs) as [Hp Hn'].
      { intros va vb c x Hz Hc. unfold vmul. rewrite Hz by (by eapply take_drop_len). lra. }
      { intros va vb c x Hz Hc. unfold vmul. rewrite (Hz (drop _ _)) by (by eapply take_drop_len). lra. }
      eexists _, _. split_and!; [done|done|]. intros c x Hc. cbn [esig] in Hc.
      change (vmul I (esig w a) (sem rho a) (sem rho b) c x = vmul I (esig w a) vpa vpb c x + vmul I (esig w a) vpa vnb c x + vmul I (esig w a) vna vpb c x + vmul I (esig w a) vna vnb c x).
      by apply (vmul_distr (esig w a) (esig w b)).
    - destruct Hw as (Na & Nb & Hwa & Hwb & Hi & Hj). cbn [split] in Hs.
      destruct (split w keys a) as [[pa na]|] eqn:Ea; [|done]. destruct (split w keys b) as [[pb nb]|] eqn:Eb; [|done].
      cbn [mbind option_bind] in Hs.
      destruct (IHa pa na) as (vpa & vna & Hpa & Hna & Hva); [done..|]. destruct (IHb pb nb) as (vpb & vnb & Hpb & Hnb & Hvb); [done..|].
      destruct (product_split_denotes rho (esig w a) (esig w b) (delete i (esig w a) ++ delete j (esig w b)) (dot w i j) (vdot w I (esig w a) i j)) with (4 := Hpa) (5 := Hna) (6 := Hpb) (7 := Hnb) (8 := Hs) as [Hp Hn'].
      { intros x y vx vy e' Hx Hy He. by eapply dot_denotes. }
      { intros va vb c x Hz Hc. apply sum_list_zero. intros m _. rewrite Hz by (by eapply (dot_len _ _ i j)). lra. }
      { intros va vb c x Hz Hc. apply sum_list_zero. intros m _. rewrite (Hz (insert_index j _ _)) by (by eapply (dot_len _ _ i j)). lra. }
      eexists _, _. split_and!; [done|done|]. intros c x Hc. cbn [esig] in Hc.
      change (vdot w I (esig w a) i j (sem rho a) (sem rho b) c x = vdot w I (esig w a) i j vpa vpb c x + vdot w I (esig w a) i j vpa vnb c x + vdot w I (esig w a) i j vna vpb c x + vdot w I (esig w a) i j vna vnb c x).
      by apply (vdot_distr (esig w a) (esig w b)).
    - destruct Hw as (Na & Nb & Hwa & Hwb & cs & Hsa & Hsb & Hd). cbn [split] in Hs.
      destruct (split w keys a) as [[pa na]|] eqn:Ea; [|done]. destruct (split w keys b) as [[pb nb]|] eqn:Eb; [|done].
      cbn [mbind option_bind] in Hs.
      destruct (IHa pa na) as (vpa & vna & Hpa & Hna & Hva); [done..|]. destruct (IHb pb nb) as (vpb & vnb & Hpb & Hnb & Hvb); [done..|].
      rewrite Hsa in *. rewrite Hsb in *.
      destruct (product_split_denotes rho [cs] [cs] [cs] (cross w) (vcross I cs)) with (4 := Hpa) (5 := Hna) (6 := Hpb) (7 := Hnb) (8 := Hs) as [Hp Hn'].
      { intros x y vx vy e' Hx Hy He. by eapply cross_denotes. }
      { intros va vb c x Hz Hc. apply vcross_zero. left. intros k. by apply Hz. }
      { intros va vb c x Hz Hc. apply vcross_zero. right. intros k. by apply Hz. }
      unfold splits. cbn [esig]. rewrite Hsa.
      eexists _, _. split_and!; [done|done|]. intros c x Hc. cbn [Expressions_Spec.sem]. rewrite Hsa. cbn [nth].
      change (vcross I cs (sem rho a) (sem rho b) c x = vcross I cs vpa vpb c x + vcross I cs vpa vnb c x + vcross I cs vna vpb c x + vcross I cs vna vnb c x).
      by apply vcross_distr.
    - cbn [split] in Hs. destruct (class_in (Conv a) keys); [injection Hs as <- <-; by apply whole_left|].
      destruct Hw as (Na & Hwa). by apply IHa.
    - cbn [split] in Hs. destruct (class_in (Lin L a) keys); [injection Hs as <- <-; by apply whole_left|].
      destruct Hw as (Na & Hwa). destruct (split w keys a) as [[pa na]|] eqn:Ea; [|done]. cbn [mbind option_bind fst snd] in Hs.
      destruct (IHa pa na) as (vpa & vna & Hpa & Hna & Hva); [done..|].
      destruct (lin w L pa) as [p'|] eqn:Lp; [|done]. destruct (lin w L na) as [n'|] eqn:Ln; [|done]. cbn in Hs. injection Hs as <- <-.
      destruct (lin_denotes w I HL rho L _ _ _ _ Hadm Hpa Lp) as [Hp Ho], (lin_denotes w I HL rho L _ _ _ _ Hadm Hna Ln) as [Hn' _].
      eexists _, _. split_and!; [done|done|]. intros c x Hc. rewrite <- vlin_plus. cbn. rewrite Ho. by apply (vlin_ext w I HL).
    - cbn [split] in Hs. destruct (has keys (Pow a pw)); injection Hs as <- <-; [by apply whole_left|by apply whole_right].
    - cbn [split] in Hs. destruct (has keys (Fun f a)); injection Hs as <- <-; [by apply whole_left|by apply whole_right].
  Qed.
End Split.

(** ** What the parts contain *)
Section Contents.
  Context (w : world) (keys : list key) (Hk : keys <> []) (Hp : Forall proper_key keys).

  Lemma var_in_spec v : var_in v keys = true <-> exists k, In k keys /\ contains k (Var v).
  Proof using.
    clear Hk Hp. induction keys as [|k ks IH]; cbn; [split; [done|by intros (? & ? & ?)]|].
    destruct k as [y|T]; cbn.
    - rewrite orb_true_iff, bool_decide_eq_true, IH. split.
      + intros [->|(k & Hin & Hc)]; [by exists (KVar y); split; [left|]|by exists k; split; [right|]].
      + intros (k & [<-|Hin] & Hc); [by left|right; by exists k].
    - rewrite IH. split.
      + intros (k & Hin & Hc); by exists k; split; [right|].
      + intros (k & [<-|Hin] & Hc); [done|by exists k].
  Qed.
  Lemma type_in_spec c : type_in c keys = true <-> exists T, In (KType T) keys /\ T c = true.
  Proof using.
    clear Hk Hp. induction keys as [|k ks IH]; cbn; [split; [done|by intros (? & ? & ?)]|].
    destruct k as [y|T]; cbn.
    - rewrite IH. split; [intros (T & Hin & Hc); by exists T; split; [right|]|intros (T & [?|Hin] & Hc); [done|by exists T]].
    - rewrite orb_true_iff, IH. split.
      + intros [Hc|(T' & Hin & Hc)]; [by exists T; split; [left|]|by exists T'; split; [right|]].
      + intros (T' & [[= <-]|Hin] & Hc); [by left|right; by exists T'].
  Qed.
  Lemma ex_or {A} (P Q S : A -> Prop) : (exists k, P k /\ (Q k \/ S k)) <-> (exists k, P k /\ Q k) \/ (exists k, P k /\ S k).
  Proof using. clear. firstorder. Qed.
  (** [has] finds exactly the keys. *)
  Lemma has_spec e : has keys e = true <-> exists k, In k keys /\ contains k e.
  Proof using Hk.
    clear Hp. induction e as [q|v|q s|a IHa b IHb|q a IHa|a IHa b IHb|i j a IHa b IHb|a IHa b IHb|a IHa|L a IHa|a IHa pw|f a IHa].
    - cbn. split; [done|]. intros (k & _ & Hc). by destruct k.
    - cbn [has]. transitivity (var_in v keys = true); [by destruct keys|]. apply var_in_spec.
    - cbn. split; [by destruct keys|]. intros (k & _ & Hc). by destruct k.
    - cbn [has class_in class]. rewrite !orb_true_iff, type_in_spec, IHa, IHb. split.
      + intros [[(T & Hin & HT)|(k & Hin & Hc)]|(k & Hin & Hc)]; [by exists (KType T); split; [|left]|exists k; split; [done|destruct k; cbn; eauto]..].
      + intros (k & Hin & Hc). destruct k; cbn in Hc; [destruct Hc; eauto|destruct Hc as [|[|]]; eauto].
    - cbn [has class_in class]. rewrite !orb_true_iff, type_in_spec, IHa. split.
      + intros [(T & Hin & HT)|(k & Hin & Hc)]; [by exists (KType T); split; [|left]|exists k; split; [done|destruct k; cbn; eauto]].
      + intros (k & Hin & Hc). destruct k; cbn in Hc; [eauto|destruct Hc; eauto].
    - cbn [has class_in class]. rewrite !orb_true_iff, type_in_spec, IHa, IHb. split.
      + intros [[(T & Hin & HT)|(k & Hin & Hc)]|(k & Hin & Hc)]; [by exists (KType T); split; [|left]|exists k; split; [done|destruct k; cbn; eauto]..].
      + intros (k & Hin & Hc). destruct k; cbn in Hc; [destruct Hc; eauto|destruct Hc as [|[|]]; eauto].
    - cbn [has class_in class]. rewrite !orb_true_iff, type_in_spec, IHa, IHb. split.
      + intros [[(T & Hin & HT)|(k & Hin & Hc)]|(k & Hin & Hc)]; [by exists (KType T); split; [|left]|exists k; split; [done|destruct k; cbn; eauto]..].
      + intros (k & Hin & Hc). destruct k; cbn in Hc; [destruct Hc; eauto|destruct Hc as [|[|]]; eauto].
    - cbn [has class_in class]. rewrite !orb_true_iff, type_in_spec, IHa, IHb. split.
      + intros [[(T & Hin & HT)|(k & Hin & Hc)]|(k & Hin & Hc)]; [by exists (KType T); split; [|left]|exists k; split; [done|destruct k; cbn; eauto]..].
      + intros (k & Hin & Hc). destruct k; cbn in Hc; [destruct Hc; eauto|destruct Hc as [|[|]]; eauto].
    - cbn [has class_in class]. rewrite !orb_true_iff, type_in_spec, IHa. split.
      + intros [(T & Hin & HT)|(k & Hin & Hc)]; [by exists (KType T); split; [|left]|exists k; split; [done|destruct k; cbn; eauto]].
      + intros (k & Hin & Hc). destruct k; cbn in Hc; [eauto|destruct Hc; eauto].
    - cbn [has class_in class]. rewrite !orb_true_iff, type_in_spec, IHa. split.
      + intros [(T & Hin & HT)|(k & Hin & Hc)]; [by exists (KType T); split; [|left]|exists k; split; [done|destruct k; cbn; eauto]].
      + intros (k & Hin & Hc). destruct k; cbn in Hc; [eauto|destruct Hc; eauto].
    - cbn [has class_in class]. rewrite !orb_true_iff, type_in_spec, IHa. split.
      + intros [(T & Hin & HT)|(k & Hin & Hc)]; [by exists (KType T); split; [|left]|exists k; split; [done|destruct k; cbn; eauto]].
      + intros (k & Hin & Hc). destruct k; cbn in Hc; [eauto|destruct Hc; eauto].
    - cbn [has class_in class]. rewrite !orb_true_iff, type_in_spec, IHa. split.
      + intros [(T & Hin & HT)|(k & Hin & Hc)]; [by exists (KType T); split; [|left]|exists k; split; [done|destruct k; cbn; eauto]].
      + intros (k & Hin & Hc). destruct k; cbn in Hc; [eauto|destruct Hc; eauto].
  Qed.

  Lemma proper_classes c : (c = CAdd \/ c = CMul \/ c = CDot \/ c = CCross \/ c = CConv) -> type_in c keys = false.
  Proof using Hp.
    intros Hc. destruct (type_in c keys) eqn:E; [|done]. exfalso. apply type_in_spec in E as (T & Hin & HT).
    rewrite Forall_forall in Hp. specialize (Hp (KType T)). assert (proper_key (KType T)) as (H1 & H2 & H3 & H4 & H5) by (apply Hp; by apply elem_of_list_In).
    destruct Hc as [->|[->|[->|[->| ->]]]]; congruence.
  Qed.
  Lemma has_add a b : has keys (AddE a b) = has keys a || has keys b.
  Proof using Hp. cbn. unfold class_in. cbn. by rewrite proper_classes by auto. Qed.
  Lemma has_mul a b : has keys (MulE a b) = has keys a || has keys b.
  Proof using Hp. cbn. unfold class_in. cbn. by rewrite proper_classes by auto. Qed.
  Lemma has_muln q a : has keys (MulN q a) = has keys a.
  Proof using Hp. cbn. unfold class_in. cbn. by rewrite proper_classes by auto. Qed.
  Lemma has_dot i j a b : has keys (Dot i j a b) = has keys a || has keys b.
  Proof using Hp. cbn. unfold class_in. cbn. by rewrite proper_classes by auto. Qed.
  Lemma has_cross a b : has keys (Cross a b) = has keys a || has keys b.
  Proof using Hp. cbn. unfold class_in. cbn. by rewrite proper_classes by auto. Qed.
  Lemma has_conv a : has keys (Conv a) = has keys a.
  Proof using Hp. cbn. unfold class_in. cbn. by rewrite proper_classes by auto 10. Qed.
  Lemma has_convert n a : has keys (convert n a) = has keys a.
  Proof using Hp. revert a; induction n as [|n IH]; intros a; [done|]. cbn [convert]. by rewrite IH, has_conv. Qed.
  Lemma has_cast s e e' : cast w s e = Some e' -> has keys e' = has keys e.
  Proof using Hk.
    clear Hp. intros H. destruct e; cbn in H; try (destruct (decide _); [|done]; by injection H as <-).
    injection H as <-. cbn. by destruct keys.
  Qed.
  Lemma summands_convert n a : summands (convert n a) = summands a.
  Proof using. clear. revert a; induction n as [|n IH]; intros a; [done|]. cbn [convert]. by rewrite IH. Qed.

  (** What [Add] returns. *)
  Lemma add_cases a b e : add w a b = Some e ->
    (a = Num 0 /\ e = b) \/ (b = Num 0 /\ e = a) \/ (exists p q, a = Num p /\ b = Num q /\ e = Num (p + q)) \/
    (exists s a' b' n m, cast w s a = Some a' /\ cast w s b = Some b' /\ (is_num a = false \/ is_num b = false) /\
       is_zero a = false /\ is_zero b = false /\ e = AddE (convert n a') (convert m b')).
  Proof using.
    clear Hk Hp. unfold add. destruct (is_zero a) eqn:Za.
    - apply is_zero_spec in Za as ->. rewrite filter_cons_False by (cbn; by destruct (Req_EM_T 0 0)).
      destruct (is_zero b) eqn:Zb.
      + apply is_zero_spec in Zb as ->. rewrite filter_cons_False by (cbn; by destruct (Req_EM_T 0 0)).
        cbn. intros [= <-]. by left.
      + rewrite filter_cons_True by done. intros [= <-]. by left.
    - rewrite filter_cons_True by done. destruct (is_zero b) eqn:Zb.
      + apply is_zero_spec in Zb as ->. rewrite filter_cons_False by (cbn; by destruct (Req_EM_T 0 0)).
        intros [= <-]. by right; left.
      + rewrite filter_cons_True by done. cbn [filter list_filter].
        destruct (operand_sig w [a; b]) as [s|] eqn:Hs.
        * destruct (cast w s a) as [a'|] eqn:Ca; [|done]. destruct (cast w s b) as [b'|] eqn:Cb; [|done]. cbn. intros [= <-].
          do 3 right. eexists s, a', b', _, _. split_and!; try done.
          destruct (is_num a) eqn:Na; [|by left]. right. destruct (is_num b) eqn:Nb; [|done].
          unfold operand_sig in Hs. by rewrite !filter_cons_False in Hs by congruence.
        * unfold operand_sig in Hs. destruct (is_num a) eqn:Na; [|by rewrite filter_cons_True in Hs].
          rewrite filter_cons_False in Hs by congruence. destruct (is_num b) eqn:Nb; [|by rewrite filter_cons_True in Hs].
          destruct a as [p| | | | | | | | | | |]; try done. destruct b as [q| | | | | | | | | | |]; try done. cbn. intros [= <-].
          do 2 right; left. exists p, q. split_and!; try done. f_equal. lra.
  Qed.

  Definition free (e : expr) : Prop := has keys e = false.
  Lemma add_free a b e : free a -> free b -> add w a b = Some e -> free e.
  Proof using Hk Hp.
    unfold free. intros Ha Hb He. destruct (add_cases a b e He) as [(-> & ->)|[(-> & ->)|[(p & q & -> & -> & ->)|(s & a' & b' & n & m & Ca & Cb & _ & _ & _ & ->)]]]; try done.
    rewrite has_add, !has_convert, (has_cast _ _ _ Ca), (has_cast _ _ _ Cb), Ha, Hb. done.
  Qed.
  Lemma py_add_free a b e : free a -> free b -> py_add w a b = Some e -> free e.
  Proof using Hk Hp. intros Ha Hb He. destruct a, b; try (by eapply (add_free _ _ _ Ha Hb)). by injection He as <-. Qed.
  Lemma mul_free a b e : free a -> free b -> mul a b = Some e -> free e.
  Proof using Hp.
    unfold free. intros Ha Hb He. destruct (mul_cases a b e He) as [(-> & -> & ->)|[(-> & ->)|[(-> & ->)|[(_ & ->)|[(q & Nb & -> & Hq & ->)|[(q & Na & -> & Hq & ->)|[(p & q & -> & -> & _ & _ & ->)|(Na & Nb & ->)]]]]]]]; try done.
    - by rewrite has_muln.
    - by rewrite has_muln.
    - by rewrite has_mul, Ha, Hb.
  Qed.
  Lemma dot_free i j a b e : free a -> free b -> dot w i j a b = Some e -> free e.
  Proof using Hp.
    unfold free, dot. intros Ha Hb He. destruct (is_zero a || is_zero b); [by injection He as <-|]. destruct (is_num a || is_num b); [done|].
    destruct (decide _); [|done]. injection He as <-. by rewrite has_dot, Ha, Hb.
  Qed.
  Lemma cross_free a b e : free a -> free b -> cross w a b = Some e -> free e.
  Proof using Hp.
    unfold free, cross. intros Ha Hb He. destruct (is_zero a || is_zero b); [by injection He as <-|]. destruct (is_num a || is_num b); [done|].
    destruct (esig w a) as [|cs [|]], (esig w b) as [|cs' [|]]; try done. destruct (decide _); [|done]. injection He as <-. by rewrite has_cross, Ha, Hb.
  Qed.
  Lemma lin_cases L a e : lin w L a = Some e -> (exists q, a = Num q /\ (e = Num q \/ e = Num 0)) \/ (is_num a = false /\ (e = Num 0 \/ e = Lin L a)).
  Proof using.
    clear Hk Hp. intros He. destruct (is_num a) eqn:Na.
    - left. destruct a as [q| | | | | | | | | | |]; try done. exists q. split; [done|]. unfold lin in He. destruct (rule w L); try done; try (injection He as <-; eauto).
      destruct (is_zero (Num q)); [|done]. injection He as <-. eauto.
    - right. split; [done|]. destruct a; try done; unfold lin in He; destruct (rule w L); try done; destruct (vanishes w L _); injection He as <-; eauto.
  Qed.

  Definition carries (e : expr) : Prop := e = Num 0 \/ (is_num e = false /\ forall t, In t (summands e) -> has keys t = true).
  Lemma summands_nonempty e : exists t, In t (summands e).
  Proof using. clear. induction e as [q|v|q s|a IHa b IHb|q a IHa|a IHa b IHb|i j a IHa b IHb|a IHa b IHb|a IHa|L a IHa|a IHa pw|f a IHa]; cbn; eauto.
    destruct IHa as [t Ht]. exists t. apply in_or_app. by left. Qed.
  Lemma summand_has e t : In t (summands e) -> has keys t = true -> has keys e = true.
  Proof using.
    clear Hk Hp. induction e as [q|v|q s|a IHa b IHb|q a IHa|a IHa b IHb|i j a IHa b IHb|a IHa b IHb|a IHa|L a IHa|a IHa pw|f a IHa]; cbn [summands]; intros Hin Ht;
      try (destruct Hin as [<-|[]]; exact Ht).
    - apply in_app_or in Hin as [Hin|Hin]; cbn; rewrite !orb_true_iff; auto.
    - cbn; rewrite !orb_true_iff; auto.
  Qed.
  Lemma carries_has e : is_num e = false -> carries e -> has keys e = true.
  Proof using. intros Hn [->|[_ H]]; [done|]. destruct (summands_nonempty e) as [t Ht]. eapply summand_has; [done|]. by apply H. Qed.
  Lemma carries_single e : is_num e = false -> summands e = [e] -> has keys e = true -> carries e.
  Proof using. intros Hn Hs Hh. right. split; [done|]. rewrite Hs. by intros t [<-|[]]. Qed.
  Lemma add_carries a b e : carries a -> carries b -> add w a b = Some e -> carries e.
  Proof using.
    clear Hk Hp. intros Ha Hb He. destruct (add_cases a b e He) as [(-> & ->)|[(-> & ->)|[(p & q & -> & -> & ->)|(s & a' & b' & n & m & Ca & Cb & _ & Za & Zb & ->)]]]; try done.
    - destruct Ha as [[= ->]|[? _]]; [|done]. destruct Hb as [[= ->]|[? _]]; [|done]. left. f_equal. lra.
    - destruct Ha as [->|[Na Ha]]; [by rewrite (proj2 (is_zero_spec _)) in Za|].
      destruct Hb as [->|[Nb Hb]]; [by rewrite (proj2 (is_zero_spec _)) in Zb|].
      assert (a' = a) as ->. { destruct a; cbn in Ca; try done; destruct (decide _); congruence. }
      assert (b' = b) as ->. { destruct b; cbn in Cb; try done; destruct (decide _); congruence. }
      right. split; [done|]. cbn. rewrite !summands_convert. intros t [Ht|Ht]%in_app_or; auto.
  Qed.
  Lemma py_add_carries a b e : carries a -> carries b -> py_add w a b = Some e -> carries e.
  Proof using.
    clear Hk Hp. intros Ha Hb He. destruct a, b; try (by eapply (add_carries _ _ _ Ha Hb)).
    destruct Ha as [[= ->]|[? _]]; [|done]. destruct Hb as [[= ->]|[? _]]; [|done]. injection He as <-. left. f_equal. lra.
  Qed.
  Lemma py_sum_carries l e : Forall carries l -> py_sum w l = Some e -> carries e.
  Proof using.
    clear Hk Hp. unfold py_sum. assert (carries (Num 0)) as H0 by (by left). revert H0. generalize (Num 0). induction l as [|b l IH]; intros acc Hacc Hl He.
    - by injection He as <-.
    - inversion_clear Hl as [|? ? Hb Hl']. cbn [foldl mbind option_bind] in He. destruct (py_add w acc b) as [acc'|] eqn:E.
      + eapply IH; [|done..]. by eapply (py_add_carries _ _ _ Hacc Hb).
      + exfalso. clear -He. induction l; cbn in He; [done|by apply IHl].
  Qed.
  Lemma py_sum_free l e : Forall free l -> py_sum w l = Some e -> free e.
  Proof using Hk Hp.
    unfold py_sum. assert (free (Num 0)) as H0 by done. revert H0. generalize (Num 0). induction l as [|b l IH]; intros acc Hacc Hl He.
    - by injection He as <-.
    - inversion_clear Hl as [|? ? Hb Hl']. cbn [foldl mbind option_bind] in He. destruct (py_add w acc b) as [acc'|] eqn:E.
      + eapply IH; [|done..]. by eapply (py_add_free _ _ _ Hacc Hb).
      + exfalso. clear -He. induction l; cbn in He; [done|by apply IHl].
  Qed.
  Lemma mul_carries a b e : (carries a /\ is_num a = false) \/ (carries b /\ is_num b = false) -> mul a b = Some e -> carries e.
  Proof using Hp.
    intros H He. destruct (mul_cases a b e He) as [(-> & -> & ->)|[(-> & ->)|[(-> & ->)|[(_ & ->)|[(q & Nb & -> & Hq & ->)|[(q & Na & -> & Hq & ->)|[(p & q & -> & -> & _ & _ & ->)|(Na & Nb & ->)]]]]]]].
    - by destruct H as [[_ ?]|[_ ?]].
    - by destruct H as [[_ ?]|[? ?]].
    - by destruct H as [[? ?]|[_ ?]].
    - by left.
    - destruct H as [[_ ?]|[Hb _]]; [done|]. apply carries_single; [done..|]. rewrite has_muln. by apply carries_has.
    - destruct H as [[Ha _]|[_ ?]]; [|done]. apply carries_single; [done..|]. rewrite has_muln. by apply carries_has.
    - by destruct H as [[_ ?]|[_ ?]].
    - apply carries_single; [done..|]. rewrite has_mul, orb_true_iff. destruct H as [[Ha _]|[Hb _]]; [left|right]; by apply carries_has.
  Qed.
  Lemma dot_carries i j a b e : (carries a /\ is_num a = false) \/ (carries b /\ is_num b = false) -> dot w i j a b = Some e -> carries e.
  Proof using Hp.
    unfold dot. intros H He. destruct (is_zero a || is_zero b); [injection He as <-; by left|].
    destruct (is_num a || is_num b) eqn:N; [done|]. apply orb_false_iff in N as [Na Nb].
    destruct (decide _); [|done]. injection He as <-. apply carries_single; [done..|].
    rewrite has_dot, orb_true_iff. destruct H as [[Ha _]|[Hb _]]; [left|right]; by apply carries_has.
  Qed.
  Lemma cross_carries a b e : (carries a /\ is_num a = false) \/ (carries b /\ is_num b = false) -> cross w a b = Some e -> carries e.
  Proof using Hp.
    unfold cross. intros H He. destruct (is_zero a || is_zero b); [injection He as <-; by left|].
    destruct (is_num a || is_num b) eqn:N; [done|]. apply orb_false_iff in N as [Na Nb].
    destruct (esig w a) as [|cs [|]], (esig w b) as [|cs' [|]]; try done.
    destruct (decide _); [|done]. injection He as <-. apply carries_single; [done..|].
    rewrite has_cross, orb_true_iff. destruct H as [[Ha _]|[Hb _]]; [left|right]; by apply carries_has.
  Qed.

  Local Opaque py_sum.
  Lemma product_split_contents op p0 n0 p1 n1 p n :
    (forall a b e, free a -> free b -> op a b = Some e -> free e) ->
    (forall a b e, (carries a /\ is_num a = false) \/ (carries b /\ is_num b = false) -> op a b = Some e -> carries e) ->
    carries p0 -> free n0 -> carries p1 -> free n1 ->
    product_split w op (p0, n0) (p1, n1) = Some (p, n) -> carries p /\ free n.
  Proof using.
    clear Hk Hp. intros Hf Hc Hp0 Hn0 Hp1 Hn1 H. unfold product_split in H. cbn [fst snd] in H.
    assert (forall e, carries e -> truthy e = true -> carries e /\ is_num e = false) as Hop.
    { intros e He Ht. split; [done|]. destruct He as [->|[? _]]; [|done]. unfold truthy in Ht. rewrite (proj2 (is_zero_spec _)) in Ht; done. }
    destruct (truthy p0) eqn:T1, (truthy n0) eqn:T2, (truthy p1) eqn:T3, (truthy n1) eqn:T4;
      rewrite filter_bool in H; cbn [List.filter fst snd] in H; rewrite ?T1, ?T2, ?T3, ?T4 in H; cbn in H;
      repeat match type of H with context [mbind _ (op ?a ?b)] =>
        let E := fresh "E" in destruct (op a b) eqn:E; cbn in H; [|discriminate H] end;
      repeat match type of H with context [mbind _ (py_sum w ?l)] =>
        let E := fresh "E" in destruct (py_sum w l) eqn:E; cbn in H; [|discriminate H] end;
      (injection H as <- <-);
      (split; [eapply py_sum_carries; [|eassumption]; repeat (constructor; [eapply Hc; [|eassumption]; first [left; apply Hop; assumption | right; apply Hop; assumption]|]); constructor
              |first [eapply Hf; [| |eassumption]; assumption | reflexivity]]).
  Qed.

  Lemma split_contents e p n : split w keys e = Some (p, n) -> carries p /\ free n.
  Proof using Hk Hp.
    revert p n. induction e as [q|v|q s|a IHa b IHb|q a IHa|a IHa b IHb|i j a IHa b IHb|a IHa b IHb|a IHa|L a IHa|a IHa pw|f a IHa]; intros p n Hs; try done.
    - cbn in Hs. assert (has keys (Var v) = var_in v keys) as Hv by (cbn; by destruct keys).
      destruct (var_in v keys); injection Hs as <- <-; split; try done; [by apply carries_single|by left].
    - injection Hs as <- <-. split; [by left|]. unfold free. cbn. by destruct keys.
    - cbn [split] in Hs.
      destruct (split w keys a) as [[pa na]|] eqn:Ea; [|done]. destruct (split w keys b) as [[pb nb]|] eqn:Eb; [|done].
      cbn [mbind option_bind fst snd] in Hs.
      destruct (IHa pa na eq_refl), (IHb pb nb eq_refl).
      destruct (py_sum w [pa; pb]) as [p'|] eqn:Sp; [|done]. destruct (py_sum w [na; nb]) as [n'|] eqn:Sn; [|done]. cbn in Hs. injection Hs as <- <-.
      split; [apply (py_sum_carries [pa; pb]); [|done]|apply (py_sum_free [na; nb]); [|done]]; (constructor; [assumption|]; constructor; [assumption|]; constructor).
    - cbn [split] in Hs. destruct (split w keys a) as [[pa na]|] eqn:Ea; [|done]. cbn [mbind option_bind] in Hs. destruct (IHa pa na eq_refl).
      eapply (product_split_contents mul (Num 0) (Num q) pa na); [apply mul_free|apply mul_carries|by left|done..].
    - cbn [split] in Hs. destruct (split w keys a) as [[pa na]|] eqn:Ea; [|done]. destruct (split w keys b) as [[pb nb]|] eqn:Eb; [|done].
      cbn [mbind option_bind] in Hs. destruct (IHa pa na eq_refl), (IHb pb nb eq_refl).
      eapply (product_split_contents mul pa na pb nb); [apply mul_free|apply mul_carries|done..].
    - cbn [split] in Hs. destruct (split w keys a) as [[pa na]|] eqn:Ea; [|done]. destruct (split w keys b) as [[pb nb]|] eqn:Eb; [|done].
      cbn [mbind option_bind] in Hs. destruct (IHa pa na eq_refl), (IHb pb nb eq_refl).
      eapply (product_split_contents (dot w i j) pa na pb nb); [apply dot_free|apply dot_carries|done..].
    - cbn [split] in Hs. destruct (split w keys a) as [[pa na]|] eqn:Ea; [|done]. destruct (split w keys b) as [[pb nb]|] eqn:Eb; [|done].
      cbn [mbind option_bind] in Hs. destruct (IHa pa na eq_refl), (IHb pb nb eq_refl).
      eapply (product_split_contents (cross w) pa na pb nb); [apply cross_free|apply cross_carries|done..].
    - cbn [split] in Hs. unfold class_in in Hs. cbn [class] in Hs. rewrite proper_classes in Hs by auto 10. by apply IHa.
    - cbn [split] in Hs. destruct (class_in (Lin L a) keys) eqn:Hc.
      + injection Hs as <- <-. split; [|done]. apply carries_single; [done..|]. cbn [has]. by rewrite Hc.
      + destruct (split w keys a) as [[pa na]|] eqn:Ea; [|done]. cbn [mbind option_bind fst snd] in Hs. destruct (IHa pa na eq_refl) as [Ha Hb].
        destruct (lin w L pa) as [p'|] eqn:Lp; [|done]. destruct (lin w L na) as [n'|] eqn:Ln; [|done]. cbn in Hs. injection Hs as <- <-. split.
        * destruct (lin_cases L pa p' Lp) as [(q & -> & [-> | ->])|(Na & [-> | ->])]; try (by left).
          -- done.
          -- apply carries_single; [done..|]. cbn [has]. by rewrite (carries_has _ Na Ha), orb_true_r.
        * destruct (lin_cases L na n' Ln) as [(q & -> & [-> | ->])|(Na & [-> | ->])]; try done.
          unfold free in *. cbn [has]. unfold class_in in *. cbn [class] in *. by rewrite Hc, Hb.
    - cbn [split] in Hs. destruct (has keys (Pow a pw)) eqn:Hh; injection Hs as <- <-; split; try done; [by apply carries_single|by left].
    - cbn [split] in Hs. destruct (has keys (Fun f a)) eqn:Hh; injection Hs as <- <-; split; try done; [by apply carries_single|by left].
  Qed.
End Contents.
