From Coq Require Import List Arith Bool Lia.
Import ListNotations.
From Verif Require Import Buffers_Model Buffers_Spec.

Lemma update_length {X} (l : list X) n x : length (update l n x) = length l.
Proof. revert n. induction l as [|y l IH]; intros [|n]; cbn; try reflexivity. rewrite IH. reflexivity. Qed.
Lemma update_nth {X} (l : list X) n m x d : n < length l -> nth m (update l n x) d = if m =? n then x else nth m l d.
Proof. revert n m. induction l as [|y l IH]; intros [|n] [|m] H; cbn in *; try lia; try reflexivity. apply IH. lia. Qed.
Lemma update_over {X} (l : list X) n x : length l <= n -> update l n x = l.
Proof. revert n. induction l as [|y l IH]; intros [|n] H; cbn in *; try reflexivity; try lia. rewrite IH by lia. reflexivity. Qed.
Lemma nth_map_seq {X} (g : nat -> X) n p d : p < n -> nth p (map g (seq 0 n)) d = g p.
Proof. intros H. rewrite (nth_indep _ d (g 0)) by (rewrite map_length, seq_length; exact H). rewrite map_nth, seq_nth by exact H. reflexivity. Qed.
Lemma list_max_in n l : In n l -> n <= list_max l.
Proof. intros H. pose proof (proj1 (list_max_le l (list_max l)) (le_n _)) as F. rewrite Forall_forall in F. apply F. exact H. Qed.

Section Proofs.
Context {V T : Type} (teq : forall x y : T, {x = y} + {x <> y}).
Context (dim top : nat) (grid : nat -> nat -> bool) (lsize : nat -> list T -> nat) (ncomp : nat) (dealias ones : list T).
Context (fresh : nat -> nat -> list V) (incr decr : nat -> list T -> list V -> list V) (zero : V) (pos : list (list nat)).
Context (S_ : setting grid lsize ncomp incr decr pos dim fresh).
Notation field := (@field V T). Notation ideal := (@ideal V T).
Notation BS := (buffer_size top lsize).
Notation data := (data lsize ncomp). Notation data_size := (data_size lsize ncomp).
Notation preset_layout := (preset_layout lsize ncomp).
Notation preset_scales := (preset_scales teq top lsize ncomp dealias fresh).
Definition small (s : list T) : Prop := BS s <= BS dealias.

Definition inv (s : list T) (f : field) : Prop :=
  scales f = Some s /\ length s = dim /\ buffer f < length (heap f) /\ ncomp * BS s <= length (raw f (buffer f))
  /\ ncomp * BS dealias <= length (raw f 0) /\ (buffer f = 0 <-> small s).
Lemma fits l s : l <= top -> lsize l s <= BS s.
Proof. intros H. apply list_max_in. apply in_map_iff. exists l. split; [reflexivity|apply in_seq; lia]. Qed.
Lemma preset_layout_ok s f l : inv s f -> l <= top -> preset_layout l f = Some (Field (scales f) l (buffer f) (heap f) (views f)).
Proof.
  intros (E & _ & _ & L & _) H. unfold Buffers_Model.preset_layout. unfold Buffers_Model.data_size. cbn [scales layout buffer heap raw]. rewrite E. cbn [current].
  replace (_ <=? _) with true; [reflexivity|]. symmetry. apply Nat.leb_le. pose proof (fits l s H). unfold raw in *. cbn [heap]. eapply Nat.le_trans; [|exact L]. apply Nat.mul_le_mono_l. assumption.
Qed.
Lemma inv_layout s f l : inv s f -> inv s (Field (scales f) l (buffer f) (heap f) (views f)). Proof. intros H. exact H. Qed.
Lemma over_length (x old : list V) : length x <= length old -> length (over x old) = length old.
Proof. intros H. unfold over. rewrite app_length, skipn_length. lia. Qed.
Lemma raw_write (f : field) x b : buffer f < length (heap f) -> raw (write x f) b = if b =? buffer f then over x (raw f (buffer f)) else raw f b.
Proof. intros H. unfold raw, write. cbn [heap]. apply update_nth. exact H. Qed.
Lemma inv_write s f x : inv s f -> length x <= length (raw f (buffer f)) -> inv s (write x f).
Proof.
  intros (E & L & B & C & D & Hs) H. split; [exact E|]. split; [exact L|]. split; [cbn [write heap buffer]; rewrite update_length; exact B|]. cbn [write buffer]. fold (write x f). rewrite !raw_write by exact B. rewrite Nat.eqb_refl, over_length by exact H. split; [exact C|]. split; [|exact Hs]. destruct (0 =? buffer f) eqn:E0; [|exact D]. apply Nat.eqb_eq in E0. rewrite over_length by exact H. rewrite <- E0. exact D.
Qed.
Lemma data_write (f : field) x : buffer f < length (heap f) -> length x = data_size f -> data (write x f) = x.
Proof. intros B H. unfold Buffers_Model.data. change (buffer (write x f)) with (buffer f). rewrite raw_write by exact B. rewrite Nat.eqb_refl. change (data_size (write x f)) with (data_size f). rewrite <- H. unfold over. rewrite firstn_app, Nat.sub_diag, firstn_all, firstn_O. apply app_nil_r. Qed.
Lemma data_length s f : inv s f -> layout f <= top -> length (data f) = ncomp * lsize (layout f) s.
Proof.
  intros I H. pose proof I as (E & _ & _ & L & _). unfold Buffers_Model.data. rewrite firstn_length. unfold Buffers_Model.data_size. rewrite E. cbn [current]. apply Nat.min_l. eapply Nat.le_trans; [|exact L]. apply Nat.mul_le_mono_l. apply fits. exact H.
Qed.
(** The state of a field and the ideal one. *)
Definition shows (f : field) (i : ideal) : Prop := inv (at_scales i) f /\ layout f = in_layout i /\ in_layout i <= top /\ data f = values i /\ length (values i) = ncomp * lsize (in_layout i) (at_scales i).
Lemma put_layout f i l x : shows f i -> l <= top -> length x = ncomp * lsize l (at_scales i) ->
  exists f', option_map (write x) (preset_layout l f) = Some f' /\ shows f' (Ideal (at_scales i) l x) /\ buffer f' = buffer f /\ views f' = views f /\ (forall b, b <> buffer f -> raw f' b = raw f b) /\ (forall p, length x <= p -> nth_error (raw f' (buffer f)) p = nth_error (raw f (buffer f)) p).
Proof.
  intros (I & El & Hl & Ed & Ln) H Lx. rewrite (preset_layout_ok (at_scales i)) by assumption. set (f1 := Field (scales f) l (buffer f) (heap f) (views f)). cbn [option_map]. eexists. split; [reflexivity|].
  assert (I1 : inv (at_scales i) f1) by exact I. pose proof I1 as (E1 & _ & B1 & C1 & _).
  assert (Ls : length x = data_size f1) by (unfold Buffers_Model.data_size; cbn [f1 layout scales]; cbn [f1 scales] in E1; rewrite E1; exact Lx).
  assert (Lr : length x <= length (raw f1 (buffer f1))) by (rewrite Lx; eapply Nat.le_trans; [|exact C1]; apply Nat.mul_le_mono_l; apply fits; exact H).
  split; [|split; [reflexivity|split; [reflexivity|split]]].
  - split; [apply inv_write; assumption|]. split; [reflexivity|]. split; [exact H|]. split; [apply data_write; assumption|exact Lx].
  - intros b Hb. rewrite raw_write by exact B1. apply Nat.eqb_neq in Hb. cbn [f1 buffer] in *. rewrite Hb. reflexivity.
  - intros p Hp. change (buffer f) with (buffer f1). rewrite raw_write by exact B1. rewrite Nat.eqb_refl. unfold over. rewrite nth_error_app2 by exact Hp. change (raw f (buffer f1)) with (raw f1 (buffer f1)). clear - Hp Lr. revert p Hp Lr. generalize (raw f1 (buffer f1)). generalize (length x). induction n as [|n IH]; intros r p Hp Lr; cbn; [rewrite Nat.sub_0_r; reflexivity|]. destruct r as [|y r]; [cbn in Lr; lia|]. destruct p as [|p]; [lia|]. cbn. apply IH; cbn in Lr; lia.
Qed.
(** What a change leaves: the same buffer, the same views. *)
Definition near (f f' : field) : Prop := buffer f' = buffer f /\ views f' = views f /\ forall b, b <> buffer f -> raw f' b = raw f b.
Lemma near_refl (f : field) : near f f. Proof. repeat split. Qed.
Lemma near_trans f g h : near f g -> near g h -> near f h.
Proof. intros (B1 & V1 & R1) (B2 & V2 & R2). split; [congruence|]. split; [congruence|]. intros b Hb. rewrite R2 by congruence. apply R1. exact Hb. Qed.
Lemma towards_coeff_ok f i : shows f i -> in_layout i <> 0 -> exists f', towards_coeff lsize ncomp decr f = Some f' /\ shows f' (Ideal (at_scales i) (pred (in_layout i)) (decr (pred (in_layout i)) (at_scales i) (values i))) /\ near f f'.
Proof.
  intros Hs H. pose proof Hs as ((E & _) & El & Hl & Ed & Ln). unfold towards_coeff. rewrite El, E, Ed. cbn [current]. destruct (put_layout f i (pred (in_layout i)) (decr (pred (in_layout i)) (at_scales i) (values i)) Hs ltac:(lia)) as (f' & Ef & Sf & B & W & R & _).
  - apply (decr_size _ _ _ _ _ _ _ _ S_). rewrite Ln. destruct (in_layout i); [contradiction|reflexivity].
  - exists f'. split; [exact Ef|]. split; [exact Sf|]. repeat split; assumption.
Qed.
Lemma towards_grid_ok f i : shows f i -> in_layout i < top -> exists f', towards_grid lsize ncomp incr f = Some f' /\ shows f' (Ideal (at_scales i) (S (in_layout i)) (incr (in_layout i) (at_scales i) (values i))) /\ near f f'.
Proof.
  intros Hs H. pose proof Hs as ((E & _) & El & Hl & Ed & Ln). unfold towards_grid. rewrite El, E, Ed. cbn [current]. destruct (put_layout f i (S (in_layout i)) (incr (in_layout i) (at_scales i) (values i)) Hs ltac:(lia)) as (f' & Ef & Sf & B & W & R & _).
  - apply (incr_size _ _ _ _ _ _ _ _ S_). exact Ln.
  - exists f'. split; [exact Ef|]. split; [exact Sf|]. repeat split; assumption.
Qed.
Notation to_layout := (to_layout incr decr). Notation moved := (moved incr decr). Notation down := (down decr). Notation up := (up incr).
(** Going down while a test holds, which stops first at layout [l]. *)
Lemma goes_down (test : field -> bool) (t : nat -> bool) f i l fuel : (forall g, test g = t (layout g)) -> shows f i -> l <= in_layout i -> in_layout i - l <= fuel -> t l = false -> (forall k, l < k <= in_layout i -> t k = true) ->
  exists f', repeat_while fuel test (towards_coeff lsize ncomp decr) f = Some f' /\ shows f' (Ideal (at_scales i) l (down (in_layout i - l) (in_layout i) (at_scales i) (values i))) /\ near f f'.
Proof.
  intros Ht. remember (in_layout i - l) as n eqn:En. revert f i fuel En. induction n as [|n IH]; intros f i fuel En Hs Hl Hf Tl Tk; pose proof Hs as (_ & El & _).
  - assert (E : in_layout i = l) by lia. exists f. destruct fuel; cbn [repeat_while]; rewrite Ht, El, E, Tl; (split; [reflexivity|]; split; [|apply near_refl]; destruct i; cbn in *; subst; exact Hs).
  - destruct fuel as [|fuel]; [lia|]. cbn [repeat_while]. rewrite Ht, El, Tk by lia. destruct (towards_coeff_ok f i Hs ltac:(lia)) as (f1 & E1 & S1 & N1). rewrite E1.
    match type of S1 with shows _ ?j => destruct (IH f1 j fuel ltac:(cbn [in_layout]; lia) S1 ltac:(cbn [in_layout]; lia) ltac:(lia) Tl ltac:(cbn [in_layout]; intros k Hk; apply Tk; lia)) as (f2 & E2 & S2 & N2) end. exists f2. split; [exact E2|]. split; [exact S2|]. eapply near_trans; eassumption.
Qed.
Lemma goes_up f i l fuel : shows f i -> in_layout i <= l <= top -> l - in_layout i <= fuel ->
  exists f', repeat_while fuel (fun g => layout g <? l) (towards_grid lsize ncomp incr) f = Some f' /\ shows f' (Ideal (at_scales i) l (up (l - in_layout i) (in_layout i) (at_scales i) (values i))) /\ near f f'.
Proof.
  remember (l - in_layout i) as n eqn:En. revert f i fuel En. induction n as [|n IH]; intros f i fuel En Hs Hl Hf; pose proof Hs as (_ & El & _).
  - assert (E : in_layout i = l) by lia. exists f. destruct fuel; cbn [repeat_while]; rewrite El, E, Nat.ltb_irrefl; (split; [reflexivity|]; split; [|apply near_refl]; destruct i; cbn in *; subst; exact Hs).
  - destruct fuel as [|fuel]; [lia|]. cbn [repeat_while]. rewrite El. replace (in_layout i <? l) with true by (symmetry; apply Nat.ltb_lt; lia). destruct (towards_grid_ok f i Hs ltac:(lia)) as (f1 & E1 & S1 & N1). rewrite E1.
    match type of S1 with shows _ ?j => destruct (IH f1 j fuel ltac:(cbn [in_layout]; lia) S1 ltac:(cbn [in_layout]; lia) ltac:(lia)) as (f2 & E2 & S2 & N2) end. exists f2. split; [exact E2|]. split; [exact S2|]. eapply near_trans; eassumption.
Qed.
Lemma change_layout_ok f i l : shows f i -> l <= top -> exists f', change_layout top lsize ncomp incr decr l f = Some f' /\ shows f' (to_layout l i) /\ near f f'.
Proof.
  intros Hs Hl. pose proof Hs as (_ & El & Hi & _). unfold change_layout. rewrite El. unfold Buffers_Spec.to_layout, Buffers_Spec.moved. destruct (in_layout i <? l) eqn:E1; [|destruct (l <? in_layout i) eqn:E2].
  - apply Nat.ltb_lt in E1. replace (in_layout i <=? l) with true by (symmetry; apply Nat.leb_le; lia). apply goes_up; [exact Hs|lia|lia].
  - apply Nat.ltb_lt in E2. replace (in_layout i <=? l) with false by (symmetry; apply Nat.leb_gt; lia). apply (goes_down _ (fun k => l <? k)); [reflexivity|exact Hs|lia|lia|apply Nat.ltb_irrefl|intros k Hk; apply Nat.ltb_lt; lia].
  - apply Nat.ltb_ge in E1, E2. assert (E : in_layout i = l) by lia. exists f. split; [reflexivity|]. split; [|apply near_refl]. rewrite E, Nat.leb_refl, Nat.sub_diag. cbn [Buffers_Spec.up]. destruct i; cbn in *; subst; exact Hs.
Qed.
(** Which layout the loop over the axes stops at. *)
Notation common := (common grid teq). Notation agree := (agree grid teq).
Lemma agree_true l s s' : length s = dim -> length s' = dim -> agree l s s' = true <-> forall a, grid l a = true -> nth_error s a = nth_error s' a.
Proof.
  intros L L'. unfold Buffers_Spec.agree. rewrite forallb_forall. split.
  - intros H a Ha. pose proof (grid_dim _ _ _ _ _ _ _ _ S_ l a Ha) as Hd. specialize (H a ltac:(apply in_seq; lia)). rewrite Ha in H. cbn [negb orb] in H. destruct (nth_error s a), (nth_error s' a); try discriminate. destruct (teq t t0); [subst; reflexivity|discriminate].
  - intros H a Ha. apply in_seq in Ha. destruct (grid l a) eqn:E; [|reflexivity]. cbn [negb orb]. rewrite (H a E). destruct (nth_error s' a) eqn:En; [|apply nth_error_None in En; lia]. destruct (teq t t); [reflexivity|contradiction].
Qed.
Lemma common_spec l s s' : length s = dim -> length s' = dim -> common l s s' <= l /\ agree (common l s s') s s' = true /\ forall k, common l s s' < k <= l -> agree k s s' = false.
Proof.
  intros L L'. induction l as [|l (IH1 & IH2 & IH3)]; cbn [Buffers_Spec.common].
  - assert (A : agree 0 s s' = true) by (apply agree_true; try assumption; intros a Ha; rewrite (grid_none _ _ _ _ _ _ _ _ S_) in Ha; discriminate). rewrite A. split; [lia|]. split; [exact A|lia].
  - destruct (agree (S l) s s') eqn:E; [split; [lia|split; [exact E|lia]]|]. split; [lia|]. split; [exact IH2|]. intros k Hk. destruct (Nat.eq_dec k (S l)) as [->|N]; [exact E|apply IH3; lia].
Qed.
Lemma grid_mono l k a : grid l a = true -> l <= k -> grid k a = true.
Proof. intros H Hk. induction Hk; [exact H|]. apply (grid_more _ _ _ _ _ _ _ _ S_). exact IHHk. Qed.
Lemma match_scales_ok new f i axes : shows f i -> length new = dim -> axes <= dim -> (forall a, axes <= a < dim -> grid (in_layout i) a = true /\ nth_error (at_scales i) a = nth_error new a) ->
  exists f', match_scales teq top grid lsize ncomp decr (at_scales i) new axes f = Some f' /\ shows f' (to_layout (common (in_layout i) (at_scales i) new) i) /\ near f f'.
Proof.
  intros Hs Ln. pose proof Hs as ((_ & Ls & _) & El & Hi & _). destruct (common_spec (in_layout i) (at_scales i) new Ls Ln) as (C1 & C2 & C3). set (c := common (in_layout i) (at_scales i) new) in *.
  assert (Stay : agree (in_layout i) (at_scales i) new = true -> exists f', Some f = Some f' /\ shows f' (to_layout c i) /\ near f f').
  { intros A. assert (E : c = in_layout i). { destruct (Nat.eq_dec c (in_layout i)) as [E|N]; [exact E|]. rewrite C3 in A by lia. discriminate. } exists f. split; [reflexivity|]. split; [|apply near_refl]. unfold Buffers_Spec.to_layout, Buffers_Spec.moved. rewrite E, Nat.leb_refl, Nat.sub_diag. destruct i; exact Hs. }
  induction axes as [|axis IH]; intros Ha Hb; cbn [match_scales].
  - apply Stay. apply agree_true; [exact Ls|exact Ln|]. intros a Hg. pose proof (grid_dim _ _ _ _ _ _ _ _ S_ _ _ Hg). apply Hb. lia.
  - rewrite El. destruct (grid (in_layout i) axis) eqn:G; cbn [negb].
    + destruct (nth_error (at_scales i) axis) as [x|] eqn:Ex; [|apply nth_error_None in Ex; lia]. destruct (nth_error new axis) as [y|] eqn:Ey; [|apply nth_error_None in Ey; lia]. destruct (teq x y) as [->|N].
      * apply IH; [lia|]. intros a Hr. destruct (Nat.eq_dec a axis) as [->|Na]; [split; [exact G|congruence]|apply Hb; lia].
      * (* the layouts above c are those in which the axis is in grid space *)
        assert (Cl : grid c axis = false). { destruct (grid c axis) eqn:Gc; [|reflexivity]. rewrite agree_true in C2 by assumption. specialize (C2 axis Gc). congruence. }
        unfold Buffers_Spec.to_layout, Buffers_Spec.moved, require_coeff_axis. destruct (Nat.eq_dec (in_layout i) c) as [E|Ne]; [congruence|]. replace (in_layout i <=? c) with false by (symmetry; apply Nat.leb_gt; lia).
        apply (goes_down _ (fun k => grid k axis)); [reflexivity|exact Hs|lia|lia|exact Cl|]. intros k Hk. destruct (grid k axis) eqn:Gk; [reflexivity|]. exfalso.
        assert (A : agree k (at_scales i) new = true); [|rewrite C3 in A by lia; discriminate]. apply agree_true; [exact Ls|exact Ln|]. intros a Hg. pose proof (grid_dim _ _ _ _ _ _ _ _ S_ _ _ Hg) as Hd. apply Hb. split; [|exact Hd]. destruct (Nat.le_gt_cases a axis) as [Hle|]; [|lia]. rewrite (grid_last _ _ _ _ _ _ _ _ S_ k a axis Hg Hle ltac:(lia)) in Gk. discriminate.
    + apply Stay. apply agree_true; [exact Ls|exact Ln|]. intros a Hg. pose proof (grid_dim _ _ _ _ _ _ _ _ S_ _ _ Hg) as Hd. apply Hb. split; [|exact Hd]. destruct (Nat.le_gt_cases a axis) as [Hle|]; [|lia]. rewrite (grid_last _ _ _ _ _ _ _ _ S_ _ a axis Hg Hle ltac:(lia)) in G. discriminate.
Qed.
(** Changing scales without the data: the buffer may change. *)
Definition kept (f f' : field) : Prop := views f' = views f /\ (forall b, b <> buffer f -> b <> buffer f' -> raw f' b = raw f b \/ length (heap f) <= b) /\ length (heap f) <= length (heap f').
Lemma preset_scales_ok s s' f : inv s f -> layout f <= top -> length s' = dim ->
  exists f', preset_scales s' f = Some f' /\ inv s' f' /\ layout f' = layout f /\ views f' = views f /\ length (heap f) <= length (heap f') /\ (forall b, b < length (heap f) -> raw f' b = raw f b) /\ (s = s' -> f' = f).
Proof.
  intros I Hl Ls. pose proof I as (E & L & B & C & D & Hsm). unfold Buffers_Model.preset_scales, same_scales. rewrite E. destruct (list_eq_dec teq s' s) as [->|N].
  - exists f. split; [reflexivity|]. split; [exact I|]. repeat split; auto.
  - destruct (BS s' <=? BS dealias) eqn:Es.
    + apply Nat.leb_le in Es. set (f1 := Field (Some s') (layout f) 0 (heap f) (views f)). assert (I1 : inv s' f1). { split; [reflexivity|]. split; [exact Ls|]. split; [cbn; lia|]. cbn [f1 buffer]. assert (E1 : raw f1 0 = raw f 0) by reflexivity. rewrite E1. split; [eapply Nat.le_trans; [|exact D]; apply Nat.mul_le_mono_l; exact Es|]. split; [exact D|]. split; [intros _; exact Es|reflexivity]. }
      rewrite (preset_layout_ok s') by (assumption || exact Hl). eexists. split; [reflexivity|]. split; [exact I1|]. repeat split; [apply Nat.le_refl|]. intros; subst; contradiction.
    + apply Nat.leb_gt in Es. set (n := length (heap f)). set (f1 := Field (Some s') (layout f) n (heap f ++ [fresh n (ncomp * BS s')]) (views f)).
      assert (Rn : raw f1 n = fresh n (ncomp * BS s')) by (unfold raw; cbn [f1 heap]; rewrite app_nth2 by (subst n; lia); subst n; rewrite Nat.sub_diag; reflexivity).
      assert (Ro : forall b, b < n -> raw f1 b = raw f b) by (intros b Hb; unfold raw; cbn [f1 heap]; apply app_nth1; exact Hb).
      assert (I1 : inv s' f1). { split; [reflexivity|]. split; [exact Ls|]. cbn [f1 buffer heap]. split; [rewrite app_length; cbn; subst n; lia|]. fold f1. rewrite Rn, (fresh_size _ _ _ _ _ _ _ _ S_). split; [apply Nat.le_refl|]. rewrite Ro by (subst n; lia). split; [exact D|]. unfold small. split; [subst n; lia|lia]. }
      rewrite (preset_layout_ok s') by (assumption || exact Hl). eexists. split; [reflexivity|]. split; [exact I1|]. split; [reflexivity|]. split; [reflexivity|]. split; [unfold f1; cbn [heap]; rewrite app_length; lia|]. split; [exact Ro|]. intros; subst; contradiction.
Qed.
Lemma change_scales_ok f i s : shows f i -> length s = dim -> exists f', change_scales teq dim top grid lsize ncomp dealias fresh decr s f = Some f' /\ shows f' (to_scales grid incr decr teq s i) /\ views f' = views f.
Proof.
  intros Hs Ln. pose proof Hs as ((E & Ls & _) & El & Hi & _). unfold change_scales, to_scales, same_scales. rewrite E. destruct (list_eq_dec teq s (at_scales i)) as [Eq|N]; [exists f; split; [reflexivity|]; split; [exact Hs|reflexivity]|].
  cbn [current]. destruct (match_scales_ok s f i dim Hs Ln ltac:(lia)) as (f1 & E1 & S1 & N1); [intros a Ha; lia|]. rewrite E1. destruct (common_spec (in_layout i) (at_scales i) s Ls Ln) as (C1 & C2 & C3). set (c := common (in_layout i) (at_scales i) s) in *. set (i1 := to_layout c i) in *.
  pose proof S1 as (I1 & El1 & Hi1 & Ed1 & Ld1). destruct (preset_scales_ok _ s f1 I1 ltac:(rewrite El1; exact Hi1) Ln) as (f2 & E2 & I2 & El2 & V2 & _). rewrite E2, Ed1.
  assert (Sz : length (values i1) = data_size f2). { rewrite Ld1. unfold Buffers_Model.data_size. destruct I2 as (Es2 & _). rewrite Es2, El2, El1. cbn [current]. f_equal. apply (sizes _ _ _ _ _ _ _ _ S_). apply agree_true; assumption. }
  rewrite Sz, Nat.eqb_refl. eexists. split; [reflexivity|]. pose proof I2 as (Es2 & _ & B2 & C2' & _). split; [|destruct N1 as (_ & V1 & _); cbn [write views]; congruence].
  assert (Sz' : length (values i1) = ncomp * lsize (in_layout i1) s) by (rewrite Sz; unfold Buffers_Model.data_size; rewrite Es2, El2, El1; reflexivity).
  split; [apply inv_write; [exact I2|]|split; [change (layout f2 = in_layout i1); congruence|split; [exact Hi1|split; [apply data_write; assumption|exact Sz']]]].
  rewrite Sz'. eapply Nat.le_trans; [|exact C2']. apply Nat.mul_le_mono_l. apply fits. exact Hi1.
Qed.
Lemma setitem_ok f i l s x : shows f i -> l <= top -> (match s with Some s => length s = dim /\ length x = ncomp * lsize l s | None => length x = ncomp * lsize l (at_scales i) end) ->
  exists f', setitem teq top lsize ncomp dealias fresh l s x f = Some f' /\ shows f' (Ideal (match s with Some s => s | None => at_scales i end) l x) /\ views f' = views f.
Proof.
  intros Hs Hl Hx. unfold setitem. set (s' := match s with Some s => s | None => at_scales i end).
  assert (G : exists f1, with_scales preset_scales s f = Some f1 /\ inv s' f1 /\ views f1 = views f /\ length x = ncomp * lsize l s').
  { pose proof Hs as (I & El & Hi & _). destruct s as [s|]; cbn [with_scales]; [|exists f; subst s'; repeat split; try assumption; apply I]. destruct Hx as [Ls Lx]. destruct (preset_scales_ok _ s f I ltac:(rewrite El; exact Hi) Ls) as (f1 & E1 & I1 & _ & V1 & _). exists f1. repeat split; assumption || apply I1. }
  destruct G as (f1 & E1 & I1 & V1 & Lx). rewrite E1, (preset_layout_ok s') by assumption. pose proof I1 as (Es1 & _ & B1 & C1 & _). unfold Buffers_Model.data_size at 1. cbn [scales layout]. rewrite Es1. cbn [current]. rewrite Lx, Nat.eqb_refl. eexists. split; [reflexivity|]. split; [|cbn [write views]; exact V1].
  assert (I1' : inv s' (Field (Some s') l (buffer f1) (heap f1) (views f1))) by (rewrite <- Es1; exact I1).
  split; [apply inv_write; [exact I1'|]|split; [reflexivity|split; [exact Hl|split; [apply data_write; [exact B1|exact Lx]|exact Lx]]]].
  rewrite Lx. eapply Nat.le_trans; [|exact C1]. apply Nat.mul_le_mono_l. apply fits. exact Hl.
Qed.
(** ** Gathering and scattering *)
Definition vok (f : field) : Prop := length (views f) = length pos /\ Forall (fun v => v = None \/ v = Some 0) (views f).
Definition but_views (f f' : field) : Prop := scales f' = scales f /\ layout f' = layout f /\ buffer f' = buffer f /\ heap f' = heap f.
Lemma nth_vok f k : vok f -> nth k (views f) None = None \/ nth k (views f) None = Some 0.
Proof. intros [_ F]. destruct (Nat.lt_ge_cases k (length (views f))) as [H|H]; [rewrite Forall_forall in F; apply F; apply nth_In; exact H|left; apply nth_overflow; exact H]. Qed.
Lemma vok_update l k : Forall (fun v : option nat => v = None \/ v = Some 0) l -> Forall (fun v => v = None \/ v = Some 0) (update l k (Some 0)).
Proof. intros F. revert k. induction F as [|x l Hx F IH]; intros [|k]; cbn; constructor; auto. Qed.
Lemma cached_ok f k : vok f -> buffer f = 0 -> exists f', cached f k = (0, f') /\ but_views f f' /\ vok f' /\ (k < length pos -> nth k (views f') None = Some 0) /\ (forall j, nth j (views f) None = Some 0 -> nth j (views f') None = Some 0).
Proof.
  intros Hv B. unfold cached. destruct (nth_vok f k Hv) as [E|E]; rewrite E.
  - eexists. rewrite B. split; [reflexivity|]. split; [repeat split; try reflexivity; symmetry; exact B|]. cbn [views]. destruct Hv as [L F]. split; [|split].
    + split; cbn [views]; [rewrite update_length; exact L|apply vok_update; exact F].
    + intros Hk. rewrite update_nth by lia. rewrite Nat.eqb_refl. reflexivity.
    + intros j Hj. destruct (Nat.lt_ge_cases k (length (views f))) as [H|H]; [rewrite update_nth by exact H; destruct (j =? k); [reflexivity|exact Hj]|]. rewrite update_over by exact H. exact Hj.
  - exists f. split; [reflexivity|]. split; [repeat split|]. split; [exact Hv|]. split; [intros; exact E|intros j Hj; exact Hj].
Qed.
Lemma gather_from_ok ks f : vok f -> buffer f = 0 -> exists f', gather_from zero ks f = (map (fun kp => map (fun p => nth p (raw f 0) zero) (snd kp)) ks, f') /\ but_views f f' /\ vok f'
  /\ (forall k, In k (map fst ks) -> k < length pos -> nth k (views f') None = Some 0) /\ (forall j, nth j (views f) None = Some 0 -> nth j (views f') None = Some 0).
Proof.
  revert f. induction ks as [|[k ps] ks IH]; intros f Hv B; cbn [gather_from]; [exists f; split; [reflexivity|]; split; [repeat split|]; split; [exact Hv|]; split; [intros k []|auto]|].
  destruct (cached_ok f k Hv B) as (f1 & E1 & (A1 & A2 & A3 & A4) & V1 & K1 & M1). rewrite E1. destruct (IH f1 V1 ltac:(congruence)) as (f2 & E2 & (B1 & B2 & B3 & B4) & V2 & K2 & M2). rewrite E2. exists f2.
  assert (R : raw f1 0 = raw f 0) by (unfold raw; rewrite A4; reflexivity). split; [cbn [map snd]; rewrite R; reflexivity|]. split; [repeat split; congruence|]. split; [exact V2|]. split.
  - intros j [<-|Hj] Lj; [apply M2; apply K1; exact Lj|apply K2; assumption].
  - intros j Hj. apply M2, M1, Hj.
Qed.
Lemma shows_views f f' i : shows f i -> but_views f f' -> shows f' i.
Proof.
  intros (I & El & Hl & Ed & Ln) (A1 & A2 & A3 & A4). destruct I as (E & L & B & C & D & Hs). assert (R : forall b, raw f' b = raw f b) by (intros b; unfold raw; rewrite A4; reflexivity).
  split; [repeat split; rewrite ?A1, ?A3, ?A4, ?R; try assumption; apply Hs|]. split; [congruence|]. split; [exact Hl|]. split; [|exact Ln]. unfold Buffers_Model.data, Buffers_Model.data_size in *. rewrite A1, A2, A3, R. exact Ed.
Qed.
Lemma numbered_fst : map fst (numbered pos) = seq 0 (length pos).
Proof. unfold numbered. generalize 0. generalize pos. clear. intros l. induction l as [|p ps IH]; intros k; cbn; [reflexivity|]. f_equal. apply IH. Qed.
Lemma numbered_snd : map snd (numbered pos) = pos.
Proof. unfold numbered. generalize 0. generalize pos. clear. intros l. induction l as [|p ps IH]; intros k; cbn; [reflexivity|]. f_equal. apply IH. Qed.
Lemma gathered x r n : (forall p, In p (concat pos) -> p < n) -> x = firstn n r -> map (fun kp => map (fun p => nth p r zero) (snd kp)) (numbered pos) = taken zero pos x.
Proof.
  intros H ->. unfold taken. transitivity (map (map (fun p => nth p r zero)) (map snd (numbered pos))); [rewrite map_map; reflexivity|]. rewrite numbered_snd. apply map_ext_in. intros ps Hps. apply map_ext_in. intros p Hp.
  assert (Lp : p < n) by (apply H; apply in_concat; exists ps; split; assumption). clear - Lp. revert p Lp r. induction n as [|n IH]; intros p Lp r; [lia|]. destruct r as [|y r]; [destruct p; reflexivity|]. destruct p as [|p]; [reflexivity|]. cbn. apply IH. lia.
Qed.
Definition all_zero (f : field) : Prop := forall k, k < length pos -> nth k (views f) None = Some 0.
Lemma gather_ok f i : shows f i -> vok f -> small (at_scales i) -> exists f', gather top lsize ncomp incr decr zero pos f = Some (taken zero pos (values (to_layout 0 i)), f') /\ shows f' (to_layout 0 i) /\ vok f' /\ all_zero f'.
Proof.
  intros Hs Hv Sm. unfold gather. destruct (change_layout_ok f i 0 Hs ltac:(lia)) as (f1 & E1 & S1 & B1 & V1 & _). rewrite E1. cbn [option_map].
  assert (Hv1 : vok f1) by (unfold vok; rewrite V1; exact Hv). pose proof S1 as (I1 & El1 & _ & Ed1 & _). pose proof I1 as (Es1 & _ & _ & _ & _ & Hz). assert (Bz : buffer f1 = 0) by (apply Hz; exact Sm).
  destruct (gather_from_ok (numbered pos) f1 Hv1 Bz) as (f2 & E2 & A2 & V2 & K2 & _). rewrite E2. eexists. split; [|split; [eapply shows_views; eassumption|split; [exact V2|]]].
  - apply f_equal. apply f_equal2; [|reflexivity]. apply (gathered _ _ (data_size f1)).
    + intros p Hp. apply (proj2 (shared_out _ _ _ _ _ _ _ _ S_)) with (s := at_scales i) in Hp. unfold Buffers_Model.data_size. rewrite Es1, El1. exact Hp.
    + rewrite <- Ed1. unfold Buffers_Model.data. rewrite Bz. reflexivity.
  - intros k Hk. apply K2; [|exact Hk]. rewrite numbered_fst. apply in_seq. lia.
Qed.
(** A fold of updates with distinct positions. *)
Lemma updates_length (l : list (nat * V)) r : length (fold_left (fun r pv => update r (fst pv) (snd pv)) l r) = length r.
Proof. revert r. induction l as [|[q v] l IH]; intros r; cbn; [reflexivity|]. rewrite IH. apply update_length. Qed.
Lemma updates_nth (l : list (nat * V)) r p : NoDup (map fst l) -> (forall q, In q (map fst l) -> q < length r) ->
  nth p (fold_left (fun r pv => update r (fst pv) (snd pv)) l r) zero = match find (fun q => fst q =? p) l with Some (_, v) => v | None => nth p r zero end.
Proof.
  revert r. induction l as [|[q v] l IH]; intros r Nd H; cbn [fold_left find fst snd map] in *; [reflexivity|]. inversion Nd as [|? ? Nq Nd']; subst. rewrite IH; [|exact Nd'|intros x Hx; rewrite update_length; apply H; right; exact Hx].
  destruct (q =? p) eqn:E.
  - apply Nat.eqb_eq in E. subst q. assert (F : find (fun q => fst q =? p) l = None). { destruct (find _ l) as [[a b]|] eqn:F; [|reflexivity]. apply find_some in F. destruct F as [F1 F2]. apply Nat.eqb_eq in F2. cbn in F2. subst a. exfalso. apply Nq. apply in_map_iff. exists (p, b). split; [reflexivity|exact F1]. } rewrite F. rewrite update_nth by (apply H; left; reflexivity). rewrite Nat.eqb_refl. reflexivity.
  - destruct (find _ l) as [[a b]|]; [reflexivity|]. rewrite update_nth by (apply H; left; reflexivity). rewrite Nat.eqb_sym, E. reflexivity.
Qed.
Lemma combine_concat (ps : list (list nat)) (vs : list (list V)) : Forall2 (fun p v => length p = length v) ps vs -> concat (map (fun pv => combine (fst pv) (snd pv)) (combine ps vs)) = combine (concat ps) (concat vs).
Proof.
  intros F. induction F as [|p v ps vs H F IH]; cbn [combine map concat fst snd]; [reflexivity|]. rewrite IH. revert v H. induction p as [|x p IHp]; intros [|y v] H; cbn in *; try discriminate; [reflexivity|]. f_equal. apply IHp. lia.
Qed.
Lemma map_fst_combine (a : list nat) (b : list V) : length a = length b -> map fst (combine a b) = a.
Proof. revert b. induction a as [|x a IH]; intros [|y b] H; cbn in *; try discriminate; [reflexivity|]. rewrite IH by lia. reflexivity. Qed.
Lemma concat_lengths (ps : list (list nat)) (vs : list (list V)) : Forall2 (fun p v => length p = length v) ps vs -> length (concat ps) = length (concat vs).
Proof. intros F. induction F; cbn; [reflexivity|]. rewrite !app_length. congruence. Qed.
Lemma scatter_to_ok ks vs f : vok f -> buffer f < length (heap f) -> (buffer f = 0 \/ all_zero f) -> (forall k, In k (map fst ks) -> k < length pos) -> length ks = length vs ->
  exists f', scatter_to ks vs f = f' /\ scales f' = scales f /\ layout f' = layout f /\ buffer f' = buffer f /\ length (heap f') = length (heap f) /\ vok f' /\ (forall k, In k (map fst ks) -> nth k (views f') None = Some 0) /\ (forall j, nth j (views f) None = Some 0 -> nth j (views f') None = Some 0)
  /\ forall b, raw f' b = if b =? 0 then fold_left (fun r pv => update r (fst pv) (snd pv)) (concat (map (fun pv => combine (fst pv) (snd pv)) (combine (map snd ks) vs))) (raw f 0) else raw f b.
Proof.
  revert vs f. induction ks as [|[k ps] ks IH]; intros [|v vs] f Hv B Z Hk L; cbn in L; try discriminate; cbn [scatter_to].
  - exists f. repeat split; try reflexivity; try apply Hv; auto. intros k []. intros b. cbn. destruct (b =? 0) eqn:E; [apply Nat.eqb_eq in E; subst|]; reflexivity.
  - assert (C : exists f1, cached f k = (0, f1) /\ but_views f f1 /\ vok f1 /\ nth k (views f1) None = Some 0 /\ (forall j, nth j (views f) None = Some 0 -> nth j (views f1) None = Some 0)).
    { destruct Z as [Z|Z]; [destruct (cached_ok f k Hv Z) as (f1 & E1 & A1 & V1 & K1 & M1); exists f1; repeat split; try assumption; try apply A1; try apply V1; apply K1; apply Hk; left; reflexivity|].
      exists f. unfold cached. rewrite (Z k) by (apply Hk; left; reflexivity). repeat split; try apply Hv; auto. }
    destruct C as (f1 & E1 & (A1 & A2 & A3 & A4) & V1 & K1 & M1). rewrite E1. set (f2 := put 0 (combine ps v) f1).
    assert (L0 : 0 < length (heap f1)) by (rewrite A4; lia).
    assert (R2 : forall b, raw f2 b = if b =? 0 then fold_left (fun r pv => update r (fst pv) (snd pv)) (combine ps v) (raw f 0) else raw f b).
    { intros b. unfold raw, f2, put. cbn [heap]. rewrite update_nth by exact L0. unfold raw. rewrite A4. reflexivity. }
    destruct (IH vs f2) as (f' & E' & C1 & C2 & C3 & C4 & C5 & C6 & C7 & C8); [exact V1|cbn [f2 put buffer heap]; rewrite update_length, A3, A4; exact B| |intros j Hj; apply Hk; right; exact Hj|lia|].
    { cbn [f2 put buffer]. rewrite A3. destruct Z as [Z|Z]; [left; exact Z|right]. intros j Hj. cbn [put views]. apply M1, Z, Hj. }
    exists f'. split; [exact E'|]. split; [rewrite C1; exact A1|]. split; [rewrite C2; exact A2|]. split; [rewrite C3; exact A3|]. split; [rewrite C4; cbn [f2 put heap]; rewrite update_length, A4; reflexivity|]. split; [exact C5|]. split; [|split].
    + intros j [<-|Hj]; [apply C7; exact K1|apply C6; exact Hj].
    + intros j Hj. apply C7. apply M1. exact Hj.
    + intros b. rewrite C8, !R2. destruct (b =? 0); [|reflexivity]. cbn [Nat.eqb combine map concat fst snd]. rewrite fold_left_app. reflexivity.
Qed.
Lemma count s : length (concat pos) = ncomp * lsize 0 s.
Proof.
  destruct (shared_out _ _ _ _ _ _ _ _ S_) as [Nd H]. apply Nat.le_antisymm.
  - transitivity (length (seq 0 (ncomp * lsize 0 s))); [|rewrite seq_length; lia]. apply NoDup_incl_length; [exact Nd|]. intros p Hp. apply in_seq. apply (H p s) in Hp. lia.
  - transitivity (length (seq 0 (ncomp * lsize 0 s))); [rewrite seq_length; lia|]. apply NoDup_incl_length; [apply seq_NoDup|]. intros p Hp. apply (H p s). apply in_seq in Hp. lia.
Qed.
Lemma nth_firstn_lt (r : list V) n p : p < n -> nth p (firstn n r) zero = nth p r zero.
Proof. revert p r. induction n as [|n IH]; intros p r H; [lia|]. destruct r as [|y r]; [destruct p; reflexivity|]. destruct p as [|p]; [reflexivity|]. cbn. apply IH. lia. Qed.
Lemma scattered r vs s : ncomp * lsize 0 s <= length r -> Forall2 (fun p v => length p = length v) pos vs -> firstn (ncomp * lsize 0 s) (fold_left (fun r pv => update r (fst pv) (snd pv)) (combine (concat pos) (concat vs)) r) = placed zero pos vs.
Proof.
  intros L F. destruct (shared_out _ _ _ _ _ _ _ _ S_) as [Nd Hp]. pose proof (concat_lengths _ _ F) as Lc. apply (nth_ext _ _ zero zero).
  - rewrite firstn_length, updates_length. unfold placed. rewrite map_length, seq_length, (count s). lia.
  - intros p Hlt. rewrite firstn_length, updates_length, Nat.min_l in Hlt by exact L. rewrite nth_firstn_lt by exact Hlt. rewrite updates_nth.
    + unfold placed. rewrite nth_map_seq by (rewrite (count s); exact Hlt).
      destruct (find (fun q => fst q =? p) (combine (concat pos) (concat vs))) as [[a b]|] eqn:Ef; [reflexivity|]. exfalso. assert (Hi : In p (concat pos)) by (apply (Hp p s); exact Hlt). rewrite <- (map_fst_combine _ _ Lc) in Hi. apply in_map_iff in Hi. destruct Hi as ([a b] & E & Hi). cbn in E. subst a. apply (find_none _ _ Ef) in Hi. cbn in Hi. rewrite Nat.eqb_refl in Hi. discriminate.
    + rewrite map_fst_combine by exact Lc. exact Nd.
    + rewrite map_fst_combine by exact Lc. intros q Hq. apply (Hp q s) in Hq. lia.
Qed.
Lemma scatter_ok f i vs : shows f i -> vok f -> small (at_scales i) -> Forall2 (fun p v => length p = length v) pos vs -> exists f', scatter lsize ncomp pos vs f = Some f' /\ shows f' (Ideal (at_scales i) 0 (placed zero pos vs)) /\ vok f' /\ all_zero f'.
Proof.
  intros (I & El & Hl & Ed & Ln) Hv Sm F. unfold scatter. rewrite (preset_layout_ok (at_scales i)) by (assumption || lia). cbn [option_map]. set (f1 := Field (scales f) 0 (buffer f) (heap f) (views f)). pose proof I as (E & L & B & C & D & Hz). assert (Bz : buffer f = 0) by (apply Hz; exact Sm).
  assert (Lv : length pos = length vs) by (clear - F; induction F; cbn; congruence).
  destruct (scatter_to_ok (numbered pos) vs f1) as (f' & E' & C1 & C2 & C3 & C4 & C5 & C6 & C7 & C8); [exact Hv|exact B|left; exact Bz|intros k Hk; rewrite numbered_fst in Hk; apply in_seq in Hk; lia|unfold numbered; rewrite combine_length, seq_length; lia|].
  exists f'. split; [rewrite E'; reflexivity|]. split; [|split; [exact C5|intros k Hk; apply C6; rewrite numbered_fst; apply in_seq; lia]].
  assert (R0 : raw f' 0 = fold_left (fun r pv => update r (fst pv) (snd pv)) (combine (concat pos) (concat vs)) (raw f 0)) by (rewrite C8, numbered_snd, combine_concat by exact F; reflexivity).
  assert (Lr : length (raw f' 0) = length (raw f 0)) by (rewrite R0; apply updates_length).
  cbn [f1 scales layout buffer heap] in C1, C2, C3, C4. rewrite Bz in *.
  split; [|split; [exact C2|split; [cbn; lia|split]]].
  - cbn [at_scales]. unfold inv. rewrite C1, C3, C4, Lr. repeat split; try assumption. intros _. exact Sm.
  - cbn [values]. unfold Buffers_Model.data, Buffers_Model.data_size. rewrite C1, C2, C3, E, R0. cbn [current]. apply scattered; [|exact F]. eapply Nat.le_trans; [|exact C]. apply Nat.mul_le_mono_l. apply fits. lia.
  - cbn [values in_layout at_scales]. unfold placed. rewrite map_length, seq_length. apply count.
Qed.
(** ** Histories *)
Notation happen := (happen teq dim top grid lsize ncomp dealias fresh incr decr zero pos).
Notation history := (history teq dim top grid lsize ncomp dealias fresh incr decr zero pos).
Notation ideally := (ideally grid incr decr teq zero pos). Notation ideal_history := (ideal_history grid incr decr teq zero pos).
Definition by_solver (e : event (V := V) (T := T)) : bool := match e with Gather | Scatter _ => true | _ => false end.
Lemma happen_ok e f i : shows f i -> vok f -> proper top lsize ncomp pos dim e i -> for_solver small e i -> exists f', happen e f = Some (fst (ideally e i), f') /\ shows f' (snd (ideally e i)) /\ vok f' /\ (all_zero f \/ by_solver e = true -> all_zero f').
Proof.
  intros Hs Hv Hp Hsol. assert (Vk : forall f', views f' = views f -> vok f' /\ (all_zero f -> all_zero f')) by (intros f' E; unfold vok, all_zero; rewrite E; split; [exact Hv|auto]).
  destruct e as [l s|l s x|s|l| |vs]; cbn [Buffers_Model.happen Buffers_Spec.ideally fst snd proper for_solver by_solver] in *.
  - destruct Hp as [Hl Hd]. unfold getitem. assert (G : exists f1, with_scales (change_scales teq dim top grid lsize ncomp dealias fresh decr) s f = Some f1 /\ shows f1 (optionally (to_scales grid incr decr teq) s i) /\ views f1 = views f) by (destruct s as [s|]; cbn [with_scales optionally]; [apply change_scales_ok; assumption|exists f; split; [reflexivity|]; split; [exact Hs|reflexivity]]).
    destruct G as (f1 & E1 & S1 & V1). rewrite E1. destruct (change_layout_ok f1 _ l S1 Hl) as (f2 & E2 & S2 & N2). rewrite E2. cbn [option_map]. exists f2. pose proof S2 as (_ & _ & _ & Ed & _). rewrite Ed. split; [reflexivity|]. split; [exact S2|]. destruct N2 as (_ & V2 & _). destruct (Vk f2 ltac:(congruence)) as [A B]. split; [exact A|]. intros [H|H]; [apply B; exact H|discriminate].
  - destruct Hp as [Hl Hd]. destruct (setitem_ok f i l s x Hs Hl Hd) as (f1 & E1 & S1 & V1). rewrite E1. exists f1. split; [reflexivity|]. split; [exact S1|]. destruct (Vk f1 V1) as [A B]. split; [exact A|]. intros [H|H]; [apply B; exact H|discriminate].
  - destruct (change_scales_ok f i s Hs Hp) as (f1 & E1 & S1 & V1). rewrite E1. exists f1. split; [reflexivity|]. split; [exact S1|]. destruct (Vk f1 V1) as [A B]. split; [exact A|]. intros [H|H]; [apply B; exact H|discriminate].
  - destruct (change_layout_ok f i l Hs Hp) as (f1 & E1 & S1 & N1). rewrite E1. exists f1. split; [reflexivity|]. split; [exact S1|]. destruct N1 as (_ & V1 & _). destruct (Vk f1 V1) as [A B]. split; [exact A|]. intros [H|H]; [apply B; exact H|discriminate].
  - destruct (gather_ok f i Hs Hv Hsol) as (f1 & E1 & S1 & V1 & Z1). exists f1. repeat split; try assumption; try apply S1; try apply V1. intros _. exact Z1.
  - destruct (scatter_ok f i vs Hs Hv Hsol Hp) as (f1 & E1 & S1 & V1 & Z1). rewrite E1. exists f1. repeat split; try assumption; try apply S1; try apply V1. intros _. exact Z1.
Qed.
Lemma history_ok es f i : shows f i -> vok f -> all_proper top grid lsize ncomp incr decr teq zero pos dim es i -> solver_at grid incr decr teq zero pos small es i ->
  exists f', history es f = Some (fst (ideal_history es i), f') /\ shows f' (snd (ideal_history es i)) /\ vok f' /\ (all_zero f \/ existsb by_solver es = true -> all_zero f').
Proof.
  revert f i. induction es as [|e es IH]; intros f i Hs Hv Hp Ha; cbn [Buffers_Model.history Buffers_Spec.ideal_history all_proper solver_at existsb fst snd] in *.
  - exists f. split; [reflexivity|]. split; [exact Hs|]. split; [exact Hv|]. intros [H|H]; [exact H|discriminate].
  - destruct Hp as [P1 P2], Ha as [A1 A2]. destruct (happen_ok e f i Hs Hv P1 A1) as (f1 & E1 & S1 & V1 & Z1). rewrite E1. destruct (IH f1 _ S1 V1 P2 A2) as (f2 & E2 & S2 & V2 & Z2). rewrite E2. cbn [option_map fst snd]. exists f2. split; [reflexivity|]. split; [exact S2|]. split; [exact V2|]. intros [H|H]; [apply Z2; left; apply Z1; left; exact H|]. apply orb_true_iff in H. destruct H as [H|H]; [apply Z2; left; apply Z1; right; exact H|apply Z2; right; exact H].
Qed.
Lemma new_ok (Ho : length ones = dim) : exists f0, new_field teq top lsize ncomp dealias ones fresh pos = Some f0 /\ shows f0 (Ideal ones 0 (data f0)) /\ vok f0.
Proof.
  unfold new_field, Buffers_Model.preset_scales. cbn [scales layout heap views length]. set (h := [fresh 0 (ncomp * BS dealias)]).
  assert (V0 : forall s l b hp, vok (Field s l b hp (repeat None (length pos)))) by (intros; split; cbn [views]; [apply repeat_length|apply Forall_forall; intros x Hx; apply repeat_spec in Hx; left; exact Hx]).
  destruct (BS ones <=? BS dealias) eqn:E.
  - apply Nat.leb_le in E. set (f1 := Field (Some ones) 0 0 h (repeat None (length pos))).
    assert (I1 : inv ones f1). { split; [reflexivity|]. split; [exact Ho|]. split; [cbn; lia|]. change (raw f1 (buffer f1)) with (fresh 0 (ncomp * BS dealias)). change (raw f1 0) with (fresh 0 (ncomp * BS dealias)). rewrite (fresh_size _ _ _ _ _ _ _ _ S_). split; [apply Nat.mul_le_mono_l; exact E|]. split; [lia|]. split; [intros _; exact E|reflexivity]. }
    cbn [layout]. rewrite (preset_layout_ok ones) by (try exact I1; cbn; lia). eexists. split; [reflexivity|]. split; [|apply V0]. split; [exact I1|]. split; [reflexivity|]. split; [cbn; lia|]. split; [reflexivity|]. apply data_length; [exact I1|cbn; lia].
  - apply Nat.leb_gt in E. set (f1 := Field (Some ones) 0 1 (h ++ [fresh 1 (ncomp * BS ones)]) (repeat None (length pos))).
    assert (I1 : inv ones f1). { split; [reflexivity|]. split; [exact Ho|]. split; [cbn; lia|]. change (raw f1 (buffer f1)) with (fresh 1 (ncomp * BS ones)). change (raw f1 0) with (fresh 0 (ncomp * BS dealias)). rewrite !(fresh_size _ _ _ _ _ _ _ _ S_). split; [lia|]. split; [lia|]. unfold small. split; [intros H; cbn in H; lia|lia]. }
    cbn [layout]. rewrite (preset_layout_ok ones) by (try exact I1; cbn; lia). eexists. split; [reflexivity|]. split; [|apply V0]. split; [exact I1|]. split; [reflexivity|]. split; [cbn; lia|]. split; [reflexivity|]. apply data_length; [exact I1|cbn; lia].
Qed.
Lemma history_app es es' f : history (es ++ es') f = match history es f with None => None | Some (o, f1) => option_map (fun r => (o ++ fst r, snd r)) (history es' f1) end.
Proof.
  revert f. induction es as [|e es IH]; intros f; cbn [Buffers_Model.history app]; [destruct (history es' f) as [[o f1]|]; reflexivity|]. destruct (happen e f) as [[o f1]|]; [|reflexivity]. rewrite IH. destruct (history es f1) as [[o1 f2]|]; cbn [option_map]; [|reflexivity]. cbn [fst snd]. destruct (history es' f2) as [[o2 f3]|]; reflexivity.
Qed.
(** ** Leaving the dealias buffer *)
Lemma leaves f i s : shows f i -> in_layout i = 0 -> small (at_scales i) -> length s = dim -> ~ small s ->
  exists f', change_scales teq dim top grid lsize ncomp dealias fresh decr s f = Some f' /\ shows f' (Ideal s 0 (values i)) /\ views f' = views f /\ buffer f' <> 0 /\ raw f' 0 = raw f 0.
Proof.
  intros Hs Hi Sm Ls Nsm. pose proof Hs as (I & El & Hl & Ed & Ln). pose proof I as (E & L & B & C & D & Hz). assert (Bz : buffer f = 0) by (apply Hz; exact Sm).
  unfold change_scales, same_scales. rewrite E. destruct (list_eq_dec teq s (at_scales i)) as [->|N]; [contradiction|]. cbn [current].
  assert (M : match_scales teq top grid lsize ncomp decr (at_scales i) s dim f = Some f) by (destruct dim; cbn [match_scales]; [reflexivity|]; rewrite El, Hi, (grid_none _ _ _ _ _ _ _ _ S_); reflexivity). rewrite M.
  destruct (preset_scales_ok _ s f I ltac:(lia) Ls) as (f2 & E2 & I2 & El2 & V2 & Lh & R2 & _). rewrite E2. pose proof I2 as (Es2 & _ & B2 & C2 & _ & Hz2).
  assert (Nb : buffer f2 <> 0) by (intros Hb; apply Nsm, Hz2, Hb).
  assert (Sz : length (data f) = ncomp * lsize 0 s) by (rewrite Ed, Ln, Hi; f_equal; apply (sizes _ _ _ _ _ _ _ _ S_); intros a Ha; rewrite (grid_none _ _ _ _ _ _ _ _ S_) in Ha; discriminate).
  assert (Sz' : data_size f2 = ncomp * lsize 0 s) by (unfold Buffers_Model.data_size; rewrite Es2, El2, El, Hi; reflexivity).
  rewrite Sz, Sz', Nat.eqb_refl. eexists. split; [reflexivity|]. split; [|split; [exact V2|split; [exact Nb|]]].
  - split; [apply inv_write; [exact I2|]; rewrite Sz; eapply Nat.le_trans; [|exact C2]; apply Nat.mul_le_mono_l; apply fits; lia|]. split; [cbn [write layout in_layout]; congruence|]. split; [cbn; lia|]. split; [rewrite data_write; [exact Ed|exact B2|congruence]|]. cbn [values in_layout at_scales]. rewrite <- Ed. exact Sz.
  - rewrite raw_write by exact B2. replace (0 =? buffer f2) with false by (symmetry; apply Nat.eqb_neq; lia). apply R2. lia.
Qed.
Lemma detached_gather f i s d : shows f i -> vok f -> all_zero f -> in_layout i = 0 -> small (at_scales i) -> length s = dim -> ~ small s -> length d = ncomp * lsize 0 s ->
  exists f', history [Scale s; Set_ 0 None d; Gather] f = Some ([[]; []; taken zero pos (values i)], f').
Proof.
  intros Hs Hv Hz Hi Sm Ls Ns Ld. destruct (leaves f i s Hs Hi Sm Ls Ns) as (f1 & E1 & S1 & V1 & B1 & R1). cbn [Buffers_Model.history Buffers_Model.happen]. rewrite E1. cbn [option_map].
  unfold setitem. cbn [with_scales]. pose proof S1 as (I1 & El1 & _). cbn [at_scales in_layout] in *. pose proof I1 as (Es1 & _ & Bl1 & _). rewrite (preset_layout_ok s) by (assumption || lia). set (f1' := Field (scales f1) 0 (buffer f1) (heap f1) (views f1)). assert (Sz : length d =? data_size f1' = true) by (apply Nat.eqb_eq; unfold Buffers_Model.data_size; cbn [f1' scales layout]; rewrite Es1; exact Ld). rewrite Sz. cbn [option_map].
  set (f2 := write d f1'). assert (R2 : raw f2 0 = raw f 0) by (unfold f2; rewrite raw_write by exact Bl1; replace (0 =? buffer f1') with false by (symmetry; apply Nat.eqb_neq; cbn [f1' buffer]; lia); exact R1).
  unfold gather, change_layout. change (layout f2) with 0. cbn [Nat.ltb Nat.leb option_map].
  assert (G : forall ks, (forall k, In k (map fst ks) -> k < length pos) -> gather_from zero ks f2 = (map (fun kp => map (fun p => nth p (raw f2 0) zero) (snd kp)) ks, f2)).
  { induction ks as [|[k ps] ks IH]; intros Hk; cbn [gather_from map snd]; [reflexivity|]. unfold cached. change (views f2) with (views f1). rewrite V1, (Hz k) by (apply Hk; left; reflexivity). rewrite IH by (intros j Hj; apply Hk; right; exact Hj). reflexivity. }
  rewrite G by (intros k Hk; rewrite numbered_fst in Hk; apply in_seq in Hk; lia). cbn [option_map fst snd]. eexists. apply f_equal. apply f_equal2; [|reflexivity]. repeat (apply f_equal2; [reflexivity|]). apply f_equal2; [|reflexivity].
  pose proof Hs as (I & El & _ & Ed & _). pose proof I as (E & _ & _ & _ & _ & Hzz). apply (gathered _ _ (data_size f)).
  - intros p Hp. apply (proj2 (shared_out _ _ _ _ _ _ _ _ S_)) with (s := at_scales i) in Hp. unfold Buffers_Model.data_size. rewrite E, El, Hi. exact Hp.
  - rewrite R2, <- Ed. unfold Buffers_Model.data. rewrite (proj2 Hzz Sm). reflexivity.
Qed.
Lemma detached_scatter f i s vs : shows f i -> vok f -> all_zero f -> in_layout i = 0 -> small (at_scales i) -> length s = dim -> ~ small s -> Forall2 (fun p v => length p = length v) pos vs ->
  exists f', history [Scale s; Scatter vs; Read 0 None] f = Some ([[]; []; [values i]], f').
Proof.
  intros Hs Hv Hz Hi Sm Ls Ns F. destruct (leaves f i s Hs Hi Sm Ls Ns) as (f1 & E1 & S1 & V1 & B1 & R1). cbn [Buffers_Model.history Buffers_Model.happen]. rewrite E1. cbn [option_map].
  pose proof S1 as (I1 & El1 & _ & Ed1 & _). cbn [at_scales in_layout values] in *. pose proof I1 as (Es1 & _ & Bl1 & _). unfold scatter. rewrite (preset_layout_ok s) by (assumption || lia). set (f1' := Field (scales f1) 0 (buffer f1) (heap f1) (views f1)). cbn [option_map].
  assert (Lv : length pos = length vs) by (clear - F; induction F; cbn; congruence).
  destruct (scatter_to_ok (numbered pos) vs f1') as (f' & E' & C1 & C2 & C3 & C4 & C5 & C6 & C7 & C8); [unfold vok; cbn [f1' views]; rewrite V1; exact Hv|exact Bl1|right; intros k Hk; cbn [f1' views]; rewrite V1; apply Hz; exact Hk|intros k Hk; rewrite numbered_fst in Hk; apply in_seq in Hk; lia|unfold numbered; rewrite combine_length, seq_length; lia|].
  rewrite E'. unfold getitem, with_scales, change_layout. rewrite C2. change (layout f1') with 0. cbn [Nat.ltb Nat.leb option_map fst snd]. eexists. apply f_equal. apply f_equal2; [|reflexivity]. repeat (apply f_equal2; [reflexivity|]). apply f_equal2; [|reflexivity]. apply f_equal2; [|reflexivity].
  rewrite <- Ed1. unfold Buffers_Model.data, Buffers_Model.data_size. rewrite C1, C2, C3, C8. cbn [f1' scales layout buffer]. apply Nat.eqb_neq in B1. rewrite B1, El1. reflexivity.
Qed.
End Proofs.
