(** Lemmas on transforms along axes. *)
From Coq Require Import List Arith Bool Reals Lia FunctionalExtensionality.
Import ListNotations.
From Verif Require Import Filters_Model Filters_Spec.

Lemma moved_same p a : moved_to p a (p a) = p.
Proof. apply functional_extensionality. intros b. unfold moved_to. destruct (Nat.eqb_spec b a); congruence. Qed.
Lemma moved_moved p a i j : moved_to (moved_to p a i) a j = moved_to p a j.
Proof. apply functional_extensionality. intros b. unfold moved_to. destruct (Nat.eqb_spec b a); congruence. Qed.
Lemma moved_at p a j : moved_to p a j a = j.
Proof. unfold moved_to. now rewrite Nat.eqb_refl. Qed.
Lemma moved_other p a b j : b <> a -> moved_to p a j b = p b.
Proof. intros H. unfold moved_to. now destruct (Nat.eqb_spec b a). Qed.

Section Filters.
Context {V : Type} (zero : V) (dim : nat) (coeffs : nat -> nat) (fwd bwd : nat -> nat -> list V -> list V) (kept : nat -> nat -> nat -> bool).
Notation along := (along zero).
Notation grid := (grid coeffs).
Notation truncates := (truncates zero coeffs fwd bwd kept).
Notation towards_grid := (towards_grid zero dim coeffs bwd).
Notation towards_coeff := (towards_coeff zero dim coeffs fwd).

(** Data in layout [l] taken to coefficients. *)
Fixpoint down (l : nat) (s : list R) (x : array) : array :=
  match l with O => x | S l => down l s (along (dim - S l) (grid s (dim - S l)) (fwd (dim - S l) (grid s (dim - S l))) x) end.
Lemma read_down fuel f : layout f <= fuel -> repeat_while fuel (fun f => 0 <? layout f) towards_coeff f = Field (scales f) 0 (down (layout f) (scales f) (data f)).
Proof.
  revert f. induction fuel as [|fuel IH]; intros [s l x] H; cbn [layout scales data] in *; [now replace l with 0 by lia|]. cbn [repeat_while layout].
  destruct l as [|l]; [reflexivity|]. cbn [Nat.ltb Nat.leb]. unfold Filters_Model.towards_coeff. cbn [layout scales data pred]. rewrite IH by (cbn; lia). reflexivity.
Qed.

Lemma nth_map_seq {A} (f : nat -> A) n j d : j < n -> nth j (map f (seq 0 n)) d = f j.
Proof. intros H. rewrite nth_indep with (d' := f 0) by (rewrite map_length, seq_length; exact H). now rewrite map_nth, seq_nth by exact H. Qed.
Lemma map_seq_nth {A} (l : list A) d n : length l = n -> map (fun j => nth j l d) (seq 0 n) = l.
Proof. intros <-. apply nth_ext with d d; [now rewrite map_length, seq_length|]. intros i Hi. rewrite map_length, seq_length in Hi. now rewrite (nth_map_seq (fun j => nth j l d)) by exact Hi. Qed.

Lemma along_round a n x : truncates a n -> forall p, p a < coeffs a -> along a n (fwd a n) (along a (coeffs a) (bwd a n) x) p = if kept a n (p a) then x p else zero.
Proof.
  intros T p Hp. unfold Filters_Model.along. set (v := map (fun j => x (moved_to p a j)) (seq 0 (coeffs a))).
  assert (Lv : length v = coeffs a) by (unfold v; now rewrite map_length, seq_length).
  replace (map _ (seq 0 n)) with (bwd a n v).
  - rewrite (round_trip _ _ _ _ _ _ _ T v Lv) by exact Hp. unfold v. rewrite nth_map_seq by exact Hp. now rewrite moved_same.
  - rewrite <- (map_seq_nth (bwd a n v) zero n) at 1 by now apply (bwd_size _ _ _ _ _ _ _ T). apply map_ext. intros j. rewrite moved_at. do 2 f_equal. unfold v. apply map_ext. intros i. now rewrite moved_moved.
Qed.
Lemma along_mask a b n f k x y : a <> b -> (forall j, nth j (f (repeat zero n)) zero = zero) -> (forall p, p a < coeffs a -> x p = if k (p a) : bool then y p else zero) ->
  forall p, p a < coeffs a -> along b n f x p = if k (p a) then along b n f y p else zero.
Proof.
  intros Hab Hz H p Hp. unfold Filters_Model.along. destruct (k (p a)) eqn:E.
  - do 2 f_equal. apply map_ext. intros j. rewrite H by (rewrite moved_other by exact Hab; exact Hp). now rewrite moved_other, E by exact Hab.
  - replace (map _ (seq 0 n)) with (repeat zero n); [apply Hz|]. symmetry. rewrite (map_ext _ (fun _ => zero)).
    + clear. generalize 0. induction n as [|n IH]; intros i; cbn; [reflexivity|]. now rewrite IH.
    + intros j. rewrite H by (rewrite moved_other by exact Hab; exact Hp). now rewrite moved_other, E by exact Hab.
Qed.
Lemma down_mask l s a k x y : l <= dim -> a < dim - l -> (forall b, dim - l <= b -> b < dim -> truncates b (grid s b)) ->
  (forall p, p a < coeffs a -> x p = if k (p a) : bool then y p else zero) -> forall p, p a < coeffs a -> down l s x p = if k (p a) then down l s y p else zero.
Proof.
  revert x y. induction l as [|l IH]; intros x y Hl Ha T H; [exact H|]. cbn [down]. apply IH; [lia|lia|intros; apply T; lia|].
  apply along_mask; [lia| |exact H]. intros j. apply (fwd_zero _ _ _ _ _ _ _ (T (dim - S l) ltac:(lia) ltac:(lia))).
Qed.
Lemma along_kept a n x : truncates a n -> forall p, p a < coeffs a -> along a n (fwd a n) x p = if kept a n (p a) then along a n (fwd a n) x p else zero.
Proof.
  intros T p Hp. destruct (kept a n (p a)) eqn:E; [reflexivity|]. unfold Filters_Model.along. apply (fwd_kept _ _ _ _ _ _ _ T); [now rewrite map_length, seq_length|exact Hp|exact E].
Qed.
Lemma down_kept l s a x : l <= dim -> dim - l <= a -> a < dim -> (forall b, dim - l <= b -> b < dim -> truncates b (grid s b)) ->
  forall p, p a < coeffs a -> down l s x p = if kept a (grid s a) (p a) then down l s x p else zero.
Proof.
  revert x. induction l as [|l IH]; intros x Hl Hal Had T p Hp; [lia|]. cbn [down]. destruct (Nat.eq_dec a (dim - S l)) as [->|Hne].
  - apply down_mask; [lia|lia|intros; apply T; lia| |exact Hp]. apply along_kept, T; lia.
  - apply IH; [lia|lia|lia|intros; apply T; lia|exact Hp].
Qed.

(** All axes below [dim - l]. *)
Lemma up_down fuel s l x : l <= dim -> dim - l <= fuel -> (forall b, b < dim -> truncates b (grid s b)) ->
  let f := repeat_while fuel (fun f => layout f <? dim) towards_grid (Field s l x) in
  scales f = s /\ layout f = dim /\ forall p, (forall a, a < dim -> p a < coeffs a) ->
  down dim s (data f) p = if forallb (fun a => kept a (grid s a) (p a)) (seq 0 (dim - l)) then down l s x p else zero.
Proof.
  revert l x. induction fuel as [|fuel IH]; intros l x Hl Hf T; cbn [repeat_while].
  - replace l with dim by lia. rewrite Nat.sub_diag. cbn. repeat split; reflexivity.
  - change (layout (Field s l x)) with l. destruct (Nat.ltb_spec l dim) as [Hlt|].
    + change (towards_grid (Field s l x)) with (Field s (S l) (along (dim - S l) (coeffs (dim - S l)) (bwd (dim - S l) (grid s (dim - S l))) x)). destruct (IH (S l) (along (dim - S l) (coeffs (dim - S l)) (bwd (dim - S l) (grid s (dim - S l))) x) ltac:(lia) ltac:(lia) T) as (Es & El & Ed).
      split; [exact Es|]. split; [exact El|]. intros p Hp. rewrite (Ed p Hp). cbn [down].
      rewrite (down_mask l s (dim - S l) (kept (dim - S l) (grid s (dim - S l))) _ x) by first [lia|intros; apply T; lia|apply Hp; lia|apply along_round, T; lia].
      replace (dim - l) with (dim - S l + 1) by lia. rewrite seq_app, forallb_app. cbn [seq forallb Nat.add]. rewrite andb_true_r.
      destruct (forallb _ _), (kept _ _ _); reflexivity.
    + replace l with dim by lia. rewrite Nat.sub_diag. cbn. repeat split; reflexivity.
Qed.

Lemma down_scales l s s' x : (forall a, dim - l <= a -> a < dim -> scale s a = scale s' a) -> l <= dim -> down l s x = down l s' x.
Proof.
  revert x. induction l as [|l IH]; intros x H Hl; [reflexivity|]. cbn [down]. unfold Filters_Model.grid. rewrite (H (dim - S l)) by lia. apply IH; [|lia]. intros; apply H; lia.
Qed.
Lemma require_axis fuel a f : a < dim -> layout f <= fuel -> layout f <= dim ->
  let f' := repeat_while fuel (fun f => in_grid dim f a) towards_coeff f in
  scales f' = scales f /\ layout f' <= dim - S a /\ layout f' <= layout f /\ down (layout f') (scales f') (data f') = down (layout f) (scales f) (data f).
Proof.
  intros Ha. revert f. induction fuel as [|fuel IH]; intros [s l x] Hl Hd; cbn [layout scales data] in *; cbn [repeat_while].
  - replace l with 0 by lia. cbn. repeat split; lia.
  - change (in_grid dim (Field s l x) a) with (dim - l <=? a). destruct (Nat.leb_spec (dim - l) a).
    + destruct l as [|l]; [lia|]. destruct (IH (towards_coeff (Field s (S l) x))) as (E1 & E2 & E3 & E4); [cbn; lia|cbn; lia|].
      split; [exact E1|]. split; [exact E2|]. split; [cbn in E3; cbn; lia|]. rewrite E4. reflexivity.
    + cbn. repeat split; lia.
Qed.
Lemma match_value old new axes f : scales f = old -> layout f <= dim -> axes <= dim -> (forall a, axes <= a -> a < dim -> scale old a = scale new a) ->
  let f' := match_scales zero dim coeffs fwd old new axes f in
  scales f' = old /\ layout f' <= dim /\ (forall a, dim - layout f' <= a -> a < dim -> scale old a = scale new a) /\ down (layout f') old (data f') = down (layout f) old (data f).
Proof.
  intros Hs Hl. revert axes. induction axes as [|a IH]; intros Hx Ha; cbn [match_scales].
  - split; [exact Hs|]. split; [exact Hl|]. split; [intros; apply Ha; lia|reflexivity].
  - change (in_grid dim f a) with (dim - layout f <=? a). destruct (Nat.leb_spec (dim - layout f) a) as [Hg|Hg]; cbn [negb].
    + unfold same. destruct (Req_EM_T (scale old a) (scale new a)) as [E|E].
      * apply IH; [lia|]. intros b Hb Hd. destruct (Nat.eq_dec b a) as [->|]; [exact E|apply Ha; lia].
      * destruct (require_axis dim a f) as (E1 & E2 & E3 & E4); [lia|lia|exact Hl|]. unfold require_coeff_axis. cbv zeta.
        split; [now rewrite E1|]. split; [lia|]. split; [intros b Hb Hd; apply Ha; lia|]. rewrite E1, Hs in E4. exact E4.
    + split; [exact Hs|]. split; [exact Hl|]. split; [intros b Hb Hd; apply Ha; lia|reflexivity].
Qed.
Lemma change_value s f : layout f <= dim -> let f' := change_scales zero dim coeffs fwd s f in
  scales f' = s /\ layout f' <= dim /\ down (layout f') s (data f') = down (layout f) (scales f) (data f).
Proof.
  intros Hl. unfold change_scales, same_scales. destruct (list_eq_dec Req_EM_T (scales f) s) as [<-|]; [cbv zeta; now repeat split|].
  destruct (match_value (scales f) s dim f eq_refl Hl ltac:(lia)) as (E1 & E2 & E3 & E4); [intros; lia|]. cbv zeta. cbn [scales layout data]. split; [reflexivity|]. split; [exact E2|].
  rewrite <- E4. symmetry. now apply down_scales.
Qed.
End Filters.
