(** C92: locked fields stay in the layouts they are locked to. *)
From stdpp Require Import list.
From Verif Require Layouts_Props.
From Verif Require Import Layouts_Model Layouts_Spec Layouts_Proofs LockedFields_Model LockedFields_Spec LockedFields_Proofs.

(** Every request goes, through layouts the field is locked to, to the first layout of the kind that is asked for, or raises before the first layout on the way that the
    field is not locked to. *)
Theorem locked_request (D R : nat) (ls : list layout) (ps : list path) (layouts : list nat) (fuel : nat) (r : request) (i : nat) :
  chain D R ls ps -> D + R <= fuel -> i <= D + R -> proper D R r ->
  answers D ls (fun k => k ∈ layouts) r i (perform ls ps (lock_to_layouts layouts) fuel r i).
Proof.
  intros C Hf Hi Hp. pose proof (perform_answers D R ls ps C (lock_to_layouts layouts) fuel r i Hf Hi Hp) as H.
  assert (E : forall k, within (lock_to_layouts layouts) k <-> k ∈ layouts).
  { intros k. unfold within, lock_to_layouts. rewrite elem_of_list_fmap. split; [intros (? & [= ->] & ?); done|intros ?; by exists k]. }
  revert H. generalize (perform ls ps (lock_to_layouts layouts) fuel r i). intros o.
  assert (U : forall w, ascent (within (lock_to_layouts layouts)) w i o -> ascent (fun k => k ∈ layouts) w i o).
  { intros w. destruct o; cbn; [| |done]; setoid_rewrite E; done. }
  assert (V : forall w, descent (within (lock_to_layouts layouts)) w i o -> descent (fun k => k ∈ layouts) w i o).
  { intros w. destruct o; cbn; [| |done]; setoid_rewrite E; done. }
  destruct r; cbn; [intros [H1 H2]; split; auto|auto|auto|intros [H1 H2]; split; auto].
Qed.
Print Assumptions locked_request.

(** Whatever is asked for, and whatever raises, a field in one of the layouts it is locked to stays in them. *)
Theorem stays_locked (D R : nat) (ls : list layout) (ps : list path) (layouts : list nat) (fuel : nat) (rs : list request) (i : nat) :
  chain D R ls ps -> D + R <= fuel -> Forall (fun k => k <= D + R) layouts -> i ∈ layouts -> Forall (proper D R) rs ->
  exists k, performs ls ps (lock_to_layouts layouts) fuel rs i = Some k /\ k ∈ layouts.
Proof.
  intros C Hf HL Hi Hr. assert (E : forall k, within (lock_to_layouts layouts) k <-> k ∈ layouts).
  { intros k. unfold within, lock_to_layouts. rewrite elem_of_list_fmap. split; [intros (? & [= ->] & ?); done|intros ?; by exists k]. }
  revert i Hi. induction Hr as [|r rs Hr Hrs IH]; intros i Hi; [by exists i|].
  assert (Hi' : i <= D + R) by (by eapply Forall_forall in HL).
  destruct (answers_stay D R ls ps C (lock_to_layouts layouts) r i _ Hi' Hr (perform_answers D R ls ps C _ fuel r i Hf Hi' Hr) (proj2 (E i) Hi)) as (k & Hk & W).
  cbn [performs]. rewrite Hk. cbn. apply IH. by apply E.
Qed.
Print Assumptions stays_locked.

(** A field with an axis locked to the grid goes to every layout with that axis on the grid, and to no other, and the axis never leaves the grid. *)
Theorem axis_locked_to_grid (D R : nat) (ls : list layout) (ps : list path) (axis fuel i t : nat) :
  chain D R ls ps -> D + R <= fuel -> axis < D -> t <= D + R -> axis_in_grid ls axis i ->
  (axis_in_grid ls axis t -> perform ls ps (lock_axis_to_grid ls axis) fuel (ChangeLayout t) i = Reached t) /\
  (~ axis_in_grid ls axis t -> exists k, perform ls ps (lock_axis_to_grid ls axis) fuel (ChangeLayout t) i = Raised k /\ axis_in_grid ls axis k) /\
  (exists k, perform ls ps (lock_axis_to_grid ls axis) fuel (RequireGrid None) i = Reached k /\ forall a, a < D -> axis_in_grid ls a k) /\
  (exists k, perform ls ps (lock_axis_to_grid ls axis) fuel (RequireCoeff (Some axis)) i = Raised k /\ axis_in_grid ls axis k) /\
  (exists k, perform ls ps (lock_axis_to_grid ls axis) fuel (RequireCoeff None) i = Raised k /\ axis_in_grid ls axis k).
Proof.
  intros C Hf Ha Ht Hi. set (A := lock_axis_to_grid ls axis).
  assert (W : forall k, within A k <-> axis_in_grid ls axis k) by (intros; by eapply within_axis).
  assert (Hi' : i <= D + R) by (destruct Hi as (l & Hl & _); by eapply lookup_ls_inv).
  assert (Mon : forall k m, axis_in_grid ls axis k -> k <= m -> m <= D + R -> axis_in_grid ls axis m).
  { intros k m Hk Hkm Hm. replace m with (k + (m - k)) by lia. apply (grid_grows D R ls ps C axis); [done|lia]. }
  assert (X : forall k, axis_in_grid ls axis k -> axis_in_coeff ls axis k -> False).
  { intros k (l & Hl & Hg) (l' & Hl' & Hg'). congruence. }
  pose proof (fun r Hp => perform_answers D R ls ps C A fuel r i Hf Hi' Hp) as P.
  pose proof (fun r Hp => answers_stay D R ls ps C A r i _ Hi' Hp (P r Hp) (proj2 (W i) Hi)) as St. repeat split.
  - intros Hg. destruct (P (ChangeLayout t) Ht) as [Pu Pd]. destruct (decide (i <= t)) as [Hit|Hit].
    + specialize (Pu Hit). destruct (perform _ _ _ _ _ _) as [k|k|]; [| |done]; cbn in Pu.
      * destruct Pu as (H1 & H2 & H3 & H4). f_equal. destruct (decide (k = t)); [done|]. exfalso. apply (H3 t); lia.
      * destruct Pu as (H1 & H2 & H3 & H4). exfalso. apply H4, W. apply (Mon i); [done|lia|]. specialize (H2 k ltac:(lia)). lia.
    + specialize (Pd ltac:(lia)). destruct (perform _ _ _ _ _ _) as [k|k|]; [| |done]; cbn in Pd.
      * destruct Pd as (H1 & H2 & H3 & H4). f_equal. destruct (decide (k = t)); [done|]. exfalso. apply (H3 t); lia.
      * destruct Pd as (H0 & H1 & H2 & H3 & H4). exfalso. specialize (H2 k ltac:(lia)). apply H4, W. apply (Mon t); [done|lia|lia].
  - intros Hg. assert (t < i). { destruct (decide (t < i)); [done|]. exfalso. apply Hg. apply (Mon i); [done|lia|lia]. }
    destruct (St (ChangeLayout t) Ht) as (k & Hk & Wk). destruct (P (ChangeLayout t) Ht) as [_ Pd]. specialize (Pd ltac:(lia)). destruct (perform _ _ _ _ _ _) as [k'|k'|]; [| |done]; cbn in Hk; injection Hk as ->.
    + cbn in Pd. destruct Pd as (H1 & H2 & H3 & H4). exfalso. apply Hg. apply W in Wk. by apply (Mon k).
    + exists k. split; [done|]. by apply W.
  - destruct (St (RequireGrid None) ltac:(done)) as (k & Hk & Wk). apply W in Wk. pose proof (P (RequireGrid None) ltac:(done)) as Pu. cbn [answers] in Pu. destruct (perform _ _ _ _ _ _) as [k'|k'|]; [| |done]; cbn in Hk; injection Hk as ->; cbn in Pu.
    + exists k. split; [done|]. apply Pu.
    + exfalso. destruct Pu as (H1 & H2 & H3 & H4). assert (k <= D + R) by (destruct Wk as (l & Hl & _); by eapply lookup_ls_inv).
      destruct (decide (k = D + R)) as [->|]; [apply (H2 (D + R) ltac:(lia)); intros a Ha'; by eapply last_grid|]. apply H4, W. apply (Mon k); [done|lia|lia].
  - assert (Hp : proper D R (RequireCoeff (Some axis))) by (intros ? [= <-]; done). destruct (St _ Hp) as (k & Hk & Wk). apply W in Wk. pose proof (P _ Hp) as Pu. cbn [answers] in Pu. destruct (perform _ _ _ _ _ _) as [k'|k'|]; [| |done]; cbn in Hk; injection Hk as ->; cbn in Pu.
    + exfalso. apply (X k); [done|]. by apply Pu.
    + by exists k.
  - assert (Hp : proper D R (RequireCoeff None)) by done. destruct (St _ Hp) as (k & Hk & Wk). apply W in Wk. pose proof (P _ Hp) as Pu. cbn [answers] in Pu. destruct (perform _ _ _ _ _ _) as [k'|k'|]; [| |done]; cbn in Hk; injection Hk as ->; cbn in Pu.
    + exfalso. apply (X k); [done|]. by apply Pu.
    + by exists k.
Qed.
Print Assumptions axis_locked_to_grid.

(** The operator [Lock] leaves fields in one of its layouts alone, and takes others to one of its layouts as near as any. *)
Theorem lock_takes_closest (D R : nat) (ls : list layout) (ps : list path) (layouts : list nat) (fuel i : nat) :
  chain D R ls ps -> D + R <= fuel -> i <= D + R -> layouts <> [] -> Forall (fun k => k <= D + R) layouts ->
  exists k, lock_enforce ps fuel layouts i = Some k /\ k ∈ layouts /\ lock_conditions layouts k = true /\ (i ∈ layouts -> k = i) /\
    forall m, m ∈ layouts -> (Z.abs (Z.of_nat i - Z.of_nat k) <= Z.abs (Z.of_nat i - Z.of_nat m))%Z.
Proof.
  intros C Hf Hi Hn HL. unfold lock_enforce, lock_conditions. case_bool_decide as E.
  - exists i. repeat split; [done|by apply bool_decide_eq_true_2|]. intros m Hm. lia.
  - destruct layouts as [|x l]; [done|]. cbn [closest]. cbn. destruct (argmin_least i l x) as [H1 H2]. cbv zeta in *. exists (argmin i x l). repeat split; [|done|by apply bool_decide_eq_true_2|done|intros m Hm; specialize (H2 m Hm); unfold distance in H2; lia].
    eapply Layouts_Props.change_layout_reaches_target; eauto. by eapply Forall_forall in HL.
Qed.
Print Assumptions lock_takes_closest.

(** A field that [Lock] returns should move among the layouts it was given; it does not leave the one it is in, as it is locked to the list, and no layout is a list. *)
Theorem lock_group_refuted :
  exists (D R : nat) (ls : list layout) (ps : list path) (layouts : list nat) (i t : nat), chain D R ls ps /\ i ∈ layouts /\ t ∈ layouts /\ t = S i /\ t <= D + R /\
    perform ls ps (snd (lock_operate layouts i)) (D + R) (ChangeLayout t) i = Raised i /\
    perform ls ps (lock_to_layouts layouts) (D + R) (ChangeLayout t) i = Reached t.
Proof.
  destruct (Layouts_Props.layout_chain_complete 4 6 (Some [2; 1; 3]) [2; 1; 3] eq_refl) as (ls & ps & H & C & _). exists 4, 2, ls, ps, [5; 6], 5, 6.
  split; [exact C|]. vm_compute in H. injection H as <- <-. split; [left|]. split; [right; left|]. split; [done|]. split; [lia|]. vm_compute. done.
Qed.
Print Assumptions lock_group_refuted.
Theorem lock_stays (ls : list layout) (ps : list path) (layouts : list nat) (fuel i t : nat) :
  t <> i -> 0 < fuel -> perform ls ps (snd (lock_operate layouts i)) fuel (ChangeLayout t) i = Raised i.
Proof.
  intros Ht Hf. destruct fuel as [|fuel]; [lia|]. cbn [perform lock_operate snd]. destruct (decide (i < t)).
  - cbn [loop]. rewrite bool_decide_false by lia. unfold towards_grid. cbn. by destruct (decide _).
  - rewrite decide_True by lia. cbn [loop]. rewrite bool_decide_false by lia. done.
Qed.
Print Assumptions lock_stays.

(** Scales of a locked field: what is accepted changes nothing, and its own scales are accepted. *)
Theorem locked_scales {S V : Type} `{EqDecision S} (zero one : S) (dim : nat) (s : scale_argument) (f g : field (S := S) (V := V)) :
  (locked_change_scales zero one dim s f = Some g -> g = f /\ remedy_scales zero one dim s = Some (scales_of f)) /\
  (zero ∉ scales_of f -> locked_change_scales zero one dim (Scales (scales_of f)) f = Some f).
Proof.
  split.
  - unfold locked_change_scales. destruct (remedy_scales zero one dim s) as [n|]; [|done]. cbn. destruct (decide (n = scales_of f)) as [->|]; [|done]. intros [= <-]. done.
  - intros Hz. unfold locked_change_scales, remedy_scales. rewrite bool_decide_false by done. cbn. by rewrite decide_True.
Qed.
Print Assumptions locked_scales.

(** Setting data ignores the lock: the field is then in a layout it is not locked to. *)
Theorem locked_set_refuted {S V : Type} (s : list S) (v w : V) :
  exists f : field (S := S) (V := V), locks f = Some (lock_to_layouts [1]) /\ layout_of f = 1 /\ layout_of (set_item 0 w f) = 0 /\ locks (set_item 0 w f) = locks f.
Proof. by exists (Field 1 s v (Some (lock_to_layouts [1]))). Qed.
Print Assumptions locked_set_refuted.

(** Unlocking keeps the layout, the scales and the data, whatever the new field holds at first, and every layout can then be reached. *)
Theorem unlock_frees {S V : Type} `{EqDecision S} (zero one : S) (dim D R : nat) (ls : list layout) (ps : list path) (v0 : V) (f : field (S := S) (V := V)) (t fuel : nat) :
  chain D R ls ps -> D + R <= fuel -> layout_of f <= D + R -> t <= D + R -> zero ∉ scales_of f ->
  exists g, unlock zero one dim v0 f = Some g /\ layout_of g = layout_of f /\ scales_of g = scales_of f /\ data_of g = data_of f /\ locks g = None /\
    change_layout ps fuel t (layout_of g) = Some t.
Proof.
  intros C Hf Hl Ht Hz. unfold unlock, remedy_scales. rewrite bool_decide_false by done. cbn. eexists. repeat split. cbn. by eapply Layouts_Props.change_layout_reaches_target.
Qed.
Print Assumptions unlock_frees.

(** The hypotheses of the theorems are met: a field of four dimensions on six processes, with an axis locked to the grid. *)
Example locked_ex : exists ls ps, build_layouts 4 [2; 1; 3] = Some (ls, ps) /\ chain 4 2 ls ps /\ axis_in_grid ls 2 6 /\ lock_axis_to_grid ls 2 = map One [3; 4; 5; 6] /\
  perform ls ps (lock_axis_to_grid ls 2) 6 (RequireLocal 3) 6 = Raised 3 /\ perform ls ps (lock_axis_to_grid ls 2) 6 (RequireLocal 1) 6 = Reached 4 /\
  performs ls ps (lock_to_layouts [4; 5; 6]) 6 [ChangeLayout 0; RequireLocal 1; RequireGrid None] 5 = Some 6 /\ lock_enforce ps 6 [0; 6] 4 = Some 6.
Proof.
  destruct (Layouts_Props.layout_chain_complete 4 6 (Some [2; 1; 3]) [2; 1; 3] eq_refl) as (ls & ps & H & C & _). exists ls, ps. split; [exact H|]. split; [exact C|].
  vm_compute in H. injection H as <- <-. split; [eexists; split; reflexivity|]. vm_compute. done.
Qed.
