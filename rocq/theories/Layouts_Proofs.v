From stdpp Require Import list.
From Coq Require Import Lia.
From Verif Require Import Layouts_Model Layouts_Spec.

Lemma trim_ones_pos mesh : Forall (fun m => 0 < m) mesh -> Forall (fun m => 0 < m) (trim_ones mesh).
Proof.
  induction 1 as [|m r Hm Hr IH]; simpl; [constructor|].
  destruct (trim_ones r); [destruct (decide (m = 1))|]; auto.
Qed.

Lemma mesh_prod_pos m : 0 < mesh_prod m -> Forall (fun x => 0 < x) m.
Proof.
  induction m as [|x m IH]; simpl; intros H; constructor.
  - destruct x; simpl in H; lia.
  - apply IH. unfold mesh_prod in *. simpl in H.
    destruct (foldr Nat.mul 1 m); [rewrite Nat.mul_0_r in H|]; lia.
Qed.

(** ** Counting *)
Definition nfalse (l : list bool) : nat := length (filter (fun b => b = false) l).

Lemma nfalse_app l k : nfalse (l ++ k) = nfalse l + nfalse k.
Proof. unfold nfalse. rewrite filter_app, app_length. done. Qed.

Lemma nfalse_replicate_true n : nfalse (replicate n true) = 0.
Proof. induction n; simpl; auto. Qed.

Lemma nfalse_cons b l : nfalse (b :: l) = (if b then 0 else 1) + nfalse l.
Proof. unfold nfalse. destruct b; simpl; done. Qed.

Lemma nfalse_map_mesh mesh :
  nfalse (map (fun m => bool_decide (m <= 1)) mesh) = length (reduced_mesh mesh).
Proof.
  unfold reduced_mesh. induction mesh as [|m r IH]; [done|].
  simpl map. rewrite nfalse_cons, IH, filter_cons.
  destruct (decide (1 < m)); simpl.
  - rewrite bool_decide_eq_false_2 by lia. done.
  - rewrite bool_decide_eq_true_2 by lia. done.
Qed.

Lemma nfalse_insert (l : list bool) (a : nat) (b c : bool) : l !! a = Some b ->
  nfalse (<[a:=c]> l) + (if b then 0 else 1) = nfalse l + (if c then 0 else 1).
Proof.
  revert a; induction l as [|x l IH]; intros [|a]; simpl; intros H; simplify_eq.
  - rewrite !nfalse_cons. destruct b, c; simpl; lia.
  - rewrite !nfalse_cons. specialize (IH _ H). lia.
Qed.

(** ** The loop invariant: [c] axes are still in coefficient space *)
Record Inv (D R c : nat) (l : layout) : Prop := {
  iv_len : length (local l) = D;
  iv_le : c <= D;
  iv_grid : grid l = replicate c false ++ replicate (D - c) true;
  iv_R : nfalse (local l) = R;
  iv_ready : 0 < c -> local l !! (c - 1) = Some true \/ (c < D /\ local l !! c = Some true);
}.

Definition togo (c : nat) (l : layout) : nat := c + nfalse (take c (local l)).

Lemma last_coeff_pref D c : c <= D ->
  last_coeff D (replicate c false ++ replicate (D - c) true)
  = match c with 0 => None | S c' => Some c' end.
Proof.
  intros Hc.
  assert (forall d, c <= d -> d <= D ->
    last_coeff d (replicate c false ++ replicate (D - c) true)
    = match c with 0 => None | S c' => Some c' end) as H; [|apply H; lia].
  induction d as [|d IH]; intros H1 H2.
  - replace c with 0 by lia. done.
  - cbn [last_coeff]. destruct (decide (c = S d)) as [->|Hne].
    + rewrite lookup_app_l by (rewrite replicate_length; lia).
      rewrite lookup_replicate_2 by lia. done.
    + rewrite lookup_app_r by (rewrite replicate_length; lia).
      rewrite replicate_length, lookup_replicate_2 by lia. apply IH; lia.
Qed.

Lemma grid_lookup D c l a : grid l = replicate c false ++ replicate (D - c) true ->
  c <= D -> grid l !! a = if decide (a < c) then Some false
              else if decide (a < D) then Some true else None.
Proof.
  intros -> Hc. destruct (decide (a < c)).
  - rewrite lookup_app_l by (rewrite replicate_length; lia). apply lookup_replicate_2; lia.
  - rewrite lookup_app_r by (rewrite replicate_length; lia). rewrite replicate_length.
    destruct (decide (a < D)); [apply lookup_replicate_2; lia|].
    apply lookup_ge_None_2. rewrite replicate_length. lia.
Qed.

Lemma grid_insert D c : S c <= D ->
  <[c:=true]> (replicate (S c) false ++ replicate (D - S c) true)
  = replicate c false ++ replicate (D - c) true.
Proof.
  intros H. apply list_eq. intros i.
  destruct (decide (i = c)) as [->|Hne].
  - rewrite list_lookup_insert by (rewrite app_length, !replicate_length; lia).
    rewrite lookup_app_r by (rewrite replicate_length; lia). rewrite replicate_length.
    rewrite lookup_replicate_2 by lia. done.
  - rewrite list_lookup_insert_ne by done.
    destruct (decide (i < c)).
    + rewrite !lookup_app_l by (rewrite replicate_length; lia).
      rewrite !lookup_replicate_2 by lia. done.
    + rewrite !lookup_app_r by (rewrite replicate_length; lia). rewrite !replicate_length.
      destruct (decide (i < D)).
      * rewrite !lookup_replicate_2 by lia. done.
      * rewrite !lookup_ge_None_2 by (rewrite replicate_length; lia). done.
Qed.

Lemma togo_take_S (c : nat) (loc : list bool) (b : bool) : loc !! c = Some b ->
  nfalse (take (S c) loc) = nfalse (take c loc) + (if b then 0 else 1).
Proof.
  intros H. rewrite (take_S_r _ _ _ H), nfalse_app, nfalse_cons. destruct b; simpl; unfold nfalse; simpl; lia.
Qed.

Lemma next_layout_inv D R c l : Inv D R c l -> 0 < togo c l ->
  exists p l' c', next_layout D l = Some (p, l') /\ neighbour l p l' /\ Inv D R c' l'
    /\ S (togo c' l') = togo c l.
Proof.
  intros [Hlen Hc Hg HR Hr] Ht. unfold togo in Ht.
  destruct c as [|d]; [unfold nfalse in Ht; simpl in Ht; lia|].
  assert (last_coeff D (grid l) = Some d) as Hlc by (rewrite Hg; by apply (last_coeff_pref D (S d))).
  unfold next_layout. rewrite Hlc. cbn [mbind option_bind].
  destruct (lookup_lt_is_Some_2 (local l) d) as [b Hb]; [lia|]. rewrite Hb. cbn [mbind option_bind].
  assert (grid l !! d = Some false) as Hgd.
  { rewrite (grid_lookup D (S d)) by done. rewrite decide_True by lia. done. }
  destruct b.
  - eexists _, _, d. split; [done|]. split; [|split].
    + by constructor.
    + split; simpl; [done|lia|rewrite Hg; by apply (grid_insert D d)|done|intros _; right; split; [lia|done]].
    + unfold togo; simpl. rewrite (togo_take_S _ _ _ Hb). lia.
  - destruct (Hr ltac:(lia)) as [H|[H1 H2]].
    { simpl in H. rewrite Nat.sub_0_r in H. congruence. }
    rewrite decide_True by lia.
    eexists _, _, (S d). split; [done|]. split; [|split].
    + apply nb_transpose; auto.
      * rewrite (grid_lookup D (S d)) by done. rewrite decide_False, decide_True by lia. done.
      * by rewrite !insert_length.
      * intros b. destruct (decide (b = d)) as [->|Hbd].
        { rewrite list_lookup_insert_ne by lia. apply list_lookup_insert. lia. }
        destruct (decide (b = S d)) as [->|Hbs].
        { apply list_lookup_insert. rewrite insert_length. lia. }
        rewrite !list_lookup_insert_ne by done. done.
    + split; simpl; auto.
      * by rewrite !insert_length.
      * pose proof (nfalse_insert (local l) d false true Hb) as E1. simpl in E1.
        assert (<[d:=true]> (local l) !! S d = Some true) as Hs
          by (rewrite list_lookup_insert_ne by lia; done).
        pose proof (nfalse_insert _ (S d) true false Hs) as E2. simpl in E2. lia.
      * intros _. left. rewrite Nat.sub_0_r.
        rewrite list_lookup_insert_ne by lia. apply list_lookup_insert. lia.
    + unfold togo. simpl local.
      rewrite (togo_take_S d (<[S d:=false]> (<[d:=true]> (local l))) true).
      2:{ rewrite list_lookup_insert_ne by lia. apply list_lookup_insert. lia. }
      rewrite (togo_take_S _ _ _ Hb).
      rewrite !take_insert by lia. lia.
Qed.

Lemma build_loop_inv D R n : forall c l, Inv D R c l -> togo c l = n ->
  exists ls ps, build_loop n D l = Some (ls, ps) /\ length ls = n /\ length ps = n /\
    (forall i p, ps !! i = Some p -> exists l1 l2,
        (l :: ls) !! i = Some l1 /\ ls !! i = Some l2 /\ neighbour l1 p l2) /\
    (exists lf, (l :: ls) !! n = Some lf /\ Inv D R 0 lf) /\
    (forall i l1, (l :: ls) !! i = Some l1 -> exists c1, Inv D R c1 l1).
Proof.
  induction n as [|n IH]; intros c l HI Ht.
  - exists [], []. split; [done|]. split; [done|]. split; [done|].
    assert (c = 0) as -> by (unfold togo in Ht; lia). split; [|split].
    + intros i p Hp. rewrite lookup_nil in Hp. done.
    + eauto.
    + intros [|i] l1; simpl; intros H; simplify_eq; eauto.
  - destruct (next_layout_inv D R c l HI ltac:(lia)) as (p & l' & c' & Hn & Hnb & HI' & Ht').
    destruct (IH c' l' HI' ltac:(lia)) as (ls & ps & Hb & L1 & L2 & Hs & (lf & Hl & HIf) & Ha).
    exists (l' :: ls), (p :: ps). cbn [build_loop]. rewrite Hn. cbn [mbind option_bind]. rewrite Hb.
    split; [done|]. split; [simpl; lia|]. split; [simpl; lia|]. split; [|split].
    + intros [|i] q; simpl; intros Hq; simplify_eq; [eauto|].
      destruct (Hs i q Hq) as (l1 & l2 & ? & ? & ?). eauto.
    + exists lf. split; [done|done].
    + intros [|i] l1; simpl; intros H; simplify_eq; eauto.
Qed.

Lemma layout0_inv D mesh : length mesh < D ->
  Inv D (length (reduced_mesh mesh)) D (layout0 D mesh).
Proof.
  intros H. split; simpl.
  - rewrite app_length, map_length, replicate_length. lia.
  - done.
  - rewrite Nat.sub_diag. simpl. by rewrite app_nil_r.
  - rewrite nfalse_app, nfalse_replicate_true, nfalse_map_mesh. lia.
  - intros _. left. rewrite lookup_app_r by (rewrite map_length; lia).
    rewrite map_length. apply lookup_replicate_2. lia.
Qed.

Lemma build_layouts_full D mesh : length mesh < D ->
  exists ls ps, build_layouts D mesh = Some (ls, ps) /\
    chain D (length (reduced_mesh mesh)) ls ps /\ ls !! 0 = Some (layout0 D mesh) /\
    (forall i l, ls !! i = Some l -> exists c, Inv D (length (reduced_mesh mesh)) c l).
Proof.
  intros H. set (R := length (reduced_mesh mesh)).
  pose proof (layout0_inv D mesh H) as HI. fold R in HI.
  assert (togo D (layout0 D mesh) = R + D) as Ht.
  { unfold togo. rewrite take_ge by (rewrite (iv_len _ _ _ _ HI); lia).
    rewrite (iv_R _ _ _ _ HI). lia. }
  destruct (build_loop_inv D R (R + D) D _ HI Ht) as (ls & ps & Hb & L1 & L2 & Hs & (lf & Hl & HIf) & Ha).
  exists (layout0 D mesh :: ls), ps. unfold build_layouts. fold R. rewrite Hb. simpl.
  split; [done|]. split; [|split; [done|]]; [|apply Ha].
  split.
  - simpl. lia.
  - lia.
  - eexists. split; [done|]. done.
  - exists lf. rewrite (Nat.add_comm D R). split; [done|].
    rewrite (iv_grid _ _ _ _ HIf). simpl. by rewrite Nat.sub_0_r.
  - intros i l Hi. destruct (Ha i l Hi) as [c [? Hc Hg ? ?]]. split; [done|].
    rewrite Hg, app_length, !replicate_length. lia.
  - intros i l Hi. destruct (Ha i l Hi) as [c HIc]. apply HIc.
  - intros i l a b Hi Hga Hab HbD. destruct (Ha i l Hi) as [c [? Hc Hg ? ?]].
    rewrite (grid_lookup D c) in Hga |- * by done.
    destruct (decide (a < c)); [done|]. rewrite decide_False by lia. rewrite decide_True by lia. done.
  - intros i p Hp. destruct (Hs i p Hp) as (l1 & l2 & ? & ? & ?). eauto.
Qed.

Lemma accept_mesh_lt D n mesh m : accept_mesh D n mesh = Some m ->
  length m < D /\ mesh_prod m = n.
Proof.
  unfold accept_mesh. intros H. destruct (decide _); [done|].
  destruct (decide _); simplify_eq. split; [lia|done].
Qed.

(** ** ext_mesh *)
Lemma assign_masked_ok loc d vals : nfalse loc = length vals ->
  exists ext, assign_masked loc d vals = Some ext /\ length ext = length loc /\
    foldr Nat.mul 1 ext * 1 = foldr Nat.mul 1 (if decide (d = 1) then vals else ext).
Proof.
  revert vals; induction loc as [|b loc IH]; intros vals H.
  - destruct vals; [|done]. exists []. simpl. destruct (decide _); auto.
  - rewrite nfalse_cons in H. destruct b; simpl in H.
    + destruct (IH vals H) as (ext & E & L & P). exists (d :: ext). simpl. rewrite E. simpl.
      split; [done|]. split; [lia|]. destruct (decide _); simpl in *; subst; lia.
    + destruct vals as [|v vals]; simpl in H; [lia|].
      destruct (IH vals ltac:(lia)) as (ext & E & L & P). exists (v :: ext). simpl. rewrite E. simpl.
      split; [done|]. split; [lia|]. destruct (decide _); simpl in *; [|lia].
      rewrite <- P. lia.
Qed.

Lemma reduced_prod mesh : Forall (fun m => 0 < m) mesh ->
  foldr Nat.mul 1 (reduced_mesh mesh) = mesh_prod mesh.
Proof.
  unfold reduced_mesh, mesh_prod. induction 1 as [|m r Hm Hr IH]; [done|].
  rewrite filter_cons. destruct (decide (1 < m)); simpl; rewrite IH; [done|].
  assert (m = 1) as -> by lia. lia.
Qed.

(** ** comm_cart_axis: number of distributed axes before the transposed axis. *)
Lemma inv_prefix_step D l p l' : next_layout D l = Some (p, l') ->
  forall a, (exists d, last_coeff D (grid l) = Some d /\ a < d) -> local l' !! a = local l !! a.
Proof.
  unfold next_layout. intros H a (d & Hd & Ha). rewrite Hd in H. simpl in H.
  destruct (local l !! d) as [[]|]; simpl in H; simplify_eq; [done|].
  destruct (decide _); simplify_eq. simpl. rewrite !list_lookup_insert_ne by lia. done.
Qed.

Record Pre (D : nat) (loc0 : list bool) (l : layout) : Prop := {
  pre_same : forall d, last_coeff D (grid l) = Some d -> take d (local l) = take d loc0;
  pre_at : forall d, last_coeff D (grid l) = Some d -> local l !! d = Some false -> loc0 !! d = Some false;
}.

Lemma pre_step D R c loc0 l p l' : Inv D R c l -> Pre D loc0 l -> length loc0 = D ->
  next_layout D l = Some (p, l') -> 0 < togo c l -> Pre D loc0 l'.
Proof.
  intros HI HP H0 Hn Ht. destruct HI as [Hlen Hc Hg HR Hr].
  destruct c as [|d]; [unfold togo, nfalse in Ht; simpl in Ht; lia|].
  assert (last_coeff D (grid l) = Some d) as Hd by (rewrite Hg; by apply (last_coeff_pref D (S d))).
  destruct HP as [P1 P2]. specialize (P1 d Hd). specialize (P2 d Hd).
  unfold next_layout in Hn. rewrite Hd in Hn. simpl in Hn.
  destruct (local l !! d) as [[]|] eqn:Hb; simpl in Hn; [| |discriminate].
  - injection Hn as <- <-.
    split; simpl; intros e; rewrite Hg; rewrite (grid_insert D d) by done;
      rewrite last_coeff_pref by lia; (destruct d as [|d']; [discriminate|]); intros [= <-].
    + assert (take d' (take (S d') (local l)) = take d' (take (S d') loc0)) as E by (f_equal; exact P1).
      rewrite !take_take in E. replace (d' `min` S d') with d' in E by lia. exact E.
    + intros He. assert ((take (S d') (local l)) !! d' = (take (S d') loc0) !! d') as E by (rewrite P1; done).
      rewrite !lookup_take in E by lia. rewrite <- E. exact He.
  - destruct (decide _) in Hn; [|discriminate]. injection Hn as <- <-.
    split; simpl; intros e; rewrite Hd; intros [= <-].
    + rewrite !take_insert by lia. exact P1.
    + intros Hx. rewrite list_lookup_insert_ne in Hx by lia.
      rewrite list_lookup_insert in Hx by lia. done.
Qed.

Lemma build_loop_pre D R loc0 n : forall c l ls ps, Inv D R c l -> togo c l = n ->
  Pre D loc0 l -> D = length loc0 ->
  build_loop n D l = Some (ls, ps) ->
  forall i a, ps !! i = Some (Transpose a) ->
   exists l1, (l :: ls) !! i = Some l1 /\ take a (local l1) = take a loc0 /\ loc0 !! a = Some false.
Proof.
  induction n as [|n IH]; intros c l ls ps HI Ht HP H0 Hb i a Hi.
  - simpl in Hb. injection Hb as <- <-. rewrite lookup_nil in Hi. done.
  - destruct (next_layout_inv D R c l HI ltac:(lia)) as (p & l' & c' & Hn & Hnb & HI' & Ht').
    cbn [build_loop] in Hb. rewrite Hn in Hb. cbn [mbind option_bind] in Hb.
    destruct (build_loop n D l') as [[ls' ps']|] eqn:Hb'; simpl in Hb; [|done]. injection Hb as <- <-.
    destruct i as [|i]; simpl in Hi.
    + injection Hi as ->. exists l. split; [done|].
      unfold next_layout in Hn. destruct (last_coeff D (grid l)) as [d|] eqn:Hd; [|done].
      simpl in Hn. destruct (local l !! d) as [[]|] eqn:Hx; simpl in Hn; try discriminate.
      destruct (decide _) in Hn; [|discriminate]. injection Hn as <- <-. split; [by apply HP|by eapply HP].
    + destruct (IH c' l' ls' ps' HI' ltac:(lia)
         (pre_step D R c loc0 l p l' HI HP (eq_sym H0) Hn ltac:(lia)) H0 Hb' i a Hi) as (l1 & ? & ?).
      exists l1. simpl. eauto.
Qed.

Lemma comm_cart_axis_count mesh a : Forall (fun m => 0 < m) mesh -> a <= length mesh ->
  comm_cart_axis mesh a = nfalse (take a (map (fun m => bool_decide (m <= 1)) mesh)).
Proof.
  intros Hp Ha. unfold comm_cart_axis.
  assert (nfalse (take a (map (fun m => bool_decide (m <= 1)) mesh)) +
          length (filter (fun m => m = 1) (take a mesh)) = a) as E; [|lia].
  revert a Ha; induction Hp as [|m r Hm Hr IH]; intros a Ha; simpl in Ha.
  - replace a with 0 by lia. done.
  - destruct a as [|a]; [done|]. simpl. rewrite nfalse_cons.
    rewrite filter_cons. specialize (IH a ltac:(lia)).
    destruct (decide (m = 1)) as [->|]; simpl; simpl in IH.
    + lia.
    + rewrite bool_decide_eq_false_2 by lia. lia.
Qed.

Lemma transpose_comm D mesh ls ps i a :
  length mesh < D -> Forall (fun m => 0 < m) mesh ->
  build_layouts D mesh = Some (ls, ps) -> ps !! i = Some (Transpose a) ->
  exists l, ls !! i = Some l /\
    comm_cart_axis mesh a = length (filter (fun b => b = false) (take a (local l))).
Proof.
  intros HD Hp Hb Hi. unfold build_layouts in Hb.
  destruct (build_loop _ D (layout0 D mesh)) as [[ls' ps']|] eqn:Hl; simpl in Hb; simplify_eq.
  pose proof (layout0_inv D mesh HD) as HI.
  set (loc0 := local (layout0 D mesh)).
  assert (Pre D loc0 (layout0 D mesh)) as HP by (split; intros; auto).
  assert (togo D (layout0 D mesh) = length (reduced_mesh mesh) + D) as Ht.
  { unfold togo. rewrite take_ge by (rewrite (iv_len _ _ _ _ HI); lia).
    rewrite (iv_R _ _ _ _ HI). lia. }
  destruct (build_loop_pre D _ loc0 _ D _ ls' ps HI Ht HP (eq_sym (iv_len _ _ _ _ HI)) Hl i a Hi) as (l1 & H1 & H2 & H3).
  exists l1. split; [done|]. rewrite H2. fold (nfalse (take a loc0)). unfold loc0 in *. simpl in *.
  assert (a < length mesh) as Ham.
  { destruct (decide (a < length mesh)); [done|].
    rewrite lookup_app_r in H3 by (rewrite map_length; lia).
    apply lookup_replicate in H3 as [? ?]. done. }
  rewrite take_app_le by (rewrite map_length; lia). apply comm_cart_axis_count; [done|lia].
Qed.

(** ** Moves *)
Section chain_moves.
  Context (D R : nat) (ls : list layout) (ps : list path) (C : chain D R ls ps).

  Lemma lookup_ls i : i <= D + R -> exists l, ls !! i = Some l.
  Proof. intros H. apply lookup_lt_is_Some_2. rewrite (ch_len _ _ _ _ C). lia. Qed.

  Lemma lookup_ls_inv i l : ls !! i = Some l -> i <= D + R.
  Proof. intros H. apply lookup_lt_Some in H. rewrite (ch_len _ _ _ _ C) in H. lia. Qed.

  Lemma tg i : i < D + R -> towards_grid_space ps i = Some (S i).
  Proof. intros H. unfold towards_grid_space. rewrite decide_True by (rewrite (ch_paths _ _ _ _ C); lia). done. Qed.
  Lemma tc i : i < D + R -> towards_coeff_space ps (S i) = Some i.
  Proof. intros H. unfold towards_coeff_space. rewrite decide_True by (rewrite (ch_paths _ _ _ _ C); lia). done. Qed.

  (** upward search *)
  Lemma while_up cond fuel : forall i j, i <= j -> j <= D + R -> j - i <= fuel ->
    (exists l, ls !! j = Some l /\ cond l = true) ->
    exists k, while_not ls fuel cond (towards_grid_space ps) i = Some k /\ i <= k <= j /\
      (exists l, ls !! k = Some l /\ cond l = true) /\
      (forall m l, i <= m -> m < k -> ls !! m = Some l -> cond l = false).
  Proof.
    induction fuel as [|f IH]; intros i j Hij Hj Hf (lj & Hlj & Hcj).
    - assert (i = j) as -> by lia. exists j. simpl. rewrite Hlj. simpl. rewrite Hcj.
      split; [done|]. split; [lia|]. split; [eauto|]. intros; lia.
    - destruct (lookup_ls i ltac:(lia)) as [li Hli]. simpl. rewrite Hli. simpl.
      destruct (cond li) eqn:Hc.
      + exists i. split; [done|]. split; [lia|]. split; [eauto|]. intros; lia.
      + assert (i <> j) by (intros ->; congruence).
        rewrite tg by lia. simpl. destruct (IH (S i) j) as (k & Hk & Hb & He & Hm); [lia|lia|lia|eauto|].
        exists k. split; [done|]. split; [lia|]. split; [done|].
        intros m l H1 H2 H3. destruct (decide (m = i)) as [->|]; [congruence|].
        apply (Hm m); [lia|lia|done].
  Qed.

  (** downward search *)
  Lemma while_down cond fuel : forall i j, j <= i -> i <= D + R -> i - j <= fuel ->
    (exists l, ls !! j = Some l /\ cond l = true) ->
    exists k, while_not ls fuel cond (towards_coeff_space ps) i = Some k /\ j <= k <= i /\
      (exists l, ls !! k = Some l /\ cond l = true) /\
      (forall m l, k < m -> m <= i -> ls !! m = Some l -> cond l = false).
  Proof.
    induction fuel as [|f IH]; intros i j Hij Hj Hf (lj & Hlj & Hcj).
    - assert (i = j) as -> by lia. exists j. simpl. rewrite Hlj. simpl. rewrite Hcj.
      split; [done|]. split; [lia|]. split; [eauto|]. intros; lia.
    - destruct (lookup_ls i ltac:(lia)) as [li Hli]. simpl. rewrite Hli. simpl.
      destruct (cond li) eqn:Hc.
      + exists i. split; [done|]. split; [lia|]. split; [eauto|]. intros; lia.
      + assert (i <> j) by (intros ->; congruence).
        destruct i as [|i]; [lia|]. rewrite tc by lia. simpl. destruct (IH i j) as (k & Hk & Hb & He & Hm); [lia|lia|lia|eauto|].
        exists k. split; [done|]. split; [lia|]. split; [done|].
        intros m l H1 H2 H3. destruct (decide (m = S i)) as [->|]; [congruence|].
        apply (Hm m); [lia|lia|done].
  Qed.

  Lemma change_layout_ok fuel : forall i t, i <= D + R -> t <= D + R -> D + R <= fuel + Nat.min i t ->
    (i - t <= fuel) -> (t - i <= fuel) ->
    change_layout ps fuel t i = Some t.
  Proof.
    assert (forall fuel i t, i <= D + R -> t <= D + R ->
      i - t <= fuel -> t - i <= fuel -> change_layout ps fuel t i = Some t) as H.
    { clear fuel. induction fuel as [|f IH]; intros i t Hi Ht H1 H2.
      - assert (i = t) as -> by lia. simpl. by rewrite decide_True.
      - simpl. destruct (decide (i = t)); [congruence|].
        destruct (decide (i < t)).
        + unfold towards_grid_space. rewrite decide_True by (rewrite (ch_paths _ _ _ _ C); lia).
          simpl. destruct (decide (S i < t)); [apply IH; lia|f_equal; lia].
        + destruct i as [|i]; [lia|]. unfold towards_coeff_space.
          rewrite decide_True by (rewrite (ch_paths _ _ _ _ C); lia). simpl.
          destruct (decide (t < i)); [apply IH; lia|f_equal; lia]. }
    intros; apply H; lia.
  Qed.

  Lemma first_grid a : a < D -> exists l, ls !! 0 = Some l /\ grid l !! a = Some false.
  Proof.
    intros H. destruct (ch_first _ _ _ _ C) as (l & Hl & Hg). exists l. split; [done|].
    rewrite Hg. by apply lookup_replicate_2.
  Qed.
  Lemma last_grid a : a < D -> exists l, ls !! (D + R) = Some l /\ grid l !! a = Some true.
  Proof.
    intros H. destruct (ch_last _ _ _ _ C) as (l & Hl & Hg). exists l. split; [done|].
    rewrite Hg. by apply lookup_replicate_2.
  Qed.

  (** Where the flag of axis [a] flips, the axis is local on both sides. *)
  Lemma flip_local i a l l' : ls !! i = Some l -> ls !! S i = Some l' ->
    grid l !! a = Some false -> grid l' !! a = Some true ->
    local l !! a = Some true /\ local l' !! a = Some true.
  Proof.
    intros H1 H2 H3 H4.
    assert (i < length ps) as Hi.
    { pose proof (lookup_ls_inv _ _ H2). rewrite (ch_paths _ _ _ _ C). lia. }
    destruct (lookup_lt_is_Some_2 _ _ Hi) as [p Hp].
    destruct (ch_step _ _ _ _ C i p Hp) as (k & k' & K1 & K2 & N).
    simplify_eq. inversion N as [b HL HG|b loc' HL1 HL2 HG1 HG2 HLen HX]; subst; simpl in *.
    - destruct (decide (b = a)) as [->|Hne]; [auto|].
      rewrite list_lookup_insert_ne in H4 by done. congruence.
    - congruence.
  Qed.

  Lemma grid_flag i l a : ls !! i = Some l -> a < D -> exists b, grid l !! a = Some b.
  Proof.
    intros Hl Ha. destruct (ch_flags _ _ _ _ C i l Hl) as [_ Hg].
    apply lookup_lt_is_Some_2. lia.
  Qed.

  Lemma local_below i : forall l a, ls !! i = Some l -> grid l !! a = Some true -> a < D ->
    exists j lj, j <= i /\ ls !! j = Some lj /\ local lj !! a = Some true.
  Proof.
    induction i as [|i IH]; intros l a Hl Hg Ha.
    - destruct (first_grid a Ha) as (l0 & ? & ?). simplify_eq.
    - pose proof (lookup_ls_inv _ _ Hl). destruct (lookup_ls i ltac:(lia)) as [l1 Hl1].
      destruct (grid_flag i l1 a Hl1 Ha) as [[] Hb].
      + destruct (IH l1 a Hl1 Hb Ha) as (j & lj & ? & ? & ?). exists j, lj. auto with lia.
      + exists (S i), l. split; [done|]. split; [done|]. by eapply flip_local.
  Qed.

  Lemma local_above n : forall i l a, n = D + R - i -> ls !! i = Some l -> grid l !! a = Some false -> a < D ->
    exists j lj, i <= j /\ j <= D + R /\ ls !! j = Some lj /\ local lj !! a = Some true.
  Proof.
    induction n as [|n IH]; intros i l a Hn Hl Hg Ha.
    - pose proof (lookup_ls_inv _ _ Hl). assert (i = D + R) as -> by lia.
      destruct (last_grid a Ha) as (l0 & ? & ?). simplify_eq.
    - destruct (lookup_ls (S i) ltac:(lia)) as [l1 Hl1].
      destruct (grid_flag (S i) l1 a Hl1 Ha) as [[] Hb].
      + exists i, l. split; [done|]. split; [lia|]. split; [done|].
        by destruct (flip_local i a l l1 Hl Hl1 Hg Hb).
      + destruct (IH (S i) l1 a ltac:(lia) Hl1 Hb Ha) as (j & lj & ? & ? & ? & ?).
        exists j, lj. auto with lia.
  Qed.

  Lemma flag_true a l d : flag a l d = true -> a < length l -> l !! a = Some true.
  Proof.
    unfold flag. intros H1 H2. destruct (lookup_lt_is_Some_2 _ _ H2) as [b Hb].
    rewrite Hb in *. simpl in *. congruence.
  Qed.
  Lemma flag_false a l d : flag a l d = false -> a < length l -> l !! a = Some false.
  Proof.
    unfold flag. intros H1 H2. destruct (lookup_lt_is_Some_2 _ _ H2) as [b Hb].
    rewrite Hb in *. simpl in *. congruence.
  Qed.
  Lemma flag_some a l d b : l !! a = Some b -> flag a l d = b.
  Proof. unfold flag. intros ->. done. Qed.

  Lemma require_local_ok fuel a i : D + R <= fuel -> i <= D + R -> a < D ->
    exists k l, require_local ls ps fuel a i = Some k /\ ls !! k = Some l /\ local l !! a = Some true.
  Proof.
    intros Hf Hi Ha. unfold require_local. destruct (lookup_ls i Hi) as [l Hl]. rewrite Hl. simpl.
    destruct (grid_flag i l a Hl Ha) as [b Hb]. rewrite (flag_some _ _ _ _ Hb). destruct b.
    - destruct (local_below i l a Hl Hb Ha) as (j & lj & Hj & Hlj & Hloc).
      destruct (while_down (fun l => flag a (local l) true) fuel i j) as (k & Hk & Hb' & (lk & Hlk & Hck) & _);
        [lia|lia|lia| |].
      { exists lj. split; [done|]. by rewrite (flag_some _ _ _ _ Hloc). }
      exists k, lk. split; [done|]. split; [done|].
      eapply flag_true; [exact Hck|]. destruct (ch_flags _ _ _ _ C k lk Hlk). lia.
    - destruct (local_above _ i l a eq_refl Hl Hb Ha) as (j & lj & Hj & Hj2 & Hlj & Hloc).
      destruct (while_up (fun l => flag a (local l) true) fuel i j) as (k & Hk & Hb' & (lk & Hlk & Hck) & _);
        [lia|lia|lia| |].
      { exists lj. split; [done|]. by rewrite (flag_some _ _ _ _ Hloc). }
      exists k, lk. split; [done|]. split; [done|].
      eapply flag_true; [exact Hck|]. destruct (ch_flags _ _ _ _ C k lk Hlk). lia.
  Qed.

  Lemma forallb_replicate n : forallb id (replicate n true) = true.
  Proof. induction n; simpl; auto. Qed.
  Lemma existsb_replicate n : existsb id (replicate n false) = false.
  Proof. induction n; simpl; auto. Qed.

  Lemma require_grid_ok fuel ax i : D + R <= fuel -> i <= D + R ->
    (forall a, ax = Some a -> a < D) ->
    exists k l, require_grid_space ls ps fuel ax i = Some k /\ i <= k /\ ls !! k = Some l /\
      (forall a, (ax = None \/ ax = Some a) -> a < D -> grid l !! a = Some true) /\
      (forall m lm, i <= m -> m < k -> ls !! m = Some lm ->
         exists a, (ax = None \/ ax = Some a) /\ grid lm !! a = Some false).
  Proof.
    intros Hf Hi Hax. unfold require_grid_space. destruct ax as [a|].
    - specialize (Hax a eq_refl).
      destruct (last_grid a Hax) as (ll & Hll & Hg).
      destruct (while_up (fun l => flag a (grid l) true) fuel i (D + R)) as (k & Hk & Hb' & (lk & Hlk & Hck) & Hm);
        [lia|lia|lia| |].
      { exists ll. split; [done|]. by rewrite (flag_some _ _ _ _ Hg). }
      exists k, lk. split; [done|]. split; [lia|]. split; [done|]. split.
      + intros a' [?|?] _; simplify_eq. eapply flag_true; [exact Hck|].
        destruct (ch_flags _ _ _ _ C k lk Hlk). lia.
      + intros m lm H1 H2 H3. exists a. split; [auto|]. specialize (Hm m lm H1 H2 H3).
        eapply flag_false; [exact Hm|]. destruct (ch_flags _ _ _ _ C m lm H3). lia.
    - destruct (ch_last _ _ _ _ C) as (ll & Hll & Hg).
      destruct (while_up (fun l => forallb id (grid l)) fuel i (D + R)) as (k & Hk & Hb' & (lk & Hlk & Hck) & Hm);
        [lia|lia|lia| |].
      { exists ll. split; [done|]. rewrite Hg. apply forallb_replicate. }
      exists k, lk. split; [done|]. split; [lia|]. split; [done|]. split.
      + intros a _ Ha. rewrite forallb_forall in Hck.
        destruct (grid_flag k lk a Hlk Ha) as [b Hb].
        assert (id b = true) as <-; [|done]. apply Hck.
        apply elem_of_list_In. by eapply elem_of_list_lookup_2.
      + intros m lm H1 H2 H3. specialize (Hm m lm H1 H2 H3).
        assert (exists a, grid lm !! a = Some false) as [a Ha]; [|eauto].
        revert Hm. generalize (grid lm). clear. induction l as [|x l IH]; simpl; [done|].
        destruct x; simpl; intros H; [destruct (IH H) as [a Ha]; exists (S a); done|exists 0; done].
  Qed.

  Lemma require_coeff_ok fuel ax i : D + R <= fuel -> i <= D + R ->
    (forall a, ax = Some a -> a < D) ->
    exists k l, require_coeff_space ls ps fuel ax i = Some k /\ k <= i /\ ls !! k = Some l /\
      (forall a, (ax = None \/ ax = Some a) -> a < D -> grid l !! a = Some false) /\
      (forall m lm, k < m -> m <= i -> ls !! m = Some lm ->
         exists a, (ax = None \/ ax = Some a) /\ grid lm !! a = Some true).
  Proof.
    intros Hf Hi Hax. unfold require_coeff_space. destruct ax as [a|].
    - specialize (Hax a eq_refl).
      destruct (first_grid a Hax) as (ll & Hll & Hg).
      destruct (while_down (fun l => negb (flag a (grid l) false)) fuel i 0) as (k & Hk & Hb' & (lk & Hlk & Hck) & Hm);
        [lia|lia|lia| |].
      { exists ll. split; [done|]. by rewrite (flag_some _ _ _ _ Hg). }
      exists k, lk. split; [done|]. split; [lia|]. split; [done|]. split.
      + intros a' [?|?] _; simplify_eq. apply negb_true_iff in Hck. eapply flag_false; [exact Hck|].
        destruct (ch_flags _ _ _ _ C k lk Hlk). lia.
      + intros m lm H1 H2 H3. exists a. split; [auto|]. specialize (Hm m lm H1 H2 H3).
        apply negb_false_iff in Hm. eapply flag_true; [exact Hm|]. destruct (ch_flags _ _ _ _ C m lm H3). lia.
    - destruct (ch_first _ _ _ _ C) as (ll & Hll & Hg).
      destruct (while_down (fun l => negb (existsb id (grid l))) fuel i 0) as (k & Hk & Hb' & (lk & Hlk & Hck) & Hm);
        [lia|lia|lia| |].
      { exists ll. split; [done|]. rewrite Hg. by rewrite existsb_replicate. }
      exists k, lk. split; [done|]. split; [lia|]. split; [done|]. split.
      + intros a _ Ha. apply negb_true_iff in Hck.
        destruct (grid_flag k lk a Hlk Ha) as [[] Hb]; [|done].
        assert (existsb id (grid lk) = true); [|congruence].
        apply existsb_exists. exists true. split; [|done].
        apply elem_of_list_In. by eapply elem_of_list_lookup_2.
      + intros m lm H1 H2 H3. specialize (Hm m lm H1 H2 H3). apply negb_false_iff in Hm.
        apply existsb_exists in Hm as ([] & Hin & Hid); [|done].
        apply elem_of_list_In, elem_of_list_lookup_1 in Hin as [a Ha]. eauto.
  Qed.

  Lemma change_scales_ok fuel dif i : D + R <= fuel -> i <= D + R ->
    forall d, d <= D ->
    (forall l a, ls !! i = Some l -> d <= a -> a < D -> grid l !! a = Some true -> dif a = false) ->
    exists k l, change_scales_loop ls ps fuel d dif i = Some k /\ k <= i /\ ls !! k = Some l /\
      (forall a, grid l !! a = Some true -> dif a = false).
  Proof.
    intros Hf Hi d. destruct (lookup_ls i Hi) as [l Hl].
    induction d as [|a IH]; intros Hd Hpre.
    - simpl. exists i, l. split; [done|]. split; [done|]. split; [done|].
      intros a Ha. eapply Hpre; eauto; [lia|]. destruct (ch_flags _ _ _ _ C i l Hl).
      apply lookup_lt_Some in Ha. lia.
    - cbn [change_scales_loop]. rewrite Hl. cbn [mbind option_bind].
      destruct (grid_flag i l a Hl ltac:(lia)) as [b Hb]. rewrite (flag_some _ _ _ _ Hb).
      destruct b; simpl.
      + destruct (dif a) eqn:Hdif.
        * destruct (require_coeff_ok fuel (Some a) i Hf Hi) as (k & lk & Hk & Hki & Hlk & Hgk & Hm);
            [intros ? [= <-]; lia|].
          exists k, lk. split; [done|]. split; [done|]. split; [done|].
          intros b Hb'. specialize (Hgk a (or_intror eq_refl) ltac:(lia)).
          assert (a < b) as Hab.
          { destruct (decide (a < b)); [done|]. exfalso.
            pose proof (ch_suffix _ _ _ _ C k lk b a Hlk Hb' ltac:(lia) ltac:(lia)). congruence. }
          assert (b < D) as HbD.
          { destruct (ch_flags _ _ _ _ C k lk Hlk). apply lookup_lt_Some in Hb'. lia. }
          apply (Hpre l b Hl); [lia|done|].
          apply (ch_suffix _ _ _ _ C i l a b); auto; lia.
        * apply IH; [lia|]. intros l' b Hl' H1 H2 H3. simplify_eq.
          destruct (decide (b = a)) as [->|]; [done|]. eapply Hpre; eauto; lia.
      + exists i, l. split; [done|]. split; [done|]. split; [done|].
        intros b Hb'. assert (b < D) as HbD.
        { destruct (ch_flags _ _ _ _ C i l Hl). apply lookup_lt_Some in Hb'. lia. }
        destruct (decide (b <= a)).
        * pose proof (ch_suffix _ _ _ _ C i l b a Hl Hb' ltac:(lia) ltac:(lia)). congruence.
        * eapply Hpre; eauto; lia.
  Qed.
End chain_moves.

(** ** Mesh acceptance *)
Lemma trim_ones_spec mesh : exists k, mesh = trim_ones mesh ++ replicate k 1.
Proof.
  induction mesh as [|m r [k IH]]; simpl; [exists 0; done|].
  destruct (trim_ones r) as [|x r'] eqn:E.
  - simpl in IH. destruct (decide (m = 1)) as [->|]; [exists (S k)|exists k]; simpl; congruence.
  - exists k. simpl. rewrite IH at 1. done.
Qed.
Lemma trim_ones_last mesh : last (trim_ones mesh) <> Some 1.
Proof.
  induction mesh as [|m r IH]; simpl; [done|].
  destruct (trim_ones r) as [|x r'] eqn:E.
  - destruct (decide (m = 1)); simpl; [done|]. congruence.
  - change (last (m :: x :: r')) with (last (x :: r')). done.
Qed.
Lemma trim_ones_app m k : last m <> Some 1 -> trim_ones (m ++ replicate k 1) = m.
Proof.
  induction m as [|x m IH]; intros H; simpl.
  - induction k as [|k IHk]; simpl; [done|]. by rewrite IHk.
  - destruct m as [|y m].
    + assert (trim_ones ([] ++ replicate k 1) = []) as E by (apply IH; done). simpl in E.
      simpl. rewrite E. destruct (decide (x = 1)) as [->|]; [done|done].
    + rewrite IH by exact H. done.
Qed.
Lemma mesh_prod_ones m k : mesh_prod (m ++ replicate k 1) = mesh_prod m.
Proof.
  unfold mesh_prod. rewrite foldr_app. f_equal. induction k; simpl; [done|]. lia.
Qed.
