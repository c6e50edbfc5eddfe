From stdpp Require Import gmap strings list.
From Verif Require Import Merges_Model Merges_Spec.

Definition runs (p : prog) (f f' : h5) : Prop := (p f).2 = None /\ List.last (p f).1 f = f'.

Lemma last_app_list {A} (l l' : list A) d : List.last (l ++ l') d = List.last l' (List.last l d).
Proof.
  revert d. induction l as [|x l IH]; intros d; [done|]. change ((x :: l) ++ l') with (x :: (l ++ l')).
  assert (forall (l : list A) x d, List.last (x :: l) d = List.last l x) as E.
  { clear. induction l as [|y l IH]; intros x d; [done|]. change (List.last (y :: l) d = List.last (y :: l) x). by rewrite !IH. }
  rewrite !E. apply IH.
Qed.
Lemma last_cons_list {A} (l : list A) x d : List.last (x :: l) d = List.last l x.
Proof. apply (last_app_list [x] l d). Qed.

Lemma runs_skip f : runs skip f f.
Proof. done. Qed.
Lemma runs_edit g f : runs (edit g) f (g f).
Proof. done. Qed.
Lemma runs_andthen p q f f1 f2 : runs p f f1 -> runs q f1 f2 -> runs (andthen p q) f f2.
Proof.
  unfold runs, andthen. intros [H1 H2] [H3 H4]. destruct (p f) as [l e]. simpl in *. subst e. rewrite H2.
  destruct (q f1) as [l' e']. simpl in *. split; [done|]. by rewrite last_app_list, H2.
Qed.
Lemma runs_get {A} (x : option A) a p f f' : x = Some a -> runs (p a) f f' -> runs (get x p) f f'.
Proof. by intros ->. Qed.

Definition on_file (a : gmap string Z) (s : gmap string (list Z)) (ts : list (string * dset)) (n : string) (d : dset) : h5 :=
  H5 a (Some s) (Some (ts ++ [(n, d)])).
Lemma on_last_file g a s ts n d : on_last g (on_file a s ts n d) = on_file a s ts n (g d).
Proof.
  unfold on_last, on_file. cbn [tasks]. rewrite last_snoc, app_length. cbn [length]. replace (length ts + 1 - 1) with (length ts) by lia.
  by rewrite take_app.
Qed.

Lemma runs_attach i sn a s ts n d : is_Some (s !! sn) ->
  runs (attach_scale i sn) (on_file a s ts n d) (on_file a s ts n (attach i sn d)).
Proof. intros [x Hx]. unfold runs, attach_scale. cbn [scales on_file]. rewrite Hx. rewrite <- on_last_file. done. Qed.

Lemma labels_attach i sn d : map fst (ddims (attach i sn d)) = map fst (ddims d).
Proof.
  unfold attach. cbn [ddims]. generalize (ddims d). intros l. revert i. induction l as [|x l IH]; intros i; [by destruct i|].
  destruct i as [|i]; simpl; [done|]. f_equal. apply IH.
Qed.
Lemma labels_set i l d : map fst (ddims (set_label i l d)) = <[i := l]> (map fst (ddims d)).
Proof.
  unfold set_label. cbn [ddims]. generalize (ddims d). intros dl. revert i. induction dl as [|x dl IH]; intros i; [by destruct i|].
  destruct i as [|i]; simpl; [done|]. f_equal. apply IH.
Qed.

Lemma runs_attach_all i sns a s ts n d : (forall x, x ∈ sns -> is_Some (s !! x)) ->
  exists d', runs (for_each (attach_scale i) sns) (on_file a s ts n d) (on_file a s ts n d') /\
    content d' = content d /\ dattrs d' = dattrs d /\ map fst (ddims d') = map fst (ddims d).
Proof.
  revert d. induction sns as [|x sns IH]; intros d H; [exists d; done|].
  destruct (IH (attach i x d)) as (d' & H1 & H2 & H3 & H4); [intros; apply H; by right|].
  exists d'. split; [|split; [done|split; [done|]]].
  - cbn [for_each]. eapply runs_andthen; [apply runs_attach, H; by left|done].
  - rewrite H4. apply labels_attach.
Qed.

Lemma runs_dim sha src i dim a s ts n d : scales src = Some s -> dim_ready sha s dim ->
  exists d', runs (merge_dim sha src i dim) (on_file a s ts n d) (on_file a s ts n d') /\
    content d' = content d /\ dattrs d' = dattrs d /\ map fst (ddims d') = <[i := dim.1]> (map fst (ddims d)).
Proof.
  intros Hs Hr. unfold merge_dim, dim_ready in *.
  set (d1 := set_label i dim.1 d).
  assert (exists d', runs (if decide (dim.1 = "t") then for_each (attach_scale i) time_scales
     else if decide (dim.1 = "constant" \/ dim.1 = "") then attach_scale i "constant"
     else get (head dim.2) (fun s0 => get (s ← scales src; s !! s0) (fun data => attach_scale i ("hash_" +:+ sha data))))
     (on_file a s ts n d1) (on_file a s ts n d') /\ content d' = content d1 /\ dattrs d' = dattrs d1 /\ map fst (ddims d') = map fst (ddims d1)) as (d' & H1 & H2 & H3 & H4).
  { destruct (decide (dim.1 = "t")); [by apply runs_attach_all|].
    destruct (decide (dim.1 = "constant" \/ dim.1 = "")).
    - exists (attach i "constant" d1). split; [by apply runs_attach|]. split; [done|]. split; [done|apply labels_attach].
    - destruct Hr as (s0 & l & data & E1 & E2 & E3). exists (attach i ("hash_" +:+ sha data) d1).
      split; [|split; [done|split; [done|apply labels_attach]]].
      eapply (runs_get _ s0); [by rewrite E1|]. eapply (runs_get _ data); [by rewrite Hs|]. by apply runs_attach. }
  exists d'. split; [|split; [done|split; [done|]]].
  - eapply runs_andthen; [apply runs_edit|]. rewrite on_last_file. exact H1.
  - rewrite H4. apply labels_set.
Qed.

Lemma runs_dims sha src l k a s ts n d : scales src = Some s -> (forall dim, dim ∈ l -> dim_ready sha s dim) ->
  length (ddims d) = k + length l ->
  exists d', runs (for_each (fun p : nat * (string * list string) => merge_dim sha src p.1 p.2) (imap (fun j x => (k + j, x)) l)) (on_file a s ts n d) (on_file a s ts n d') /\
    content d' = content d /\ dattrs d' = dattrs d /\ map fst (ddims d') = take k (map fst (ddims d)) ++ map fst l.
Proof.
  intros Hs. revert k d. induction l as [|dim l IH]; intros k d Hr Hl.
  - exists d. split; [done|]. split; [done|]. split; [done|]. rewrite app_nil_r, take_ge; [done|]. rewrite map_length. simpl in Hl. lia.
  - destruct (runs_dim sha src k dim a s ts n d Hs ltac:(apply Hr; by left)) as (d1 & H1 & H2 & H3 & H4).
    destruct (IH (S k) d1) as (d2 & G1 & G2 & G3 & G4).
    { intros; apply Hr; by right. }
    { rewrite <- (map_length fst (ddims d1)), H4, insert_length, map_length. simpl in Hl. lia. }
    exists d2. split; [|split; [congruence|split; [congruence|]]].
    + cbn [imap for_each]. rewrite Nat.add_0_r. eapply runs_andthen; [exact H1|].
      erewrite (imap_ext _ (fun j x => (S k + j, x))); [exact G1|]. intros j x _. simpl. f_equal. lia.
    + rewrite G4, H4. cbn [map]. rewrite (take_S_r _ _ dim.1); [|apply list_lookup_insert; rewrite map_length; simpl in Hl; lia].
      rewrite take_insert by lia. by rewrite <- app_assoc.
Qed.

Lemma runs_attrs (m : gmap string Z) ks a s ts n d : (forall k, k ∈ ks -> is_Some (m !! k)) ->
  exists d', runs (for_each (fun k => get (m !! k) (fun v => edit (on_last (set_dattr k v)))) ks) (on_file a s ts n d) (on_file a s ts n d') /\
    content d' = content d /\ ddims d' = ddims d /\
    (forall k, k ∈ ks -> dattrs d' !! k = m !! k) /\ (forall k, k ∉ ks -> dattrs d' !! k = dattrs d !! k).
Proof.
  revert d. induction ks as [|k ks IH]; intros d H.
  - exists d. split; [done|]. split; [done|]. split; [done|]. split; [|done]. intros k Hk. by apply elem_of_nil in Hk.
  - destruct (H k ltac:(by left)) as [v Hv]. destruct (IH (set_dattr k v d)) as (d' & H1 & H2 & H3 & H4 & H5); [intros; apply H; by right|].
    exists d'. split; [|split; [done|split; [done|split]]].
    + cbn [for_each]. eapply runs_andthen; [|exact H1]. eapply runs_get; [exact Hv|]. rewrite <- on_last_file. apply runs_edit.
    + intros k' Hk'. destruct (decide (k' ∈ ks)); [by apply H4|]. rewrite H5 by done.
      apply elem_of_cons in Hk' as [->|?]; [|done]. cbn [dattrs set_dattr]. by rewrite lookup_insert.
    + intros k' Hk'. apply not_elem_of_cons in Hk' as [? ?]. rewrite H5 by done. cbn [dattrs set_dattr]. by rewrite lookup_insert_ne.
Qed.

(** A merged dataset. *)
Definition merged_dset (g : option (gmap string (list Z))) (nd nd' : string * dset) : Prop :=
  nd'.1 = nd.1 /\ content nd'.2 = Some (read g nd.1 nd.2) /\
  (forall k, k ∈ copied_attrs -> dattrs nd'.2 !! k = dattrs nd.2 !! k) /\
  map fst (ddims nd'.2) = map fst (ddims nd.2).

Lemma runs_dataset sha src g nd a s ts : scales src = Some s ->
  (forall k, k ∈ copied_attrs -> is_Some (dattrs nd.2 !! k)) -> (forall dim, dim ∈ ddims nd.2 -> dim_ready sha s dim) ->
  exists nd', runs (merge_dataset sha src g nd) (H5 a (Some s) (Some ts)) (H5 a (Some s) (Some (ts ++ [nd']))) /\ merged_dset g nd nd'.
Proof.
  intros Hs Ha Hd. destruct nd as [n d]. cbn [fst snd] in *. unfold merge_dataset.
  set (d0 := Dset (Some (read g n d)) ∅ (replicate (length (ddims d)) ("", []))).
  destruct (runs_attrs (dattrs d) copied_attrs a s ts n d0 Ha) as (d1 & H1 & H2 & H3 & H4 & _).
  destruct (runs_dims sha src (ddims d) 0 a s ts n d1 Hs Hd) as (d2 & G1 & G2 & G3 & G4).
  { rewrite H3. cbn [ddims d0]. by rewrite replicate_length. }
  exists (n, d2). split.
  - eapply runs_andthen; [apply runs_edit|]. eapply runs_andthen; [exact H1|]. exact G1.
  - split; [done|]. cbn [fst snd]. split; [by rewrite G2, H2|]. split; [|done]. intros k Hk. rewrite G3. by apply H4.
Qed.

Lemma runs_datasets sha src g nds a s ts : scales src = Some s ->
  (forall n d k, (n, d) ∈ nds -> k ∈ copied_attrs -> is_Some (dattrs d !! k)) ->
  (forall n d dim, (n, d) ∈ nds -> dim ∈ ddims d -> dim_ready sha s dim) ->
  exists ts', runs (for_each (merge_dataset sha src g) nds) (H5 a (Some s) (Some ts)) (H5 a (Some s) (Some (ts ++ ts'))) /\
    Forall2 (merged_dset g) nds ts'.
Proof.
  intros Hs. revert ts. induction nds as [|[n d] nds IH]; intros ts Ha Hd.
  - exists []. by rewrite app_nil_r.
  - destruct (runs_dataset sha src g (n, d) a s ts Hs) as (nd' & H1 & H2).
    { intros k Hk. eapply Ha; [by left|done]. }
    { intros dim Hk. eapply Hd; [by left|done]. }
    destruct (IH (ts ++ [nd'])) as (ts' & H3 & H4).
    { intros; eapply Ha; [by right|done]. }
    { intros; eapply Hd; [by right|done]. }
    exists (nd' :: ts'). split; [|by constructor].
    cbn [for_each]. eapply runs_andthen; [exact H1|]. rewrite <- app_assoc in H3. exact H3.
Qed.

Lemma runs_merge sha src g s ts : ready sha src s ts ->
  exists ts' a, runs (merge_virtual sha src g) empty_h5 (H5 a (Some s) (Some ts')) /\ Forall2 (merged_dset g) ts ts' /\
    forall k, k ∈ ["set_number"; "handler_name"; "writes"] -> a !! k = rattrs src !! k.
Proof.
  intros [[x1 E1] [x2 E2] [x3 E3] Es Et Ha Hd].
  set (a := <["writes" := x3]> (<["handler_name" := x2]> (<["set_number" := x1]> (∅ : gmap string Z)))).
  destruct (runs_datasets sha src g ts a s [] Es Ha Hd) as (ts' & H1 & H2).
  exists ts', a. split; [|split; [done|]].
  - unfold merge_virtual. rewrite E1, E2, E3, Es, Et. cbn [get].
    do 5 (eapply runs_andthen; [apply runs_edit|]). exact H1.
  - intros k Hk. unfold a. apply elem_of_cons in Hk as [->|Hk]; [by rewrite !lookup_insert_ne, lookup_insert by done|].
    apply elem_of_cons in Hk as [->|Hk]; [by rewrite lookup_insert_ne, lookup_insert by done|].
    apply elem_of_list_singleton in Hk as ->. by rewrite lookup_insert.
Qed.

(** A file as the handlers write it. *)
Lemma raises_merge sha src g : handler_written src ->
  exists n d x1 x2 x3 s ts, tasks src = Some ((n, d) :: ts) /\ scales src = Some s /\
    rattrs src !! "set_number" = Some x1 /\ rattrs src !! "handler_name" = Some x2 /\ rattrs src !! "writes" = Some x3 /\
    let f1 := set_attr "set_number" x1 empty_h5 in let f2 := set_attr "handler_name" x2 f1 in
    let f3 := set_attr "writes" x3 f2 in let f4 := set_scales s f3 in let f5 := set_tasks [] f4 in
    let f6 := add_task (n, Dset (Some (read g n d)) ∅ (replicate (length (ddims d)) ("", []))) f5 in
    merge_virtual sha src g empty_h5 = ([f1; f2; f3; f4; f5; f6], Some KeyError).
Proof.
  intros ([x1 E1] & [x2 E2] & [x3 E3] & [s Es] & n & d & ts & Et & Ha).
  assert (dattrs d !! "task_number" = None) as Hd.
  { apply eq_None_not_Some. rewrite (Ha n d) by (rewrite Et; by left). rewrite !elem_of_cons. by intros [?|[?|[?|?%elem_of_nil]]]. }
  exists n, d, x1, x2, x3, s, ts. do 5 (split; [done|]).
  unfold merge_virtual. rewrite E1, E2, E3, Es, Et. cbn [get for_each]. unfold merge_dataset.
  unfold andthen, edit, copied_attrs. cbn [for_each]. rewrite Hd. done.
Qed.
