(** Proofs about copies of constant operands. *)
From Coq Require Import List Arith Bool Lia.
Import ListNotations.
From Verif Require Blocks_Model.
From Verif Require Import CSR_Spec CSR_Proofs Ghost_Model Ghost_Spec.

Lemma one_element loc P q : 1 <= P -> axis_elements 1 1 loc P q = if loc || (q =? 0) then [0] else [].
Proof.
  intros HP. assert (E : (1 + P - 1) / P = 1) by (replace (1 + P - 1) with P by lia; apply Nat.div_same; lia).
  unfold Blocks_Model.axis_elements, Blocks_Model.axis_chunks, Blocks_Model.cdiv. destruct loc; [reflexivity|]. change ((1 + 1 - 1) / 1) with 1. rewrite E. cbn [orb]. destruct q as [|q]; [reflexivity|]. replace (Nat.min 1 (1 * S q)) with 1 by lia. replace (Nat.min 1 (1 * (S q + 1))) with 1 by lia. reflexivity.
Qed.
(** ** Sub-communicators *)
Fixpoint root_of (remain : list bool) (c : list nat) : list nat := match remain, c with r :: remain, x :: c => (if r then 0 else x) :: root_of remain c | _, _ => [] end.
Lemma members_head remain mesh c : in_shape mesh c -> length remain = length mesh -> exists rest, sub_members remain mesh c = root_of remain c :: rest.
Proof.
  intros H. revert remain. induction H as [|m x mesh c Hx H IH]; intros [|r remain] L; cbn in L; try discriminate; [exists []; reflexivity|]. destruct (IH remain ltac:(lia)) as [rest E]. cbn [sub_members root_of]. rewrite E. destruct r; [|eexists; reflexivity]. destruct m as [|m]; [lia|]. cbn. eexists. reflexivity.
Qed.
Lemma members_root remain mesh c d : in_shape mesh c -> length remain = length mesh -> In d (sub_members remain mesh c) -> root_of remain d = root_of remain c /\ in_shape mesh d.
Proof.
  intros H. revert remain d. induction H as [|m x mesh c Hx H IH]; intros [|r remain] d L Hd; cbn in L; try discriminate.
  - cbn in Hd. destruct Hd as [<-|[]]. split; [reflexivity|constructor].
  - cbn [sub_members] in Hd. destruct r.
    + apply in_flat_map in Hd. destruct Hd as (k & Hk & Hd). apply in_seq in Hk. apply in_map_iff in Hd. destruct Hd as (e & <- & He). destruct (IH remain e ltac:(lia) He) as [E S]. cbn [root_of]. rewrite E. split; [reflexivity|constructor; [lia|exact S]].
    + apply in_map_iff in Hd. destruct Hd as (e & <- & He). destruct (IH remain e ltac:(lia) He) as [E S]. cbn [root_of]. rewrite E. split; [reflexivity|constructor; [exact Hx|exact S]].
Qed.
Lemma member_self remain mesh c : in_shape mesh c -> length remain = length mesh -> In c (sub_members remain mesh c).
Proof.
  intros H. revert remain. induction H as [|m x mesh c Hx H IH]; intros [|r remain] L; cbn in L; try discriminate; [left; reflexivity|]. specialize (IH remain ltac:(lia)). cbn [sub_members]. destruct r; [apply in_flat_map; exists x; split; [apply in_seq; lia|]|]; apply in_map; exact IH.
Qed.
(** ** Local elements of a process and of its root *)
Definition deployed (a : axis) : bool := is_broadcast a && is_constant a.
Inductive triple : list axis -> list nat -> list nat -> Prop :=
| t_nil : triple [] [] []
| t_local a axes mesh c : is_local a = true -> triple axes mesh c -> triple (a :: axes) mesh c
| t_dist a axes m mesh x c : is_local a = false -> x < m -> triple axes mesh c -> triple (a :: axes) (m :: mesh) (x :: c).
Lemma process_triple axes mesh c : process axes mesh c -> triple axes mesh c.
Proof.
  intros [L H]. revert mesh c L H. unfold distributed. induction axes as [|a axes IH]; intros mesh c L H; cbn in L.
  - destruct mesh; [|discriminate]. inversion H; subst. constructor.
  - destruct (is_local a) eqn:E; cbn in L; [apply t_local; [exact E|apply IH; assumption]|]. destruct mesh as [|m mesh]; [discriminate|]. inversion H; subst. apply t_dist; [exact E|assumption|]. apply IH; [cbn in L; lia|assumption].
Qed.
(** Shapes of a process are the root's where the axis is not deployed, and do not depend on the sizes where it is. *)
Lemma deploy_local a axes : is_local a = true -> deploy_dims (a :: axes) = deploy_dims axes.
Proof. intros E. unfold deploy_dims. cbn [filter]. rewrite E. reflexivity. Qed.
Lemma deploy_dist a axes : is_local a = false -> deploy_dims (a :: axes) = deployed a :: deploy_dims axes.
Proof. intros E. unfold deploy_dims. cbn [filter]. rewrite E. reflexivity. Qed.
Lemma triple_deploy axes mesh c : triple axes mesh c -> length (deploy_dims axes) = length mesh.
Proof. induction 1 as [|a axes mesh c E T IH|a axes m mesh x c E Hx T IH]; [reflexivity| |]; [rewrite deploy_local by exact E; exact IH|rewrite deploy_dist by exact E; cbn; lia]. Qed.
Definition sh axes mesh sizes c := map (@length nat) (local_elements axes sizes mesh c).
Lemma shapes_agree axes mesh c d s s' : triple axes mesh c -> triple axes mesh d -> root_of (deploy_dims axes) c = root_of (deploy_dims axes) d -> length s = length axes -> length s' = length axes ->
  sh axes mesh s c = sh axes mesh s' c -> sh axes mesh s d = sh axes mesh s' d.
Proof.
  intros T. revert d s s'. unfold sh, local_elements. induction T as [|a axes mesh c E T IH|a axes m mesh x c E Hx T IH]; intros d s s' T' R L L' H; destruct s as [|n s], s' as [|n' s']; cbn in L, L'; try discriminate; [reflexivity| |].
  - inversion T' as [|? ? ? ? E' T''|]; subst; [|congruence]. rewrite deploy_local in R by exact E. cbn [extend] in H |- *. rewrite E in H |- *. cbn [elements map] in H |- *. injection H as Hn H. rewrite E in Hn. f_equal; [rewrite E; exact Hn|]. apply IH; try assumption; lia.
  - inversion T' as [|? ? ? ? E'|? ? ? ? y d' E' Hy T'']; subst; [congruence|]. rewrite deploy_dist in R by exact E. cbn [root_of] in R. injection R as Rx R. cbn [extend] in H |- *. rewrite E in H |- *. cbn [elements map] in H |- *. injection H as Hn H. rewrite E in Hn. f_equal; [|apply IH; assumption || lia]. rewrite E.
    unfold deployed in Rx. destruct (is_constant a); [reflexivity|]. rewrite andb_false_r in Rx. subst y. exact Hn.
Qed.
Lemma root_triple axes mesh c : triple axes mesh c -> triple axes mesh (root_of (deploy_dims axes) c).
Proof. induction 1 as [|a axes mesh c E T IH|a axes m mesh x c E Hx T IH]; [constructor| |]; [rewrite deploy_local by exact E; apply t_local; assumption|]. rewrite deploy_dist by exact E. cbn [root_of]. apply t_dist; [exact E|destruct (deployed a); lia|exact IH]. Qed.
Lemma root_root remain c : root_of remain (root_of remain c) = root_of remain c.
Proof. revert c. induction remain as [|r remain IH]; intros [|x c]; cbn; try reflexivity. rewrite IH. destruct r; reflexivity. Qed.
(** ** Lockstep *)
Section Data.
Context {K : Type}.
Lemma results_map {X Y} (f : Y -> X) l : @results K X (map (fun y => Ret (f y)) l) = Some (map f l).
Proof. unfold results. induction l as [|y l IH]; cbn; [reflexivity|]. cbn in IH. rewrite IH. reflexivity. Qed.
Lemma objects_map {X Y} (f : Y -> list nat) (k : Y -> list nat -> prog K X) l : objects (map (fun y => BcastObject (f y) (k y)) l) = Some (map (fun y => (f y, k y)) l).
Proof. unfold objects. induction l as [|y l IH]; cbn; [reflexivity|]. cbn in IH. rewrite IH. reflexivity. Qed.
Lemma arrays_map {X Y} (f : Y -> array K) (k : Y -> array K -> prog K X) l : arrays (map (fun y => BcastArray (f y) (k y)) l) = Some (map (fun y => (f y, k y)) l).
Proof. unfold arrays. induction l as [|y l IH]; cbn; [reflexivity|]. cbn in IH. rewrite IH. reflexivity. Qed.
Lemma lock_objects {X Y} fuel (f : Y -> list nat) (k : Y -> list nat -> prog K X) y l : lockstep (S fuel) (map (fun y => BcastObject (f y) (k y)) (y :: l)) = lockstep fuel (map (fun z => k z (f y)) (y :: l)).
Proof. cbn [lockstep]. rewrite objects_map. cbn [map results fold_right]. f_equal. cbn [map]. f_equal. rewrite map_map. reflexivity. Qed.
Lemma lock_arrays {X Y} fuel (f : Y -> array K) (k : Y -> array K -> prog K X) y l : (forall z, In z l -> size_of (f z) = size_of (f y)) -> lockstep (S fuel) (map (fun y => BcastArray (f y) (k y)) (y :: l)) = lockstep fuel (map (fun z => k z (f y)) (y :: l)).
Proof.
  intros H. cbn [lockstep]. rewrite arrays_map. cbn [map results objects fold_right].
  replace (forallb _ _) with true; [f_equal; cbn [map]; f_equal; rewrite map_map; reflexivity|]. symmetry. apply forallb_forall. intros q [<-|Hq]; [apply Nat.eqb_refl|]. apply in_map_iff in Hq. destruct Hq as (z & <- & Hz). cbn. apply Nat.eqb_eq. apply H. exact Hz.
Qed.

(** ** One call *)
Lemma find_map_ {X Y} (f : X -> Y) P l : find P (map f l) = option_map f (find (fun x => P (f x)) l).
Proof. induction l as [|x l IH]; cbn; [reflexivity|]. destruct (P (f x)); [reflexivity|exact IH]. Qed.
Lemma find_ext_in {X} (P Q : X -> bool) l : (forall x, In x l -> P x = Q x) -> find P l = find Q l.
Proof. induction l as [|x l IH]; intros H; cbn; [reflexivity|]. rewrite (H x (or_introl eq_refl)), IH by (intros y Hy; apply H; right; exact Hy). reflexivity. Qed.
Lemma combine_map_self {X Y} (F : X -> Y) l : combine l (map F l) = map (fun x => (x, F x)) l.
Proof. induction l as [|x l IH]; cbn; [reflexivity|]. rewrite IH. reflexivity. Qed.
Lemma key_eq_shape s dt s' dt' : key_eq (s, dt) (s', dt') = true <-> s = s' /\ dt = dt'.
Proof. unfold key_eq. cbn [fst snd]. destruct (list_eq_dec Nat.eq_dec s s'); [rewrite Nat.eqb_eq; tauto|]. split; [discriminate|tauto]. Qed.
Section Cast.
Context (axes : list axis) (mesh : list nat) (r : list nat) (rest : list (list nat)).
Context (Hr : triple axes mesh r) (Hm : forall d, In d (r :: rest) -> triple axes mesh d /\ root_of (deploy_dims axes) d = r) (Hd : existsb (fun b => b) (deploy_dims axes) = true).
Let members := r :: rest.
Let Y := combine (seq 0 (length members)) members.
Let SH := sh axes mesh.
(** The caches after the calls with sizes and types [H]. *)
Definition caches_of (H : list (list nat * nat)) : list cache := map (fun y => map (fun h => ((SH (fst h) (snd y), snd h), if fst y =? 0 then None else Some (SH (fst h) r))) H) Y.
Lemma same_key d h sz dt : In d members -> length (fst h) = length axes -> length sz = length axes -> key_eq (SH (fst h) d, snd h) (SH sz d, dt) = key_eq (SH (fst h) r, snd h) (SH sz r, dt).
Proof.
  intros Hi L L'. destruct (Hm d Hi) as [Td Rd]. assert (Rr : root_of (deploy_dims axes) r = r) by (rewrite <- Rd at 1; rewrite root_root; exact Rd). apply eq_true_iff_eq. rewrite !key_eq_shape.
  split; intros [E1 E2]; (split; [|exact E2]); [apply (shapes_agree axes mesh d r)|apply (shapes_agree axes mesh r d)]; try assumption; congruence.
Qed.
Lemma members_Y y : In y Y -> In (snd y) members. Proof. destruct y as [i d]. apply in_combine_r. Qed.
Lemma Y_cons : exists Y', Y = (0, r) :: Y' /\ forall y, In y Y' -> fst y <> 0.
Proof. unfold Y, members. cbn [length seq combine]. eexists. split; [reflexivity|]. intros [i d] Hy. apply in_combine_l in Hy. apply in_seq in Hy. cbn. lia. Qed.
Definition received (sz : list nat) (g : list nat -> K) (d : list nat) : array K :=
  if size (SH sz r) =? 0 then Array (SH sz r) (value (local_data (local_elements axes sz mesh d) g)) else local_data (local_elements axes sz mesh r) g.
Lemma finish_all (F : nat * list nat -> cache) (entry : nat * list nat -> option (list nat)) sz g fuel : (forall y, In y Y -> fst y <> 0 -> entry y = Some (SH sz r)) ->
  lockstep (S fuel) (map (fun y => finish (fst y =? 0) (local_data (local_elements axes sz mesh (snd y)) g) (F y) (entry y)) Y) = Some (map (fun y => (F y, received sz g (snd y))) Y).
Proof.
  intros He. destruct Y_cons as (Y' & EY & HY).
  transitivity (lockstep (S fuel) (map (fun y => if size (SH sz r) =? 0 then Ret (F y, Array (SH sz r) (value (local_data (local_elements axes sz mesh (snd y)) g))) else BcastArray (Array (SH sz r) (value (local_data (local_elements axes sz mesh (snd y)) g))) (fun a => Ret (F y, a))) Y)).
  { f_equal. rewrite EY in *. cbn [map]. apply (f_equal2 (@cons _)); [reflexivity|]. apply map_ext_in. intros y Hy. unfold finish. specialize (He y (or_intror Hy) (HY y Hy)). apply HY in Hy. apply Nat.eqb_neq in Hy. rewrite Hy, He. reflexivity. }
  unfold received. destruct (size (SH sz r) =? 0) eqn:E0.
  - cbn [lockstep]. rewrite (results_map (fun y => (F y, Array (SH sz r) (value (local_data (local_elements axes sz mesh (snd y)) g))))). reflexivity.
  - rewrite EY. rewrite (lock_arrays fuel (fun y => Array (SH sz r) (value (local_data (local_elements axes sz mesh (snd y)) g))) (fun y a => Ret (F y, a))) by reflexivity.
    cbn [snd]. change (Array (SH sz r) (value (local_data (local_elements axes sz mesh r) g))) with (local_data (local_elements axes sz mesh r) g).
    destruct fuel; cbn [lockstep]; rewrite (results_map (fun z => (F z, local_data (local_elements axes sz mesh r) g))); reflexivity.
Qed.
Lemma cast_ok H sz dt (g : list nat -> K) : Forall (fun h => length (fst h) = length axes) H -> length sz = length axes ->
  exists H', Forall (fun h => length (fst h) = length axes) H' /\ exists rs, cast_all axes mesh members sz dt g (caches_of H) = Some rs /\ map fst rs = caches_of H' /\ map snd rs = map (received sz g) members.
Proof.
  intros LH L. unfold cast_all. rewrite Hd. fold Y. unfold caches_of at 1. rewrite combine_map_self, map_map. cbn [fst snd].
  pose (F := fun (H : list (list nat * nat)) (y : nat * list nat) => map (fun h => ((SH (fst h) (snd y), snd h), if fst y =? 0 then None else Some (SH (fst h) r))) H).
  pose (own := fun d => local_data (local_elements axes sz mesh d) g).
  change (fun x : nat * list nat => cast (fst x =? 0) dt (local_data (local_elements axes sz mesh (snd x)) g) (map (fun h => (SH (fst h) (snd x), snd h, if fst x =? 0 then None else Some (SH (fst h) r))) H)) with (fun x : nat * list nat => cast (fst x =? 0) dt (own (snd x)) (F H x)).
  assert (Sn : map snd Y = members). { unfold Y. clear. generalize members. intros l. generalize 0. induction l as [|x l IH]; intros k; cbn; [reflexivity|]. rewrite IH. reflexivity. }
  assert (Lk : forall y, In y Y -> lookup (F H y) (shape (own (snd y)), dt) = match find (fun h => key_eq (SH (fst h) r, snd h) (SH sz r, dt)) H with Some h => Some (if fst y =? 0 then None else Some (SH (fst h) r)) | None => None end).
  { intros y Hy. unfold lookup, F. rewrite find_map_. cbn [fst snd]. change (shape (own (snd y))) with (SH sz (snd y)). rewrite (find_ext_in _ (fun h => key_eq (SH (fst h) r, snd h) (SH sz r, dt))); [destruct (find _ H); reflexivity|]. intros h Hh. rewrite Forall_forall in LH. apply same_key; [apply members_Y; exact Hy|apply LH; exact Hh|exact L]. }
  destruct (find (fun h => key_eq (SH (fst h) r, snd h) (SH sz r, dt)) H) as [h|] eqn:Ef.
  - exists H. split; [exact LH|]. apply find_some in Ef. destruct Ef as [_ Eh]. apply key_eq_shape in Eh. destruct Eh as [Eh _].
    exists (map (fun y => (F H y, received sz g (snd y))) Y). split; [|split; rewrite map_map; cbn [fst snd]; [reflexivity|rewrite <- Sn, map_map; reflexivity]].
    etransitivity; [|apply (finish_all (F H) (fun y => if fst y =? 0 then None else Some (SH (fst h) r)) sz g 1); intros y _ Ny; apply Nat.eqb_neq in Ny; rewrite Ny, Eh; reflexivity].
    f_equal. apply map_ext_in. intros y Hy. unfold cast. rewrite (Lk y Hy). reflexivity.
  - exists ((sz, dt) :: H). split; [constructor; assumption|]. exists (map (fun y => (F ((sz, dt) :: H) y, received sz g (snd y))) Y). split; [|split; rewrite map_map; cbn [fst snd]; [reflexivity|rewrite <- Sn, map_map; reflexivity]].
    etransitivity; [|apply (finish_all (F ((sz, dt) :: H)) (fun y => if fst y =? 0 then None else Some (SH sz r)) sz g 0); intros y _ Ny; apply Nat.eqb_neq in Ny; rewrite Ny; reflexivity].
    transitivity (lockstep 2 (map (fun y => BcastObject (SH sz (snd y)) (fun s => finish (fst y =? 0) (own (snd y)) ((SH sz (snd y), dt, if fst y =? 0 then None else Some s) :: F H y) (if fst y =? 0 then None else Some s))) Y)).
    { f_equal. apply map_ext_in. intros y Hy. unfold cast. rewrite (Lk y Hy). reflexivity. }
    destruct Y_cons as (Y' & EY & _). rewrite EY. rewrite (lock_objects 1 (fun y => SH sz (snd y)) (fun y s => finish (fst y =? 0) (own (snd y)) ((SH sz (snd y), dt, if fst y =? 0 then None else Some s) :: F H y) (if fst y =? 0 then None else Some s))). reflexivity.
Qed.
End Cast.
(** ** What is read *)
Lemma read_values axes mesh d : triple axes mesh d -> Forall fits axes -> forall sz idx, length sz = length axes -> in_shape (map (@length nat) (out_elements axes sz (extend axes 1 mesh) (extend axes 0 d))) idx ->
  let els := local_elements axes sz mesh (root_of (deploy_dims axes) d) in
  size (map (@length nat) els) <> 0 /\ pick els (map (fun p => if fst p =? 1 then 0 else snd p) (combine (map (@length nat) els) idx)) = operand_index axes (pick (out_elements axes sz (extend axes 1 mesh) (extend axes 0 d)) idx).
Proof.
  intros T. unfold local_elements. induction T as [|a axes mesh d E T IH|a axes m mesh x d E Hx T IH]; intros Hf sz idx L Hi; inversion Hf as [|? ? Fa Hf']; subst; destruct sz as [|n sz]; cbn in L; try discriminate.
  - inversion Hi; subst. cbn. split; [lia|reflexivity].
  - rewrite deploy_local by exact E. cbn [extend] in *. rewrite E in *. cbn [elements out_elements map] in *. inversion Hi as [|? i ? idx' Li Hi']; subst. destruct (IH Hf' sz idx' ltac:(lia) Hi') as [I1 I2]. rewrite E in *. cbn [combine map fst snd pick operand_index size]. rewrite I2. clear I2 IH. unfold fits in Fa. destruct (is_constant a).
    + rewrite one_element by lia. cbn [orb length]. split; [lia|]. cbn. reflexivity.
    + rewrite (Fa eq_refl) in *. set (els := axis_elements n (chunk a) true 1 0) in *. split; [nia|]. destruct (Nat.eqb_spec (length els) 1) as [E1|]; [|reflexivity]. replace i with 0 by lia. reflexivity.
  - rewrite deploy_dist by exact E. cbn [root_of extend] in *. rewrite E in *. cbn [elements out_elements map] in *. inversion Hi as [|? i ? idx' Li Hi']; subst. destruct (IH Hf' sz idx' ltac:(lia) Hi') as [I1 I2]. rewrite E in *. cbn [combine map fst snd pick operand_index size]. rewrite I2. clear I2 IH. unfold fits in Fa. unfold deployed. destruct (is_constant a).
    + rewrite andb_true_r. rewrite one_element by lia. cbn [orb]. destruct (is_broadcast a) eqn:Eb; [cbn; split; [lia|reflexivity]|]. rewrite one_element in Li by lia. cbn [orb] in Li. destruct (x =? 0); cbn in Li |- *; [split; [lia|reflexivity]|lia].
    + rewrite andb_false_r, (Fa eq_refl) in *. set (els := axis_elements n (chunk a) false m x) in *. split; [nia|]. destruct (Nat.eqb_spec (length els) 1) as [E1|]; [|reflexivity]. replace i with 0 by lia. reflexivity.
Qed.
End Data.
