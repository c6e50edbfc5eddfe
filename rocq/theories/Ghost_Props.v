(** Copies of constant operands: C57. *)
From Coq Require Import List Arith Bool Lia.
Import ListNotations.
From Verif Require Blocks_Model.
From Verif Require Import CSR_Spec Ghost_Model Ghost_Spec Ghost_Proofs.

Section Values.
Context {K : Type}.
(** What a process with coordinates [d] has to find in an operand with global values [g]: at every index of its part of the result, the operand's value at that element,
    with 0 along the operand's constant axes. *)
Definition complete (axes : list axis) (mesh sizes : list nat) (g : list nat -> K) (d : list nat) (a : array K) : Prop :=
  let out := out_elements axes sizes (extend axes 1 mesh) (extend axes 0 d) in
  forall idx, in_shape (map (@length nat) out) idx -> broadcast_read a idx = g (operand_index axes (pick out idx)).
Lemma root_none remain c : existsb (fun b => b) remain = false -> length remain = length c -> root_of remain c = c.
Proof. revert c. induction remain as [|r remain IH]; intros [|x c] E L; cbn in *; try discriminate; [reflexivity|]. apply orb_false_iff in E. destruct E as [-> E]. rewrite IH by (assumption || lia). reflexivity. Qed.
(** For every mesh, every process and every history of operands with any grid sizes, types and values: no process of the sub-communicator waits for a call that another does not
    make, all calls return, and every process has the operand's values on its part of the result. *)
Theorem ghosts_complete axes mesh c (history : list (list nat * nat * (list nat -> K))) : process axes mesh c -> Forall fits axes -> Forall (fun h => length (fst (fst h)) = length axes) history ->
  let members := sub_members (deploy_dims axes) mesh c in
  In c members /\ exists out, casts axes mesh members history (repeat [] (length members)) = Some out
  /\ Forall2 (fun h arrays => Forall2 (complete axes mesh (fst (fst h)) (snd h)) members arrays) history out.
Proof.
  intros P Hf HL members. pose proof (process_triple _ _ _ P) as T. pose proof (triple_deploy _ _ _ T) as LD. destruct P as [Dm Sc]. split; [apply member_self; assumption|].
  assert (Tm : forall d, In d members -> triple axes mesh d /\ root_of (deploy_dims axes) d = root_of (deploy_dims axes) c).
  { intros d Hd. destruct (members_root _ _ _ _ Sc LD Hd) as [E S]. split; [apply process_triple; split; assumption|exact E]. }
  destruct (existsb (fun b => b) (deploy_dims axes)) eqn:Ed.
  - destruct (members_head (deploy_dims axes) mesh c Sc LD) as [rest Em]. fold members in Em. set (r := root_of (deploy_dims axes) c) in *.
    assert (Tr : triple axes mesh r) by (apply Tm; rewrite Em; left; reflexivity).
    rewrite Em in *.
    assert (G : forall hist H, Forall (fun h => length (fst (fst h)) = length axes) hist -> Forall (fun h => length (fst h) = length axes) H -> exists out, casts axes mesh (r :: rest) hist (caches_of axes mesh r rest H) = Some out /\ Forall2 (fun h arrays => Forall2 (complete axes mesh (fst (fst h)) (snd h)) (r :: rest) arrays) hist out).
    { induction hist as [|[[sz dt] g] hist IH]; intros H L LH; [exists []; split; [reflexivity|constructor]|]. inversion L as [|? ? L1 L2]; subst. cbn [fst snd] in L1. cbn [casts].
      destruct (cast_ok axes mesh r rest Tr Tm Ed H sz dt g LH L1) as (H' & LH' & rs & E & Ef & Es). rewrite E, Ef, Es. destruct (IH H' L2 LH') as (out & Eo & Fo). rewrite Eo. eexists. split; [reflexivity|]. constructor; [|exact Fo]. cbn [fst snd]. clear - Tm L1 Hf.
      assert (X : forall l, incl l (r :: rest) -> Forall2 (complete axes mesh sz g) l (map (received axes mesh r sz g) l)).
      { induction l as [|d l IH]; intros Hi; cbn [map]; constructor; [|apply IH; intros x Hx; apply Hi; right; exact Hx]. destruct (Tm d (Hi d (or_introl eq_refl))) as [Td Rd]. intros idx Hidx. destruct (read_values axes mesh d Td Hf sz idx L1 Hidx) as [Nz Ev]. rewrite Rd in Nz, Ev. unfold received, sh. apply Nat.eqb_neq in Nz. rewrite Nz. unfold broadcast_read, local_data. cbn [shape value]. rewrite Ev. reflexivity. }
      apply X. intros x Hx. exact Hx. }
    destruct (G history [] HL ltac:(constructor)) as (out & Eo & Fo). exists out. split; [|exact Fo]. rewrite <- Eo. f_equal. unfold caches_of. cbn [map]. generalize (r :: rest). clear. intros l. generalize 0. induction l as [|x l IH]; intros k; cbn; [reflexivity|]. f_equal. exact (IH (S k)).
  - assert (G : forall hist cs, length cs = length members -> Forall (fun h => length (fst (fst h)) = length axes) hist -> exists out, casts axes mesh members hist cs = Some out /\ Forall2 (fun h arrays => Forall2 (complete axes mesh (fst (fst h)) (snd h)) members arrays) hist out).
    { induction hist as [|[[sz dt] g] hist IH]; intros cs Lc L; [exists []; split; [reflexivity|constructor]|]. inversion L as [|? ? L1 L2]; subst. cbn [fst snd] in L1. cbn [casts]. unfold cast_all. rewrite Ed. rewrite !map_map. cbn [fst snd].
      assert (E1 : map snd (combine members cs) = cs) by (clear - Lc; revert cs Lc; induction members as [|x l IH]; intros [|y cs] Lc; cbn in *; try discriminate; [reflexivity|]; rewrite IH by lia; reflexivity).
      assert (E2 : map (fun x => local_data (local_elements axes sz mesh (fst x)) g) (combine members cs) = map (fun d => local_data (local_elements axes sz mesh d) g) members) by (clear - Lc; revert cs Lc; induction members as [|x l IH]; intros [|y cs] Lc; cbn in *; try discriminate; [reflexivity|]; rewrite IH by lia; reflexivity).
      change (fun x : list nat * cache => snd x) with (@snd (list nat) cache). rewrite E1, E2. destruct (IH cs Lc L2) as (out & Eo & Fo). rewrite Eo. eexists. split; [reflexivity|]. constructor; [|exact Fo]. cbn [fst snd].
      assert (Lm : forall d, In d members -> length d = length mesh) by (intros d Hd; destruct (members_root _ _ _ _ Sc LD Hd) as [_ S]; symmetry; clear - S; induction S; cbn; congruence). clear - Tm Ed L1 Hf Lm LD.
      assert (X : forall l, incl l members -> Forall2 (complete axes mesh sz g) l (map (fun d => local_data (local_elements axes sz mesh d) g) l)).
      { induction l as [|d l IH]; intros Hi; cbn [map]; constructor; [|apply IH; intros x Hx; apply Hi; right; exact Hx]. pose proof (Hi d (or_introl eq_refl)) as Hd. destruct (Tm d Hd) as [Td _]. intros idx Hidx. destruct (read_values axes mesh d Td Hf sz idx L1 Hidx) as [_ Ev]. rewrite root_none in Ev by (try exact Ed; rewrite (Lm d Hd); exact LD). unfold broadcast_read, local_data. cbn [shape value]. rewrite Ev. reflexivity. }
      apply X. intros x Hx. exact Hx. }
    apply G; [apply repeat_length|exact HL].
Qed.
(** The processes of a sub-communicator differ only in the dimensions over which the operand is copied, and its root has coordinate 0 there. *)
Theorem subcommunicator axes mesh c d : process axes mesh c -> (In d (sub_members (deploy_dims axes) mesh c) <-> in_shape mesh d /\ Forall (fun p => fst p = true \/ fst (snd p) = snd (snd p)) (combine (deploy_dims axes) (combine c d))).
Proof.
  intros P. pose proof (triple_deploy _ _ _ (process_triple _ _ _ P)) as L. destruct P as [_ S]. revert L d. generalize (deploy_dims axes). induction S as [|m x mesh c Hx S IH]; intros [|r remain] L d; cbn in L; try discriminate.
  - cbn. split; [intros [<-|[]]; split; constructor|intros [H _]; inversion H; left; reflexivity].
  - specialize (IH remain ltac:(lia)). cbn [sub_members]. split.
    + intros H. destruct r.
      * apply in_flat_map in H. destruct H as (k & Hk & H). apply in_seq in Hk. apply in_map_iff in H. destruct H as (e & <- & He). apply IH in He. destruct He as [S1 F]. split; [constructor; [lia|exact S1]|]. cbn [combine]. constructor; [left; reflexivity|exact F].
      * apply in_map_iff in H. destruct H as (e & <- & He). apply IH in He. destruct He as [S1 F]. split; [constructor; [exact Hx|exact S1]|]. cbn [combine]. constructor; [right; reflexivity|exact F].
    + intros [S1 F]. inversion S1 as [|? y ? e Hy Se]; subst. cbn [combine] in F. inversion F as [|? ? F1 F2]; subst. cbn [fst snd] in F1. assert (He : In e (sub_members remain mesh c)) by (apply IH; split; assumption). destruct r; [apply in_flat_map; exists y; split; [apply in_seq; lia|]|destruct F1 as [F1|<-]; [discriminate|]]; apply in_map; exact He.
Qed.
End Values.
Print Assumptions ghosts_complete.
Print Assumptions subcommunicator.

(** ** Examples: three axes, the first two distributed over a mesh of 2 by 3; the operand is constant along the second. *)
Definition axes3 := [Axis false false true 1; Axis false true true 1; Axis true false true 1].
Example process3 : process axes3 [2; 3] [1; 2] /\ Forall fits axes3.
Proof. split; [split; [reflexivity|repeat constructor]|repeat constructor; intros H; cbn in *; congruence]. Qed.
Example members3 : sub_members (deploy_dims axes3) [2; 3] [1; 2] = [[1; 0]; [1; 1]; [1; 2]]. Proof. reflexivity. Qed.
(** Two calls with 4 by 9 by 2 points and one with 8 by 18 by 4: the local shapes of the operand and of what is returned on the three processes. *)
Example shapes3 : map (fun c => map (@length nat) (local_elements axes3 [4; 9; 2] [2; 3] c)) [[1; 0]; [1; 1]] = [[2; 1; 2]; [2; 0; 2]]
  /\ option_map (map (map (@shape nat))) (casts axes3 [2; 3] [[1; 0]; [1; 1]; [1; 2]] [([4; 9; 2], 0, fun _ => 7); ([4; 9; 2], 0, fun _ => 8); ([8; 18; 4], 0, fun _ => 9)] [[]; []; []]) = Some [[[2; 1; 2]; [2; 1; 2]; [2; 1; 2]]; [[2; 1; 2]; [2; 1; 2]; [2; 1; 2]]; [[4; 1; 4]; [4; 1; 4]; [4; 1; 4]]].
Proof. split; reflexivity. Qed.
(** Caches that differ between the processes would not do: here only the root has the shape already. *)
Example caches_differ : lockstep 2 [cast true 0 (local_data (local_elements axes3 [4; 9; 2] [2; 3] [1; 0]) (fun _ => 7)) [(([2; 1; 2], 0), None)]; cast false 0 (local_data (local_elements axes3 [4; 9; 2] [2; 3] [1; 1]) (fun _ => 7)) []] = None.
Proof. reflexivity. Qed.
