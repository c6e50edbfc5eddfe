(** C25: division of output writes and sets among processes. *)
From stdpp Require Import list list_numbers.
From Verif Require Import Assignments_Model Assignments_Spec Assignments_Proofs.

(** Every write of every set is visited by exactly one process, whatever the order of the given paths,
    the numbers of writes (zero included) and the number of processes; nothing else is visited. *)
Theorem each_write_visited_once {A} (key writes : A -> nat) size paths p w : 0 < size -> NoDup paths ->
  (p ∈ paths /\ w < writes p ->
   exists! rank, rank < size /\ covers (visit_writes key writes size rank paths) p w) /\
  (forall rank, covers (visit_writes key writes size rank paths) p w -> p ∈ paths /\ w < writes p).
Proof.
  intros Hs Hnd. set (q := natural_sort key paths).
  assert (q ≡ₚ paths) as Hq by apply natural_sort_perm.
  split.
  - intros [Hp Hw]. rewrite <- Hq in Hp. apply elem_of_list_lookup in Hp as [i Hi].
    set (ws := map writes q). set (T := sum_list ws). set (B := (T + size - 1) `div` size).
    assert (ws !! i = Some (writes p)) as Hwi by (unfold ws; by rewrite list_lookup_fmap, Hi).
    assert (off ws i + w < T) as HT.
    { pose proof (off_total ws (S i)) as H. rewrite (off_S _ _ _ Hwi) in H. unfold T. lia. }
    assert (T <= size * B) as HB.
    { unfold B. pose proof (Nat.div_mod (T + size - 1) size ltac:(lia)). pose proof (Nat.mod_upper_bound (T + size - 1) size ltac:(lia)). nia. }
    assert (0 < B) as HB0 by nia.
    pose proof (Nat.div_mod (off ws i + w) B ltac:(lia)) as D. pose proof (Nat.mod_upper_bound (off ws i + w) B ltac:(lia)) as R.
    exists ((off ws i + w) `div` B). split.
    + split; [nia|]. apply covers_iff. exists i. fold q ws T B. split; [done|]. split; [done|]. nia.
    + intros r [Hr Hc]. apply covers_iff in Hc as (j & Hj & _ & Hrange). fold q in Hj. fold q ws T B in Hrange.
      assert (NoDup q) as Hnq by (by rewrite Hq).
      assert (j = i) as -> by (by eapply NoDup_lookup). symmetry. apply (Nat.div_unique _ _ _ (off ws i + w - r * B)); nia.
  - intros rank Hc. apply covers_iff in Hc as (i & Hi & Hw & _). split; [|done].
    rewrite <- (natural_sort_perm key paths). apply elem_of_list_lookup. eauto.
Qed.
Print Assumptions each_write_visited_once.

(** On one process no write is visited twice: each set occurs in at most one call. *)
Theorem one_call_per_set {A} (key writes : A -> nat) size rank paths : NoDup paths ->
  forall p s c s' c', (p, s, c) ∈ visit_writes key writes size rank paths ->
  (p, s', c') ∈ visit_writes key writes size rank paths -> s = s' /\ c = c'.
Proof.
  intros Hnd p s c s' c' (_ & i & Hi & -> & ->)%visit_elem (_ & j & Hj & -> & ->)%visit_elem.
  assert (NoDup (natural_sort key paths)) as Hnq by (by rewrite natural_sort_perm).
  by assert (i = j) as -> by (by eapply NoDup_lookup).
Qed.
Print Assumptions one_call_per_set.

(** The writes are divided into consecutive blocks of the smallest size that suffices: a process has a
    full block, or what is left, or nothing. *)
Theorem visit_loads {A} (key writes : A -> nat) size rank paths : 0 < size ->
  let total := sum_list (map writes paths) in
  exists block, size * block < total + size /\ total <= size * block /\
    load (visit_writes key writes size rank paths) = block `min` (total - rank * block).
Proof.
  intros Hs total. exists ((total + size - 1) `div` size).
  pose proof (Nat.div_mod (total + size - 1) size ltac:(lia)). pose proof (Nat.mod_upper_bound (total + size - 1) size ltac:(lia)).
  rewrite visit_load. fold total. split; [nia|]. split; [nia|]. lia.
Qed.
Print Assumptions visit_loads.

(** Whole sets: each one is assigned to exactly one process, and the numbers of sets of two processes
    differ by at most one. *)
Theorem each_set_assigned_once {A} (key : A -> nat) size paths p : 0 < size -> NoDup paths -> p ∈ paths ->
  exists! rank, rank < size /\ p ∈ get_assigned_sets key size rank paths.
Proof.
  intros Hs Hnd Hp. set (q := natural_sort key paths).
  assert (q ≡ₚ paths) as Hq by apply natural_sort_perm.
  rewrite <- Hq in Hp. apply elem_of_list_lookup in Hp as [i Hi].
  exists (i `mod` size). split.
  - split; [by apply Nat.mod_upper_bound; lia|]. apply stride_elem. eauto.
  - intros r [Hr Hin]. apply stride_elem in Hin as (j & Hj & <-). fold q in Hj.
    assert (NoDup q) as Hnq by (by rewrite Hq). by assert (j = i) as -> by (by eapply NoDup_lookup).
Qed.
Print Assumptions each_set_assigned_once.

Theorem assigned_sets_balanced {A} (key : A -> nat) size paths r r' : r < size -> r' < size ->
  length (get_assigned_sets key size r paths) <= length (get_assigned_sets key size r' paths) + 1.
Proof.
  intros Hr Hr'. unfold get_assigned_sets. rewrite !stride_length by lia. set (n := length _).
  pose proof (Nat.div_mod (n + size - 1 - r) size ltac:(lia)). pose proof (Nat.mod_upper_bound (n + size - 1 - r) size ltac:(lia)).
  pose proof (Nat.div_mod (n + size - 1 - r') size ltac:(lia)). pose proof (Nat.mod_upper_bound (n + size - 1 - r') size ltac:(lia)).
  nia.
Qed.
Print Assumptions assigned_sets_balanced.

(** A concrete case: sets 3, 1, 2 and 10 with 2, 5, 0 and 4 writes, on 3 processes. *)
Definition writes_example (p : nat) : nat := match p with 3 => 2 | 1 => 5 | 10 => 4 | _ => 0 end.
Example visits_example :
  map (fun r => visit_writes id writes_example 3 r [3; 1; 2; 10]) [0; 1; 2] =
  [[(1, 0, 4)]; [(1, 4, 1); (3, 0, 2); (10, 0, 1)]; [(10, 1, 3)]].
Proof. vm_compute. reflexivity. Qed.
Example sets_example : map (fun r => get_assigned_sets id 3 r [3; 1; 2; 10]) [0; 1; 2] = [[1; 10]; [2]; [3]].
Proof. vm_compute. reflexivity. Qed.
