(** Dispatch of constructors to subclasses. *)
From stdpp Require Import list sorting sets.
From Verif Require Import Dispatch_Model Dispatch_Spec Dispatch_Proofs.

(** A call makes an instance of a class exactly when that class is reached from the called one with, at
    every level, exactly one subclass accepting the preprocessed arguments. *)
Theorem dispatch_instance {A O E} (t : cls A O E) a n b : dispatch t a = Instance n b <-> resolves t a n b.
Proof. split; [apply dispatch_resolves|apply resolves_dispatch]. Qed.
(** The errors for no and for several accepting subclasses come exactly when there are none or several
    at some level of the way down. *)
Theorem dispatch_errors {A O E} (t : cls A O E) a :
  (dispatch t a = NoSubclass <-> stuck false t a) /\ (dispatch t a = Degenerate <-> stuck true t a).
Proof.
  split; split; [apply (dispatch_stuck false)|apply (stuck_dispatch false)|apply (dispatch_stuck true)|apply (stuck_dispatch true)].
Qed.
(** The order in which subclasses are defined does not matter, as long as the checks at one level that
    skip the dispatch or raise agree. *)
Theorem dispatch_order {A O E} (t t' : cls A O E) a : reordered t t' -> agreeing t -> dispatch t a = dispatch t' a.
Proof. apply reordered_dispatch. Qed.
Theorem dispatch_skip_order_refuted : exists (t t' : cls nat nat nat) a, reordered t t' /\ dispatch t a <> dispatch t' a.
Proof.
  set (s n := Cls n false (A:=nat) (O:=nat) (E:=nat) Ret (fun _ => Skip n) id (fun _ => Ret tt) []).
  set (r l := Cls 0 false (A:=nat) (O:=nat) (E:=nat) Ret (fun _ => Ret true) id (fun _ => Ret tt) l).
  exists (r [s 1; s 2]), (r [s 2; s 1]), 0. split; [|done].
  assert (forall n, reordered (s n) (s n)) as Hs by (intros n; eapply Reordered; [constructor|done]).
  eapply Reordered; [constructor; [apply Hs|constructor; [apply Hs|constructor]]|]. constructor.
Qed.
(** A skip wins over any number of accepting subclasses. *)
Theorem dispatch_skip {A O E} (t : cls A O E) a b s o : cls_pre t a = Ret b -> live t s -> cls_check s b = Skip o -> agreeing t -> dispatch t a = Output o.
Proof.
  intros Hp Hs Hc Hg. rewrite dispatch_unfold, Hp. inversion Hg as [t' Hag _ E1]. subst t'.
  destruct (List.filter starts (cls_subs t)) as [|x l] eqn:E1.
  { apply (proj2 (leaf_filter t)) in E1. destruct Hs as [Hs1 Hs2]. specialize (E1 s Hs1). congruence. }
  rewrite <- E1. unfold outcome_of. destruct (verdict_cases (List.filter starts (cls_subs t)) b) as [(s' & Hs' & Ha & ->)|[Hr _]].
  - apply live_filter in Hs'. rewrite <- (Hag s s' b Hs Hs'); [by rewrite Hc| |done]. rewrite Hc. done.
  - destruct (Hr s) as [r F]; [by apply live_filter|congruence].
Qed.

(** Subclasses that accept disjoint kinds of arguments never give the error for several. *)
Theorem distinct_kinds {A O E K} (t : cls A O E) (kind : A -> K) : (forall s s' b b', live t s -> live t s' -> cls_check s b = Ret true -> cls_check s' b' = Ret true -> kind b = kind b' -> s = s') ->
  NoDup (cls_subs t) -> leaf t \/ (forall s, s ∈ cls_subs t -> leaf s) -> forall a, dispatch t a <> Degenerate.
Proof.
  intros Hk Hnd Hl a Hd. apply (dispatch_stuck true) in Hd. inversion Hd as [t' a' b Hp Hnl Hr (l1 & s1 & l2 & s2 & l3 & Hs & H1 & H2 & H3 & H4)|t' a' b l1 s l2 Hp Hs H1 H2 H3 H4]; subst.
  - assert (s1 = s2) as ->. { eapply (Hk s1 s2 b b); try done; (split; [rewrite Hs; set_solver|done]). }
    rewrite Hs in Hnd. apply NoDup_app in Hnd as (_ & _ & Hnd). apply NoDup_cons in Hnd as [Hnd _]. set_solver.
  - destruct Hl as [Hl|Hl]; [specialize (Hl s ltac:(rewrite Hs; set_solver)); congruence|].
    specialize (Hl s ltac:(rewrite Hs; set_solver)). inversion H4 as [t' a' b' Hp' Hnl' _ _|t' a' b' l1' s' l2' Hp' Hs' H1' _ _ _]; subst; [done|].
    specialize (Hl s' ltac:(rewrite Hs'; set_solver)). congruence.
Qed.

(** The differentiation operator: one implementation for each one-dimensional basis, zero for constants
    and numbers, an error otherwise. *)
Theorem differentiate_dispatch x : dispatch differentiate x =
  match x with
  | Number | OnBasis None => Output 0
  | OnBasis (Some JacobiBasis) => Instance 2 x
  | OnBasis (Some ComplexFourierBasis) => Instance 3 x
  | OnBasis (Some RealFourierBasis) => Instance 4 x
  | OnBasis (Some OtherBasis) | NotOperand => NoSubclass
  end.
Proof. by destruct x as [|[[]|]|]. Qed.
Example differentiate_resolves : resolves differentiate (OnBasis (Some RealFourierBasis)) 4 (OnBasis (Some RealFourierBasis)) /\ agreeing differentiate.
Proof.
  split; [by apply dispatch_instance|]. constructor.
  - intros s s' b [Hs _] _ Ha _. exfalso. cbn in Hs. repeat (apply elem_of_cons in Hs as [->|Hs]; [by eapply Ha|]). by apply elem_of_nil in Hs.
  - intros s Hs. cbn in Hs. repeat (apply elem_of_cons in Hs as [->|Hs]; [constructor; [intros s s' b [F _]; by apply elem_of_nil in F|intros s F; by apply elem_of_nil in F]|]).
    by apply elem_of_nil in Hs.
Qed.

Print Assumptions dispatch_instance.
Print Assumptions dispatch_errors.
Print Assumptions dispatch_order.
Print Assumptions dispatch_skip_order_refuted.
Print Assumptions dispatch_skip.
Print Assumptions distinct_kinds.
Print Assumptions differentiate_dispatch.
