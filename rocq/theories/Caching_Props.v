(** Cached functions, methods, attributes and classes. *)
From stdpp Require Import gmap strings list.
From Verif Require Import Caching_Model Caching_Spec Caching_Proofs.

(** ** Functions *)
(** Calls of a cached function give what the function gives (values and exceptions), whatever the
    history, if the calls are ones Python accepts, the size is not limited to zero, and no call binds
    exactly two arguments of which the second is a tuple. *)
Theorem cached_function_value {R} (f : func R) max_size h : max_size <> Some 0 -> (forall x, x ∈ h -> accepted f x) -> (forall x, x ∈ h -> unambiguous f x) ->
  (calls f max_size [] h).1.2 = map (fun x => py_call f x.1 x.2) h.
Proof.
  intros Hm Ha Hu. pose proof (calls_values f max_size (fun b => ~ second_is_tuple b) fine_second Hm h [] (cinv_nil _ _)) as H.
  destruct (calls f max_size [] h) as [[c os] log]. destruct H as [_ ->]; [|done].
  intros x Hx. destruct (Ha x Hx) as [b Hb]. exists b. split; [done|]. by apply (Hu x Hx).
Qed.
(** Functions that do not have exactly two arguments need no such condition. *)
Theorem cached_function_value_other {R} (f : func R) max_size h : max_size <> Some 0 -> (forall x, x ∈ h -> accepted f x) -> length (names f) <> 2 ->
  (calls f max_size [] h).1.2 = map (fun x => py_call f x.1 x.2) h.
Proof.
  intros Hm Ha Hl. apply cached_function_value; [done..|]. intros x Hx b Hb (y & l & ->). apply bind_length in Hb. cbn in Hb. lia.
Qed.
(** Without a size limit, a function that does not raise is called at most once for each list of bound
    arguments. *)
Theorem computed_once {R} (f : func R) h : (forall b, exists r, body f b = Val r) -> (forall x, x ∈ h -> accepted f x) ->
  NoDup (omap (fun x => py_bind f x.1 x.2) (calls f None [] h).2).
Proof. intros Hb Ha. by apply calls_once. Qed.
(** After a call that reached the function, the cache has at most [max_size + 1] entries. *)
Theorem cache_size {R} (f : func R) m c args kw c' o : cached_call f (Some m) c args kw = (c', o, true) -> length c' <= S m.
Proof.
  unfold cached_call. destruct (cache_get c (direct_call args kw)); [done|]. destruct (serialize_call f args kw) as [b|]; [|done].
  destruct (cache_get c (Tup b)); [done|]. destruct (reduce (Some m) c) as [c1|] eqn:E; [|done]. apply reduce_length in E.
  destruct (py_call f args kw) as [r|e]; intros [= <- <-]; [|lia].
  etrans; [apply cache_set_length|]. pose proof (cache_set_length c1 (direct_call args kw) r). lia.
Qed.

(** *** Examples and exceptions *)
(** f(a, b=0) and the call f((1,), ()). *)
Definition pair_fun : func (list val) := Func ["a"%string; "b"%string] (fun n => if decide (n = "b"%string) then Some (Atom 0) else None) Val.
Definition one := Atom 1.
Example cached_function_example :
  let h := [([one], []); ([one; Atom 0], []); ([], [("b"%string, Atom 0); ("a"%string, one)]); ([Atom 2], [("b"%string, one)])] in
  (forall x, x ∈ h -> accepted pair_fun x) /\ (forall x, x ∈ h -> unambiguous pair_fun x) /\
  (calls pair_fun None [] h).1.2 = [Val [one; Atom 0]; Val [one; Atom 0]; Val [one; Atom 0]; Val [Atom 2; one]] /\
  (calls pair_fun None [] h).2 = [([one], []); ([Atom 2], [("b"%string, one)])].
Proof.
  cbn zeta. split; [|split; [|done]].
  - intros x Hx. repeat (apply elem_of_cons in Hx as [->|Hx]; [by eexists|]). by apply elem_of_nil in Hx.
  - intros x Hx. repeat (apply elem_of_cons in Hx as [->|Hx]; [intros b [= <-] (y & l & [= ])|]). by apply elem_of_nil in Hx.
Qed.
(** A tuple and an empty tuple as arguments spell out another call: f(1) and then f((1,), ()) gives
    f(1) again. *)
Theorem tuple_arguments_refuted : exists (f : func (list val)) h, (forall x, x ∈ h -> accepted f x) /\
  (calls f None [] h).1.2 <> map (fun x => py_call f x.1 x.2) h.
Proof.
  exists pair_fun, [([one], []); ([Tup [one]; Tup []], [])]. split; [|done].
  intros x Hx. repeat (apply elem_of_cons in Hx as [->|Hx]; [by eexists|]). by apply elem_of_nil in Hx.
Qed.
(** The size limit is not kept: with [max_size=1] one call leaves two entries, and other spellings of
    a cached call add more without removing any. *)
Theorem max_size_refuted : exists (f : func (list val)) h, length (calls f (Some 1) [] (take 1 h)).1.1 = 2 /\ length (calls f (Some 1) [] h).1.1 = 4.
Proof. by exists pair_fun, [([one], []); ([], [("a"%string, one)]); ([one; Atom 0], [])]. Qed.
(** With [max_size=0] every call fails. *)
Theorem max_size_zero_refuted {R} (f : func R) args kw : (cached_call f (Some 0) [] args kw).1.2 = Raise KeyError.
Proof. unfold cached_call. cbn [cache_get]. destruct (serialize_call f args kw); done. Qed.
(** A missing argument gives a key error and not a type error; an unknown keyword or a surplus of
    keywords is accepted when the call without it is cached. *)
Theorem missing_argument_refuted : exists (f : func (list val)) args kw,
  py_call f args kw = Raise TypeError /\ (cached_call f None [] args kw).1.2 = Raise KeyError.
Proof. by exists pair_fun, [], []. Qed.
Theorem unknown_keyword_refuted : exists (f : func (list val)) x y, py_call f y.1 y.2 = Raise TypeError /\
  exists r, (calls f None [] [x; y]).1.2 = [Val r; Val r].
Proof. exists pair_fun, ([one], []), ([one], [("c"%string, one)]). split; [done|]. by eexists. Qed.

(** ** Methods and attributes *)
(** Cached methods of any number of instances give what the methods give for that instance, whatever
    the history: their results are never mixed, and there is no condition on the arguments. *)
Theorem cached_method_value {R} (methods : string -> func R) max_size h : max_size <> Some 0 ->
  (forall i name args kw, (i, name, args, kw) ∈ h -> accepted (methods name) (Atom (Z.of_nat i) :: args, kw)) ->
  (method_calls methods max_size ∅ h).2 = map (fun '(i, name, args, kw) => py_call (methods name) (Atom (Z.of_nat i) :: args) kw) h.
Proof. intros Hm Hh. by apply method_calls_values. Qed.
Example cached_method_example :
  (method_calls (fun _ => pair_fun) (Some 1) ∅ [(1, "m"%string, [Tup []], []); (2, "m"%string, [], []); (1, "m"%string, [], [("b"%string, Tup [])])]).2 =
  [Val [Atom 1; Tup []]; Val [Atom 2; Atom 0]; Val [Atom 1; Tup []]].
Proof. done. Qed.

(** An overriding cached method that does not call a cached method of a parent class through [super()]
    gives the value of the chain of methods at every call.  ([Jacobi.product_matrix], basis.py:602-608,
    calls an uncached parent.) *)
Theorem overridden_method_value {R} (layers : list (layer R)) bottom h :
  length layers <= 1 \/ (exists l rest, layers = l :: rest /\ calls_super l = false) ->
  layered_calls layers bottom None h = map (chain_value layers bottom) h.
Proof.
  intros Hl. assert (layered_calls layers bottom None h = layered_calls layers bottom (Some (0, [])) h) as -> by (by destruct h).
  apply layered_single; [done|]. intros b r Hin. by apply elem_of_nil in Hin.
Qed.
(** One that does becomes the parent's method after its first call. *)
Theorem super_cached_method_refuted : exists (layers : list (layer nat)) h,
  layered_calls layers 0 None h = [11; 1] /\ map (chain_value layers 0) h = [11; 11].
Proof.
  by exists [Layer true (fun _ r => 10 + default 0 r); Layer false (fun _ _ => 1)], [[one]; [one]].
Qed.

(** A cached attribute has at every access the value computed from the state at the first access. *)
Theorem cached_attribute_value {S R} (method : S -> R) s h r : r ∈ attr_events method s None h -> r = method (first_get_state s h).
Proof.
  revert s. induction h as [|[|s'] h IH]; intros s Hr; cbn [attr_events first_get_state] in *; [by apply elem_of_nil in Hr| |by apply IH].
  assert (forall s stored, r ∈ attr_events method s (Some stored) h -> r = stored) as H.
  { clear. induction h as [|[|s'] h IH]; intros s stored Hr; cbn [attr_events] in Hr; [by apply elem_of_nil in Hr| |by eapply IH].
    apply elem_of_cons in Hr as [->|Hr]; [done|by eapply IH]. }
  apply elem_of_cons in Hr as [->|Hr]; [done|by eapply H].
Qed.
(** So it is the current value if the state does not change after the first access, and can be stale
    otherwise. *)
Theorem stale_attribute_refuted : attr_events (fun s : nat => s) 0 None [Change 1; Get; Change 2; Get] = [1; 1].
Proof. done. Qed.

(** ** Classes *)
(** Objects of a cached class after any history: a construction with the same full arguments returns
    the same object as long as that is not collected; an object is never returned for other arguments
    than it was made with. *)
Theorem cached_class_objects c es args kw gc es' args' kw' gc' :
  let '(st1, o1) := construct c (class_run c no_objects es) args kw gc in
  let '(st2, o2) := construct c (class_run c st1 es') args' kw' gc' in
  forall i, o1 = Val i ->
    (full_args c args kw = full_args c args' kw' -> (forall e, e ∈ es' -> i ∉ collected e) -> i ∉ gc' -> o2 = Val i) /\
    (o2 = Val i -> full_args c args' kw' = full_args c args kw) /\
    made st2 !! i = (match full_args c args kw with Val k => Some k | Raise _ => None end).
Proof.
  assert (classinv no_objects) as H0.
  { split; cbn; [intros i k; by rewrite lookup_empty|intros k i Hin; by apply elem_of_nil in Hin|intros k i i' Hin; by apply elem_of_nil in Hin]. }
  destruct (class_run_spec c es _ H0) as (H1 & _ & _). pose proof (construct_spec c _ args kw gc H1) as H2.
  destruct (construct c (class_run c no_objects es) args kw gc) as [st1 o1]. destruct H2 as (H2 & _ & H3 & _).
  destruct (class_run_spec c es' _ H2) as (H4 & H5 & H6). pose proof (construct_spec c _ args' kw' gc' H4) as H7.
  destruct (construct c (class_run c st1 es') args' kw' gc') as [st2 o2]. destruct H7 as (H7 & H8 & H9 & H10).
  intros i Hi. destruct (H3 i Hi) as (k & Hk & Hmade & Hin). rewrite Hk. split; [|split].
  - intros Heq He Hgc. destruct (H10 k i) as [_ F]; [by apply H6|done|]. by apply F.
  - intros Ho. destruct (H9 i Ho) as (k' & Hk' & Hm' & _). apply H5, H8 in Hmade. congruence.
  - by apply H8, H5.
Qed.
(** A construction whose arguments are valid succeeds if nothing is collected during it. *)
Theorem cached_class_succeeds c es args kw k : full_args c args kw = Val k ->
  exists i, (construct c (class_run c no_objects es) args kw []).2 = Val i.
Proof.
  unfold full_args, construct. intros H. destruct (py_bind (init c) args kw) as [b|]; [|done]. rewrite H.
  set (st := class_run c no_objects es). assert (instances (collect [] st) = instances st) as E.
  { cbn. generalize (instances st) as l. induction l as [|x l IH]; [done|]. rewrite filter_cons_True by apply not_elem_of_nil. by rewrite IH. }
  destruct (instance_get (instances st) k) eqn:F; [|by eexists]. rewrite E, F. by eexists.
Qed.
(** The final lookup fails if the last other reference to the object goes after the membership test. *)
Theorem collected_during_lookup_refuted : exists c args kw, (exists k, full_args c args kw = Val k) /\
  (construct c (class_run c no_objects [New args kw []]) args kw [0]).2 = Raise KeyError.
Proof.
  exists (Class (Func ["a"%string] (fun _ => None) (fun _ => Val tt)) Val), [one], []. split; [by eexists|done].
Qed.
Definition pair_class := Class (Func ["a"%string; "b"%string] (fun n => if decide (n = "b"%string) then Some (Atom 0) else None) (fun _ => Val tt)) Val.
Example cached_class_example :
  let st := class_run pair_class no_objects [New [one] [] []; New [Atom 2] [] []; Collect [0]; New [one] [] []] in
  (construct pair_class st [] [("b"%string, Atom 0); ("a"%string, one)] []).2 = Val 2 /\
  (construct pair_class st [Atom 2; Atom 0] [] []).2 = Val 1 /\ (construct pair_class st [one; one] [] []).2 = Val 3 /\
  (construct pair_class st [] [] []).2 = Raise TypeError.
Proof. vm_compute. done. Qed.

Print Assumptions cached_function_value.
Print Assumptions cached_function_value_other.
Print Assumptions computed_once.
Print Assumptions cache_size.
Print Assumptions tuple_arguments_refuted.
Print Assumptions max_size_refuted.
Print Assumptions max_size_zero_refuted.
Print Assumptions missing_argument_refuted.
Print Assumptions unknown_keyword_refuted.
Print Assumptions cached_method_value.
Print Assumptions overridden_method_value.
Print Assumptions super_cached_method_refuted.
Print Assumptions cached_attribute_value.
Print Assumptions stale_attribute_refuted.
Print Assumptions cached_class_objects.
Print Assumptions cached_class_succeeds.
Print Assumptions collected_during_lookup_refuted.
