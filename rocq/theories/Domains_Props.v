(** Coordinates and domains. *)
From stdpp Require Import gmap strings list sorting.
From Verif Require Import Domains_Model Domains_Spec Domains_Proofs.

(** ** Which base lists are accepted *)
(** A domain is made exactly when no two different bases have the same coordinate system and the first
    coordinate of each basis is the distributor's; the overlap error comes exactly in the former case. *)
Theorem domain_accepted coords l :
  ((exists bs, domain_args coords l = Bases bs) <->
     (forall b b', Some b ∈ l -> Some b' ∈ l -> b_cs b = b_cs b' -> b = b') /\ forall b, Some b ∈ l -> exists ax, starts_at coords b ax) /\
  (domain_args coords l = Overlapping <-> exists b b', Some b ∈ l /\ Some b' ∈ l /\ b_cs b = b_cs b' /\ b <> b').
Proof.
  assert (~ distinct_systems l -> exists b b', Some b ∈ l /\ Some b' ∈ l /\ b_cs b = b_cs b' /\ b <> b') as Hwit.
  { intros Hd. set (bs := omap id l). destruct (decide (Exists (fun b => Exists (fun b' => b_cs b = b_cs b' /\ b <> b') bs) bs)) as [H|H].
    - apply Exists_exists in H as (b & Hb & H). apply Exists_exists in H as (b' & Hb' & H1 & H2). exists b, b'. by rewrite <- !omap_id_elem.
    - destruct Hd. intros b b' Hb Hb' E. destruct (decide (b = b')) as [|Hne]; [done|]. destruct H. apply Exists_exists. exists b.
      split; [by apply omap_id_elem|]. apply Exists_exists. exists b'. split; [by apply omap_id_elem|done]. }
  destruct (domain_args_cases coords l) as [H1|H1 (b & Hb & H2)|bs H1 H2 H3 H4 _]; split; split.
  - by intros [bs ?].
  - intros [H _]. done.
  - intros _. by apply Hwit.
  - done.
  - by intros [bs ?].
  - intros [_ H]. destruct (H b Hb) as [ax Hax]. apply basis_axis_starts in Hax. congruence.
  - done.
  - intros (b1 & b2 & A1 & A2 & A3 & A4). destruct A4. by apply H1.
  - intros _. split; [done|]. intros b Hb. destruct (H2 b Hb) as [ax Hax]. exists ax. by apply basis_axis_starts.
  - intros _. by exists bs.
  - done.
  - intros (b1 & b2 & A1 & A2 & A3 & A4). destruct A4. by apply H1.
Qed.
(** The domain has each given basis once, in the order of the first axes. *)
Theorem domain_contents coords l bs : domain_args coords l = Bases bs ->
  NoDup bs /\ (forall b, b ∈ bs <-> Some b ∈ l) /\
  forall i j b b' ax ax', i < j -> bs !! i = Some b -> bs !! j = Some b' -> starts_at coords b ax -> starts_at coords b' ax' -> ax <= ax'.
Proof.
  intros H. pose proof (domain_args_cases coords l) as Hc. rewrite H in Hc. inversion Hc as [| |? H1 H2 H3 H4 _]; subst. split; [done|]. split; [done|].
  intros i j b b' ax ax' Hlt Hi Hj Ha%basis_axis_starts Ha'%basis_axis_starts. by eapply sorted_axes.
Qed.
(** The order, repetitions and [None]s of the base list do not matter if the bases start on different
    axes. *)
Theorem domain_order coords l l' : (forall b, Some b ∈ l <-> Some b ∈ l') ->
  (forall b b' ax, Some b ∈ l -> Some b' ∈ l -> starts_at coords b ax -> starts_at coords b' ax -> b = b') ->
  domain_args coords l = domain_args coords l'.
Proof. intros He Hk. apply domain_args_order; [done|]. intros b b' ax Hb Hb' H1%basis_axis_starts H2%basis_axis_starts. by apply (Hk b b' ax). Qed.
(** The bases of a domain give that domain. *)
Theorem domain_idempotent coords l bs : domain_args coords l = Bases bs -> domain_args coords (map Some bs) = Bases bs.
Proof. apply domain_args_id. Qed.
Corollary domain_combination coords l1 l2 bs1 bs2 : domain_args coords l1 = Bases bs1 -> domain_args coords l2 = Bases bs2 ->
  (forall b b' ax, Some b ∈ l1 ++ l2 -> Some b' ∈ l1 ++ l2 -> starts_at coords b ax -> starts_at coords b' ax -> b = b') ->
  domain_args coords (map Some bs1 ++ map Some bs2) = domain_args coords (map Some bs2 ++ map Some bs1) /\
  domain_args coords (map Some bs1 ++ map Some bs2) = domain_args coords (l1 ++ l2).
Proof.
  intros H1 H2 Hk. destruct (domain_contents _ _ _ H1) as (_ & E1 & _), (domain_contents _ _ _ H2) as (_ & E2 & _).
  assert (forall b, Some b ∈ map Some bs1 ++ map Some bs2 <-> Some b ∈ l1 ++ l2) as He.
  { intros b. rewrite !elem_of_app, <- E1, <- E2. assert (forall bs : list basis, Some b ∈ map Some bs <-> b ∈ bs) as F; [|by rewrite !F].
    intros bs. rewrite elem_of_list_fmap. split; [by intros (x & [= ->] & Hx)|]. intros Hb. by exists b. }
  split; apply domain_order.
  - intros b. rewrite !elem_of_app. tauto.
  - intros b b' ax Hb Hb'. apply Hk; by apply He.
  - done.
  - intros b b' ax Hb Hb'. apply Hk; by apply He.
Qed.

(** ** Bases by coordinate *)
(** With distinct coordinates, bases on consecutive coordinates and no coordinate shared, the basis of
    a coordinate is the one that has it, and [None] if there is none. *)
Theorem domain_get_basis coords l bs : NoDup coords -> (forall b, Some b ∈ l -> placed coords b) -> separate (omap id l) -> domain_args coords l = Bases bs ->
  forall c, c ∈ coords -> (forall b, get_basis coords bs c = Some (Some b) <-> Some b ∈ l /\ has_coord b c) /\
    (get_basis coords bs c = Some None <-> forall b, Some b ∈ l -> ~ has_coord b c).
Proof.
  intros Hn Hp Hs H c Hc. destruct (domain_contents _ _ _ H) as (_ & E & _).
  destruct (get_basis_spec coords bs Hn) with (c := c) as [F1 F2]; [|intros b b' c' Hb Hb'; apply Hs; apply omap_id_elem; by apply E|done|].
  { intros b Hb. apply Hp. by apply E. }
  destruct (decide (Exists (fun b => c ∈ cs_coords (b_cs b)) bs)) as [Hx|Hx].
  - apply Exists_exists in Hx as (b0 & Hb0 & Hbc0). pose proof (F1 b0 Hb0 Hbc0) as G. rewrite G. split.
    + intros b. split; [intros [= <-]; by rewrite <- E|]. intros [Hb Hbc]. do 2 f_equal. apply (Hs b0 b c); [by apply omap_id_elem, E|by apply omap_id_elem|done|done].
    + split; [done|]. intros Hno. exfalso. apply (Hno b0); [by apply E|done].
  - assert (forall b, b ∈ bs -> ~ has_coord b c) as Hno by (intros b Hb Hbc; apply Hx, Exists_exists; by exists b).
    rewrite (F2 Hno). split.
    + intros b. split; [done|]. intros [Hb Hbc]. exfalso. apply (Hno b); [by apply E|done].
    + split; [|done]. intros _ b Hb. apply Hno. by apply E.
Qed.
(** Arrays over the axes (bases, dealias factors, constancy, shapes): the value of the basis at its
    coordinate, the default elsewhere. *)
Theorem domain_axis_values {V} coords (d : V) value bs : NoDup coords -> (forall b, b ∈ bs -> placed coords b) -> separate bs ->
  exists r, fill coords d value bs = Some r /\ length r = length coords /\
    forall ax c, coords !! ax = Some c ->
      (forall b i, b ∈ bs -> cs_coords (b_cs b) !! i = Some c -> r !! ax = Some (value b i)) /\
      ((forall b, b ∈ bs -> ~ has_coord b c) -> r !! ax = Some d).
Proof.
  intros Hn Hp Hs. destruct (fill_spec coords d value Hn bs Hp Hs) as (r & H1 & H2 & H3 & H4). exists r. split; [done|]. split; [done|].
  intros ax c Hc. pose proof (coord_index_nodup _ _ _ Hn Hc) as Hi. split.
  - intros b i Hb Hbi. destruct (H3 b i c Hb Hbi) as (ax' & Hax' & Hr). congruence.
  - intros Hno. by apply (H4 c).
Qed.
(** Substituting a basis: its coordinates get the new basis, those of the old basis that are not among
    them become constant, and the others keep theirs. *)
Theorem domain_substitute coords bs old new bs' : NoDup coords -> (forall b, b ∈ bs \/ new = Some b -> placed coords b) -> NoDup bs ->
  separate (match new with Some b => b :: filter (fun x => Some x <> old) bs | None => filter (fun x => Some x <> old) bs end) ->
  substitute_basis coords bs old new = Bases bs' ->
  forall c b, c ∈ coords -> (get_basis coords bs' c = Some (Some b) <-> has_coord b c /\ (new = Some b \/ b ∈ bs /\ old <> Some b)).
Proof.
  intros Hn Hp Hnd Hs H c b Hc. unfold substitute_basis in H. cbn zeta in H.
  set (l := match old with Some b => if decide (b ∈ bs) then remove_first b bs else bs | None => bs end) in *.
  assert (forall x, x ∈ l <-> x ∈ bs /\ Some x <> old) as Hl.
  { intros x. unfold l. destruct old as [o|].
    - destruct (decide (o ∈ bs)) as [Ho|Ho].
      + rewrite remove_first_elem by done. split; intros [? ?]; (split; [done|congruence]).
      + split; [|tauto]. intros Hx. split; [done|]. intros [= ->]. done.
    - split; [|tauto]. intros Hx. by split. }
  assert (forall x, Some x ∈ map Some l ++ [new] <-> new = Some x \/ x ∈ bs /\ old <> Some x) as He.
  { intros x. rewrite elem_of_app, elem_of_list_singleton, elem_of_list_fmap. split.
    - intros [(y & [= <-] & Hy)|Hx]; [right|by left]. apply Hl in Hy as [? ?]. split; [done|congruence].
    - intros [->|[Hx Ho]]; [by right|]. left. exists x. split; [done|]. apply Hl. split; [done|congruence]. }
  assert (forall x, Some x ∈ map Some l ++ [new] -> placed coords x) as G1.
  { intros x Hx. apply Hp. apply He in Hx as [Hx|[Hx _]]; [by right|by left]. }
  assert (separate (omap id (map Some l ++ [new]))) as G2.
  { assert (forall x, x ∈ omap id (map Some l ++ [new]) -> x ∈ match new with Some b => b :: filter (fun x => Some x <> old) bs | None => filter (fun x => Some x <> old) bs end) as G.
    { intros x Hx. rewrite omap_id_elem, He in Hx. destruct new as [n|]; [rewrite elem_of_cons|]; rewrite elem_of_list_filter;
      (destruct Hx as [Hx|[Hx ?]]; [|try right; split; [congruence|done]]); [left; congruence|done]. }
    intros x y c' Hx Hy. apply Hs; by apply G. }
  destruct (domain_get_basis coords _ bs' Hn G1 G2 H c Hc) as [F _]. rewrite F, He. tauto.
Qed.

(** *** An example, and what is accepted besides *)
Definition x_ := Coord Plain "x". Definition y_ := Coord Plain "y". Definition phi_ := Coord Azimuthal "phi". Definition theta_ := Coord Plain "theta".
Definition Bx := Basis 1 (CoordSys 1 0 [x_]) 1.
Definition By := Basis 2 (CoordSys 2 0 [y_]) 1.
Definition Bsphere := Basis 3 (CoordSys 3 4 [phi_; theta_]) 2.
Definition Bphi := Basis 4 (CoordSys 4 0 [phi_]) 1.
Definition Btheta := Basis 5 (CoordSys 5 0 [theta_]) 1.
Definition four := [x_; phi_; theta_; y_].
Example domain_example :
  domain_args four [Some By; None; Some Bsphere; Some Bx; Some By] = Bases [Bx; Bsphere; By] /\
  domain_args four [Some Bsphere; Some By; Some Bx] = Bases [Bx; Bsphere; By] /\
  full_bases four [Bsphere; By] = Some [None; Some Bsphere; Some Bsphere; Some By] /\
  substitute_basis four [Bsphere; By] (Some By) None = Bases [Bsphere] /\
  NoDup four /\ (forall b, b ∈ [Bx; Bsphere; By] -> placed four b) /\ separate [Bx; Bsphere; By].
Proof.
  repeat (split; [done|]). split; [|split].
  - repeat (apply NoDup_cons; split; [intros F; repeat (apply elem_of_cons in F as [F|F]; [done|]); by apply elem_of_nil in F|]). constructor.
  - intros b Hb. repeat (apply elem_of_cons in Hb as [->|Hb]); [..|by apply elem_of_nil in Hb]; (split; [done|]; split; [done|]); [by exists [], [phi_; theta_; y_]|by exists [x_], [y_]|by exists [x_; phi_; theta_], []].
  - intros b b' c Hb Hb'. unfold has_coord. repeat (apply elem_of_cons in Hb as [->|Hb]); repeat (apply elem_of_cons in Hb' as [->|Hb']); try (by apply elem_of_nil in Hb); try (by apply elem_of_nil in Hb'); try done;
    cbn; rewrite !elem_of_cons, elem_of_nil; intuition (subst; done).
Qed.
(** Bases with different systems that share coordinates are accepted, the later axis wins, and with the
    same first axis the order matters. *)
Theorem shared_coordinate_refuted : exists coords l bs, domain_args coords l = Bases bs /\ ~ separate (omap id l).
Proof.
  exists four, [Some Bsphere; Some Btheta], [Bsphere; Btheta]. split; [done|]. intros H.
  by specialize (H Bsphere Btheta theta_ ltac:(left) ltac:(right; left) ltac:(right; left) ltac:(left)).
Qed.
Theorem same_axis_order_refuted : exists coords l l', l ≡ₚ l' /\ domain_args coords l <> domain_args coords l' /\
  exists bs bs', domain_args coords l = Bases bs /\ domain_args coords l' = Bases bs'.
Proof.
  exists four, [Some Bsphere; Some Bphi], [Some Bphi; Some Bsphere]. split; [constructor|]. split; [done|]. by exists [Bsphere; Bphi], [Bphi; Bsphere].
Qed.

(** ** Coordinate systems *)
(** Two coordinate systems compare equal exactly if they have the same class, the same positive number
    of coordinates and the same first coordinate. *)
Theorem coordsys_eq a b : cs_eq a b = true <-> cs_class a = cs_class b /\ length (cs_coords a) = length (cs_coords b) /\
  exists c la lb, cs_coords a = c :: la /\ cs_coords b = c :: lb.
Proof.
  unfold cs_eq, eq_loop. destruct (decide (cs_class a = cs_class b)) as [H1|H1].
  - destruct (decide (length (cs_coords a) = length (cs_coords b))) as [H2|H2].
    + destruct (cs_coords a) as [|c la], (cs_coords b) as [|c' lb]; try done.
      * split; [done|]. intros (_ & _ & c & la & lb & [=] & _).
      * destruct (decide (c = c')) as [->|Hne].
        -- split; [|done]. intros _. split; [done|]. split; [done|]. by exists c', la, lb.
        -- split; [done|]. intros (_ & _ & d & la' & lb' & [= -> ->] & [= -> ->]). done.
    + split; [done|]. tauto.
  - split; [done|]. tauto.
Qed.
(** So systems with equal coordinates compare equal, and the converse needs that the first coordinate
    determines the others. *)
Theorem coordsys_eq_complete a b : cs_class a = cs_class b -> cs_coords a = cs_coords b -> cs_coords a <> [] -> cs_eq a b = true.
Proof.
  intros H1 H2 H3. apply coordsys_eq. split; [done|]. split; [by rewrite H2|]. rewrite <- H2. destruct (cs_coords a) as [|c l]; [done|]. by exists c, l, l.
Qed.
Theorem coordsys_eq_refuted : exists a b, cs_eq a b = true /\ cs_coords a <> cs_coords b /\ NoDup (cs_coords a) /\ NoDup (cs_coords b).
Proof.
  exists (CoordSys 1 1 [x_; y_]), (CoordSys 2 1 [x_; theta_]). split; [done|]. split; [done|].
  split; repeat (apply NoDup_cons; split; [intros F; repeat (apply elem_of_cons in F as [F|F]; [done|]); by apply elem_of_nil in F|]); constructor.
Qed.
(** A direct product is accepted exactly if no coordinate object is repeated; equal coordinates of
    different objects are accepted. *)
Theorem direct_product_accepted systems : (exists l, direct_product systems = Some l) <-> NoDup (concat systems).
Proof.
  unfold direct_product. cbn zeta. destruct (decide _) as [H|H].
  - apply remove_dups_nodup in H. split; [by intros [l ?]|done].
  - rewrite remove_dups_nodup in H. split; [|by eexists]. intros _. by destruct (decide (NoDup (concat systems))).
Qed.
Theorem direct_product_repeat_refuted : exists systems l, direct_product systems = Some l /\ ~ NoDup (map snd l).
Proof.
  exists [[(1, x_)]; [(2, x_)]], [(1, x_); (2, x_)]. split; [done|]. intros H. cbn in H. apply NoDup_cons in H as [H _]. apply H. by left.
Qed.
(** The distributor's coordinate system of an axis is the one that has the coordinate of the axis, if the
    coordinates are distinct; repeated names are accepted and confuse it. *)
Theorem coordsys_by_axis systems : NoDup (dist_coords systems) -> (forall cs, cs ∈ systems -> cs_coords cs <> []) ->
  exists d, cs_by_axis systems = Some d /\ forall cs c ax, cs ∈ systems -> c ∈ cs_coords cs -> dist_coords systems !! ax = Some c -> d !! ax = Some cs.
Proof. apply cs_by_axis_spec. Qed.
Theorem coordsys_by_axis_refuted : exists systems d, cs_by_axis systems = Some d /\ exists cs c ax, cs ∈ systems /\ c ∈ cs_coords cs /\ dist_coords systems !! ax = Some c /\ d !! ax = None.
Proof.
  exists [CoordSys 1 0 [x_]; CoordSys 2 0 [x_]], (<[0 := CoordSys 2 0 [x_]]> (<[0 := CoordSys 1 0 [x_]]> ∅)). split; [done|].
  exists (CoordSys 2 0 [x_]), x_, 1. split; [right; left|]. split; [left|]. done.
Qed.

Print Assumptions domain_accepted.
Print Assumptions domain_contents.
Print Assumptions domain_order.
Print Assumptions domain_idempotent.
Print Assumptions domain_combination.
Print Assumptions domain_get_basis.
Print Assumptions domain_axis_values.
Print Assumptions domain_substitute.
Print Assumptions shared_coordinate_refuted.
Print Assumptions same_axis_order_refuted.
Print Assumptions coordsys_eq.
Print Assumptions coordsys_eq_complete.
Print Assumptions coordsys_eq_refuted.
Print Assumptions direct_product_accepted.
Print Assumptions direct_product_repeat_refuted.
Print Assumptions coordsys_by_axis.
Print Assumptions coordsys_by_axis_refuted.
