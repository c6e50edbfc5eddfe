From stdpp Require Import list list_numbers numbers.
From Verif Require Import Layouts_Model Blocks_Model Blocks_Proofs RandomFill_Model RandomFill_Spec.

Section Stream.
  Context {V : Type} (zero : V) (stream : nat -> V).
  Lemma element_loop_value size : forall fuel pos chunk div, div = chunk + fuel -> element_loop stream fuel pos size chunk div = map stream (seq (pos + fuel * size) size).
  Proof.
    induction fuel as [|fuel IH]; intros pos chunk div Hd; cbn [element_loop draw]; [by rewrite Nat.add_0_r|].
    rewrite decide_False by lia. rewrite (IH _ (S chunk)) by lia. do 2 f_equal. lia.
  Qed.
  Lemma rng_element_value index size : 0 < size -> rng_element stream index size = Some (stream index).
  Proof.
    intros Hs. unfold rng_element. cbn zeta. set (s := Nat.min (1 + index) size). rewrite decide_False by lia.
    rewrite element_loop_value by lia. cbn [Nat.add]. rewrite list_lookup_fmap.
    pose proof (Nat.mod_upper_bound index s ltac:(lia)). rewrite lookup_seq_lt by done. cbn. do 2 f_equal.
    rewrite (Nat.div_mod index s) at 3 by lia. lia.
  Qed.
  Lemma elements_loop_value size indices : 0 < size -> forall rounds chunk values, length values = length indices ->
    (forall p i, indices !! p = Some i -> i / size < chunk -> values !! p = Some (stream i)) ->
    let r := elements_loop zero stream rounds (chunk * size) size chunk (map (fun i => i / size) indices) (map (fun i => i mod size) indices) values in
    length r = length indices /\ forall p i, indices !! p = Some i -> i / size < chunk + rounds -> r !! p = Some (stream i).
  Proof.
    intros Hs. induction rounds as [|rounds IH]; intros chunk values Hl Hv; cbn [elements_loop draw].
    { cbn zeta. split; [done|]. intros p i Hp Hi. apply Hv; [done|lia]. }
    cbn zeta. replace (chunk * size + size) with (S chunk * size) by lia.
    set (values' := if decide (chunk ∈ _) then _ else values). destruct (IH (S chunk) values') as [H1 H2].
    - unfold values'. destruct (decide _); [by rewrite imap_length|done].
    - intros p i Hp Hi. unfold values'. destruct (decide (chunk ∈ map (fun i => i / size) indices)) as [Hin|Hin].
      + rewrite list_lookup_imap. destruct (lookup_lt_is_Some_2 values p) as [v Hvp]; [rewrite Hl; by eapply lookup_lt_Some|].
        rewrite Hvp. cbn. rewrite !list_lookup_fmap, Hp. cbn. f_equal. destruct (decide (Some (i / size) = Some chunk)) as [[= E]|E].
        * rewrite list_lookup_fmap, lookup_seq_lt by (apply Nat.mod_upper_bound; lia). cbn. f_equal.
          rewrite (Nat.div_mod i size) at 2 by lia. rewrite E. lia.
        * specialize (Hv p i Hp). rewrite Hvp in Hv. assert (i / size <> chunk) by congruence. injection (Hv ltac:(lia)) as ->. done.
      + apply Hv; [done|]. assert (i / size <> chunk); [|lia]. intros E. apply Hin, elem_of_list_fmap. exists i. split; [done|]. by eapply elem_of_list_lookup_2.
    - split; [done|]. intros p i Hp Hi. apply H2; [done|lia].
  Qed.
  Lemma rng_elements_value indices size : 0 < size -> rng_elements zero stream indices size = Some (map stream indices).
  Proof.
    intros Hs. unfold rng_elements. destruct indices as [|i0 indices']; [by rewrite rng_element_value|].
    set (indices := i0 :: indices'). cbn zeta. set (s := Nat.min (1 + max_list indices) size). rewrite decide_False by lia. f_equal.
    destruct (elements_loop_value s indices ltac:(lia) (S (max_list (map (fun i => i / s) indices))) 0 (replicate (length indices) zero)) as [H1 H2].
    { apply replicate_length. }
    { intros p i _ Hi. by apply Nat.nlt_0_r in Hi. }
    cbn [Nat.mul] in H1, H2. apply list_eq_same_length with (length indices); [by rewrite map_length|done|].
    intros p x y Hp Hx Hy. rewrite list_lookup_fmap in Hy. destruct (indices !! p) as [i|] eqn:E; [|done]. cbn in Hy. rewrite (H2 p i E) in Hx; [congruence|].
    assert (i / s <= max_list (map (fun i => i / s) indices)); [|lia]. apply max_list_elem_of_le, elem_of_list_fmap. exists i. split; [done|]. by eapply elem_of_list_lookup_2.
  Qed.
End Stream.

(** ** Flat indices *)
Lemma c_position_cons n shape i idx : c_position (n :: shape) (i :: idx) = i * foldr Nat.mul 1 shape + c_position shape idx.
Proof. unfold c_position. cbn. rewrite drop_0. f_equal. Qed.
Lemma ravel_position shape : forall idx, length idx = length shape -> ravel shape idx = c_position shape idx.
Proof.
  induction shape as [|n shape IH]; intros [|i idx] Hl; try done. rewrite c_position_cons. cbn [ravel]. by rewrite IH by (cbn in Hl; lia).
Qed.
Lemma ravel_bound shape : forall idx, within shape idx -> ravel shape idx < foldr Nat.mul 1 shape.
Proof.
  induction shape as [|n shape IH]; intros [|i idx] H; inversion H as [|? ? ? ? H1 H2]; subst; cbn; [lia|].
  specialize (IH idx H2). nia.
Qed.
Lemma ravel_inj shape : forall idx idx', within shape idx -> within shape idx' -> ravel shape idx = ravel shape idx' -> idx = idx'.
Proof.
  induction shape as [|n shape IH]; intros [|i idx] [|i' idx'] H H'; inversion H as [|? ? ? ? H1 H2]; inversion H' as [|? ? ? ? H1' H2']; subst; cbn; [done|].
  intros E. pose proof (ravel_bound shape idx H2). pose proof (ravel_bound shape idx' H2').
  assert (i = i') as <- by nia. f_equal. apply IH; [done|done|nia].
Qed.
Lemma ravel_snoc shape idx n i : within shape idx -> ravel (shape ++ [n]) (idx ++ [i]) = ravel shape idx * n + i.
Proof.
  revert idx. induction shape as [|m shape IH]; intros [|j idx] H; inversion H as [|? ? ? ? H1 H2]; subst; cbn; [lia|].
  rewrite IH by done. rewrite foldr_app. cbn. replace (n * 1) with n by lia.
  assert (forall l k, foldr Nat.mul k l = foldr Nat.mul 1 l * k) as F. { clear. induction l as [|x l IH]; intros k; cbn; [lia|]. rewrite (IH k). lia. }
  rewrite (F shape n). nia.
Qed.
Lemma block_lookup {X} (f : nat -> list X) k : (forall i, length (f i) = k) -> forall m a i j, i < m -> j < k -> flat_map f (seq a m) !! (i * k + j) = f (a + i) !! j.
Proof.
  intros Hf. induction m as [|m IH]; intros a i j Hi Hj; [lia|]. cbn [seq flat_map]. destruct i as [|i].
  - cbn. rewrite Nat.add_0_r, lookup_app_l; [done|]. by rewrite Hf.
  - rewrite lookup_app_r by (rewrite Hf; nia). rewrite Hf. replace (S i * k + j - k) with (i * k + j) by nia. rewrite IH by lia. f_equal. f_equal. lia.
Qed.
Lemma mgrid_length sl : length (mgrid sl) = foldr Nat.mul 1 (map (fun k => k.2 - k.1) sl).
Proof.
  induction sl as [|[a b] sl IH]; [done|]. cbn. rewrite <- IH. generalize (b - a) as m. revert a. intros a m. revert a.
  induction m as [|m IHm]; intros a; [done|]. cbn [seq flat_map]. rewrite app_length, IHm, map_length. lia.
Qed.
Lemma mgrid_lookup sl : forall idx, within (map (fun k => k.2 - k.1) sl) idx -> mgrid sl !! ravel (map (fun k => k.2 - k.1) sl) idx = Some (zip_with Nat.add (map fst sl) idx).
Proof.
  induction sl as [|[a b] sl IH]; intros [|i idx] H; inversion H as [|? ? ? ? H1 H2]; subst; [done|]. cbn [mgrid map ravel zip_with fst snd] in *.
  rewrite <- mgrid_length. rewrite (block_lookup (fun i => map (cons i) (mgrid sl))).
  - by rewrite list_lookup_fmap, IH.
  - intros j. by rewrite map_length.
  - done.
  - rewrite mgrid_length. by apply ravel_bound.
Qed.
Lemma concrete_ok shape key tail : Forall2 (fun (k : nat * nat) s => k.1 <= s /\ k.2 <= s) key shape -> concrete (shape ++ tail) key = Some (key ++ map (fun n => (0, n)) tail).
Proof.
  intros H. pose proof (Forall2_length _ _ _ H) as Hl. unfold concrete. rewrite decide_True by (rewrite app_length; lia). cbn zeta. f_equal.
  rewrite Hl, drop_app. rewrite zip_with_app by done. f_equal.
  - clear Hl. induction H as [|[a b] s key shape [H1 H2] _ IH]; [done|]. cbn in *. rewrite IH. f_equal. f_equal; lia.
  - clear. induction tail as [|n tail IH]; [done|]. cbn. rewrite IH. f_equal. f_equal. lia.
Qed.

(** ** Local data *)
Lemma local_position_within els lidx gidx : local_position els lidx gidx -> within (local_shape els) lidx.
Proof. induction 1 as [|e l g els lidx gidx H _ IH]; [constructor|]. constructor; [by eapply lookup_lt_Some|done]. Qed.
Lemma local_position_global els lidx gidx : Forall (fun e => e = seq (axis_slice e).1 ((axis_slice e).2 - (axis_slice e).1)) els -> local_position els lidx gidx ->
  zip_with Nat.add (map fst (slices els)) lidx = gidx.
Proof.
  intros Hc H. induction H as [|e l g els lidx gidx H _ IH]; [done|]. inversion Hc as [|? ? He Hc']; subst. unfold slices in *. cbn [map zip_with]. rewrite IH by done. f_equal.
  rewrite He in H. apply lookup_seq in H as [H _]. symmetry. exact H.
Qed.
Lemma slices_bounds els gshape : Forall2 (fun n e => Forall (fun i => i < n) e) gshape els -> Forall (fun e => e = seq (axis_slice e).1 ((axis_slice e).2 - (axis_slice e).1)) els ->
  Forall2 (fun (k : nat * nat) s => k.1 <= s /\ k.2 <= s) (slices els) gshape.
Proof.
  intros H Hc. induction H as [|n e gshape els Hn _ IH]; [constructor|]. inversion Hc as [|? ? He Hc']; subst. cbn. constructor; [|by apply IH].
  destruct e as [|x e]; [cbn; lia|]. destruct (axis_slice (x :: e)) as [a b]. cbn [fst snd] in *.
  assert (a < b). { pose proof (f_equal length He) as F. rewrite seq_length in F. cbn [length] in F. lia. }
  assert (b - 1 ∈ x :: e) as Hin. { rewrite He. apply elem_of_seq. lia. } rewrite Forall_forall in Hn. rewrite elem_of_list_In in Hin. specialize (Hn _ Hin). lia.
Qed.
Lemma slices_shape els : Forall (fun e => e = seq (axis_slice e).1 ((axis_slice e).2 - (axis_slice e).1)) els -> map (fun k => k.2 - k.1) (slices els) = local_shape els.
Proof. induction 1 as [|e els He _ IH]; [done|]. unfold slices, local_shape in *. cbn [map]. rewrite IH. f_equal. pose proof (f_equal length He) as F. rewrite seq_length in F. by symmetry. Qed.
Lemma whole_starts (l idx : list nat) : length idx = length l -> zip_with Nat.add (map fst (map (fun n => (0, n)) l)) idx = idx.
Proof. revert idx. induction l as [|n l IH]; intros [|i idx] H; try done. cbn. by rewrite IH by (cbn in H; lia). Qed.
Lemma whole_shape (l : list nat) : map (fun k : nat * nat => k.2 - k.1) (map (fun n => (0, n)) l) = l.
Proof. induction l as [|n l IH]; [done|]. cbn. by rewrite IH, Nat.sub_0_r. Qed.

Lemma fill_value {V} (zero : V) stream tshape gshape is_complex chunk_size els : 0 < chunk_size ->
  Forall2 (fun n e => Forall (fun i => i < n) e) gshape els -> Forall (fun e => e = seq (axis_slice e).1 ((axis_slice e).2 - (axis_slice e).1)) els ->
  exists data, fill_random zero stream tshape gshape is_complex chunk_size els = Some data /\
    forall tidx lidx gidx, within tshape tidx -> local_position els lidx gidx -> within gshape gidx ->
      data (tidx ++ lidx) = global_random zero stream (tshape ++ gshape) is_complex (tidx ++ gidx).
Proof.
  intros Hc Hn Hseq. unfold fill_random, random_array, index_array. cbn zeta.
  set (tail := if is_complex then [2] else []). rewrite (app_assoc tshape gshape tail).
  set (K := (map (fun n => (0, n)) tshape ++ slices els) ++ map (fun n => (0, n)) tail).
  rewrite concrete_ok.
  2:{ apply Forall2_app; [|by apply slices_bounds]. clear. induction tshape as [|n l IH]; constructor; [cbn; lia|done]. }
  fold K. cbn [mbind option_bind]. rewrite rng_elements_value by done. cbn [mbind option_bind fst].
  assert (map (fun k => k.2 - k.1) K = tshape ++ local_shape els ++ tail) as Hsh.
  { unfold K. by rewrite !map_app, !whole_shape, slices_shape, <- app_assoc. }
  rewrite Hsh, decide_True by done. eexists. split; [done|]. intros tidx lidx gidx Ht Hl Hg.
  assert (forall tl, within tail tl -> entry zero (tshape ++ local_shape els ++ tail, map stream (map (ravel ((tshape ++ gshape) ++ tail)) (mgrid K))) (tidx ++ lidx ++ tl) =
    stream (ravel ((tshape ++ gshape) ++ tail) ((tidx ++ gidx) ++ tl))) as He.
  { intros tl Htl. unfold entry. cbn [fst snd]. rewrite !list_lookup_fmap, <- Hsh, mgrid_lookup.
    - cbn. do 2 f_equal. unfold K. rewrite !map_app, <- !app_assoc.
      pose proof (Forall2_length _ _ _ Ht) as L1. pose proof (Forall2_length _ _ _ Htl) as L2.
      pose proof (Forall2_length _ _ _ (local_position_within _ _ _ Hl)) as L3. unfold local_shape in L3. rewrite map_length in L3.
      rewrite zip_with_app by (rewrite !map_length; done). rewrite zip_with_app by (unfold slices; rewrite !map_length; done).
      by rewrite !whole_starts, (local_position_global els lidx gidx) by done.
    - rewrite Hsh. apply Forall2_app; [done|]. apply Forall2_app; [by eapply local_position_within|done]. }
  assert (within (tshape ++ gshape) (tidx ++ gidx)) as Hw by (by apply Forall2_app).
  unfold global_random. destruct is_complex; cbn [tail] in *.
  - rewrite <- !(app_assoc tidx lidx). rewrite (He [0]), (He [1]) by (repeat constructor). unfold tail. rewrite !ravel_snoc by done. rewrite !ravel_position by (by eapply Forall2_length).
    f_equal; f_equal; lia.
  - specialize (He [] ltac:(constructor)). rewrite !app_nil_r in He. rewrite !app_nil_r. rewrite He. by rewrite ravel_position by (by eapply Forall2_length).
Qed.

Lemma elements_bound n c loc P q i : 0 < c -> Nat.divide c n -> i ∈ axis_elements n c loc P q -> i < n.
Proof.
  intros Hc [k ->]. rewrite axis_elements_seq, elem_of_seq. unfold ax_lo, ax_hi.
  assert (cdiv (k * c) c = k) as E by (rewrite Nat.mul_comm; by apply cdiv_exact). unfold nch. rewrite E. destruct loc; nia.
Qed.
Lemma local_elements_bound dims loc ax r els : local_elements dims loc ax r = Some els -> length loc = length ax ->
  Forall (fun x : nat * nat => 0 < x.2 /\ Nat.divide x.2 x.1) ax -> Forall2 (fun n e => Forall (fun i => i < n) e) (map fst ax) els.
Proof.
  unfold local_elements. destruct (assign_masked loc 1 dims) as [ext|] eqn:E1; [|done]. cbn. destruct (assign_masked loc 0 _) as [co|] eqn:E2; [|done]. cbn.
  intros [= <-] Hl Ha. assert (forall loc d (dims ext : list nat), assign_masked loc d dims = Some ext -> length ext = length loc) as HL.
  { clear. induction loc as [|b loc IH]; intros d dims ext.
    - destruct dims; cbn; intros [= <-]; done.
    - cbn. destruct b; [|destruct dims as [|x dims]; [done|]]; intros (e & He & [= <-])%bind_Some; cbn; f_equal; by eapply IH. }
  apply HL in E1, E2. revert loc ext co Hl E1 E2. induction Ha as [|[n c] ax [Hc Hd] _ IH]; intros [|b loc] [|e ext] [|q co]; cbn; intros; try lia; [constructor|].
  constructor; [|apply IH; lia]. apply Forall_forall. intros i Hi%elem_of_list_In. by eapply elements_bound.
Qed.
