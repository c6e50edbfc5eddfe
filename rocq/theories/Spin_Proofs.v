(** Proofs about spin components. *)
From Coq Require Import List Arith Bool String ZArith Reals Lia Lra.
From Coquelicot Require Import Complex.
Import ListNotations.
From Verif Require Import MatSolvers_Model MatSolvers_Proofs CSR_Model CSR_Spec CSR_Proofs CSRDense_Proofs Clenshaw_Model Clenshaw_Proofs FourierCalc_Model FourierCalc_Proofs Spin_Model Spin_Spec.
Local Open Scope nat_scope.

Definition CF : Field_theory.field_theory (RtoC 0) (RtoC 1) Cplus Cmult Cminus Copp Cdiv Cinv eq := C_field_theory.
Notation T := (total (RtoC 0) Cplus).
Notation Tadd := (MatSolvers_Proofs.total_add (RtoC 0) (RtoC 1) Cplus Cmult Cminus Cdiv Copp Cinv CF).
Notation Tswap := (MatSolvers_Proofs.total_swap (RtoC 0) (RtoC 1) Cplus Cmult Cminus Cdiv Copp Cinv CF).
Notation Tmul_l := (MatSolvers_Proofs.total_mul_l (RtoC 0) (RtoC 1) Cplus Cmult Cminus Cdiv Copp Cinv CF).
Notation Tmul_r := (MatSolvers_Proofs.total_mul_r (RtoC 0) (RtoC 1) Cplus Cmult Cminus Cdiv Copp Cinv CF).
Notation Tsingle := (MatSolvers_Proofs.total_single (RtoC 0) (RtoC 1) Cplus Cmult Cminus Cdiv Copp Cinv CF).
Notation Text := (CSR_Proofs.total_ext (RtoC 0) Cplus).

(** ** Tensors *)
Section Tensors.
Context {A : Type} (e : A -> nat -> nat -> C).
Lemma transformed_ext ps : forall dims z z' s, List.length ps = List.length dims -> in_shape dims s -> (forall t, in_shape dims t -> z t = z' t) -> transformed e ps dims z s = transformed e ps dims z' s.
Proof.
  induction ps as [|p ps IH]; intros [|d dims] z z' s Hl Hs Hz; try discriminate; inversion Hs as [|? s0 ? s' H0 H1]; subst; cbn; [apply Hz; constructor|].
  apply Text. intros j Hj. f_equal. apply IH; [cbn in Hl; lia|exact H1|]. intros t Ht. apply Hz. constructor; assumption.
Qed.
Lemma transformed_linear ps : forall dims n (a : nat -> C) (z : nat -> list nat -> C) s,
  transformed e ps dims (fun t => T n (fun j => Cmult (a j) (z j t))) s = T n (fun j => Cmult (a j) (transformed e ps dims (z j) s)).
Proof.
  induction ps as [|p ps IH]; intros dims n a z s; [reflexivity|]. destruct dims as [|d dims]; [reflexivity|]. destruct s as [|s0 s]; [reflexivity|]. cbn [transformed].
  transitivity (T d (fun t0 => T n (fun j => Cmult (a j) (Cmult (e p s0 t0) (transformed e ps dims (fun t => z j (t0 :: t)) s))))).
  - apply Text. intros t0 _. rewrite (IH dims n a (fun j t => z j (t0 :: t)) s), <- Tmul_l. apply Text. intros j _. ring.
  - rewrite Tswap. apply Text. intros j _. rewrite Tmul_l. reflexivity.
Qed.
(** One index after another. *)
Definition axis_apply (M : nat -> nat -> C) (d i : nat) (z : list nat -> C) (idx : list nat) : C := T d (fun j => Cmult (M (nth i idx 0) j) (z (replace i idx j))).
Fixpoint axes_apply (ps : list A) (dims : list nat) (i : nat) (z : list nat -> C) : list nat -> C :=
  match ps, dims with p :: ps, d :: dims => axes_apply ps dims (S i) (axis_apply (e p) d i z) | _, _ => z end.
Lemma axes_transformed ps : forall dims pre z s x, List.length ps = List.length dims -> in_shape dims s ->
  axes_apply ps dims (List.length pre) z (pre ++ s ++ x) = transformed e ps dims (fun t => z (pre ++ t ++ x)) s.
Proof.
  induction ps as [|p ps IH]; intros [|d dims] pre z s x Hl Hs; try discriminate; inversion Hs as [|? s0 ? s' H0 H1]; subst; [reflexivity|].
  cbn [axes_apply]. replace (pre ++ (s0 :: s') ++ x) with ((pre ++ [s0]) ++ s' ++ x) by (rewrite <- app_assoc; reflexivity).
  replace (S (List.length pre)) with (List.length (pre ++ [s0])) by (rewrite app_length; cbn; lia).
  rewrite IH by (cbn in Hl; try lia; assumption). cbn [transformed].
  rewrite <- (transformed_linear ps dims d (e p s0) (fun j t => z (pre ++ (j :: t) ++ x)) s'). apply transformed_ext; [cbn in Hl; lia|exact H1|]. intros t Ht. unfold axis_apply.
  apply Text. intros j _. rewrite <- app_assoc, app_nth2, Nat.sub_diag by lia. cbn [app nth]. f_equal. f_equal. unfold replace.
  rewrite firstn_app, firstn_all, Nat.sub_diag. cbn [firstn]. rewrite app_nil_r. f_equal. f_equal. rewrite skipn_app, skipn_all2 by lia. replace (S (List.length pre) - List.length pre) with 1 by lia. reflexivity.
Qed.
End Tensors.
(** Inverse matrices. *)
Definition delta (s t : nat) : C := if s =? t then RtoC 1 else RtoC 0.
Definition inverse (d : nat) (M N : nat -> nat -> C) : Prop := forall s t, s < d -> t < d -> T d (fun j => Cmult (M s j) (N j t)) = delta s t.
Lemma T_delta d f s : s < d -> T d (fun j => Cmult (delta s j) (f j)) = f s.
Proof.
  intros H. rewrite (Tsingle d s); [unfold delta; rewrite Nat.eqb_refl; ring|exact H|]. intros j _ Hj. unfold delta. destruct (Nat.eqb_spec s j); [congruence|]. ring.
Qed.
Lemma transformed_inverse {A B} (e : A -> nat -> nat -> C) (f : B -> nat -> nat -> C) ps : forall qs dims z s, List.length ps = List.length dims ->
  Forall2 (fun pq d => inverse d (e (fst pq)) (f (snd pq))) (combine ps qs) dims -> List.length qs = List.length dims -> in_shape dims s ->
  transformed e ps dims (transformed f qs dims z) s = z s.
Proof.
  induction ps as [|p ps IH]; intros qs [|d dims] z s Hl Hi Hq Hs; try discriminate; inversion Hs as [|? s0 ? s' H0 H1]; subst; [destruct qs; [reflexivity|discriminate]|].
  destruct qs as [|q qs]; [discriminate|]. cbn [combine] in Hi. inversion Hi as [|? ? ? ? E1 E2]; subst. cbn [fst snd] in E1. cbn [transformed].
  transitivity (T d (fun t0 => Cmult (e p s0 t0) (T d (fun u => Cmult (f q t0 u) (z (u :: s')))))).
  - apply Text. intros t0 _. f_equal. rewrite (transformed_linear e ps dims d (f q t0) (fun u t => transformed f qs dims (fun t => z (u :: t)) t) s').
    apply Text. intros u _. f_equal. apply (IH qs dims (fun t => z (u :: t)) s'); [cbn in Hl; lia|exact E2|cbn in Hq; lia|exact H1].
  - transitivity (T d (fun u => Cmult (T d (fun t0 => Cmult (e p s0 t0) (f q t0 u))) (z (u :: s')))).
    + transitivity (T d (fun t0 => T d (fun u => Cmult (Cmult (e p s0 t0) (f q t0 u)) (z (u :: s'))))); [apply Text; intros t0 _; rewrite <- Tmul_l; apply Text; intros u _; ring|].
      rewrite Tswap. apply Text. intros u _. rewrite Tmul_r. reflexivity.
    + transitivity (T d (fun u => Cmult (delta s0 u) (z (u :: s')))); [apply Text; intros u Hu; rewrite E1 by assumption; reflexivity|]. apply (T_delta d (fun u => z (u :: s'))). exact H0.
Qed.
(** Norms. *)
Lemma Cmod2 (z : C) : RtoC (Cmod z ^ 2) = Cmult z (Cconj z).
Proof.
  unfold Cmod. rewrite pow2_sqrt by (pose proof (pow2_ge_0 (fst z)); pose proof (pow2_ge_0 (snd z)); lra). destruct z as [a b]. unfold Cmult, Cconj, RtoC. cbn. f_equal; ring.
Qed.
Lemma total_RtoC n (f : nat -> R) : RtoC (total 0%R Rplus n f) = T n (fun j => RtoC (f j)).
Proof. unfold total. induction (seq 0 n) as [|j l IH]; [reflexivity|]. cbn. rewrite RtoC_plus, IH. reflexivity. Qed.
Lemma conj_plus (a b : C) : Cconj (Cplus a b) = Cplus (Cconj a) (Cconj b).
Proof. destruct a, b. unfold Cconj, Cplus. cbn. f_equal; ring. Qed.
Lemma conj_mult (a b : C) : Cconj (Cmult a b) = Cmult (Cconj a) (Cconj b).
Proof. destruct a, b. unfold Cconj, Cmult. cbn. f_equal; ring. Qed.
Lemma conj_conj (a : C) : Cconj (Cconj a) = a.
Proof. destruct a. unfold Cconj. cbn. f_equal. ring. Qed.
Lemma conj_total n f : Cconj (T n f) = T n (fun j => Cconj (f j)).
Proof. unfold total. induction (seq 0 n) as [|j l IH]; cbn; [unfold Cconj, RtoC; cbn; f_equal; ring|]. rewrite conj_plus, IH. reflexivity. Qed.
Fixpoint cnorm (dims : list nat) (z : list nat -> C) : C :=
  match dims with [] => Cmult (z []) (Cconj (z [])) | d :: dims => T d (fun t0 => cnorm dims (fun t => z (t0 :: t))) end.
Lemma cnorm_norm dims : forall z, cnorm dims z = RtoC (norm2 dims z).
Proof. induction dims as [|d dims IH]; intros z; cbn [cnorm norm2]; [rewrite Cmod2; reflexivity|]. rewrite total_RtoC. apply Text. intros j _. apply IH. Qed.
Lemma cnorm_ext dims : forall z z', (forall t, in_shape dims t -> z t = z' t) -> cnorm dims z = cnorm dims z'.
Proof.
  induction dims as [|d dims IH]; intros z z' H; cbn [cnorm]; [rewrite H by constructor; reflexivity|]. apply Text. intros j Hj. apply IH. intros t Ht. apply H. constructor; assumption.
Qed.
Definition isometric (d : nat) (M : nat -> nat -> C) : Prop := inverse d (fun s j => Cconj (M j s)) M.
Lemma isometric_sum d M w : isometric d M -> T d (fun s => Cmult (T d (fun j => Cmult (M s j) (w j))) (Cconj (T d (fun j => Cmult (M s j) (w j))))) = T d (fun j => Cmult (w j) (Cconj (w j))).
Proof.
  intros HM. transitivity (T d (fun s => T d (fun i => T d (fun j => Cmult (Cmult (Cconj (M s i)) (M s j)) (Cmult (w j) (Cconj (w i))))))).
  - apply Text. intros s _. rewrite conj_total, Cmult_comm, <- Tmul_r. apply Text. intros i _. rewrite <- Tmul_l. apply Text. intros j _. rewrite conj_mult. ring.
  - rewrite Tswap. transitivity (T d (fun i => T d (fun j => Cmult (delta i j) (Cmult (w j) (Cconj (w i)))))).
    + apply Text. intros i Hi. rewrite Tswap. apply Text. intros j Hj. rewrite Tmul_r. f_equal. apply HM; assumption.
    + apply Text. intros i Hi. rewrite (T_delta d (fun j => Cmult (w j) (Cconj (w i))) i Hi). reflexivity.
Qed.
Lemma cnorm_mix dims : forall d M (z : nat -> list nat -> C), isometric d M ->
  T d (fun s => cnorm dims (fun t => T d (fun j => Cmult (M s j) (z j t)))) = T d (fun j => cnorm dims (z j)).
Proof.
  induction dims as [|d' dims IH]; intros d M z HM; cbn [cnorm]; [apply (isometric_sum d M (fun j => z j []) HM)|].
  rewrite Tswap. rewrite (Tswap d d'). apply Text. intros u _. apply (IH d M (fun j t => z j (u :: t)) HM).
Qed.
Lemma transformed_norm {A} (e : A -> nat -> nat -> C) ps : forall dims z, List.length ps = List.length dims -> Forall2 (fun p d => isometric d (e p)) ps dims ->
  norm2 dims (transformed e ps dims z) = norm2 dims z.
Proof.
  intros dims z Hl Hi. apply RtoC_inj. rewrite <- !cnorm_norm. clear Hl. revert z. induction Hi as [|p d ps dims Hp Hi IH]; intros z; [reflexivity|]. cbn [cnorm transformed].
  rewrite (cnorm_mix dims d (e p) (fun j t => transformed e ps dims (fun t => z (j :: t)) t) Hp). apply Text. intros j _. apply IH.
Qed.

(** ** The matrices *)
Lemma T_two d p f : p + 1 < d -> (forall j, j < d -> j <> p -> j <> p + 1 -> f j = RtoC 0) -> T d f = Cplus (f p) (f (p + 1)).
Proof.
  intros H Hf. transitivity (Cplus (T d (fun j => Cmult (delta p j) (f j))) (T d (fun j => Cmult (delta (p + 1) j) (f j)))).
  - rewrite <- Tadd. apply Text. intros j Hj. unfold delta. destruct (Nat.eqb_spec p j) as [H1|H1], (Nat.eqb_spec (p + 1) j) as [H2|H2]; try lia; [ring|ring|]. rewrite Hf by lia. ring.
  - rewrite !T_delta by lia. reflexivity.
Qed.
Definition fits (p : option nat) (d : nat) : Prop := match p with Some p => p + 1 < d | None => True end.
Ltac eqbs := repeat match goal with |- context [?a =? ?b] => destruct (Nat.eqb_spec a b); try lia end.
Lemma half : Cplus (Cmult (Cinv (RtoC (sqrt 2))) (Cinv (RtoC (sqrt 2)))) (Cmult (Cinv (RtoC (sqrt 2))) (Cinv (RtoC (sqrt 2)))) = RtoC 1.
Proof.
  rewrite <- RtoC_inv by (apply Rgt_not_eq, sqrt_lt_R0; lra). rewrite <- RtoC_mult, <- RtoC_plus. f_equal. rewrite <- Rinv_mult, sqrt_def by lra. field.
Qed.
Lemma conj_real (r : R) : Cconj (RtoC r) = RtoC r. Proof. unfold Cconj, RtoC. cbn. f_equal. ring. Qed.
Lemma conj_i : Cconj Ci = Copp Ci. Proof. unfold Cconj, Ci, Copp. cbn. f_equal; ring. Qed.
Lemma conj_opp (a : C) : Cconj (Copp a) = Copp (Cconj a). Proof. destruct a. unfold Cconj, Copp. cbn. f_equal. Qed.
Lemma conj_half : Cconj (Cinv (RtoC (sqrt 2))) = (Cinv (RtoC (sqrt 2))).
Proof. rewrite <- RtoC_inv by (apply Rgt_not_eq, sqrt_lt_R0; lra). apply conj_real. Qed.
Lemma ii : Cmult Ci Ci = Copp (RtoC 1). Proof. unfold Cmult, Ci, Copp, RtoC. cbn. f_equal; ring. Qed.
Ltac entries := unfold Cdiv; rewrite ?conj_mult, ?conj_opp, ?conj_i, ?conj_half, ?conj_real;
  match goal with |- context [(Cinv (RtoC (sqrt 2)))] => pose proof half as Hh; set (h := (Cinv (RtoC (sqrt 2)))) in *; clearbody h | _ => idtac end; pose proof ii as Hi; set (i := Ci) in *; clearbody i.
Lemma spin_isometric p d : fits p d -> isometric d (spin_entry p).
Proof.
  intros Hp s t Hs Ht. destruct p as [p|]; cbn [fits] in Hp.
  - destruct (Nat.eq_dec s p) as [->|S1]; [|destruct (Nat.eq_dec s (p + 1)) as [->|S2]].
    + rewrite (T_two d p) by (try lia; intros j _ J1 J2; unfold spin_entry; eqbs; rewrite conj_real; ring). unfold spin_entry, delta. eqbs; entries; try ring; clear -Hh Hi; try (transitivity (Cmult (Cplus (Cmult h h) (Cmult h h)) (Copp (Cmult i i))); [ring|rewrite Hh, Hi; ring]).
    + rewrite (T_two d p) by (try lia; intros j _ J1 J2; unfold spin_entry; eqbs; rewrite conj_real; ring). unfold spin_entry, delta. eqbs; entries; try ring; clear -Hh Hi; try (transitivity (Cplus (Cmult h h) (Cmult h h)); [ring|exact Hh]).
    + rewrite (Tsingle d s); [|exact Hs|intros j _ J; unfold spin_entry; eqbs; rewrite conj_real; ring]. unfold spin_entry, delta. eqbs; rewrite ?conj_real; ring.
  - rewrite (Tsingle d s); [|exact Hs|intros j _ J; unfold spin_entry; eqbs; rewrite conj_real; ring]. unfold spin_entry, delta. eqbs; rewrite ?conj_real; ring.
Qed.
Lemma spin_coisometric p d : fits p d -> inverse d (spin_entry p) (fun s t => Cconj (spin_entry p t s)).
Proof.
  intros Hp s t Hs Ht. destruct p as [p|]; cbn [fits] in Hp.
  - destruct (Nat.eq_dec s p) as [->|S1]; [|destruct (Nat.eq_dec s (p + 1)) as [->|S2]].
    + rewrite (T_two d p) by (try lia; intros j _ J1 J2; unfold spin_entry; eqbs; rewrite ?conj_real; ring). unfold spin_entry, delta. eqbs; entries; clear -Hh Hi; try ring;
        (transitivity (Cplus (Copp (Cmult (Cmult i i) (Cmult h h))) (Cmult h h)); [ring|rewrite Hi; etransitivity; [|exact Hh]; ring]) || (transitivity (Cplus (Cmult (Cmult i i) (Cmult h h)) (Cmult h h)); [ring|rewrite Hi; ring]).
    + rewrite (T_two d p) by (try lia; intros j _ J1 J2; unfold spin_entry; eqbs; rewrite ?conj_real; ring). unfold spin_entry, delta. eqbs; entries; clear -Hh Hi; try ring;
        (transitivity (Cplus (Copp (Cmult (Cmult i i) (Cmult h h))) (Cmult h h)); [ring|rewrite Hi; etransitivity; [|exact Hh]; ring]) || (transitivity (Cplus (Cmult (Cmult i i) (Cmult h h)) (Cmult h h)); [ring|rewrite Hi; ring]).
    + rewrite (Tsingle d s); [|exact Hs|intros j _ J; unfold spin_entry; eqbs; rewrite ?conj_real; ring]. unfold spin_entry, delta. eqbs; rewrite ?conj_real; ring.
  - rewrite (Tsingle d s); [|exact Hs|intros j _ J; unfold spin_entry; eqbs; rewrite ?conj_real; ring]. unfold spin_entry, delta. eqbs; rewrite ?conj_real; ring.
Qed.

(** ** Coordinate systems *)
Lemma same_spec c d : same c d = true <-> c = d.
Proof.
  destruct c as [b n], d as [b' n']. unfold same. cbn. rewrite andb_true_iff, Bool.eqb_true_iff, String.eqb_eq. split; [intros [-> ->]; reflexivity|]. intros H. injection H as -> ->. split; reflexivity.
Qed.
Lemma same_refl c : same c c = true. Proof. apply same_spec. reflexivity. Qed.
Lemma same_ne c d : c <> d -> same c d = false.
Proof. intros H. destruct (same c d) eqn:E; [|reflexivity]. apply same_spec in E. contradiction. Qed.
Lemma index_none c l : ~ In c l -> index_of c l = None.
Proof. induction l as [|d l IH]; intros H; cbn; [reflexivity|]. rewrite same_ne by (intros ->; apply H; left; reflexivity). rewrite IH by (intros E; apply H; right; exact E). reflexivity. Qed.
Lemma index_app c l l' : ~ In c l -> index_of c (l ++ l') = option_map (Nat.add (List.length l)) (index_of c l').
Proof.
  induction l as [|d l IH]; intros H; cbn [app index_of]; [cbn; destruct (index_of c l'); reflexivity|]. rewrite same_ne by (intros ->; apply H; left; reflexivity).
  rewrite IH by (intros E; apply H; right; exact E). destruct (index_of c l'); reflexivity.
Qed.
Lemma simple_dim_length s : simple_dim s = List.length (simple_coords s).
Proof. destruct s; cbn; rewrite ?map_length; reflexivity. Qed.
Lemma dim_coords cs : dim_of cs = List.length (coords cs).
Proof.
  destruct cs as [s| |l]; [apply simple_dim_length|reflexivity|]. cbn. induction l as [|s l IH]; [reflexivity|]. cbn. rewrite app_length, IH, simple_dim_length. reflexivity.
Qed.
Lemma U2_value i j : i < 2 -> j < 2 -> at_ (U2 1) i j = spin_entry (Some 0) i j.
Proof. intros Hi Hj. destruct i as [|[|i]]; try lia; destruct j as [|[|j]]; try lia; reflexivity. Qed.
Lemma U3_value i j : i < 3 -> j < 3 -> at_ (U3 1) i j = spin_entry (Some 0) i j.
Proof.
  intros Hi Hj. destruct i as [|[|[|i]]]; try lia; destruct j as [|[|[|j]]]; try lia; try reflexivity; cbn; unfold Cdiv; ring.
Qed.
Lemma plane_facts c0 c1 s : plane c0 c1 s -> simple_coords s = [c0; c1] /\ c0 <> c1 /\ simple_dim s = 2 /\ simple_intertwiner s 1 = Ok (U2 1).
Proof. destruct s; cbn; try contradiction; intros H; injection H as <- <-; (split; [reflexivity|]); (split; [discriminate|]); split; reflexivity. Qed.
Definition ids (l : list simple) : list cmat := map (fun s => cidentity (simple_dim s)) l.
Lemma product_after l : forall start sub, sub < start -> product_factors l start sub = Ok (ids l).
Proof.
  induction l as [|s l IH]; intros start sub H; cbn [product_factors]; [reflexivity|]. destruct (Nat.leb_spec start sub); [lia|]. cbn [andb]. rewrite IH by lia. reflexivity.
Qed.
Lemma product_at c0 c1 l1 s l2 : plane c0 c1 s -> forall start,
  product_factors (l1 ++ s :: l2) start (start + List.length (flat_map simple_coords l1) + 1) = Ok (ids l1 ++ U2 1 :: ids l2).
Proof.
  intros Hs. destruct (plane_facts _ _ _ Hs) as (E1 & _ & E2 & E3). induction l1 as [|s' l1 IH]; intros start; cbn [app product_factors flat_map List.length].
  - rewrite E2. destruct (Nat.leb_spec start (start + 0 + 1)); [|lia]. destruct (Nat.ltb_spec (start + 0 + 1) (start + 2)); [|lia]. cbn [andb].
    replace (start + 0 + 1 - start) with 1 by lia. rewrite E3, product_after by lia. reflexivity.
  - rewrite app_length, <- simple_dim_length. destruct (Nat.leb_spec start (start + (simple_dim s' + List.length (flat_map simple_coords l1)) + 1)); [|lia].
    destruct (Nat.ltb_spec (start + (simple_dim s' + List.length (flat_map simple_coords l1)) + 1) (start + simple_dim s')); [lia|]. cbn [andb].
    replace (start + (simple_dim s' + List.length (flat_map simple_coords l1)) + 1) with ((start + simple_dim s') + List.length (flat_map simple_coords l1) + 1) by lia. rewrite IH. reflexivity.
Qed.
Lemma diagonal_ids l rest i j : let n := List.length (flat_map simple_coords l) in
  diagonal_entry (RtoC 0) (ids l ++ rest) i j = if (i <? n) then delta i j else if j <? n then RtoC 0 else diagonal_entry (RtoC 0) rest (i - n) (j - n).
Proof.
  revert i j. induction l as [|s l IH]; intros i j; cbn [ids map app diagonal_entry flat_map List.length].
  - rewrite !Nat.sub_0_r. reflexivity.
  - rewrite app_length, <- simple_dim_length. cbn [nr nc cidentity MatSolvers_Model.identity]. fold (ids l). rewrite IH. unfold delta. cbn [at_ MatSolvers_Model.identity].
    repeat match goal with |- context [?a <? ?b] => destruct (Nat.ltb_spec a b); try lia end; eqbs; try reflexivity; try (rewrite !Nat.sub_add_distr; reflexivity). all: cbn; eqbs; reflexivity.
Qed.
Lemma block_dims l1 l2 : let L := ids l1 ++ U2 1 :: ids l2 in let n := List.length (flat_map simple_coords l1) + (2 + List.length (flat_map simple_coords l2)) in
  nr (block_diag L) = n /\ nc (block_diag L) = n.
Proof.
  cbn. assert (E : forall l, sum_of (map nr (ids l)) = List.length (flat_map simple_coords l) /\ sum_of (map nc (ids l)) = List.length (flat_map simple_coords l)).
  { induction l as [|s l [IH1 IH2]]; [split; reflexivity|]. cbn [ids map flat_map]. rewrite app_length, <- simple_dim_length. fold (ids l). cbn [sum_of fold_right cidentity MatSolvers_Model.identity nr nc]. fold (sum_of (map nr (ids l))). fold (sum_of (map nc (ids l))). lia. }
  assert (A : forall k k', sum_of (k ++ k') = sum_of k + sum_of k') by (induction k as [|a k IH]; intros k'; cbn; [reflexivity|]; fold (sum_of (k ++ k')); rewrite IH; unfold sum_of; lia).
  rewrite !map_app, !A. cbn [map]. destruct (E l1) as [-> ->]. unfold sum_of at 1 2. cbn [fold_right]. fold (sum_of (map nr (ids l2))). fold (sum_of (map nc (ids l2))). destruct (E l2) as [-> ->]. split; reflexivity.
Qed.
Definition represents (p : option nat) (d : nat) (U : cmat) : Prop := nr U = d /\ nc U = d /\ forall s t, s < d -> t < d -> at_ U s t = spin_entry p s t.
Lemma carries_factor c0 c1 cs p : carries c0 c1 cs p -> exists sub U, index_of c1 (coords cs) = Some sub /\ intertwiner cs sub = Ok U /\ represents (Some p) (dim_of cs) U
  /\ index_of c0 (coords cs) = Some p /\ p + 1 < dim_of cs.
Proof.
  destruct cs as [s|a c r|l]; cbn [carries].
  - intros [Hs ->]. destruct (plane_facts _ _ _ Hs) as (E1 & E2 & E3 & E4). exists 1, (U2 1). cbn [coords intertwiner dim_of]. rewrite E1, E3. cbn [index_of]. rewrite same_ne, !same_refl by exact E2. split; [reflexivity|]. rewrite E4. split; [reflexivity|].
    split; [split; [reflexivity|split; [reflexivity|apply U2_value]]|]. split; [reflexivity|lia].
  - intros (-> & -> & ->). exists 1, (U3 1). cbn [coords intertwiner dim_of index_of]. rewrite same_ne, !same_refl by discriminate. split; [reflexivity|]. split; [reflexivity|].
    split; [split; [reflexivity|split; [reflexivity|apply U3_value]]|]. split; [reflexivity|lia].
  - intros (l1 & s & l2 & -> & Hs & -> & Hn). destruct (plane_facts _ _ _ Hs) as (E1 & E2 & E3 & E4). set (n := List.length (flat_map simple_coords l1)).
    rewrite dim_coords. cbn [coords]. rewrite flat_map_app in *. cbn [flat_map] in *. rewrite E1 in *. cbn [app] in *.
    assert (N0 : ~ In c0 (flat_map simple_coords l1)). { intros H. apply (NoDup_remove_2 _ _ _ Hn). apply in_or_app. left. exact H. }
    assert (N1 : ~ In c1 (flat_map simple_coords l1)). { intros H. change (c0 :: c1 :: flat_map simple_coords l2) with ([c0] ++ c1 :: flat_map simple_coords l2) in Hn. rewrite app_assoc in Hn. apply (NoDup_remove_2 _ _ _ Hn). apply in_or_app. left. apply in_or_app. left. exact H. }
    exists (n + 1), (block_diag (ids l1 ++ U2 1 :: ids l2)). rewrite !index_app by assumption. cbn [index_of]. rewrite same_ne, !same_refl by exact E2. split; [reflexivity|].
    cbn [intertwiner]. replace (n + 1) with (0 + List.length (flat_map simple_coords l1) + 1) by (unfold n; lia). rewrite (product_at c0 c1) by exact Hs. split; [reflexivity|].
    destruct (block_dims l1 l2) as [D1 D2]. rewrite app_length. cbn [List.length]. fold n in D1, D2 |- *. split; [|split; [cbn; f_equal; lia|lia]].
    split; [rewrite D1; lia|]. split; [rewrite D2; lia|]. intros i j Hi Hj. unfold block_diag. cbn [at_]. rewrite diagonal_ids. fold n. cbn [diagonal_entry nr nc U2 Nat.ltb].
    change (nr (U2 1)) with 2. change (nc (U2 1)) with 2.
    destruct (Nat.ltb_spec i n); [unfold delta, spin_entry; eqbs; reflexivity|]. destruct (Nat.ltb_spec j n); [unfold spin_entry; eqbs; reflexivity|].
    destruct (Nat.ltb_spec (i - n) 2), (Nat.ltb_spec (j - n) 2).
    + rewrite U2_value by assumption. unfold spin_entry. eqbs; reflexivity.
    + unfold spin_entry. eqbs; reflexivity.
    + unfold spin_entry. eqbs; reflexivity.
    + pose proof (diagonal_ids l2 [] (i - n - 2) (j - n - 2)) as E. rewrite app_nil_r in E. rewrite E. cbn in Hi, Hj. destruct (Nat.ltb_spec (i - n - 2) (List.length (flat_map simple_coords l2))); [|lia]. unfold delta, spin_entry. eqbs; reflexivity.
Qed.
Lemma factors_value c0 c1 sig ps : signature c0 c1 sig ps -> exists l, build_factors c1 sig = Ok l
  /\ Forall2 (fun cp U => match U with Some U => snd cp <> None /\ represents (snd cp) (dim_of (fst cp)) U | None => snd cp = None end) (combine sig ps) l
  /\ Forall2 (fun cs p => fits p (dim_of cs) /\ match p with Some p => index_of c0 (coords cs) = Some p | None => True end) sig ps.
Proof.
  induction 1 as [|cs p sig ps Hp Hs (l & E & F & G)]; [exists []; repeat split; constructor|]. cbn [build_factors combine]. destruct p as [p|].
  - destruct (carries_factor _ _ _ _ Hp) as (sub & U & E1 & E2 & E3 & E4 & E5). rewrite E1, E2, E. exists (Some U :: l). split; [reflexivity|]. split; constructor; try assumption; [split; [discriminate|exact E3]|]. split; [exact E5|exact E4].
  - rewrite index_none by exact Hp. rewrite E. exists (None :: l). split; [reflexivity|]. split; constructor; try assumption; [reflexivity|]. split; exact I.
Qed.

(** ** Applying along the axes *)
Lemma in_shape_length shape idx : in_shape shape idx -> List.length shape = List.length idx.
Proof. apply Forall2_length. Qed.
Lemma in_shape_app A B a b : in_shape A a -> in_shape B b -> in_shape (A ++ B) (a ++ b).
Proof. apply Forall2_app. Qed.
Lemma in_shape_split A B idx : in_shape (A ++ B) idx -> exists a b, idx = a ++ b /\ in_shape A a /\ in_shape B b.
Proof. intros H. apply Forall2_app_inv_l in H. destruct H as (a & b & H1 & H2 & ->). exists a, b. repeat split; assumption. Qed.
Lemma in_shape_axis pre d rest idx : in_shape (pre ++ d :: rest) idx -> exists a j b, idx = a ++ j :: b /\ List.length a = List.length pre /\ in_shape pre a /\ j < d /\ in_shape rest b.
Proof.
  intros H. apply in_shape_split in H. destruct H as (a & b & -> & H1 & H2). inversion H2 as [|? j ? b' H3 H4]; subst. exists a, j, b'. repeat split; try assumption. symmetry. apply in_shape_length, H1.
Qed.
Lemma replace_mid (a b : list nat) x y : replace (List.length a) (a ++ x :: b) y = a ++ y :: b.
Proof.
  unfold replace. rewrite firstn_app, firstn_all, Nat.sub_diag. cbn [firstn]. rewrite app_nil_r. f_equal. f_equal. rewrite skipn_app, skipn_all2 by lia. replace (S (List.length a) - List.length a) with 1 by lia. reflexivity.
Qed.
Lemma nth_mid (a b : list nat) x d : nth (List.length a) (a ++ x :: b) d = x.
Proof. rewrite app_nth2, Nat.sub_diag by lia. reflexivity. Qed.
Lemma axis_apply_ext M M' d pre rest z z' idx : (forall s t, s < d -> t < d -> M s t = M' s t) -> (forall idx, in_shape (pre ++ d :: rest) idx -> z idx = z' idx) -> in_shape (pre ++ d :: rest) idx ->
  axis_apply M d (List.length pre) z idx = axis_apply M' d (List.length pre) z' idx.
Proof.
  intros HM Hz H. destruct (in_shape_axis _ _ _ _ H) as (a & j & b & -> & L & H1 & H2 & H3). unfold axis_apply. rewrite <- L. apply Text. intros t Ht. rewrite nth_mid, replace_mid, HM by assumption. rewrite Hz by (apply in_shape_app; [exact H1|constructor; assumption]). reflexivity.
Qed.
Lemma axis_apply_delta M d pre rest z idx : (forall s t, s < d -> t < d -> M s t = delta s t) -> in_shape (pre ++ d :: rest) idx -> axis_apply M d (List.length pre) z idx = z idx.
Proof.
  intros HM H. destruct (in_shape_axis _ _ _ _ H) as (a & j & b & -> & L & H1 & H2 & H3). unfold axis_apply. rewrite <- L. rewrite nth_mid.
  transitivity (T d (fun t => Cmult (delta j t) (z (a ++ t :: b)))); [apply Text; intros t Ht; rewrite HM, replace_mid by assumption; reflexivity|]. apply (T_delta d (fun t => z (a ++ t :: b))). exact H2.
Qed.
Lemma axes_ext {A} (e : A -> nat -> nat -> C) ps : forall dims pre rest z z' idx, List.length ps = List.length dims -> (forall idx, in_shape (pre ++ dims ++ rest) idx -> z idx = z' idx) ->
  in_shape (pre ++ dims ++ rest) idx -> axes_apply e ps dims (List.length pre) z idx = axes_apply e ps dims (List.length pre) z' idx.
Proof.
  induction ps as [|p ps IH]; intros [|d dims] pre rest z z' idx Hl Hz H; try discriminate; [apply Hz, H|]. cbn [axes_apply app] in *.
  assert (E : pre ++ d :: dims ++ rest = (pre ++ [d]) ++ dims ++ rest) by (rewrite <- app_assoc; reflexivity).
  replace (S (List.length pre)) with (List.length (pre ++ [d])) by (rewrite app_length; cbn; lia). apply (IH dims (pre ++ [d]) rest); [cbn in Hl; lia| |rewrite <- E; exact H].
  intros idx' H'. rewrite <- E in H'. apply (axis_apply_ext _ _ d pre (dims ++ rest)); [reflexivity|exact Hz|exact H'].
Qed.
(** Complex data. *)
Definition factor_ok {A} (e : A -> nat -> nat -> C) (f : cmat -> cmat) (pd : A * nat) (U : option cmat) : Prop :=
  match U with
  | Some U => nr (f U) = snd pd /\ forall s t, s < snd pd -> t < snd pd -> at_ (f U) s t = e (fst pd) s t
  | None => forall s t, s < snd pd -> t < snd pd -> e (fst pd) s t = delta s t
  end.
Lemma apply_all_value {A} (e : A -> nat -> nat -> C) f rest ps : forall dims l pre z, List.length ps = List.length dims -> Forall2 (factor_ok e f) (combine ps dims) l ->
  let out := apply_all f (List.length pre) l (pre ++ dims ++ rest, z) in
  fst out = pre ++ dims ++ rest /\ forall idx, in_shape (pre ++ dims ++ rest) idx -> snd out idx = axes_apply e ps dims (List.length pre) z idx.
Proof.
  induction ps as [|p ps IH]; intros [|d dims] l pre z Hl Hf; try discriminate; cbn [combine] in Hf; inversion Hf as [|? U ? l' F1 F2]; subst; [split; reflexivity|].
  assert (E : pre ++ (d :: dims) ++ rest = (pre ++ [d]) ++ dims ++ rest) by (rewrite <- app_assoc; reflexivity).
  assert (L : S (List.length pre) = List.length (pre ++ [d])) by (rewrite app_length; cbn; lia). cbn zeta. destruct U as [U|]; cbn [apply_all factor_ok fst snd] in *.
  - destruct F1 as [F1 F3]. set (out1 := apply_dense (RtoC 0) Cplus Cmult (nr (f U)) (at_ (f U)) (pre ++ (d :: dims) ++ rest, z) (List.length pre)).
    destruct (apply_dense_value (RtoC 0) (RtoC 1) Cplus Cmult Cminus Copp Cdiv Cinv CF (nr (f U)) (at_ (f U)) (pre ++ (d :: dims) ++ rest) z (List.length pre)) as [V1 V2]; [rewrite app_length; cbn; lia|].
    fold out1 in V1, V2. cbn [app] in V1, V2. rewrite F1, replace_mid in V1. rewrite F1, replace_mid, nth_mid in V2. 
    destruct out1 as [sh z1]. cbn [fst snd] in V1, V2. subst sh. rewrite L.
    assert (E' : pre ++ d :: dims ++ rest = (pre ++ [d]) ++ dims ++ rest) by exact E. rewrite E' in V2 |- *. cbn [app]. rewrite E'.
    destruct (IH dims l' (pre ++ [d]) z1) as [W1 W2]; [cbn in Hl; lia|exact F2|]. split; [exact W1|]. intros idx Hi. rewrite W2 by exact Hi. cbn [axes_apply]. rewrite L.
    apply (axes_ext e ps dims (pre ++ [d]) rest); [cbn in Hl; lia| |exact Hi]. intros idx' H'. rewrite V2 by exact H'.
    transitivity (axis_apply (at_ (f U)) d (List.length pre) z idx'); [reflexivity|]. rewrite <- E' in H'. apply (axis_apply_ext _ _ d pre (dims ++ rest)); [exact F3|reflexivity|exact H'].
  - rewrite L, E. destruct (IH dims l' (pre ++ [d]) z) as [W1 W2]; [cbn in Hl; lia|exact F2|]. split; [exact W1|]. intros idx Hi. rewrite W2 by exact Hi. cbn [axes_apply]. rewrite L.
    apply (axes_ext e ps dims (pre ++ [d]) rest); [cbn in Hl; lia| |exact Hi]. intros idx' H'. symmetry. rewrite <- E in H'. apply (axis_apply_delta _ d pre (dims ++ rest)); [exact F1|exact H'].
Qed.

(** ** Real data: the kernels *)
Lemma run_value (ws : list (@write R)) : forall b q v, (exists w, In w ws /\ fst w = q) -> (forall w, In w ws -> fst w = q -> forall b, snd w b = v) -> run ws b q = v.
Proof.
  induction ws as [|w ws IH] using rev_ind; intros b q v (w0 & H1 & H2) H; [contradiction|]. rewrite run_app. cbn. unfold upd. destruct (Nat.eqb_spec q (fst w)) as [->|E].
  - apply H; [apply in_or_app; right; left; reflexivity|reflexivity].
  - apply IH; [|intros w' H'; apply H; apply in_or_app; left; exact H']. exists w0. split; [|exact H2]. apply in_app_or in H1. destruct H1 as [H1|[->|[]]]; [exact H1|]. congruence.
Qed.
Lemma run_untouched (ws : list (@write R)) : forall b q, (forall w, In w ws -> fst w <> q) -> run ws b q = b q.
Proof.
  induction ws as [|w ws IH]; intros b q H; [reflexivity|]. cbn. change (run ws (upd b (fst w) (snd w b)) q = b q). rewrite IH by (intros w' H'; apply H; right; exact H'). apply upd_ne. intros E. apply (H w); [left; reflexivity|congruence].
Qed.
Lemma flat_inj shape a b : in_shape shape a -> in_shape shape b -> flat shape a = flat shape b -> a = b.
Proof. intros Ha Hb E. rewrite <- (unravel_flat shape a Ha), <- (unravel_flat shape b Hb), E. reflexivity. Qed.
Definition inside5 (v : view5) (i j k l m : nat) : Prop := let '(n0, n1, n2, n3, n4) := v in i < n0 /\ j < n1 /\ k < n2 /\ l < n3 /\ m < n4.
Lemma place_flat v i j k l m : place v i j k l m = let '(n0, n1, n2, n3, n4) := v in flat [n0; n1; n2; n3; n4] [i; j; k; l; m].
Proof. destruct v as [[[[n0 n1] n2] n3] n4]. cbn. ring. Qed.
Lemma place_inj v i j k l m i' j' k' l' m' : inside5 v i j k l m -> inside5 v i' j' k' l' m' -> place v i j k l m = place v i' j' k' l' m' -> i = i' /\ j = j' /\ k = k' /\ l = l' /\ m = m'.
Proof.
  rewrite !place_flat. destruct v as [[[[n0 n1] n2] n3] n4]. cbn [inside5]. intros H H' E. apply flat_inj in E; [|repeat constructor; tauto|repeat constructor; tauto]. injection E as -> -> -> -> ->. repeat split; reflexivity.
Qed.
Lemma in_copied v input i j w : In w (copied v input i j) <-> exists k l m, (let '(_, _, n2, n3, n4) := v in k < n2 /\ l < n3 /\ m < n4) /\ w = (place v i j k l m, fun _ => input (place v i j k l m)).
Proof.
  destruct v as [[[[n0 n1] n2] n3] n4]. unfold copied. rewrite in_flat_map. split.
  - intros (k & Hk & H). apply in_flat_map in H. destruct H as (l & Hl & H). apply in_map_iff in H. destruct H as (m & <- & Hm). rewrite in_seq in Hk, Hl, Hm. exists k, l, m. repeat split; lia.
  - intros (k & l & m & (H1 & H2 & H3) & ->). exists k. rewrite in_seq. split; [lia|]. apply in_flat_map. exists l. rewrite in_seq. split; [lia|]. apply in_map_iff. exists m. rewrite in_seq. split; [reflexivity|lia].
Qed.
Lemma in_recombined pairs s v input w : (let '(_, n1, _, _, _) := v in s + 1 < n1) -> In w (recombined pairs s v input) <->
  (exists i j k l m, inside5 v i j k l m /\ j <> s /\ j <> s + 1 /\ w = (place v i j k l m, fun _ => input (place v i j k l m)))
  \/ (exists i k l m, (let '(n0, _, n2, n3, n4) := v in i < n0 /\ k < n2 /\ l < n3 / 2 /\ m < n4) /\ In w (pairs (fun j l => place v i j k l m) s l)).
Proof.
  destruct v as [[[[n0 n1] n2] n3] n4]. intros Hs. set (v := (n0, n1, n2, n3, n4)). unfold recombined. cbn [inside5 v]. rewrite in_flat_map. split.
  - intros (i & Hi & H). rewrite in_seq in Hi. apply in_app_or in H. destruct H as [H|H]; [|apply in_app_or in H; destruct H as [H|H]].
    + apply in_flat_map in H. destruct H as (j & Hj & H). apply in_copied in H. destruct H as (k & l & m & Hk & ->). rewrite in_seq in Hj. cbn in Hk. left. exists i, j, k, l, m. repeat split; lia.
    + right. apply in_flat_map in H. destruct H as (k & Hk & H). apply in_flat_map in H. destruct H as (l & Hl & H). apply in_flat_map in H. destruct H as (m & Hm & H). rewrite in_seq in Hk, Hl, Hm. exists i, k, l, m. split; [lia|exact H].
    + apply in_flat_map in H. destruct H as (j & Hj & H). apply in_copied in H. destruct H as (k & l & m & Hk & ->). rewrite in_seq in Hj. cbn in Hk. left. exists i, j, k, l, m. repeat split; lia.
  - intros [(i & j & k & l & m & H & J1 & J2 & ->)|(i & k & l & m & H & Hw)]; exists i; rewrite in_seq; (split; [lia|]).
    + destruct (Nat.lt_ge_cases j s).
      * apply in_or_app. left. apply in_flat_map. exists j. rewrite in_seq. split; [lia|]. apply in_copied. exists k, l, m. split; [cbn; lia|reflexivity].
      * apply in_or_app. right. apply in_or_app. right. apply in_flat_map. exists j. rewrite in_seq. split; [lia|]. apply in_copied. exists k, l, m. split; [cbn; lia|reflexivity].
    + apply in_or_app. right. apply in_or_app. left. apply in_flat_map. exists k. rewrite in_seq. split; [lia|]. apply in_flat_map. exists l. rewrite in_seq. split; [lia|]. apply in_flat_map. exists m. rewrite in_seq. split; [lia|exact Hw].
Qed.
Lemma recombined_copies pairs s v input output i j k l m : (forall q l w, In w (pairs q s l) -> exists j l', (j = s \/ j = s + 1) /\ (l' = 2 * l \/ l' = 2 * l + 1) /\ fst w = q j l') ->
  (let '(_, n1, _, _, _) := v in s + 1 < n1) -> inside5 v i j k l m -> j <> s -> j <> s + 1 -> run (recombined pairs s v input) output (place v i j k l m) = input (place v i j k l m).
Proof.
  intros Hp Hs H J1 J2. apply run_value.
  - eexists. split; [apply in_recombined; [exact Hs|]; left; exists i, j, k, l, m; repeat split; try assumption; reflexivity|reflexivity].
  - intros w Hw E b. apply in_recombined in Hw; [|exact Hs]. destruct Hw as [(i' & j' & k' & l' & m' & H' & _ & _ & ->)|(i' & k' & l' & m' & H' & Hw)].
    + cbn [fst snd] in *. rewrite E. reflexivity.
    + exfalso. destruct (Hp _ _ _ Hw) as (j' & l'' & J & L & E'). rewrite E' in E. apply place_inj in E.
      * destruct E as (_ & E & _). lia.
      * destruct v as [[[[n0 n1] n2] n3] n4]. cbn [inside5] in *. pose proof (Nat.div_mod n3 2). lia.
      * exact H.
Qed.
Lemma recombined_pair pairs s v input output i k l m (f : nat -> nat -> (nat -> nat -> nat) -> nat -> R) :
  (forall q l w, In w (pairs q s l) <-> exists a b, a < 2 /\ b < 2 /\ w = (q (s + a) (2 * l + b), fun _ => f a b q l)) ->
  (let '(n0, n1, n2, n3, n4) := v in s + 1 < n1 /\ i < n0 /\ k < n2 /\ l < n3 / 2 /\ m < n4) -> forall a b, a < 2 -> b < 2 ->
  run (recombined pairs s v input) output (place v i (s + a) k (2 * l + b) m) = f a b (fun j l => place v i j k l m) l.
Proof.
  intros Hp H a b Ha Hb. assert (Hs : let '(_, n1, _, _, _) := v in s + 1 < n1) by (destruct v as [[[[n0 n1] n2] n3] n4]; tauto). apply run_value.
  - eexists. split; [apply in_recombined; [exact Hs|]; right; exists i, k, l, m; split; [destruct v as [[[[n0 n1] n2] n3] n4]; tauto|]; apply Hp; exists a, b; repeat split; assumption|reflexivity].
  - intros w Hw E x. apply in_recombined in Hw; [|exact Hs].
    assert (I : forall i k l m a b, (let '(n0, n1, n2, n3, n4) := v in s + 1 < n1 /\ i < n0 /\ k < n2 /\ l < n3 / 2 /\ m < n4) -> a < 2 -> b < 2 -> inside5 v i (s + a) k (2 * l + b) m).
    { clear. intros i k l m a b H Ha Hb. destruct v as [[[[n0 n1] n2] n3] n4]. cbn. pose proof (Nat.div_mod n3 2). lia. }
    destruct Hw as [(i' & j' & k' & l' & m' & H' & J1 & J2 & ->)|(i' & k' & l' & m' & H' & Hw)].
    + exfalso. cbn [fst] in E. apply place_inj in E; [|exact H'|apply I; assumption]. lia.
    + apply Hp in Hw. destruct Hw as (a' & b' & Ha' & Hb' & ->). cbn [fst snd] in *. apply place_inj in E; [|apply I; try assumption; destruct v as [[[[n0 n1] n2] n3] n4]; tauto|apply I; assumption].
      destruct E as (-> & E1 & -> & E2 & ->). assert (a' = a) by lia. assert (b' = b) by lia. assert (l' = l) by lia. subst. reflexivity.
Qed.
Definition complex_at (v : view5) (i k l m : nat) (b : nat -> R) (j : nat) : C := (b (place v i j k (2 * l) m), b (place v i j k (2 * l + 1) m)).
Definition kernel_ok (kernel : nat -> view5 -> (nat -> R) -> (nat -> R) -> nat -> R) (e : nat -> nat -> nat -> C) : Prop :=
  forall s v input output i j k l m, let '(n0, n1, n2, n3, n4) := v in s + 1 < n1 -> i < n0 -> j < n1 -> k < n2 -> l < n3 / 2 -> m < n4 ->
  complex_at v i k l m (kernel s v input output) j = T n1 (fun t => Cmult (e s j t) (complex_at v i k l m input t)).
Definition forward_value (input : nat -> R) (s a b : nat) (q : nat -> nat -> nat) (l : nat) : R :=
  let u j := input (q (s + 0) j) in let w j := input (q (s + 1) j) in let e := 2 * l in let o := 2 * l + 1 in
  match a, b with 0, 0 => (w e + u o) * isqrt2 | 0, _ => (w o - u e) * isqrt2 | _, 0 => (w e - u o) * isqrt2 | _, _ => (w o + u e) * isqrt2 end%R.
Definition backward_value (input : nat -> R) (s a b : nat) (q : nat -> nat -> nat) (l : nat) : R :=
  let u j := input (q (s + 0) j) in let w j := input (q (s + 1) j) in let e := 2 * l in let o := 2 * l + 1 in
  match a, b with 0, 0 => (w o - u o) * isqrt2 | 0, _ => (u e - w e) * isqrt2 | _, 0 => (u e + w e) * isqrt2 | _, _ => (u o + w o) * isqrt2 end%R.
Lemma forward_pairs_in input s q l w : In w (forward_pairs input q s l) <-> exists a b, a < 2 /\ b < 2 /\ w = (q (s + a) (2 * l + b), fun _ => forward_value input s a b q l).
Proof.
  unfold forward_pairs. cbn [In]. split.
  - intros [<-|[<-|[<-|[<-|[]]]]].
    + exists 0, 0. rewrite (Nat.add_0_r (2 * l)). repeat split; lia.
    + exists 1, 1. repeat split; lia.
    + exists 1, 0. rewrite (Nat.add_0_r (2 * l)). repeat split; lia.
    + exists 0, 1. repeat split; lia.
  - intros (a & b & Ha & Hb & ->). destruct a as [|[|a]]; try lia; destruct b as [|[|b]]; try lia; rewrite ?(Nat.add_0_r (2 * l)); tauto.
Qed.
Lemma backward_pairs_in input s q l w : In w (backward_pairs input q s l) <-> exists a b, a < 2 /\ b < 2 /\ w = (q (s + a) (2 * l + b), fun _ => backward_value input s a b q l).
Proof.
  unfold backward_pairs. cbn [In]. split.
  - intros [<-|[<-|[<-|[<-|[]]]]].
    + exists 0, 0. rewrite (Nat.add_0_r (2 * l)). repeat split; lia.
    + exists 0, 1. repeat split; lia.
    + exists 1, 0. rewrite (Nat.add_0_r (2 * l)). repeat split; lia.
    + exists 1, 1. repeat split; lia.
  - intros (a & b & Ha & Hb & ->). destruct a as [|[|a]]; try lia; destruct b as [|[|b]]; try lia; rewrite ?(Nat.add_0_r (2 * l)); tauto.
Qed.
Lemma i_half : (Ci / RtoC (sqrt 2))%C = (0%R, isqrt2).
Proof. unfold Cdiv. rewrite <- RtoC_inv by (apply Rgt_not_eq, sqrt_lt_R0; lra). unfold Ci, Cmult, RtoC, isqrt2. cbn. f_equal; ring. Qed.
Lemma ni_half : (- Ci / RtoC (sqrt 2))%C = (0%R, (- isqrt2)%R).
Proof. unfold Cdiv. rewrite <- RtoC_inv by (apply Rgt_not_eq, sqrt_lt_R0; lra). unfold Ci, Cmult, Copp, RtoC, isqrt2. cbn. f_equal; ring. Qed.
Lemma one_half : (RtoC 1 / RtoC (sqrt 2))%C = (isqrt2, 0%R).
Proof. unfold Cdiv. rewrite <- RtoC_inv by (apply Rgt_not_eq, sqrt_lt_R0; lra). unfold Cmult, RtoC, isqrt2. cbn. f_equal; ring. Qed.
Lemma pairs_shape {f : nat -> nat -> (nat -> nat -> nat) -> nat -> R} {pairs s} : (forall q l w, In w (pairs q s l) <-> exists a b, a < 2 /\ b < 2 /\ w = (q (s + a) (2 * l + b), fun _ : nat -> R => f a b q l)) ->
  forall q l w, In w (pairs q s l) -> exists j l', (j = s \/ j = s + 1) /\ (l' = 2 * l \/ l' = 2 * l + 1) /\ fst w = q j l'.
Proof. intros H q l w Hw. apply H in Hw. destruct Hw as (a & b & Ha & Hb & ->). exists (s + a), (2 * l + b). repeat split; lia. Qed.
Lemma kernel_general (pairs : (nat -> R) -> (nat -> nat -> nat) -> nat -> nat -> list (@write R)) (f : (nat -> R) -> nat -> nat -> nat -> (nat -> nat -> nat) -> nat -> R) e :
  (forall input s q l w, In w (pairs input q s l) <-> exists a b, a < 2 /\ b < 2 /\ w = (q (s + a) (2 * l + b), fun _ => f input s a b q l)) ->
  (forall s j t, j <> s -> j <> s + 1 -> e s j t = delta j t) -> (forall s j t, (j = s \/ j = s + 1) -> t <> s -> t <> s + 1 -> e s j t = RtoC 0) ->
  (forall input s q l a, a < 2 -> (f input s a 0 q l, f input s a 1 q l) = Cplus (Cmult (e s (s + a) s) (input (q s (2 * l)), input (q s (2 * l + 1)))) (Cmult (e s (s + a) (s + 1)) (input (q (s + 1) (2 * l)), input (q (s + 1) (2 * l + 1))))) ->
  kernel_ok (fun s v input output => run (recombined (pairs input) s v input) output) e.
Proof.
  intros Hp E1 E2 E3 s v input output i j k l m. destruct v as [[[[n0 n1] n2] n3] n4] eqn:Ev. intros Hs Hi Hj Hk Hl Hm. rewrite <- Ev.
  destruct (Nat.eq_dec j s) as [J|J]; [|destruct (Nat.eq_dec j (s + 1)) as [J'|J']].
  - subst j. rewrite (T_two n1 s) by (try lia; intros t _ T1 T2; rewrite E2 by lia; ring). unfold complex_at at 1.
    replace (place v i s k (2 * l) m) with (place v i (s + 0) k (2 * l + 0) m) by (f_equal; lia). replace (place v i s k (2 * l + 1) m) with (place v i (s + 0) k (2 * l + 1) m) by (f_equal; lia).
    rewrite (recombined_pair (pairs input) s v input output i k l m (f input s) (Hp input s)) by (subst v; try lia; repeat split; assumption).
    rewrite (recombined_pair (pairs input) s v input output i k l m (f input s) (Hp input s)) by (subst v; try lia; repeat split; assumption).
    rewrite E3 by lia. rewrite Nat.add_0_r. reflexivity.
  - subst j. rewrite (T_two n1 s) by (try lia; intros t _ T1 T2; rewrite E2 by lia; ring). unfold complex_at at 1.
    replace (place v i (s + 1) k (2 * l) m) with (place v i (s + 1) k (2 * l + 0) m) by (f_equal; lia).
    rewrite (recombined_pair (pairs input) s v input output i k l m (f input s) (Hp input s)) by (subst v; try lia; repeat split; assumption).
    rewrite (recombined_pair (pairs input) s v input output i k l m (f input s) (Hp input s)) by (subst v; try lia; repeat split; assumption).
    rewrite E3 by lia. reflexivity.
  - pose proof (Nat.div_mod n3 2). transitivity (complex_at v i k l m input j).
    + unfold complex_at. rewrite !recombined_copies; try assumption; try reflexivity; try (apply (pairs_shape (Hp input s))); subst v; cbn; lia.
    + symmetry. rewrite (Tsingle n1 j); [rewrite E1 by assumption; unfold delta; rewrite Nat.eqb_refl; ring|exact Hj|]. intros t _ Ht. rewrite E1 by assumption. unfold delta. eqbs. ring.
Qed.
Lemma forward_kernel : kernel_ok recombine_forward (fun s => spin_entry (Some s)).
Proof.
  apply (kernel_general forward_pairs forward_value).
  - apply forward_pairs_in.
  - intros s j t J1 J2. unfold spin_entry, delta. eqbs; reflexivity.
  - intros s j t J T1 T2. unfold spin_entry. eqbs; reflexivity.
  - intros input s q l a Ha. unfold spin_entry, forward_value. destruct a as [|[|a]]; try lia; eqbs; rewrite ?i_half, ?ni_half, ?one_half, ?Nat.add_0_r; unfold Cplus, Cmult; cbn [fst snd]; f_equal; ring.
Qed.
Lemma backward_kernel : kernel_ok recombine_backward (fun s j t => Cconj (spin_entry (Some s) t j)).
Proof.
  apply (kernel_general backward_pairs backward_value).
  - apply backward_pairs_in.
  - intros s j t J1 J2. unfold spin_entry, delta. eqbs; apply conj_real.
  - intros s j t J T1 T2. unfold spin_entry. eqbs; apply conj_real.
  - intros input s q l a Ha. unfold spin_entry, backward_value. destruct a as [|[|a]]; try lia; eqbs; rewrite ?i_half, ?ni_half, ?one_half, ?Nat.add_0_r; unfold Cplus, Cmult, Cconj; cbn [fst snd]; f_equal; ring.
Qed.

(** ** Real data: the loop over the tensor indices *)
Lemma view_value (pre mid post : list nat) d N : reduced_view_5 (pre ++ d :: mid ++ N :: post) (List.length pre) (List.length pre + 1 + List.length mid) = (size pre, d, size mid, N, size post).
Proof.
  unfold reduced_view_5. rewrite !prod_size. f_equal; [f_equal; [f_equal; [f_equal|]|]|].
  - rewrite firstn_app, firstn_all, Nat.sub_diag. cbn. rewrite app_nil_r. reflexivity.
  - apply nth_mid.
  - replace (List.length pre + 1) with (S (List.length pre)) by lia. rewrite skipn_app, skipn_all2 by lia. replace (S (List.length pre) - List.length pre) with 1 by lia. cbn [app skipn].
    match goal with |- size (firstn ?n _) = _ => replace n with (List.length mid) by lia end. change (skipn 0 (mid ++ N :: post)) with (mid ++ N :: post). rewrite firstn_app, firstn_all, Nat.sub_diag. cbn. rewrite app_nil_r. reflexivity.
  - replace (pre ++ d :: mid ++ N :: post) with ((pre ++ d :: mid) ++ N :: post) by (rewrite <- app_assoc; reflexivity). replace (List.length pre + 1 + List.length mid) with (List.length (pre ++ d :: mid)) by (rewrite app_length; cbn; lia). apply nth_mid.
  - replace (pre ++ d :: mid ++ N :: post) with ((pre ++ d :: mid ++ [N]) ++ post) by (rewrite <- app_assoc; cbn; rewrite <- app_assoc; reflexivity).
    replace (List.length pre + 1 + List.length mid + 1) with (List.length (pre ++ d :: mid ++ [N])) by (rewrite app_length; cbn; rewrite app_length; cbn; lia). rewrite skipn_app, skipn_all, Nat.sub_diag. reflexivity.
Qed.
Lemma size_app A B : size (A ++ B) = size A * size B.
Proof. induction A as [|n A IH]; cbn; [lia|]. rewrite IH. lia. Qed.
Lemma flat_place pre mid post d N a j b l c : List.length pre = List.length a -> List.length mid = List.length b ->
  flat (pre ++ d :: mid ++ N :: post) (a ++ j :: b ++ l :: c) = place (size pre, d, size mid, N, size post) (flat pre a) j (flat mid b) l (flat post c).
Proof. intros Ha Hb. rewrite flat_split by exact Ha. cbn [flat size]. rewrite flat_split, size_app by exact Hb. cbn [flat size place]. ring. Qed.
Lemma replace_axis2 (a b c : list nat) j l x : replace (List.length a + 1 + List.length b) (a ++ j :: b ++ l :: c) x = a ++ j :: b ++ x :: c.
Proof.
  replace (a ++ j :: b ++ l :: c) with ((a ++ j :: b) ++ l :: c) by (rewrite <- app_assoc; reflexivity). replace (List.length a + 1 + List.length b) with (List.length (a ++ j :: b)) by (rewrite app_length; cbn; lia).
  rewrite replace_mid, <- app_assoc. reflexivity.
Qed.
Lemma nth_axis2 (a b c : list nat) j l x : nth (List.length a + 1 + List.length b) (a ++ j :: b ++ l :: c) x = l.
Proof.
  replace (a ++ j :: b ++ l :: c) with ((a ++ j :: b) ++ l :: c) by (rewrite <- app_assoc; reflexivity). replace (List.length a + 1 + List.length b) with (List.length (a ++ j :: b)) by (rewrite app_length; cbn; lia). apply nth_mid.
Qed.
Lemma paired_at pre mid post d N data a j b l c : List.length pre = List.length a -> List.length mid = List.length b ->
  paired (pre ++ d :: mid ++ N :: post) (List.length pre + 1 + List.length mid) data (a ++ j :: b ++ l :: c) = complex_at (size pre, d, size mid, N, size post) (flat pre a) (flat mid b) l (flat post c) data j.
Proof. intros Ha Hb. unfold paired, element. rewrite Ha, Hb, nth_axis2, !replace_axis2, !flat_place by assumption. reflexivity. Qed.
Lemma step kernel e pre mid post d N s g o idx : kernel_ok kernel e -> s + 1 < d -> let shape := pre ++ d :: mid ++ N :: post in let axis2 := List.length pre + 1 + List.length mid in
  in_shape (pre ++ d :: mid ++ (N / 2) :: post) idx ->
  paired shape axis2 (kernel s (reduced_view_5 shape (List.length pre) axis2) g o) idx = axis_apply (e s) d (List.length pre) (paired shape axis2 g) idx.
Proof.
  intros Hk Hs shape axis2 H. destruct (in_shape_axis _ _ _ _ H) as (a & j & r & -> & La & Ha & Hj & Hr). destruct (in_shape_axis _ _ _ _ Hr) as (b & l & c & -> & Lb & Hb & Hl & Hc).
  unfold shape, axis2. rewrite view_value, paired_at by (symmetry; assumption).
  pose proof (Hk s (size pre, d, size mid, N, size post) g o (flat pre a) j (flat mid b) l (flat post c)) as E. cbn zeta iota beta in E. rewrite E by (try assumption; apply flat_lt; assumption).
  unfold axis_apply. apply Text. intros t Ht. pose proof (nth_mid a (b ++ l :: c) j 0) as E1. pose proof (replace_mid a (b ++ l :: c) j t) as E2. rewrite La in E1, E2. rewrite E1, E2, paired_at by (symmetry; assumption). reflexivity.
Qed.
Section Loop.
Context (c0 c1 : coordinate) (kernel : nat -> view5 -> (nat -> R) -> (nat -> R) -> nat -> R) (e : option nat -> nat -> nat -> C).
Context (Hk : kernel_ok kernel (fun s => e (Some s))) (Hn : forall s t, e None s t = delta s t).
Lemma even_step num : (num + 1) mod 2 =? 0 = negb (num mod 2 =? 0).
Proof. rewrite <- Nat.add_mod_idemp_l by lia. pose proof (Nat.mod_upper_bound num 2 ltac:(lia)). destruct (num mod 2) as [|[|n]]; [reflexivity|reflexivity|lia]. Qed.
Lemma alternate_value sp1 N sp2 sig : forall ps l pre g o num,
  Forall2 (fun cp U => match U with Some U => snd cp <> None /\ represents (snd cp) (dim_of (fst cp)) U | None => snd cp = None end) (combine sig ps) l ->
  Forall2 (fun cs p => fits p (dim_of cs) /\ match p with Some p => index_of c0 (coords cs) = Some p | None => True end) sig ps ->
  let dims := map dim_of sig in let shape := pre ++ dims ++ sp1 ++ N :: sp2 in let axis2 := List.length pre + List.length dims + List.length sp1 in
  exists r, alternate c0 kernel shape axis2 (List.length pre) l sig g o num = Ok r
  /\ forall idx, in_shape (pre ++ dims ++ sp1 ++ (N / 2) :: sp2) idx -> paired shape axis2 r idx = axes_apply e ps dims (List.length pre) (paired shape axis2 (if num mod 2 =? 0 then g else o)) idx.
Proof.
  induction sig as [|cs sig IH]; intros ps l pre g o num F G; inversion G as [|? p ? ps' [G1 G2] G3]; subst; cbn [combine] in F; inversion F as [|? U ? l' F1 F2]; subst.
  - exists (if num mod 2 =? 0 then g else o). split; [reflexivity|]. reflexivity.
  - cbn [fst snd] in F1. cbn zeta. cbn [map alternate]. set (dims := map dim_of sig). set (d := dim_of cs) in *.
    assert (E : forall x, pre ++ (d :: dims) ++ x = (pre ++ [d]) ++ dims ++ x) by (intros x; rewrite <- app_assoc; reflexivity).
    assert (L : S (List.length pre) = List.length (pre ++ [d])) by (rewrite app_length; cbn; lia).
    set (shape := pre ++ (d :: dims) ++ sp1 ++ N :: sp2). set (axis2 := List.length pre + List.length (d :: dims) + List.length sp1).
    assert (A2 : axis2 = List.length (pre ++ [d]) + List.length dims + List.length sp1) by (unfold axis2; rewrite <- L; cbn; lia).
    assert (Lp : List.length ps' = List.length dims) by (unfold dims; rewrite map_length; symmetry; eapply Forall2_length; exact G3).
    destruct U as [U|].
    + destruct F1 as [F0 F1]. destruct p as [p|]; [|contradiction]. rewrite G2. cbn [fits] in G1.
      assert (S1 : forall g o idx, in_shape (pre ++ (d :: dims) ++ sp1 ++ (N / 2) :: sp2) idx ->
        paired shape axis2 (kernel p (reduced_view_5 shape (List.length pre) axis2) g o) idx = axis_apply (e (Some p)) d (List.length pre) (paired shape axis2 g) idx).
      { intros g' o' idx H. pose proof (step kernel (fun s => e (Some s)) pre (dims ++ sp1) sp2 d N p g' o' idx Hk G1) as S. cbn zeta in S. cbn [app] in H, shape.
        replace (List.length pre + 1 + List.length (dims ++ sp1)) with axis2 in S by (unfold axis2; rewrite app_length; cbn; lia). rewrite <- !app_assoc in S. apply S. exact H. }
      destruct (num mod 2 =? 0) eqn:En.
      * destruct (IH ps' l' (pre ++ [d]) g (kernel p (reduced_view_5 shape (List.length pre) axis2) g o) (num + 1) F2 G3) as (r & R1 & R2). fold dims in R1, R2. rewrite <- A2, <- E in R1. fold shape in R1. rewrite <- L in R1. rewrite R1.
        exists r. split; [reflexivity|]. intros idx H. cbn zeta in R2. rewrite <- A2 in R2. rewrite <- !E in R2. fold shape in R2. rewrite R2 by exact H. rewrite even_step, En. cbn [negb axes_apply]. rewrite <- L.
        rewrite L. apply (axes_ext e ps' dims (pre ++ [d]) (sp1 ++ (N / 2) :: sp2)); [exact Lp| |rewrite <- E; exact H]. intros idx' H'. rewrite <- E in H'. apply S1. exact H'.
      * destruct (IH ps' l' (pre ++ [d]) (kernel p (reduced_view_5 shape (List.length pre) axis2) o g) o (num + 1) F2 G3) as (r & R1 & R2). fold dims in R1, R2. rewrite <- A2, <- E in R1. fold shape in R1. rewrite <- L in R1. rewrite R1.
        exists r. split; [reflexivity|]. intros idx H. cbn zeta in R2. rewrite <- A2 in R2. rewrite <- !E in R2. fold shape in R2. rewrite R2 by exact H. rewrite even_step, En. cbn [negb axes_apply]. rewrite <- L.
        rewrite L. apply (axes_ext e ps' dims (pre ++ [d]) (sp1 ++ (N / 2) :: sp2)); [exact Lp| |rewrite <- E; exact H]. intros idx' H'. rewrite <- E in H'. apply S1. exact H'.
    + subst p. destruct (IH ps' l' (pre ++ [d]) g o num F2 G3) as (r & R1 & R2). fold dims in R1, R2. rewrite <- A2, <- E in R1. fold shape in R1. rewrite <- L in R1. rewrite R1.
      exists r. split; [reflexivity|]. intros idx H. cbn zeta in R2. rewrite <- A2 in R2. rewrite <- !E in R2. fold shape in R2. rewrite R2 by exact H. cbn [axes_apply]. rewrite L.
      apply (axes_ext e ps' dims (pre ++ [d]) (sp1 ++ (N / 2) :: sp2)); [exact Lp| |rewrite <- E; exact H]. intros idx' H'. rewrite <- E in H'. symmetry. apply (axis_apply_delta _ d pre (dims ++ sp1 ++ (N / 2) :: sp2)); [intros s t _ _; apply Hn|exact H'].
Qed.
End Loop.

(** ** Whole recombinations *)
Lemma fresh_factors c1 sig cache : fresh c1 sig cache -> factors c1 cache sig = build_factors c1 sig.
Proof. destruct cache; cbn; congruence. Qed.
Lemma signature_dims c0 c1 sig ps : signature c0 c1 sig ps -> List.length ps = List.length (map dim_of sig) /\ Forall2 fits ps (map dim_of sig).
Proof.
  intros H. destruct (factors_value _ _ _ _ H) as (l & _ & _ & G). clear H. induction G as [|cs p sig ps [G1 G2] G3 [IH1 IH2]]; [split; [reflexivity|constructor]|].
  cbn. split; [f_equal; exact IH1|constructor; assumption].
Qed.
Lemma complex_value c0 c1 sig ps cache f e sp z : signature c0 c1 sig ps -> fresh c1 sig cache ->
  (forall p d U, fits p d -> p <> None -> represents p d U -> nr (f U) = d /\ forall s t, s < d -> t < d -> at_ (f U) s t = e p s t) -> (forall s t, e None s t = delta s t) ->
  exists out, complex_recombination c1 f cache sig (map dim_of sig ++ sp, z) = Ok (map dim_of sig ++ sp, out)
  /\ forall s x, in_shape (map dim_of sig) s -> in_shape sp x -> out (s ++ x) = transformed e ps (map dim_of sig) (fun t => z (t ++ x)) s.
Proof.
  intros H Hc Hf Hn. destruct (factors_value _ _ _ _ H) as (l & El & F & G). destruct (signature_dims _ _ _ _ H) as [Lp _].
  assert (FF : Forall2 (factor_ok e f) (combine ps (map dim_of sig)) l).
  { clear - F G Hf Hn. revert l F. induction G as [|cs p sig ps [G1 G2] G3 IH]; intros l F; cbn in F |- *; inversion F as [|? U ? l' F1 F2]; subst; constructor; [|apply IH; exact F2].
    cbn in F1. destruct U as [U|]; cbn; [|subst p; intros s t _ _; apply Hn]. destruct F1. apply (Hf p _ U); assumption. }
  destruct (apply_all_value e f sp ps (map dim_of sig) l [] z Lp FF) as [A1 A2]. cbn [app List.length] in A1, A2.
  unfold complex_recombination. destruct sig as [|cs sig].
  - inversion H; subst. exists z. split; [reflexivity|]. intros s x Hs _. inversion Hs; subst. reflexivity.
  - rewrite fresh_factors, El by exact Hc. destruct (apply_all f 0 l _) as [sh out] eqn:E. cbn [fst snd] in A1, A2. subst sh. exists out. split; [reflexivity|].
    intros s x Hs Hx. rewrite A2 by (apply in_shape_app; assumption). apply (axes_transformed e ps (map dim_of (cs :: sig)) [] z s x); [exact Lp|exact Hs].
Qed.
Lemma forward_factor p d U : fits p d -> p <> None -> represents p d U -> nr U = d /\ forall s t, s < d -> t < d -> at_ U s t = spin_entry p s t.
Proof. intros _ _ (H1 & _ & H2). split; assumption. Qed.
Lemma backward_factor p d U : fits p d -> p <> None -> represents p d U -> nr (adjoint U) = d /\ forall s t, s < d -> t < d -> at_ (adjoint U) s t = Cconj (spin_entry p t s).
Proof. intros _ _ (H1 & H2 & H3). split; [exact H2|]. intros s t Hs Ht. cbn. rewrite H3 by assumption. reflexivity. Qed.
Lemma none_forward s t : spin_entry None s t = delta s t. Proof. reflexivity. Qed.
Lemma none_backward s t : Cconj (spin_entry None t s) = delta s t.
Proof. unfold delta. cbn. rewrite Nat.eqb_sym. destruct (s =? t); apply conj_real. Qed.

Lemma axis_split (sp : list nat) k : k < List.length sp -> exists sp1 N sp2, sp = sp1 ++ N :: sp2 /\ List.length sp1 = k /\ N = nth k sp 0.
Proof. intros H. destruct (nth_split sp 0 H) as (l1 & l2 & E & L). exists l1, (nth k sp 0), l2. split; [exact E|]. split; [exact L|reflexivity]. Qed.
Lemma halved_mid (pre sp : list nat) N : halved (List.length pre) (pre ++ N :: sp) = pre ++ (N / 2) :: sp.
Proof. unfold halved. rewrite nth_mid, replace_mid. reflexivity. Qed.
Lemma real_value c0 c1 sig ps cache kernel e colat sp g o : signature c0 c1 sig ps -> fresh c1 sig cache -> 1 <= colat <= List.length sp ->
  kernel_ok kernel (fun s => e (Some s)) -> (forall s t, e None s t = delta s t) ->
  let shape := map dim_of sig ++ sp in let axis := colat - 1 + List.length sig in
  exists out, real_recombination c0 c1 kernel cache sig colat shape g o = Ok out
  /\ forall s x, in_shape (map dim_of sig) s -> in_shape (halved (colat - 1) sp) x -> paired shape axis out (s ++ x) = transformed e ps (map dim_of sig) (fun t => paired shape axis g (t ++ x)) s.
Proof.
  intros H Hc Hcol Hk Hn shape axis. destruct (factors_value _ _ _ _ H) as (l & El & F & G). destruct (signature_dims _ _ _ _ H) as [Lp _].
  destruct (axis_split sp (colat - 1)) as (sp1 & N & sp2 & E & L & _); [lia|].
  unfold real_recombination. destruct sig as [|cs sig].
  - inversion H; subst ps. exists g. split; [reflexivity|]. intros s x Hs _. inversion Hs; subst. reflexivity.
  - rewrite fresh_factors, El by exact Hc.
    destruct (alternate_value c0 kernel e Hk Hn sp1 N sp2 (cs :: sig) ps l [] g o 0 F G) as (r & R1 & R2). cbn zeta in R1, R2. cbn [app List.length Nat.add] in R1, R2.
    rewrite <- E in R1. fold shape in R1. assert (Ea : axis = List.length (map dim_of (cs :: sig)) + List.length sp1) by (unfold axis; rewrite map_length, L; lia).
    fold axis. rewrite Ea. rewrite R1. exists r. split; [reflexivity|]. intros s x Hs Hx.
    rewrite <- L, E, halved_mid in Hx. rewrite <- E in R2. fold shape in R2. rewrite R2 by (apply in_shape_app; assumption).
    apply (axes_transformed e ps (map dim_of (cs :: sig)) [] _ s x); [exact Lp|exact Hs].
Qed.
(** The pairs determine the elements. *)
Lemma pairs_all dims sp k N sp1 sp2 g h : sp = sp1 ++ N :: sp2 -> List.length sp1 = k -> N mod 2 = 0 -> let shape := dims ++ sp in let axis := k + List.length dims in
  (forall s x, in_shape dims s -> in_shape (halved k sp) x -> paired shape axis g (s ++ x) = paired shape axis h (s ++ x)) ->
  forall idx, in_shape shape idx -> element shape g idx = element shape h idx.
Proof.
  intros -> <- He shape axis H idx Hi. destruct (in_shape_split _ _ _ Hi) as (s & y & -> & Hs & Hy). destruct (in_shape_axis _ _ _ _ Hy) as (a & j & b & -> & La & Ha & Hj & Hb).
  assert (Hx : in_shape (halved (List.length sp1) (sp1 ++ N :: sp2)) (a ++ (j / 2) :: b)).
  { rewrite halved_mid. apply in_shape_app; [exact Ha|]. constructor; [|exact Hb]. apply Nat.div_lt_upper_bound; [lia|]. pose proof (Nat.div_mod N 2 ltac:(lia)). lia. }
  specialize (H _ _ Hs Hx). unfold paired in H. pose proof (in_shape_length _ _ Hs) as Ls.
  assert (Ax : axis = List.length (s ++ a)) by (unfold axis; rewrite app_length; lia).
  rewrite Ax in H. rewrite !app_assoc in H. rewrite !nth_mid, !replace_mid in H. injection H as H1 H2. rewrite <- !app_assoc in H1, H2.
  pose proof (Nat.div_mod j 2 ltac:(lia)) as Ej. pose proof (Nat.mod_upper_bound j 2 ltac:(lia)). destruct (j mod 2) as [|[|m]] eqn:Em; [|clear Em|lia].
  - replace j with (2 * (j / 2)) by lia. replace (2 * (2 * (j / 2) / 2)) with (2 * (j / 2)) in * by lia. exact H1.
  - replace j with (2 * (j / 2) + 1) by lia. exact H2.
Qed.

(** ** Matrices *)
Lemma kron_value {A} (e : A -> nat -> nat -> C) ps : forall dims fs M a s z, List.length ps = List.length dims ->
  Forall2 (fun pd U => nr U = snd pd /\ nc U = snd pd /\ forall s t, s < snd pd -> t < snd pd -> at_ U s t = e (fst pd) s t) (combine ps dims) fs ->
  in_shape dims s -> let K := fold_left npkron fs M in
  nr K = nr M * size dims /\ nc K = nc M * size dims /\
  T (nc K) (fun j => Cmult (at_ K (a * size dims + flat dims s) j) (z j)) = T (nc M) (fun b => Cmult (at_ M a b) (transformed e ps dims (fun t => z (b * size dims + flat dims t)) s)).
Proof.
  induction ps as [|p ps IH]; intros [|d dims] fs M a s z Hl Hf Hs; try discriminate; cbn [combine] in Hf; inversion Hf as [|? U ? fs' F1 F2]; subst; inversion Hs as [|? s0 ? s' H0 H1]; subst.
  - cbn. split; [lia|]. split; [lia|]. apply Text. intros b _. replace (a * 1 + 0) with a by lia. replace (b * 1 + 0) with b by lia. reflexivity.
  - cbn [fst snd] in F1. destruct F1 as (N1 & N2 & N3). cbn zeta. cbn [fold_left]. destruct (IH dims fs' (npkron M U) (a * d + s0) s' z ltac:(cbn in Hl; lia) F2 H1) as (K1 & K2 & K3).
    cbn [npkron skron nr nc] in K1, K2. cbn [size flat]. split; [rewrite K1, N1; lia|]. split; [rewrite K2, N2; lia|].
    replace (a * (d * size dims) + (s0 * size dims + flat dims s')) with ((a * d + s0) * size dims + flat dims s') by ring. rewrite K3. cbn [npkron skron nc at_]. rewrite N1, N2.
    rewrite (Clenshaw_Proofs.total_product (RtoC 0) (RtoC 1) Cplus Cmult Cminus Cdiv Copp Cinv CF). apply Text. intros b _. cbn [transformed]. rewrite <- Tmul_l. apply Text. intros t0 Ht.
    rewrite !Nat.div_add_l, !Nat.div_small, !Nat.add_0_r by lia. rewrite !(Nat.add_comm (_ * d)), !Nat.mod_add, !Nat.mod_small by lia. rewrite N3 by assumption.
    rewrite (transformed_ext e ps dims (fun t => z ((t0 + b * d) * size dims + flat dims t)) (fun t => z (b * (d * size dims) + (t0 * size dims + flat dims t))) s'); [ring|cbn in Hl; lia|exact H1|]. intros t _. f_equal. ring.
Qed.
Lemma kron_all_value {A} (e : A -> nat -> nat -> C) ps dims fs s z : List.length ps = List.length dims ->
  Forall2 (fun pd U => nr U = snd pd /\ nc U = snd pd /\ forall s t, s < snd pd -> t < snd pd -> at_ U s t = e (fst pd) s t) (combine ps dims) fs ->
  in_shape dims s -> nr (kron_all fs) = size dims /\ nc (kron_all fs) = size dims
  /\ T (size dims) (fun j => Cmult (at_ (kron_all fs) (flat dims s) j) (z j)) = transformed e ps dims (fun t => z (flat dims t)) s.
Proof.
  intros Hl Hf Hs. destruct ps as [|p ps], dims as [|d dims]; try discriminate; cbn [combine] in Hf; inversion Hf as [|? U ? fs' F1 F2]; subst; inversion Hs as [|? s0 ? s' H0 H1]; subst.
  - split; [reflexivity|]. split; [reflexivity|]. cbn. unfold total. cbn. ring.
  - cbn [fst snd] in F1. destruct F1 as (N1 & N2 & N3). cbn [kron_all]. destruct (kron_value e ps dims fs' U s0 s' z ltac:(cbn in Hl; lia) F2 H1) as (K1 & K2 & K3). cbn [size flat].
    split; [rewrite K1, N1; reflexivity|]. split; [rewrite K2, N2; reflexivity|]. rewrite K2, N2 in K3. rewrite K3. cbn [transformed]. apply Text. intros b Hb. rewrite N3 by assumption. reflexivity.
Qed.
Lemma transformed_snoc {A} (e : A -> nat -> nat -> C) p n ps : forall dims z s a, List.length ps = List.length dims -> in_shape dims s -> a < n -> (forall s t, e p s t = delta s t) ->
  transformed e (ps ++ [p]) (dims ++ [n]) z (s ++ [a]) = transformed e ps dims (fun t => z (t ++ [a])) s.
Proof.
  induction ps as [|q ps IH]; intros [|d dims] z s a Hl Hs Ha Hp; try discriminate; inversion Hs as [|? s0 ? s' H0 H1]; subst; cbn [app transformed].
  - etransitivity; [apply Text; intros t _; rewrite Hp; reflexivity|]. apply (T_delta n (fun t => z [t]) a Ha).
  - apply Text. intros t _. rewrite IH by (cbn in Hl; try lia; assumption). reflexivity.
Qed.
Lemma replaced_value c0 c1 sig ps l : signature c0 c1 sig ps -> build_factors c1 sig = Ok l ->
  Forall2 (fun pd U => nr U = snd pd /\ nc U = snd pd /\ forall s t, s < snd pd -> t < snd pd -> at_ U s t = spin_entry (fst pd) s t) (combine ps (map dim_of sig)) (replaced sig l).
Proof.
  intros H El. destruct (factors_value _ _ _ _ H) as (l' & E & F & G). rewrite El in E. injection E as <-. clear - F G. revert l F.
  induction G as [|cs p sig ps [G1 G2] G3 IH]; intros l F; cbn in F |- *; inversion F as [|? U ? l' F1 F2]; subst; cbn; constructor; [|apply IH; exact F2]. cbn in F1 |- *.
  destruct U as [U|]; [destruct F1 as [_ F1]; exact F1|]. subst p. split; [reflexivity|]. split; [reflexivity|]. intros s t Hs Ht. reflexivity.
Qed.
Lemma replaced_ident c0 c1 sig ps l : signature c0 c1 sig ps -> build_factors c1 sig = Ok l -> Forall (fun p => p <> None) ps -> map Some (replaced sig l) = l.
Proof.
  intros H El Hp. destruct (factors_value _ _ _ _ H) as (l' & E & F & G). rewrite El in E. injection E as <-. clear - F G Hp. revert l F.
  induction G as [|cs p sig ps [G1 G2] G3 IH]; intros l F; cbn in F |- *; inversion F as [|? U ? l' F1 F2]; subst; [reflexivity|]. inversion Hp; subst. cbn in F1 |- *.
  destruct U as [U|]; [|contradiction]. f_equal. apply IH; assumption.
Qed.
Definition rep_list (ps : list (option nat)) (dims : list nat) (fs : list cmat) : Prop :=
  Forall2 (fun pd U => nr U = snd pd /\ nc U = snd pd /\ forall s t, s < snd pd -> t < snd pd -> at_ U s t = spin_entry (fst pd) s t) (combine ps dims) fs.
Lemma rep_snoc n ps : forall dims fs, List.length ps = List.length dims -> rep_list ps dims fs -> rep_list (ps ++ [None]) (dims ++ [n]) (fs ++ [cidentity n]).
Proof.
  unfold rep_list. induction ps as [|p ps IH]; intros [|d dims] fs Lp R; try discriminate; cbn in R |- *; inversion R; subst; cbn; constructor.
  - split; [reflexivity|]. split; [reflexivity|]. intros s t Hs Ht. reflexivity.
  - constructor.
  - assumption.
  - apply IH; [cbn in Lp; lia|assumption].
Qed.
Lemma fold_dims fs : forall M, nr (fold_left npkron fs M) = nr M * size (map nr fs) /\ nc (fold_left npkron fs M) = nc M * size (map nc fs).
Proof. induction fs as [|f fs IH]; intros M; cbn [fold_left map]; [cbn; lia|]. destruct (IH (npkron M f)) as [-> ->]. cbn. lia. Qed.
Lemma rep_dims ps : forall dims fs, List.length ps = List.length dims -> rep_list ps dims fs -> map nr fs = dims /\ map nc fs = dims.
Proof.
  unfold rep_list. induction ps as [|p ps IH]; intros [|d dims] fs Lp R; try discriminate; cbn in R |- *; inversion R as [|? U ? fs' F1 F2]; subst; [split; reflexivity|].
  destruct (IH dims fs') as [E1 E2]; [cbn in Lp; lia|exact F2|]. cbn in F1 |- *. destruct F1 as (-> & -> & _). rewrite E1, E2. split; reflexivity.
Qed.
Lemma kron_dims ps dims fs : List.length ps = List.length dims -> rep_list ps dims fs -> nr (kron_all fs) = size dims /\ nc (kron_all fs) = size dims.
Proof.
  intros Lp R. destruct (rep_dims _ _ _ Lp R) as [E1 E2]. destruct fs as [|f fs]; [cbn in E1; subst dims; split; reflexivity|]. cbn [kron_all]. destruct (fold_dims fs f) as [D1 D2].
  rewrite D1, D2. split; [rewrite <- E1|rewrite <- E2]; reflexivity.
Qed.
Lemma matrix_value c0 c1 sig ps cache n : signature c0 c1 sig ps -> fresh c1 sig cache -> 1 <= n -> let dims := map dim_of sig in
  exists M cache', spin_recombination_matrix c1 cache sig n = Ok (M, cache') /\ nr M = size dims * n /\ nc M = size dims * n
  /\ (forall z s a, in_shape dims s -> a < n -> T (size dims * n) (fun j => Cmult (at_ M (flat dims s * n + a) j) (z j)) = spin_components ps dims (fun t => z (flat dims t * n + a)) s)
  /\ (Forall (fun p => p <> None) ps -> fresh c1 sig cache').
Proof.
  intros H Hc Hn dims. destruct (factors_value _ _ _ _ H) as (l & El & _ & _). destruct (signature_dims _ _ _ _ H) as [Lp _]. fold dims in Lp.
  unfold spin_recombination_matrix. rewrite fresh_factors, El by exact Hc. assert (R : rep_list ps dims (replaced sig l)) by exact (replaced_value _ _ _ _ _ H El).
  do 2 eexists. split; [reflexivity|]. enough (HH : forall M, M = kron_all (if 1 <? n then replaced sig l ++ [cidentity n] else replaced sig l) -> nr M = size dims * n /\ nc M = size dims * n
    /\ (forall z s a, in_shape dims s -> a < n -> T (size dims * n) (fun j => Cmult (at_ M (flat dims s * n + a) j) (z j)) = spin_components ps dims (fun t => z (flat dims t * n + a)) s)).
  { destruct (HH _ eq_refl) as (H1 & H2 & H3). split; [exact H1|]. split; [exact H2|]. split; [exact H3|]. cbn. intros Hp. rewrite (replaced_ident _ _ _ _ _ H El Hp). exact El. }
  intros M ->. destruct (1 <? n) eqn:E1.
  - assert (L' : List.length (ps ++ [None]) = List.length (dims ++ [n])) by (rewrite !app_length; cbn; lia). pose proof (rep_snoc n _ _ _ Lp R) as R'.
    assert (Sz : size (dims ++ [n]) = size dims * n) by (rewrite size_app; cbn; lia). destruct (kron_dims _ _ _ L' R') as [D1 D2]. rewrite Sz in D1, D2. split; [exact D1|]. split; [exact D2|].
    intros z s a Hs Ha. assert (Hx : in_shape (dims ++ [n]) (s ++ [a])) by (apply in_shape_app; [exact Hs|constructor; [exact Ha|constructor]]).
    assert (Fl : forall t, in_shape dims t -> flat (dims ++ [n]) (t ++ [a]) = flat dims t * n + a) by (intros t Ht; rewrite flat_split by (apply in_shape_length; exact Ht); cbn; lia).
    destruct (kron_all_value spin_entry _ _ _ (s ++ [a]) z L' R' Hx) as (_ & _ & V). rewrite Sz, Fl in V by exact Hs. rewrite V, transformed_snoc by (try assumption; reflexivity).
    apply transformed_ext; [exact Lp|exact Hs|]. intros t Ht. rewrite Fl by exact Ht. reflexivity.
  - apply Nat.ltb_ge in E1. assert (n = 1) by lia. subst n. destruct (kron_dims _ _ _ Lp R) as [D1 D2]. split; [lia|]. split; [lia|]. intros z s a Hs Ha. assert (a = 0) by lia. subst a.
    destruct (kron_all_value spin_entry _ _ _ s z Lp R Hs) as (_ & _ & V). rewrite !Nat.mul_1_r, Nat.add_0_r. rewrite V. apply transformed_ext; [exact Lp|exact Hs|]. intros t _. f_equal. lia.
Qed.
(** The real form. *)
Definition RF : Field_theory.field_theory 0%R 1%R Rplus Rmult Rminus Ropp Rdiv Rinv eq := Rfield.
Notation TS := (MatSolvers_Proofs.total_S (RtoC 0) (RtoC 1) Cplus Cmult Cminus Cdiv Copp Cinv CF).
Notation TRS := (MatSolvers_Proofs.total_S 0%R 1%R Rplus Rmult Rminus Rdiv Ropp Rinv RF).
Lemma total_parts n (f : nat -> C) : T n f = (total 0%R Rplus n (fun j => fst (f j)), total 0%R Rplus n (fun j => snd (f j))).
Proof. induction n as [|n IH]; [reflexivity|]. rewrite !TS, !TRS, IH. reflexivity. Qed.
Lemma total_two n (f : nat -> R) : total 0%R Rplus (n * 2) f = total 0%R Rplus n (fun j => Rplus (f (2 * j)) (f (2 * j + 1))).
Proof. induction n as [|n IH]; [reflexivity|]. replace (S n * 2) with (S (S (n * 2))) by lia. rewrite !TRS, IH. replace (S (n * 2)) with (2 * n + 1) by lia. replace (n * 2) with (2 * n) by lia. ring. Qed.
Lemma expanded_value M (w : nat -> R) i : nr (expanded M) = nr M * 2 /\ nc (expanded M) = nc M * 2 /\
  (total 0%R Rplus (nc M * 2) (fun j => Rmult (at_ (expanded M) (2 * i) j) (w j)), total 0%R Rplus (nc M * 2) (fun j => Rmult (at_ (expanded M) (2 * i + 1) j) (w j)))
  = T (nc M) (fun j => Cmult (at_ M i j) (w (2 * j), w (2 * j + 1))).
Proof.
  split; [reflexivity|]. split; [reflexivity|]. rewrite total_parts, !total_two. f_equal; apply CSR_Proofs.total_ext; intros j _; cbn [expanded madd skron part rmat22 at_ nr nc].
  all: replace (2 * i + 1) with (1 + i * 2) by lia; replace (2 * j + 1) with (1 + j * 2) by lia; replace (2 * i) with (0 + i * 2) by lia; replace (2 * j) with (0 + j * 2) by lia.
  all: rewrite !Nat.div_add, !Nat.mod_add by lia; cbn; ring.
Qed.
