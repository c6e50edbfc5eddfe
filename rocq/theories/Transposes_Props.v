(** C06, C07: MPI transposes and grouped layout changes. *)
From stdpp Require Import list list_numbers.
From Coq Require Import Lia.
From Verif Require Import Layouts_Model Blocks_Model Blocks_Proofs Transposes_Model Transposes_Proofs.

(** Row-local data of a global array [G]: rank [p] holds the rows
    [starts N1 P p, starts N1 P p + 1, ...] of axis 1 and all of axis 2. *)
Definition holds_rows {A} (N0 N1 N2 N3 P : nat) (G : idx4 -> A) (RL : nat -> idx4 -> A) : Prop :=
  forall p n0 n1 n2 n3, p < P -> n0 < N0 -> n1 < counts N1 P p -> n2 < N2 -> n3 < N3 ->
    RL p (n0, n1, n2, n3) = G (n0, starts N1 P p + n1, n2, n3).
(** Column-local data: all of axis 1 and the columns of rank [q] of axis 2. *)
Definition holds_columns {A} (N0 N1 N2 N3 P : nat) (G : idx4 -> A) (CL : nat -> idx4 -> A) : Prop :=
  forall q n0 n1 n2 n3, q < P -> n0 < N0 -> n1 < N1 -> n2 < counts N2 P q -> n3 < N3 ->
    CL q (n0, n1, n2, n3) = G (n0, n1, starts N2 P q + n2, n3).

(** C06.  Moving to columns: whatever was in the plan's buffers and in the output arrays,
    every rank ends with its columns of the same global array. *)
Theorem transpose_to_columns : forall (A : Type) N0 N1 N2 N3 P (G : idx4 -> A) RL RLbuf CLbuf CL,
  0 < P -> holds_rows N0 N1 N2 N3 P G RL ->
  (forall q, q < P -> length (CLbuf q) = CL_size N0 N1 N2 N3 P q) ->
  holds_columns N0 N1 N2 N3 P G (localize_columns N0 N1 N2 N3 P RL RLbuf CLbuf CL).
Proof. intros A N0 N1 N2 N3 P G RL RLbuf CLbuf CL HP HR HB. by apply localize_columns_ok. Qed.
Print Assumptions transpose_to_columns.

(** C06.  Moving to rows. *)
Theorem transpose_to_rows : forall (A : Type) N0 N1 N2 N3 P (G : idx4 -> A) CL CLbuf RLbuf RL,
  0 < P -> holds_columns N0 N1 N2 N3 P G CL ->
  (forall p, p < P -> length (RLbuf p) = RL_size N0 N1 N2 N3 P p) ->
  holds_rows N0 N1 N2 N3 P G (localize_rows N0 N1 N2 N3 P CL CLbuf RLbuf RL).
Proof. intros A N0 N1 N2 N3 P G CL CLbuf RLbuf RL HP HR HB. by apply localize_rows_ok. Qed.
Print Assumptions transpose_to_rows.

(** C06.  Transposing back returns every rank's data, for any data (no global array assumed). *)
Theorem transpose_round_trip : forall (A : Type) N0 N1 N2 N3 P (RL : nat -> idx4 -> A) B1 B2 B3 B4 C R,
  0 < P ->
  (forall q, q < P -> length (B2 q) = CL_size N0 N1 N2 N3 P q) ->
  (forall p, p < P -> length (B4 p) = RL_size N0 N1 N2 N3 P p) ->
  forall p n0 n1 n2 n3, p < P -> n0 < N0 -> n1 < counts N1 P p -> n2 < N2 -> n3 < N3 ->
  localize_rows N0 N1 N2 N3 P (localize_columns N0 N1 N2 N3 P RL B1 B2 C) B3 B4 R p (n0, n1, n2, n3)
  = RL p (n0, n1, n2, n3).
Proof.
  intros A N0 N1 N2 N3 P RL B1 B2 B3 B4 C R HP H2 H4 p n0 n1 n2 n3 Hp H0 Hn1 Hn2 H3.
  destruct (RL_global N0 N1 N2 N3 P HP RL HP) as [G HG].
  pose proof (localize_columns_ok N0 N1 N2 N3 P HP G RL B1 B2 C HG H2) as HC.
  pose proof (localize_rows_ok N0 N1 N2 N3 P HP G _ B3 B4 R HC H4) as HR.
  rewrite (HR p n0 n1 n2 n3), (HG p n0 n1 n2 n3) by done. done.
Qed.
Print Assumptions transpose_round_trip.

(** C06.  What a rank sends to a peer has the length the peer expects, in both directions. *)
Theorem transpose_counts_match : forall N0 N1 N2 N3 P p q,
  RL_counts N0 N1 N2 N3 P p q = CL_counts N0 N1 N2 N3 P q p /\
  RL_counts N0 N1 N2 N3 P p q =
    length (box (seq 0 N0) (seq 0 (counts N1 P p)) (range (starts N2 P q) (ends N2 P q)) (seq 0 N3)).
Proof.
  intros. split; [apply counts_match|]. rewrite box_length. unfold range. rewrite !seq_length.
  unfold RL_counts, counts. lia.
Qed.
Print Assumptions transpose_counts_match.

(** C06.  The blocks assumed by the FFTW transposes are the layout's local elements whenever
    the chunk size divides the axis size. *)
Theorem fftw_blocks_are_layout_blocks : forall N C P r,
  0 < C -> Nat.divide C N ->
  axis_elements N C false P r = seq (fftw_starts N C P r) (fftw_ends N C P r - fftw_starts N C P r).
Proof.
  intros N C P r HC HD. rewrite axis_elements_seq.
  destruct (fftw_layout N C P r HC HD) as [-> ->]. by rewrite Nat.mul_sub_distr_l.
Qed.
Print Assumptions fftw_blocks_are_layout_blocks.

(** C06.  The plain-MPI transposes ignore chunks: with chunk size 1 their blocks are the
    layout's; otherwise they may differ. *)
Theorem mpi_blocks_are_layout_blocks : forall N P r,
  axis_elements N 1 false P r = seq (starts N P r) (counts N P r).
Proof.
  intros N P r. pose proof (fftw_blocks_are_layout_blocks N 1 P r ltac:(lia) ltac:(apply Nat.divide_1_l)) as H.
  rewrite H. unfold fftw_starts, fftw_ends, counts, starts, ends.
  replace (cdiv N 1) with N; [by rewrite !Nat.mul_1_l|].
  unfold cdiv. replace (N + 1 - 1) with N by lia. by rewrite Nat.div_1_r.
Qed.
Print Assumptions mpi_blocks_are_layout_blocks.

Theorem mpi_blocks_chunked_refuted :
  axis_elements 6 2 false 2 0 <> seq (starts 6 2 0) (counts 6 2 0).
Proof. discriminate. Qed.
Print Assumptions mpi_blocks_chunked_refuted.

(** C06.  With the "mpi" transpose library the plan is built with five arguments for a
    four-argument constructor. *)
Theorem mpi_plan_constructed_refuted : plan_constructed MPI = false /\ plan_constructed FFTW = true.
Proof. done. Qed.
Print Assumptions mpi_plan_constructed_refuted.

Example transpose_ex :
  let RL p := fun '(n0, n1, n2, n3) => 100 * n0 + 10 * (starts 3 2 p + n1) + n2 + 0 * n3 in
  let buf (q : nat) := replicate (CL_size 1 3 3 1 2 q) 0 in
  map (fun q => map (localize_columns 1 3 3 1 2 RL (fun _ => []) buf (fun _ _ => 7) q)
                    (box [0] (seq 0 3) (seq 0 (counts 3 2 q)) [0])) [0; 1]
  = [[0; 1; 10; 11; 20; 21]; [2; 12; 22]].
Proof. reflexivity. Qed.

(** C07.  Moving a group of fields together gives, field by field, what moving each one alone
    gives: same data, same label, for every mix of shapes, ranks and missing plans. *)
Theorem increment_group_is_pointwise :
  forall (K C : Type) (EK : EqDecision K) (plan : K -> option (list C -> list C)) (t : K -> C -> C) l0 l1 fs,
  (forall k p, plan k = Some p -> forall cs, p cs = map (t k) cs) ->
  increment_group plan l0 l1 fs = map (move_single plan l1) fs.
Proof.
  intros K C EK plan t l0 l1 fs H. unfold increment_group. rewrite (groups_ok plan t H).
  apply map_ext. intros f. unfold target, move_single. by destruct (plan (key f)).
Qed.
Print Assumptions increment_group_is_pointwise.

(** C07.  In the other direction this holds when every field has a plan... *)
Theorem decrement_group_is_pointwise :
  forall (K C : Type) (EK : EqDecision K) (plan : K -> option (list C -> list C)) (t : K -> C -> C) l0 l1 fs,
  (forall k p, plan k = Some p -> forall cs, p cs = map (t k) cs) ->
  Forall (fun f => plan (key f) <> None) fs ->
  decrement_group plan l0 l1 fs = map (move_single plan l0) fs.
Proof.
  intros K C EK plan t l0 l1 fs H HF. unfold decrement_group. rewrite (groups_ok plan t H).
  apply map_ext_in. intros f Hf%elem_of_list_In. rewrite Forall_forall in HF. specialize (HF f Hf).
  unfold target, move_single. by destruct (plan (key f)).
Qed.
Print Assumptions decrement_group_is_pointwise.

(** C07.  ... and fails for every field without one: it keeps its data but is left labelled
    with the layout it came from instead of the one requested. *)
Theorem decrement_group_label_refuted :
  forall (K C : Type) (EK : EqDecision K) (plan : K -> option (list C -> list C)) (t : K -> C -> C) l0 l1 fs i f,
  (forall k p, plan k = Some p -> forall cs, p cs = map (t k) cs) ->
  fs !! i = Some f -> plan (key f) = None -> l0 <> l1 ->
  decrement_group plan l0 l1 fs !! i = Some (Fld (key f) (comps f) l1) /\
  decrement_group plan l0 l1 fs !! i <> Some (move_single plan l0 f).
Proof.
  intros K C EK plan t l0 l1 fs i f H Hi Hp Hne.
  assert (decrement_group plan l0 l1 fs !! i = Some (Fld (key f) (comps f) l1)) as E.
  { unfold decrement_group. rewrite (groups_ok plan t H).
    change (map ?g fs) with (g <$> fs). rewrite list_lookup_fmap, Hi. simpl.
    unfold target. by rewrite Hp. }
  split; [done|]. rewrite E. unfold move_single. rewrite Hp. congruence.
Qed.
Print Assumptions decrement_group_label_refuted.

Example group_ex :
  let plan (k : nat) := if decide (k = 0) then None else Some (map (Nat.add k)) in
  let fs := [Fld 1 [10; 20] 5; Fld 0 [7] 5; Fld 2 [1] 5; Fld 1 [30] 5] in
  increment_group plan 5 6 fs = [Fld 1 [11; 21] 6; Fld 0 [7] 6; Fld 2 [3] 6; Fld 1 [31] 6]
  /\ decrement_group plan 4 5 fs = [Fld 1 [11; 21] 4; Fld 0 [7] 5; Fld 2 [3] 4; Fld 1 [31] 4].
Proof. done. Qed.
