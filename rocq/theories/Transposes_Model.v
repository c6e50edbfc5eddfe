(** Model of the MPI transposes (dedalus/core/transposes.pyx) and of grouped transposes
    (dedalus/core/distributor.py). *)
From stdpp Require Import list list_numbers.
From Verif Require Import Blocks_Model.

(** ** AlltoallvTranspose *)

(** dedalus/core/transposes.pyx:301-311.  [B = ceil(N / size)],
    [starts = minimum(B*ranks, N)], [ends = minimum(B*(ranks+1), N)]. *)
Definition starts (N P r : nat) : nat := Nat.min (cdiv N P * r) N.
Definition ends (N P r : nat) : nat := Nat.min (cdiv N P * (r + 1)) N.
(** dedalus/core/transposes.pyx:312-316. *)
Definition counts (N P r : nat) : nat := ends N P r - starts N P r.

(** dedalus/core/transposes.pyx:67-94 ([FFTWTranspose]): the same with chunks,
    [B = C * ceil(ceil(N/C) / size)]. *)
Definition fftw_starts (N C P r : nat) : nat := Nat.min (C * cdiv (cdiv N C) P * r) N.
Definition fftw_ends (N C P r : nat) : nat := Nat.min (C * cdiv (cdiv N C) P * (r + 1)) N.

(** A four-dimensional index (n0, n1, n2, n3) of the reduced arrays. *)
Definition idx4 : Type := nat * nat * nat * nat.

(** The four nested loops [for n0 .. for n1 .. for n2 .. for n3], in order. *)
Definition box (r0 r1 r2 r3 : list nat) : list idx4 :=
  flat_map (fun n0 => flat_map (fun n1 => flat_map (fun n2 =>
    map (fun n3 => (n0, n1, n2, n3)) r3) r2) r1) r0.

(** [range(a, b)]. *)
Definition range (a b : nat) : list nat := seq a (b - a).

Section plan.
  Context {A : Type} (N0 N1 N2 N3 P : nat).

  (** dedalus/core/transposes.pyx:360-379: order in which [split_rows]/[combine_rows] visit the
      column-local array of rank [q]. *)
  Definition row_order (q : nat) : list idx4 :=
    flat_map (fun proc => box (seq 0 N0) (range (starts N1 P proc) (ends N1 P proc))
                              (seq 0 (counts N2 P q)) (seq 0 N3)) (seq 0 P).
  (** dedalus/core/transposes.pyx:404-423: order in which [split_columns]/[combine_columns]
      visit the row-local array of rank [p]. *)
  Definition col_order (p : nat) : list idx4 :=
    flat_map (fun proc => box (seq 0 N0) (seq 0 (counts N1 P p))
                              (range (starts N2 P proc) (ends N2 P proc)) (seq 0 N3)) (seq 0 P).

  (** [B[i] = A[...]; i = i + 1] along an order. *)
  Definition split (order : list idx4) (a : idx4 -> A) : list A := map a order.

  (** [A[...] = B[i]; i = i + 1] along an order. *)
  Fixpoint combine_into (order : list idx4) (b : list A) (a : idx4 -> A) : idx4 -> A :=
    match order, b with
    | o :: os, x :: xs => combine_into os xs (fun i => if decide (i = o) then x else a i)
    | _, _ => a
    end.

  (** dedalus/core/transposes.pyx:320-325. Counts and displacements of rank [r] for peer [s]. *)
  Definition CL_displs (r s : nat) : nat := N0 * counts N2 P r * N3 * starts N1 P s.
  Definition RL_displs (r s : nat) : nat := N0 * counts N1 P r * N3 * starts N2 P s.
  Definition CL_counts (r s : nat) : nat := N0 * counts N2 P r * N3 * counts N1 P s.
  Definition RL_counts (r s : nat) : nat := N0 * counts N1 P r * N3 * counts N2 P s.
  (** dedalus/core/transposes.pyx:326-328. *)
  Definition CL_size (r : nat) : nat := N0 * N1 * counts N2 P r * N3.
  Definition RL_size (r : nat) : nat := N0 * counts N1 P r * N2 * N3.

  (** Overwrite a buffer from position [pos]. *)
  Definition write (pos : nat) (sec buf : list A) : list A :=
    take pos buf ++ sec ++ drop (pos + length sec) buf.

  (** MPI [Alltoallv]: rank [q] receives from each rank [p] the section of [p]'s send buffer
      that [p]'s counts and displacements assign to [q], placed at [q]'s displacement for [p].
      (MPI's documented behaviour; requires matching counts, see [transpose_counts_match].) *)
  Definition alltoallv (send : nat -> list A) (scounts sdispls : nat -> nat -> nat)
      (recv : nat -> list A) (rdispls : nat -> nat -> nat) (q : nat) : list A :=
    foldl (fun buf p => write (rdispls q p)
                          (take (scounts p q) (drop (sdispls p q) (send p))) buf)
          (recv q) (seq 0 P).

  (** dedalus/core/transposes.pyx:344-358.  [localize_columns] on all ranks: from the row-local
      arrays [RL p] to the column-local arrays; [CLbuf], [RLbuf]: old contents of the plan's
      buffers, [CL]: old contents of the output arrays. *)
  Definition localize_columns (RL : nat -> idx4 -> A) (RLbuf CLbuf : nat -> list A)
      (CL : nat -> idx4 -> A) (q : nat) : idx4 -> A :=
    let send p := if decide (0 < counts N1 P p) then split (col_order p) (RL p) else RLbuf p in
    let b := alltoallv send RL_counts RL_displs CLbuf CL_displs q in
    if decide (0 < counts N2 P q) then combine_into (row_order q) b (CL q) else CL q.

  (** dedalus/core/transposes.pyx:329-342.  [localize_rows]. *)
  Definition localize_rows (CL : nat -> idx4 -> A) (CLbuf RLbuf : nat -> list A)
      (RL : nat -> idx4 -> A) (p : nat) : idx4 -> A :=
    let send q := if decide (0 < counts N2 P q) then split (row_order q) (CL q) else CLbuf q in
    let b := alltoallv send CL_counts CL_displs RLbuf RL_displs p in
    if decide (0 < counts N1 P p) then combine_into (col_order p) b (RL p) else RL p.
End plan.

(** dedalus/core/distributor.py:740 against dedalus/core/transposes.pyx:287 and 60: number of
    constructor arguments (without self) of the two planner classes.  [_plan] passes five. *)
Inductive planner := FFTW | MPI.
Definition planner_arity (p : planner) : nat := match p with FFTW => 5 | MPI => 4 end.
Definition plan_constructed (p : planner) : bool := bool_decide (planner_arity p = 5).

(** ** Grouped transposes *)

(** A field: its shape key (sub-shape and chunk shape, encoded), its components' local data,
    and the index of the layout it claims to be in. *)
Record fld (K C : Type) := Fld { key : K; comps : list C; label : nat }.
Arguments Fld {K C}. Arguments key {K C}. Arguments comps {K C}. Arguments label {K C}.

Section group.
  Context {K C : Type} `{EqDecision K}.
  (** [plan k]: [None] when the code builds no plan for this key; otherwise the action of the
      plan on the list of components (dedalus/core/distributor.py:729-740). *)
  Context (plan : K -> option (list C -> list C)).

  (** dedalus/core/distributor.py:797-812 (and 814-826 with the target label of the other end):
      move one field. *)
  Definition move_single (lbl : nat) (f : fld K C) : fld K C :=
    match plan (key f) with
    | Some t => Fld (key f) (t (comps f)) lbl
    | None => Fld (key f) (comps f) lbl
    end.

  (** dedalus/core/distributor.py:751-760.  Append to the group with the same key, keeping the
      order of first appearance ([OrderedDict]); a field is represented by its position. *)
  Fixpoint add_group (k : K) (i : nat) (gs : list (K * list nat)) : list (K * list nat) :=
    match gs with
    | [] => [(k, [i])]
    | (k', is') :: r => if decide (k = k') then (k', is' ++ [i]) :: r else (k', is') :: add_group k i r
    end.
  Definition group_keys (fs : list (fld K C)) : list (K * list nat) :=
    foldl (fun gs i => match fs !! i with Some f => add_group (key f) i gs | None => gs end)
          [] (seq 0 (length fs)).

  (** dedalus/core/distributor.py:866-872: [data1[i:i+ncomp]] for the fields in order. *)
  Fixpoint split_comps (ns : list nat) (d : list C) : list (list C) :=
    match ns with
    | [] => []
    | n :: ns' => take n d :: split_comps ns' (drop n d)
    end.

  (** dedalus/core/distributor.py:831-875 / 880-923 for one group: [None] plan relabels with
      [lbl_none]; otherwise the components of all fields are concatenated, moved by one plan
      and split again. *)
  Definition move_group (lbl lbl_none : nat) (k : K) (is : list nat) (fs : list (fld K C))
    : list (fld K C) :=
    match plan k with
    | None => foldl (fun fs i => alter (fun f => Fld (key f) (comps f) lbl_none) i fs) fs is
    | Some t =>
        let gs := omap (fun i => fs !! i) is in
        let out := split_comps (map (fun f => length (comps f)) gs) (t (concat (map comps gs))) in
        foldl (fun fs ic => alter (fun f => Fld (key f) ic.2 lbl) ic.1 fs) fs (zip is out)
    end.

  (** dedalus/core/distributor.py:828-875: [increment_group]; every field ends labelled
      [layout1]. *)
  Definition increment_group (l0 l1 : nat) (fs : list (fld K C)) : list (fld K C) :=
    foldl (fun fs g => move_group l1 l1 g.1 g.2 fs) fs (group_keys fs).
  (** dedalus/core/distributor.py:877-924: [decrement_group]; without a plan the code writes
      [field.preset_layout(self.layout1)]. *)
  Definition decrement_group (l0 l1 : nat) (fs : list (fld K C)) : list (fld K C) :=
    foldl (fun fs g => move_group l0 l1 g.1 g.2 fs) fs (group_keys fs).
End group.
