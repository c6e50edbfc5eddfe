(** What the output folder should contain. *)
From stdpp Require Import gmap list list_numbers.
From Verif Require Import Files_Model.

(** The writes of a run are divided into sets of [m], in order. *)
Definition chunk {A} (m : option nat) (q : nat) (rs : list A) : list A :=
  match m with
  | Some m => take m (drop (q * m) rs)
  | None => if decide (q = 0) then rs else []
  end.

(** How many writes of the run come before set [q] of the run. *)
Definition before (m : option nat) (q : nat) : nat := match m with Some m => q * m | None => 0 end.

(** How many sets a run of [n] writes needs. *)
Definition sets_used (m : option nat) (n : nat) : nat :=
  match m with Some m => (n + m - 1) `div` m | None => n `min` 1 end.

(** The file of set [n], holding the writes [rs] numbered from [first]: one column per dataset. *)
Definition set_file (n : nat) (m : option nat) (ntasks : nat) (first : Z) (rs : list (nat -> Z)) : h5 :=
  H5 n (length rs) m
     (map (fun c => if decide (c = wn) then map (fun i => first + Z.of_nat i)%Z (seq 0 (length rs))
                    else map (fun r => r c) rs) (seq 0 (5 + ntasks))).

(** The folder after a run: sets below the first one as before, then the sets of the run. *)
Definition holds_run (s : nat) (t : Z) (m : option nat) (ntasks : nat) (d0 : dir) (rs : list (nat -> Z)) (d : dir) : Prop :=
  strays d = strays d0 /\
  (forall n, n < s -> joint d !! n = joint d0 !! n /\ folders d !! n = folders d0 !! n) /\
  forall q, joint d !! (s + q) =
    match chunk m q rs with
    | [] => None
    | rs' => Some (set_file (s + q) m ntasks (t + 1 + Z.of_nat (before m q)) rs')
    end.

(** The datasets [c] of the sets 1, ..., [S], one after the other. *)
Definition column (c S : nat) (d : dir) : list Z :=
  concat (map (fun n => match joint d !! n with Some f => dataset c f | None => [] end) (seq 1 S)).
