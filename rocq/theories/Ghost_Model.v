(** Copies of constant operands: [GhostBroadcaster] of dedalus/core/arithmetic.py.

    Simplifications.  Tensor indices are counted as axes that are local and not constant.  An array is its shape and a function of its indices.  Collective calls are taken
    in lockstep: the processes of a communicator go on only if all are at the same call with arrays of the same size; otherwise the program has no result (it would hang
    or abort).  That buffers are reused by later calls of the same broadcaster is not modelled; an array is looked at when it is returned. *)
From Coq Require Import List Arith Bool.
Import ListNotations.
From Verif Require Blocks_Model.
From Verif Require Import CSR_Spec.
Notation axis_elements := Blocks_Model.axis_elements.

(** An axis of the operand in the grid layout: whether it is local, whether the operand is constant along it ([domain.constant]), whether the result is not
    ([broadcast_dims]), and the size of chunks. *)
Record axis := Axis { is_local : bool; is_constant : bool; is_broadcast : bool; chunk : nat }.
(** distributor.py:331-335: [ext_mesh] and [ext_coords]. *)
Fixpoint extend (axes : list axis) (d : nat) (l : list nat) : list nat :=
  match axes with
  | [] => []
  | a :: axes => if is_local a then d :: extend axes d l else match l with x :: l => x :: extend axes d l | [] => d :: extend axes d [] end
  end.
(** distributor.py:357-401: local elements of the operand on the process with coordinates [coords]; [sizes]: grid sizes where it is not constant (there it is 1). *)
Fixpoint elements (axes : list axis) (sizes ext_mesh ext_coords : list nat) : list (list nat) :=
  match axes, sizes, ext_mesh, ext_coords with
  | a :: axes, n :: sizes, P :: ext_mesh, q :: ext_coords =>
      axis_elements (if is_constant a then 1 else n) (if is_constant a then 1 else chunk a) (is_local a) P q :: elements axes sizes ext_mesh ext_coords
  | _, _, _, _ => []
  end.
Definition local_elements (axes : list axis) (sizes mesh coords : list nat) : list (list nat) := elements axes sizes (extend axes 1 mesh) (extend axes 0 coords).

(** 877-878: [deploy_dims], for the dimensions of the mesh. *)
Definition deploy_dims (axes : list axis) : list bool := map (fun a => is_broadcast a && is_constant a) (filter (fun a => negb (is_local a)) axes).
(** [MPI_Cart_sub], as documented: the processes with the same coordinates in the dimensions that are not kept, in row-major order of the others. *)
Fixpoint sub_members (remain : list bool) (mesh coords : list nat) : list (list nat) :=
  match remain, mesh, coords with
  | r :: remain, m :: mesh, c :: coords => let rest := sub_members remain mesh coords in if r then flat_map (fun k => map (cons k) rest) (seq 0 m) else map (cons c) rest
  | _, _, _ => [[]]
  end.

Section Data.
Context {K : Type}.
Record array := Array { shape : list nat; value : list nat -> K }.
Definition size_of (a : array) : nat := size (shape a).
(** The local part of a field with global values [g]. *)
Fixpoint pick (els : list (list nat)) (idx : list nat) : list nat := match els, idx with e :: els, i :: idx => nth i e 0 :: pick els idx | _, _ => [] end.
Definition local_data (els : list (list nat)) (g : list nat -> K) : array := Array (map (@length nat) els) (fun idx => g (pick els idx)).

(** Programs that make collective calls: [comm.bcast(shape, root=0)] and [comm.Bcast(array, root=0)]. *)
Inductive prog {X : Type} := Ret (x : X) | BcastObject (mine : list nat) (k : list nat -> prog) | BcastArray (mine : array) (k : array -> prog) | Stop.
Arguments prog X : clear implicits.
Definition objects {X} (ps : list (prog X)) : option (list (list nat * (list nat -> prog X))) := fold_right (fun p r => match p, r with BcastObject m k, Some r => Some ((m, k) :: r) | _, _ => None end) (Some []) ps.
Definition arrays {X} (ps : list (prog X)) : option (list (array * (array -> prog X))) := fold_right (fun p r => match p, r with BcastArray m k, Some r => Some ((m, k) :: r) | _, _ => None end) (Some []) ps.
Definition results {X} (ps : list (prog X)) : option (list X) := fold_right (fun p r => match p, r with Ret x, Some r => Some (x :: r) | _, _ => None end) (Some []) ps.
Fixpoint lockstep {X} (fuel : nat) (ps : list (prog X)) : option (list X) :=
  match results ps, fuel with
  | Some xs, _ => Some xs
  | None, 0 => None
  | None, S fuel =>
      match objects ps with
      | Some ((m, k) :: r) => lockstep fuel (map (fun q => snd q m) ((m, k) :: r))
      | _ => match arrays ps with
             | Some ((m, k) :: r) => if forallb (fun q => size_of (fst q) =? size_of m) ((m, k) :: r) then lockstep fuel (map (fun q => snd q m) ((m, k) :: r)) else None
             | _ => None
             end
      end
  end.

(** tools/cache.py: the cache of one process, by local shape and data type (see Caching_Model.v); what is stored is [None] on the root. *)
Definition key := (list nat * nat)%type.
Definition key_eq (a b : key) : bool := if list_eq_dec Nat.eq_dec (fst a) (fst b) then snd a =? snd b else false.
Definition cache := list (key * option (list nat)).
Definition lookup (c : cache) (k : key) : option (option (list nat)) := match find (fun e => key_eq (fst e) k) c with Some e => Some (snd e) | None => None end.
(** 885-907: [ghost_data] and [cast] on one process; [root]: [subcomm.rank == 0]; [own]: the local data of the field.  The returned array is that of the root
    because a broadcast fills the buffers. *)
Definition finish (root : bool) (own : array) (c : cache) (entry : option (list nat)) : prog (cache * array) :=
  match (if root then Some own else match entry with Some s => Some (Array s (value own)) | None => None end) with
  | None => Stop
  | Some ghost => if size_of ghost =? 0 then Ret (c, ghost) else BcastArray ghost (fun a => Ret (c, a))
  end.
Definition cast (root : bool) (dtype : nat) (own : array) (c : cache) : prog (cache * array) :=
  let k := (shape own, dtype) in
  match lookup c k with
  | Some entry => finish root own c entry
  | None => BcastObject (shape own) (fun s => let entry := if root then None else Some s in finish root own ((k, entry) :: c) entry)
  end.
(** 880-883: all processes of one sub-communicator, or no communication at all (909-910). *)
Definition cast_all (axes : list axis) (mesh : list nat) (members : list (list nat)) (sizes : list nat) (dtype : nat) (g : list nat -> K) (caches : list cache) : option (list (cache * array)) :=
  let own c := local_data (local_elements axes sizes mesh c) g in
  if existsb (fun b => b) (deploy_dims axes)
  then lockstep 2 (map (fun p => cast (fst (fst p) =? 0) dtype (own (snd (fst p))) (snd p)) (combine (combine (seq 0 (length members)) members) caches))
  else Some (map (fun p => (snd p, own (fst p))) (combine members caches)).
(** A history of calls with fields of different sizes, types and values: what each call returned, if all returned. *)
Fixpoint casts (axes : list axis) (mesh : list nat) (members : list (list nat)) (history : list (list nat * nat * (list nat -> K))) (caches : list cache) : option (list (list array)) :=
  match history with
  | [] => Some []
  | (sizes, dtype, g) :: history =>
      match cast_all axes mesh members sizes dtype g caches with
      | None => None
      | Some rs => match casts axes mesh members history (map fst rs) with None => None | Some out => Some (map snd rs :: out) end
      end
  end.
(** numpy broadcasting of an operand with the same number of axes: axes of length 1 are read at 0. *)
Definition broadcast_read (a : array) (idx : list nat) : K := value a (map (fun p => if fst p =? 1 then 0 else snd p) (combine (shape a) idx)).
End Data.
Arguments array K : clear implicits. Arguments prog : clear implicits.
