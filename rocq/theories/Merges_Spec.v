(** What merging should do. *)
From stdpp Require Import gmap strings list.
From Verif Require Import Merges_Model.

(** The data of a dataset: its own, or those of the process files for a virtual dataset. *)
Definition data_of (g : option (gmap string (list Z))) (name : string) (d : dset) : list Z :=
  match content d, g with
  | Some x, _ => x
  | None, Some files => default [] (files !! name)
  | None, None => []
  end.
(** The data of the tasks that a reader of file [f] sees. *)
Definition task_data (g : option (gmap string (list Z))) (f : h5) : list (string * list Z) :=
  map (fun nd => (nd.1, data_of g nd.1 nd.2)) (default [] (tasks f)).
Definition task_labels (f : h5) : list (list string) :=
  map (fun nd => map fst (ddims nd.2)) (default [] (tasks f)).
Definition virtual (nd : string * dset) : Prop := content nd.2 = None.

(** A dimension can be merged: its scale is in the file under the name that the merge looks for. *)
Definition dim_ready (sha : list Z -> string) (s : gmap string (list Z)) (dim : string * list string) : Prop :=
  if decide (dim.1 = "t") then forall n, n ∈ time_scales -> is_Some (s !! n)
  else if decide (dim.1 = "constant" \/ dim.1 = "") then is_Some (s !! "constant")
  else exists s0 l data, dim.2 = s0 :: l /\ s !! s0 = Some data /\ is_Some (s !! ("hash_" +:+ sha data)).

(** A file with everything that the merge reads. *)
Record ready (sha : list Z -> string) (f : h5) (s : gmap string (list Z)) (ts : list (string * dset)) : Prop := Ready {
  ready_set : is_Some (rattrs f !! "set_number");
  ready_name : is_Some (rattrs f !! "handler_name");
  ready_writes : is_Some (rattrs f !! "writes");
  ready_scales : scales f = Some s;
  ready_tasks : tasks f = Some ts;
  ready_attrs : forall n d k, (n, d) ∈ ts -> k ∈ copied_attrs -> is_Some (dattrs d !! k);
  ready_dims : forall n d dim, (n, d) ∈ ts -> dim ∈ ddims d -> dim_ready sha s dim }.

(** A joint file as the handlers of evaluator.py:512-564 write it: the attributes of a dataset are
    constant, grid_space and scales. *)
Definition handler_written (f : h5) : Prop :=
  is_Some (rattrs f !! "set_number") /\ is_Some (rattrs f !! "handler_name") /\ is_Some (rattrs f !! "writes") /\
  is_Some (scales f) /\
  exists n d ts, tasks f = Some ((n, d) :: ts) /\
    forall n d, (n, d) ∈ default [] (tasks f) -> 
      forall k, is_Some (dattrs d !! k) <-> k ∈ ["constant"; "grid_space"; "scales"].
