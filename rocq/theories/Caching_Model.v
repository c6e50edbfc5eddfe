(** Caches: dedalus/tools/cache.py.

    Simplifications: hashable Python values are atoms, strings and tuples, and equal keys are equal
    values (Python identifies 1, 1.0 and True as keys); functions are pure functions of their bound
    arguments and take no [*args], [**kw] or keyword-only arguments. *)
From stdpp Require Import gmap strings list.

Inductive val := Atom (n : Z) | Str (s : string) | Tup (l : list val).
Global Instance val_eq_dec : EqDecision val.
Proof.
  refine (fix go (x y : val) {struct x} : Decision (x = y) :=
    match x, y with
    | Atom m, Atom n => cast_if (decide (m = n))
    | Str s, Str t => cast_if (decide (s = t))
    | Tup l, Tup k => cast_if (@list_eq_dec _ go l k)
    | _, _ => right _
    end); clear go; abstract congruence.
Defined.

Inductive exn := TypeError | KeyError | ValueError | UserError (n : nat).
Inductive outcome (R : Type) := Val (r : R) | Raise (e : exn).
Global Arguments Val {R}. Global Arguments Raise {R}.

(** A function: names of its arguments, default values, and what it computes from the bound
    arguments. *)
Record func (R : Type) := Func { names : list string; defaults : string -> option val; body : list val -> outcome R }.
Global Arguments Func {R}. Global Arguments names {R}. Global Arguments defaults {R}. Global Arguments body {R}.

Definition kwargs := list (string * val).
Definition kw_get (kw : kwargs) (name : string) : option val := (fun x => x.2.2) <$> list_find (fun p => p.1 = name) kw.

(** cache.py:153-162, [serialize_call]; [None]: the key error of [defaults[name]]. *)
Definition serialize_call {R} (f : func R) (args : list val) (kw : kwargs) : option (list val) :=
  rest ← mapM (fun name => match kw_get kw name with Some v => Some v | None => defaults f name end) (drop (length args) (names f));
  Some (args ++ rest).

(** The binding of arguments by Python (language reference, "Calls"); [None] is a type error. *)
Definition py_bind {R} (f : func R) (args : list val) (kw : kwargs) : option (list val) :=
  if decide (length args <= length (names f) /\ Forall (fun p => p.1 ∈ drop (length args) (names f)) kw)
  then rest ← mapM (fun name => match kw_get kw name with Some v => Some v | None => defaults f name end) (drop (length args) (names f));
       Some (args ++ rest)
  else None.
(** [function( *args, **kw)]. *)
Definition py_call {R} (f : func R) (args : list val) (kw : kwargs) : outcome R :=
  match py_bind f args kw with Some b => body f b | None => Raise TypeError end.

(** [OrderedDict]: entries in the order of insertion. *)
Definition cache (R : Type) := list (val * R).
Fixpoint cache_get {R} (c : cache R) (k : val) : option R :=
  match c with [] => None | (k', r) :: c => if decide (k' = k) then Some r else cache_get c k end.
Fixpoint cache_set {R} (k : val) (r : R) (c : cache R) : cache R :=
  match c with [] => [(k, r)] | (k', r') :: c => if decide (k' = k) then (k', r) :: c else (k', r') :: cache_set k r c end.

(** cache.py:83-84: [popitem(last=False)] while the size is too large; [None]: its key error on an
    empty cache. *)
Fixpoint reduce {R} (max_size : option nat) (c : cache R) : option (cache R) :=
  match max_size with
  | None => Some c
  | Some m => if decide (length c < m) then Some c else match c with [] => None | _ :: c => reduce max_size c end
  end.

Definition direct_call (args : list val) (kw : kwargs) : val := Tup [Tup args; Tup (map (fun p => Tup [Str p.1; p.2]) kw)].

(** cache.py:66-89, [CachedFunction.__call__].  The result has the new cache, the outcome, and
    whether the function was called. *)
Definition cached_call {R} (f : func R) (max_size : option nat) (c : cache R) (args : list val) (kw : kwargs) : cache R * outcome R * bool :=
  match cache_get c (direct_call args kw) with
  | Some r => (c, Val r, false)
  | None =>
      match serialize_call f args kw with
      | None => (c, Raise KeyError, false)
      | Some call =>
          match cache_get c (Tup call) with
          | Some r => (cache_set (direct_call args kw) r c, Val r, false)
          | None =>
              match reduce max_size c with
              | None => ([], Raise KeyError, false)
              | Some c =>
                  match py_call f args kw with
                  | Val r => (cache_set (Tup call) r (cache_set (direct_call args kw) r c), Val r, true)
                  | Raise e => (c, Raise e, true)
                  end
              end
          end
      end
  end.

(** A history of calls: the outcomes, and the calls that reached the function. *)
Fixpoint calls {R} (f : func R) (max_size : option nat) (c : cache R) (h : list (list val * kwargs)) : cache R * list (outcome R) * list (list val * kwargs) :=
  match h with
  | [] => (c, [], [])
  | x :: h =>
      let '(c, o, computed) := cached_call f max_size c x.1 x.2 in
      let '(c, os, log) := calls f max_size c h in
      (c, o :: os, if (computed : bool) then x :: log else log)
  end.

(** ** Cached methods *)
(** cache.py:92-109.  The instance [i] is the atom [i]; each instance has its own cache for each
    cached method, made at the first access. *)
Definition method_state (R : Type) := gmap (nat * string) (cache R).
Definition method_call {R} (methods : string -> func R) (max_size : option nat) (st : method_state R) (i : nat) (m : string) (args : list val) (kw : kwargs)
  : method_state R * outcome R :=
  let c := default [] (st !! (i, m)) in
  let '(c, o, _) := cached_call (methods m) max_size c (Atom (Z.of_nat i) :: args) kw in
  (<[(i, m) := c]> st, o).
Definition method_call_t := (nat * string * list val * kwargs)%type.
Fixpoint method_calls {R} (methods : string -> func R) (max_size : option nat) (st : method_state R) (h : list method_call_t) : method_state R * list (outcome R) :=
  match h with
  | [] => (st, [])
  | (i, m, args, kw) :: h =>
      let '(st, o) := method_call methods max_size st i m args kw in
      let '(st, os) := method_calls methods max_size st h in (st, o :: os)
  end.

(** Overridden cached methods of one name, the most derived first.  A method body gets its bound
    arguments and, if it calls [super().name(...)] with the same arguments, that result.  Access through
    the instance finds the attribute that was set last; access through [super()] makes a new cached
    method of the next class and sets the same attribute (cache.py:96-108).  The state is the bound
    level and its cache. *)
Record layer (R : Type) := Layer { calls_super : bool; layer_body : list val -> option R -> R }.
Global Arguments Layer {R}. Global Arguments calls_super {R}. Global Arguments layer_body {R}.
Definition attr (R : Type) := option (nat * list (list val * R)).
Fixpoint run_layer {R} (layers : list (layer R)) (level : nat) (b : list val) (bottom : R) (a : attr R) : R * attr R :=
  match layers with
  | [] => (bottom, a)
  | l :: layers =>
      if calls_super l then
        match layers with
        | [] => (layer_body l b (Some bottom), a)
        | _ =>
            let '(r, a') := run_layer layers (S level) b bottom (Some (S level, [])) in
            let a' := match a' with Some (lv, c) => if decide (lv = S level) then Some (lv, (b, r) :: c) else a' | None => a' end in
            (layer_body l b (Some r), a')
        end
      else (layer_body l b None, a)
  end.
(** [instance.name(b)]; [bottom] is the value of the uncached method at the end of the chain. *)
Definition layered_call {R} (layers : list (layer R)) (bottom : R) (a : attr R) (b : list val) : R * attr R :=
  let '(level, c) := match a with Some x => x | None => (0, []) end in
  match list_find (fun x => x.1 = b) c with
  | Some (_, x) => (x.2, Some (level, c))
  | None =>
      let '(r, a') := run_layer (drop level layers) level b bottom (Some (level, c)) in
      (r, match a' with Some (lv, c') => if decide (lv = level) then Some (lv, (b, r) :: c') else a' | None => a' end)
  end.

(** ** Cached attributes *)
(** cache.py:15-37: the first access stores the value on the instance.  The instance's other state is
    [S]; the attribute is computed from it. *)
Inductive attr_event (S : Type) := Get | Change (s : S).
Global Arguments Get {S}. Global Arguments Change {S}.
Fixpoint attr_events {S R} (method : S -> R) (s : S) (stored : option R) (h : list (attr_event S)) : list R :=
  match h with
  | [] => []
  | Get :: h => let r := match stored with Some r => r | None => method s end in r :: attr_events method s (Some r) h
  | Change s :: h => attr_events method s stored h
  end.

(** ** Cached classes *)
(** cache.py:112-150.  [init] is the constructor with its signature; [preprocess] is the class's
    [_preprocess_cache_args], which may raise.  Objects are numbered; [made] has the arguments with
    which each was initialised, [instances] is the weak dictionary. *)
Record class_state := ClassState { next_id : nat; made : gmap nat (list val); instances : list (list val * nat) }.
Record class := Class { init : func unit; preprocess : list val -> outcome (list val) }.
Definition instance_get (l : list (list val * nat)) (k : list val) : option nat := (fun x => x.2.2) <$> list_find (fun x => x.1 = k) l.

(** The garbage collector removes objects; their entries leave the weak dictionary. *)
Definition collect (ids : list nat) (st : class_state) : class_state :=
  ClassState (next_id st) (made st) (filter (fun x => x.2 ∉ ids) (instances st)).

(** cache.py:123-138.  [gc] are the objects collected between the membership test and the final
    lookup. *)
Definition construct (c : class) (st : class_state) (args : list val) (kw : kwargs) (gc : list nat) : class_state * outcome nat :=
  match py_bind (init c) args kw with
  | None => (st, Raise TypeError)
  | Some full =>
      match preprocess c full with
      | Raise e => (st, Raise e)
      | Val full =>
          match instance_get (instances st) full with
          | None =>
              let st := collect gc st in
              let i := next_id st in
              (ClassState (S i) (<[i := full]> (made st)) ((full, i) :: instances st), Val i)
          | Some _ =>
              let st := collect gc st in
              match instance_get (instances st) full with Some i => (st, Val i) | None => (st, Raise KeyError) end
          end
      end
  end.
