(** Parsing of equation strings: dedalus/tools/parsing.py.

    A string is the list of its code points. [space] tells which characters [str.strip] removes; nothing is
    assumed about it except where said. *)
From stdpp Require Import numbers list.

Notation text := (list N).
Definition lparen : N := 40. Definition rparen : N := 41. Definition comma : N := 44. Definition equals : N := 61.
Definition blank : N := 32. Definition newline : N := 10.

(** parsing.py:21-28: one pass with the level of parentheses and the index. *)
Fixpoint scan (level : Z) (i : nat) (s : text) : list nat :=
  match s with
  | [] => []
  | c :: s =>
      if decide (c = lparen) then scan (level + 1) (S i) s
      else if decide (c = rparen) then scan (level - 1) (S i) s
      else if decide (c = equals /\ level = 0%Z) then i :: scan level (S i) s
      else scan level (S i) s
  end.

(** [str.strip()]. *)
Fixpoint lstrip (space : N -> bool) (s : text) : text :=
  match s with c :: s' => if space c then lstrip space s' else s | [] => [] end.
Definition strip (space : N -> bool) (s : text) : text := reverse (lstrip space (reverse (lstrip space s))).

Inductive split_result := Sides (l r : text) | NoEquals | ManyEquals.

(** parsing.py:8-37, [split_equation]. *)
Definition split_equation (space : N -> bool) (s : text) : split_result :=
  match scan 0 0 s with
  | [] => NoEquals
  | [i] => Sides (strip space (take i s)) (strip space (drop (S i) s))
  | _ => ManyEquals
  end.

(** parsing.py:52, [re.match]: a group of one or more characters, an opening parenthesis, a group of any
    characters, a closing parenthesis, at the start of the string.  No group matches a newline; the first
    group takes as much as it can, then the second.  [n] bounds the length of the first group. *)
Definition last_paren (s : text) : option nat := last (filter (fun j => s !! j = Some rparen) (seq 0 (length s))).
Fixpoint match_head (line : text) (n : nat) : option (text * text) :=
  match n with
  | 0 => None
  | S n' =>
      if decide (line !! n = Some lparen) then
        match last_paren (drop (S n) line) with
        | Some j => Some (take n line, take j (drop (S n) line))
        | None => match_head line n'
        end
      else match_head line n'
  end.
Fixpoint first_line (s : text) : text := match s with [] => [] | c :: s => if decide (c = newline) then [] else c :: first_line s end.
(** [str.split(',')]. *)
Fixpoint split_commas (s : text) : list text :=
  match s with
  | [] => [[]]
  | c :: s => if decide (c = comma) then [] :: split_commas s
              else match split_commas s with w :: ws => (c :: w) :: ws | [] => [[c]] end
  end.
(** parsing.py:40-59, [split_call]. *)
Definition split_call (call : text) : text * list text :=
  match match_head (first_line call) (length (first_line call)) with
  | Some (head, argstring) => (head, split_commas (filter (fun c => c <> blank) argstring))
  | None => (call, [])
  end.
(** [','.join(args)] and parsing.py:62-82, [lambdify_functions]; [lambda] and [colon] are the literal parts
    of the format string. *)
Fixpoint join (sep : text) (args : list text) : text :=
  match args with [] => [] | [a] => a | a :: args => a ++ sep ++ join sep args end.
Definition lambda : text := [108; 97; 109; 98; 100; 97; 32]%N.
Definition colon : text := [58; 32]%N.
Definition lambdify_functions (call result : text) : text * text :=
  match split_call call with
  | (head, []) => (call, result)
  | (head, args) => (head, lambda ++ join [comma] args ++ colon ++ result)
  end.
