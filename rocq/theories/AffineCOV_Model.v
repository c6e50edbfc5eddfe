(** Affine maps between native and problem coordinates, and the grids of intervals: dedalus/core/basis.py.

    Simplifications.  Reals without rounding.  [None] is an exception (a division by zero is one, as for Python
    numbers; numpy arrays would hold infinities). *)
From Coq Require Import List ZArith Reals String Bool.
Import ListNotations.
Local Open Scope R_scope.

(** A coordinate, by name or by value. *)
Inductive position := Named (s : string) | At (x : R).
(** The attributes of [AffineCOV] set at basis.py:60-67. *)
Record cov := Cov { native_left : R; native_right : R; native_length : R; native_center : R;
                    problem_left : R; problem_right : R; problem_length : R; problem_center : R; stretch : R }.
Definition pydiv (x y : R) : option R := if Req_EM_T y 0 then None else Some (x / y).
(** basis.py:58-67. *)
Definition affine_cov (native problem : R * R) : option cov :=
  let '(nl, nr) := native in let '(pl, pr) := problem in
  match pydiv (pr - pl) (nr - nl) with None => None | Some stretch =>
    Some (Cov nl nr (nr - nl) ((nl + nr) / 2) pl pr (pr - pl) ((pl + pr) / 2) stretch) end.
Definition one_of (s : string) (l : list string) : bool := existsb (String.eqb s) l.
(** basis.py:69-82. *)
Definition problem_coord (c : cov) (p : position) : option R :=
  match p with
  | Named s => if one_of s ["left"; "lower"]%string then Some (problem_left c)
               else if one_of s ["right"; "upper"]%string then Some (problem_right c)
               else if one_of s ["center"; "middle"]%string then Some (problem_center c)
               else None
  | At x => match pydiv (x - native_left c) (native_length c) with None => None | Some neutral => Some (problem_left c + neutral * problem_length c) end
  end.
(** basis.py:84-97. *)
Definition native_coord (c : cov) (p : position) : option R :=
  match p with
  | Named s => if one_of s ["left"; "lower"]%string then Some (native_left c)
               else if one_of s ["right"; "upper"]%string then Some (native_right c)
               else if one_of s ["center"; "middle"]%string then Some (native_center c)
               else None
  | At x => match pydiv (x - problem_left c) (problem_length c) with None => None | Some neutral => Some (native_left c + neutral * native_length c) end
  end.

(** basis.py:364-368 for a native grid; one axis, before [reshape_vector]. *)
Definition global_grid (c : cov) (native_grid : list R) : list (option R) := map (fun x => problem_coord c (At x)) native_grid.
(** basis.py:910-913, for [N] points. *)
Definition fourier_native_grid (N : nat) : list R := map (fun j => (2 * PI / INR N) * INR j) (seq 0 N).
(** basis.py:820. *)
Definition fourier_bounds : R * R := (0, 2 * PI).
(** basis.py:439, Jacobi. *)
Definition jacobi_bounds : R * R := (-1, 1).
