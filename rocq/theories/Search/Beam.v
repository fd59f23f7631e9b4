(** Model of search/beam.hpp: beam search.  considerkid and expand
    (beam.hpp:145-195) are the same code as those of astar.hpp plus -dropdups, and are taken from
    Search/Model.v.  [clr] is the clear method of the open list, which empties it but does not
    reset the indices kept in the nodes (search.hpp:132-134, 255-259; see C03).

    The time flag is read as in Search/Model.v, as a function of the number of expansions; a
    flag raised between two checks without an expansion in between only ends the search at
    the first of them instead of the second.  width is at least 1 (beam.hpp:73-74; the code reads
    it uninitialised if -width is missing). *)
From stdpp Require Import prelude.
From Coq Require Import ZArith.
From Verif Require Import Search.Model.

Section beam.
Context (D : domain) {P : Type}.
Context (pr_new : Z → St D → P) (pr_upd : P → Z → Z → P) (dropdups : bool).
Context (o : openlist (P * Z)) (clr : ol_T o → ol_T o) (lim : limits) (width : nat).

(** beam.hpp:101-105: pop until the beam is full or the list is empty; [k] places are left. *)
Fixpoint fill (k : nat) (q : ol_T o) : option (ol_T o * list nat) :=
  match k with
  | 0 => Some (q, [])
  | S k =>
    if ol_empty o q then Some (q, [])
    else '(q, n) ← ol_pop o q; '(q, b) ← fill k q; Some (q, n :: b)
  end.

(** beam.hpp:109-120: expand the nodes of the beam, stop at a goal. *)
Fixpoint process (b : list nat) (s : sstate D o) : option (sstate D o + outcome D * sstate D o) :=
  match b with
  | [] => Some (inl s)
  | n :: b =>
    if limit D o lim s then Some (inl s)
    else
      pn ← nodes D o s !! n;
      if isgoal (n_state D pn) then
        r ← solpath D (S (length (nodes D o s))) (nodes D o s) n;
        Some (inr (Some r, s))
      else
        s ← expand D pr_new pr_upd dropdups o s n;
        process b s
  end.

(** beam.hpp:96-123. *)
Fixpoint bloop (fuel : nat) (s : sstate D o) : option (outcome D * sstate D o) :=
  match fuel with
  | 0 => None
  | S fuel =>
    if ol_empty o (open D o s) || limit D o lim s then Some (None, s)
    else
      '(q, b) ← fill width (open D o s);
      r ← process b (set_open D o s (clr q));
      match r with
      | inl s => bloop fuel s
      | inr r => Some r
      end
  end.

(** beam.hpp:83-125. *)
Definition bsearch (s0 : St D) (fuel : nat) : option (outcome D * sstate D o) :=
  s ← init D pr_new o s0; bloop fuel s.
End beam.

(** beam.hpp:13-59: nodes and their order are those of A-star. *)
Definition beam D (h : St D → Z) dropdups o clr lim width :=
  bsearch D (astar_new h) astar_upd dropdups o clr lim width.
