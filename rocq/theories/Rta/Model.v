(** Model of search/rtastar.hpp: real-time A-star.

    Simplifications: as in Search/Domain.v (states are their own packed form); the table [seen] is a list of
    states with the value stored for each (the hash table is treated in Hash/, the node pool in Pool/);
    nlook is a natural number (the constructor ends the program if it is negative, rtastar.hpp:30-31);
    counters do not overflow; output is left out.  [rnd k n] is the value of the k-th call
    randgen.integer(0, n-1) (utils/ Rand is treated in Rand/). *)
From stdpp Require Import prelude.
From Coq Require Import ZArith.
From Verif.Search Require Import Domain Model.
Open Scope Z_scope.

(** The counters of search/search.hpp:18-20, and how often limit() was called: the time flag is looked at then. *)
Record rcount := RCount { r_expd : nat; r_gend : nat; r_calls : nat }.
Definition radd_expd (st : rcount) : rcount := RCount (S (r_expd st)) (r_gend st) (r_calls st).
Definition radd_gend (st : rcount) : rcount := RCount (r_expd st) (S (r_gend st)) (r_calls st).
Definition rcalled (st : rcount) : rcount := RCount (r_expd st) (r_gend st) (S (r_calls st)).

(** rtastar.hpp:208-210; Cost(-1) stands for no value. *)
Definition better (a b : Z) : bool := bool_decide (b = -1) || (bool_decide (a ≠ -1) && bool_decide (a < b)).

Section rta.
Context (D : domain) (h : St D → Z) (lim : limits) (nlook : nat).

(** search.hpp:67-71. *)
Definition rreached (st : rcount) : bool :=
  timeup lim (r_calls st)
  || (bool_decide (0 < l_expd lim)%nat && bool_decide (l_expd lim ≤ r_expd st)%nat)
  || (bool_decide (0 < l_gend lim)%nat && bool_decide (l_gend lim ≤ r_gend st)%nat).

(** rtastar.hpp:172-181: the loop over the operators; [rec] is the recursive call, its results are the
    counters, alpha and the value. *)
Fixpoint leach (rec : rcount → Z → St D → Op D → Z → rcount * Z * Z)
    (s : St D) (pop : Op D) (g : Z) (os : list (Op D)) (st : rcount) (alpha bestf : Z) : rcount * Z * Z :=
  match os with
  | [] => (st, alpha, bestf)
  | o :: os =>
    if decide (o = pop) then leach rec s pop g os st alpha bestf
    else
      let '(t, c, r) := edge s o in
      let '(st, alpha, f) := rec (radd_gend st) alpha t r (g + c) in
      leach rec s pop g os st alpha (if better f bestf then f else bestf)
  end.

(** rtastar.hpp:161-184. *)
Fixpoint look (depth : nat) (st : rcount) (alpha : Z) (s : St D) (pop : Op D) (g : Z) : rcount * Z * Z :=
  let f := h s + g in
  let leaf := (rcalled st, if better f alpha then f else alpha, f) in
  match depth with
  | 0%nat => leaf
  | S depth =>
    if rreached st || negb (better f alpha) || isgoal s then leaf
    else leach (look depth) s pop g (ops s) (radd_expd (rcalled st)) alpha (-1)
  end.

(** seen.find. *)
Fixpoint lookup_seen (seen : list (St D * Z)) (s : St D) : option Z :=
  match seen with
  | [] => None
  | (t, v) :: seen => if decide (t = s) then Some v else lookup_seen seen s
  end.

(** Assignment to the value of an entry, rtastar.hpp:198. *)
Fixpoint assign (seen : list (St D * Z)) (s : St D) (v : Z) : list (St D * Z) :=
  match seen with
  | [] => []
  | (t, u) :: seen => if decide (t = s) then (t, v) :: seen else (t, u) :: assign seen s v
  end.

(** rtastar.hpp:190-205. *)
Definition storenode (seen : list (St D * Z)) (s : St D) (v : Z) : list (St D * Z) :=
  match lookup_seen seen s with Some _ => assign seen s v | None => (s, v) :: seen end.

(** rtastar.hpp:144-157. *)
Definition heuristic (seen : list (St D * Z)) (st : rcount) (s : St D) (pop : Op D) : rcount * Z :=
  match lookup_seen seen s with
  | Some v => (st, v)
  | None => let '(st, _, v) := look nlook st (-1) s pop 0 in (st, v)
  end.

(** rtastar.hpp:39-51. *)
Record current := Current { c_state : St D; c_op : Op D; c_pop : Op D; c_cost : Z; c_f : Z }.

(** rtastar.hpp:118-136: the loop of bestkids.  Its parameter sndf is a reference to the value stored for the
    start state [s0] (rtastar.hpp:57 and 60): it is read and written in the table. *)
Fixpoint kids (s0 cur : St D) (os : list (Op D)) (st : rcount) (seen : list (St D * Z)) (bests : list current)
    : rcount * list (St D * Z) * list current :=
  match os with
  | [] => (st, seen, bests)
  | o :: os =>
    let '(t, c, r) := edge cur o in
    let '(st, v) := heuristic seen (radd_gend st) t r in
    let f := if decide (v = -1) then v else v + c in
    let k := Current t o r c f in
    match bests with
    | [] => kids s0 cur os st seen [k]
    | b :: _ =>
      if better f (c_f b) then kids s0 cur os st (assign seen s0 (c_f b)) [k]
      else if decide (c_f b = f) then kids s0 cur os st seen (bests ++ [k])
      else if better f (default (-1) (lookup_seen seen s0)) then kids s0 cur os st (assign seen s0 f) bests
      else kids s0 cur os st seen bests
    end
  end.

(** rtastar.hpp:112-139. *)
Definition bestkids (s0 cur : St D) (st : rcount) (seen : list (St D * Z)) : rcount * list (St D * Z) * list current :=
  kids s0 cur (ops cur) (radd_expd st) (assign seen s0 (-1)) [].

(** rtastar.hpp:60-65: what is done at a state before moving on: the table after it and the candidates. *)
Definition visit (s0 cur : St D) (st : rcount) (seen : list (St D * Z)) : rcount * list (St D * Z) * list current :=
  let '(st, seen, bests) := bestkids s0 cur st seen in
  match bests with
  | [] => (st, seen, [])
  | _ => (st, storenode seen cur (default (-1) (lookup_seen seen s0)), bests)
  end.

(** rtastar.hpp:79-87: the path, and the operators, last one first. *)
Fixpoint rebuild (s : St D) (os : list (Op D)) : list (St D) :=
  match os with [] => [s] | o :: os => s :: rebuild (dest s o) os end.
Definition answer (s0 cur : St D) (os : list (Op D)) : list (St D) * list (Op D) :=
  if isgoal cur then (reverse (rebuild s0 os), reverse os) else ([], []).

Context (rnd : nat → nat → nat).

(** rtastar.hpp:59-68, cut off after [fuel] steps; [k] steps have been made, their operators are [os]. The
    result has the operators made so far and the last state. *)
Fixpoint rloop (fuel k : nat) (s0 cur : St D) (os : list (Op D)) (st : rcount) (seen : list (St D * Z))
    : option (rcount * St D * list (Op D)) :=
  match fuel with
  | 0%nat => None
  | S fuel =>
    if isgoal cur then Some (st, cur, os)
    else if rreached st then Some (rcalled st, cur, os)
    else
      match visit s0 cur (rcalled st) seen with
      | (st, _, []) => Some (st, cur, [])
      | (st, seen, bests) =>
        b ← bests !! rnd k (length bests);
        rloop fuel (S k) s0 (c_state b) (os ++ [c_op b]) st seen
      end
  end.

(** rtastar.hpp:53-88: res.path and res.ops; both are empty if no goal was reached. *)
Definition rtastar (s0 : St D) (fuel : nat) : option (rcount * (list (St D) * list (Op D))) :=
  '(st, cur, os) ← rloop fuel 0 s0 s0 [] (RCount 0 0 0) (storenode [] s0 (h s0));
  Some (st, answer s0 cur os).
End rta.
