(** Model of search/lsslrtastar.hpp with the flag -complete (195-205, 412-439): after a lookahead that found no goal,
    move to the best node of the last layer of equal f all of whose nodes were expanded.

    Simplifications: as in Lss/Model.v, whose lookahead, learning and way of following the parents are used unchanged.
    The loop at 427 runs over a hash table: the order in which it meets the nodes of the [k]th lookahead is the
    parameter [ord], any list of nodes.  f is the first half of the key of the open list, which keeps the value that
    a node was last pushed with; hCostLearning does not change f. *)
From stdpp Require Import prelude.
From Coq Require Import ZArith.
From Verif.Search Require Import Domain Model.
From Verif Require Import Rta.Model Lss.Model.
From Verif Require BinHeap.Model.
Open Scope Z_scope.

Section complete.
Context (D : domain) (h : St D → Z) (wt : Z) (onestep : bool) (lim : limits) (stop : nat → nat → bool).
Context (ord : nat → lss D → list nat).

(** lsslrtastar.hpp:427-438: the loop over lssNodes; [layer] and [best] as in the code. *)
Fixpoint layers (ns : list (lnode D)) (q : heap (Z * Z)) (cur : St D) (minf : Z) (es : list nat) (layer : Z)
    (best : option nat) : option (option nat) :=
  match es with
  | [] => Some best
  | e :: es =>
    n ← ns !! e;
    let f := (BinHeap.Model.key q e).1 in
    if decide (l_st D n = cur) then layers ns q cur minf es layer best
    else if negb (l_cl D n) then layers ns q cur minf es layer best
    else if decide (f = minf) then layers ns q cur minf es layer best
    else if decide (f < layer) then layers ns q cur minf es layer best
    else
      let '(layer, best) := if decide (layer < f) then (f, Some e) else (layer, best) in
      let best :=
        if decide (f = layer) then
          match best with
          | None => Some e
          | Some b => if BinHeap.Model.pred astar_lt q e b then Some e else Some b
          end
        else best in
      layers ns q cur minf es layer best
  end.

(** lsslrtastar.hpp:424-438; *lssOpen.front() of an empty open list is undefined behaviour. *)
Definition choose (k : nat) (L : lss D) (cur : St D) : option (option nat) :=
  e ← BinHeap.Model.front (s_open D L);
  layers (s_nodes D L) (s_open D L) cur (BinHeap.Model.key (s_open D L) e).1 (ord k L) 0 None.

(** lsslrtastar.hpp:409-473: what is chosen is followed as a goal is; without a choice, as without the flag. *)
Definition movec (k : nat) (L : lss D) (cur : St D) (goal : option nat) : option (list (Op D) * St D) :=
  best ← match goal with Some b => Some (Some b) | None => choose k L cur end;
  move D onestep L cur best.

(** lsslrtastar.hpp:229-240, as [Lss.Model.sloop]. *)
Fixpoint sloopc (fuel efuel k : nat) (cur : St D) (os : list (Op D)) (m : mem D) (st : rcount)
    : option (mem D * rcount * St D * list (Op D)) :=
  match fuel with
  | 0%nat => None
  | S fuel =>
    if isgoal cur then Some (m, st, cur, os)
    else if rreached lim st then Some (m, rcalled st, cur, os)
    else
      '(m, L, st, goal) ← expandLss D lim stop efuel k m (rcalled st) cur;
      if rreached lim st then Some (m, rcalled st, cur, os)
      else
        m ← match goal with Some _ => Some m | None => hCostLearning D h wt efuel m L end;
        '(os', cur) ← movec k L cur goal;
        sloopc fuel efuel (S k) cur (os ++ os') m (rcalled st)
  end.

(** lsslrtastar.hpp:222-259, as [Lss.Model.lsslrta]. *)
Definition lsslrtac (s0 : St D) (fuel : nat) : option (rcount * (list (St D) * list (Op D))) :=
  '(_, st, cur, os) ← sloopc fuel fuel 0 s0 [] (mem0 D h) (RCount 0 0 0);
  Some (st, answer D s0 cur os).
End complete.
