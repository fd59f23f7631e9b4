(** Model of the bucketed open list used for integer costs:
    search/search.hpp:151-260, OpenList<Ops, Node, IntOpenCost>.

    Nodes are pointers ([nat]); the fields of a node reached through Ops
    (getind/setind, prio, tieprio) are maps in the state.  [None]: the program
    does not survive (failed assertion, access outside a vector, resize to a
    size that came from a negative int).  fill counters are [unsigned long] in the code and
    [Z] here: a decrement of 0 would wrap in the code and give -1 here. *)
From stdpp Require Import prelude.
From Coq Require Import ZArith.

(** search/search.hpp:198-200. *)
Record maxq := Maxq { mfill : Z; mmax : nat; bkts : list (list nat) }.

(** search/search.hpp:155. *)
Definition mq_new : maxq := Maxq 0 0 (replicate 100 []).

Definition setind (ind : nat → Z) (n : nat) (i : Z) : nat → Z :=
  λ x, if decide (x = n) then i else ind x.

(** search/search.hpp:157-167. *)
Definition mq_push (ind : nat → Z) (q : maxq) (n : nat) (p : nat) : option (maxq * (nat → Z)) :=
  let bs := if decide (length (bkts q) ≤ p) then resize (p + 1) [] (bkts q) else bkts q in
  let max := if decide (mmax q < p) then p else mmax q in
  b ← bs !! p;
  let ind := setind ind n (Z.of_nat (length b)) in
  Some (Maxq (mfill q + 1) max (<[p := b ++ [n]]> bs), ind).

(** search/search.hpp:170-171, the loop of Maxq::pop. *)
Fixpoint mq_scan (bs : list (list nat)) (max : nat) : option nat :=
  b ← bs !! max;
  match b, max with
  | [], S m => mq_scan bs m
  | _, _ => Some max
  end.

(** search/search.hpp:169-177. *)
Definition mq_pop (ind : nat → Z) (q : maxq) : option (maxq * (nat → Z) * nat) :=
  m ← mq_scan (bkts q) (mmax q);
  b ← bkts q !! m;
  n ← last b;
  Some (Maxq (mfill q - 1) m (<[m := removelast b]> (bkts q)), setind ind n (-1), n).

(** search/search.hpp:186-189: the last element of the bucket takes the hole. *)
Definition mq_hole (ind : nat → Z) (bkt : list nat) (i : nat) : option (list nat * (nat → Z)) :=
  if decide (1 < length bkt) then
    l ← bkt !! (length bkt - 1);
    Some (<[i := l]> bkt, setind ind l (Z.of_nat i))
  else Some (bkt, ind).

(** search/search.hpp:179-194.  The index is read as an unsigned int: a
    negative one is far above any bucket size and fails the assertion. *)
Definition mq_rm (ind : nat → Z) (q : maxq) (n : nat) (p : nat) : option (maxq * (nat → Z)) :=
  bkt ← bkts q !! p;
  if decide (ind n < 0 ∨ Z.of_nat (length bkt) ≤ ind n)%Z then None else
  '(bkt, ind) ← mq_hole ind bkt (Z.to_nat (ind n));
  Some (Maxq (mfill q - 1) (mmax q) (<[p := removelast bkt]> (bkts q)), setind ind n (-1)).

(** search/search.hpp:196. *)
Definition mq_empty (q : maxq) : bool := bool_decide (mfill q = 0%Z).

(** search/search.hpp:203-205, plus the node fields. *)
Record ol := OL {
  fill : Z; min : nat; qs : list maxq;
  ind : nat → Z; prio : nat → Z; tie : nat → Z }.

(** search/search.hpp:208; nodes start with index -1. *)
Definition ol_new (prio tie : nat → Z) : ol :=
  OL 0 0 (replicate 100 mq_new) (λ _, (-1)%Z) prio tie.

(** search/search.hpp:212-223. *)
Definition ol_push (s : ol) (n : nat) : option ol :=
  if decide (prio s n < 0 ∨ tie s n < 0)%Z then None else
  let p0 := Z.to_nat (prio s n) in
  let qs' := if decide (length (qs s) ≤ p0) then resize (p0 + 1) mq_new (qs s) else qs s in
  let min' := if decide (p0 < min s) then p0 else min s in
  q ← qs' !! p0;
  '(q, ind) ← mq_push (ind s) q n (Z.to_nat (tie s n));
  Some (OL (fill s + 1) min' (<[p0 := q]> qs') ind (prio s) (tie s)).

(** search/search.hpp:226-227: how many steps the loop of pop advances over
    the queues [l] from min on. *)
Fixpoint ol_skip (l : list maxq) : nat :=
  match l with
  | q :: l => if mq_empty q then S (ol_skip l) else 0
  | [] => 0
  end.

(** search/search.hpp:225-232. *)
Definition ol_pop (s : ol) : option (ol * nat) :=
  let min' := min s + ol_skip (drop (min s) (qs s)) in
  q ← qs s !! min';
  '(q, ind, n) ← mq_pop (ind s) q;
  if decide (prio s n = Z.of_nat min') then
    Some (OL (fill s - 1) min' (<[min' := q]> (qs s)) ind (prio s) (tie s), n)
  else None.

(** search/search.hpp:234-240. *)
Definition ol_pre_update (s : ol) (n : nat) : option ol :=
  if decide (ind s n < 0)%Z then Some s
  else if decide (prio s n < 0 ∨ tie s n < 0)%Z then None else
  let p0 := Z.to_nat (prio s n) in
  q ← qs s !! p0;
  '(q, ind) ← mq_rm (ind s) q n (Z.to_nat (tie s n));
  Some (OL (fill s - 1) (min s) (<[p0 := q]> (qs s)) ind (prio s) (tie s)).

(** search/search.hpp:242-245. *)
Definition ol_post_update (s : ol) (n : nat) : option ol :=
  if decide (ind s n < 0)%Z then ol_push s n else None.

(** search/search.hpp:247-249. *)
Definition ol_empty (s : ol) : bool := bool_decide (fill s = 0%Z).

(** search/search.hpp:251-253. *)
Definition ol_mem (s : ol) (n : nat) : bool := bool_decide (0 ≤ ind s n)%Z.

(** search/search.hpp:255-259. *)
Definition ol_clear (s : ol) : ol := OL 0 0 [] (ind s) (prio s) (tie s).

(** The client writes the two priority fields of a node. *)
Definition ol_write (s : ol) (n : nat) (p t : Z) : ol :=
  OL (fill s) (min s) (qs s) (ind s) (setind (prio s) n p) (setind (tie s) n t).

(** Client operations: push a node with given priorities; pop; change the
    priorities between pre_update and post_update
    (e.g. search/astar.hpp:136-143). *)
Inductive op :=
  | OPush (n : nat) (p t : Z)
  | OPop
  | OUpdate (n : nat) (p t : Z).

Definition step (s : ol) (o : op) : option (ol * option nat) :=
  match o with
  | OPush n p t => s ← ol_push (ol_write s n p t) n; Some (s, None)
  | OPop => '(s, n) ← ol_pop s; Some (s, Some n)
  | OUpdate n p t =>
    s ← ol_pre_update s n;
    s ← ol_post_update (ol_write s n p t) n;
    Some (s, None)
  end.
