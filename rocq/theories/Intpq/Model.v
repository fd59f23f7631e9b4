(** Model of structs/intpq.hpp: Intpq, an integer priority queue made of
    doubly linked buckets threaded through the elements' IntpqEntry.

    Elements are pointers ([nat], NULL is [None]); the entry fields nxt and
    prev are maps in the state.  [None] as a result: undefined behaviour or a
    failed assertion.  [fill] is an [unsigned long] in the code and a [Z] here:
    a decrement of 0 gives 2^64-1 there and -1 here; both are "not empty". *)
From stdpp Require Import prelude.
From Coq Require Import ZArith.

(** structs/intpq.hpp:8, 120-122 (nresize is not modelled, it is only a
    statistic; nbins is the length of [bins]). *)
Record pq := PQ {
  fill : Z; pend : nat; bins : list (option nat);
  nxt : nat → option nat; prev : nat → option nat }.

Definition upd {A} (f : nat → A) (e : nat) (v : A) : nat → A :=
  λ x, if decide (x = e) then v else f x.

(** structs/intpq.hpp:15. *)
Definition Initsz : nat := 1024.

(** structs/intpq.hpp:100-115; [None] when the new array is smaller than the
    old one, which the copy loop overruns. *)
Definition resize (s : pq) (sz : nat) : option pq :=
  if decide (sz < length (bins s)) then None
  else Some (PQ (fill s) (pend s) (bins s ++ replicate (sz - length (bins s)) None) (nxt s) (prev s)).

(** structs/intpq.hpp:17-20 with IntpqEntry's constructor (line 9) run for
    every element: prev is NULL, nxt is indeterminate ([nxt0]). *)
Definition new (sz : nat) (nxt0 : nat → option nat) : pq :=
  PQ 0 0 (replicate sz None) nxt0 (λ _, None).

(** structs/intpq.hpp:29: the argument of resize.  prio + 1 is computed in
    unsigned int, (prio + 1) * 1.5 in double and converted back; the conversion
    is undefined from 2^32 on. *)
Definition grow_size (prio : nat) : option nat :=
  if decide (prio = 0) then Some Initsz
  else
    let p1 := ((Z.of_nat prio + 1) mod 2 ^ 32)%Z in
    if decide (3 * p1 / 2 < 2 ^ 32)%Z then Some (Z.to_nat (3 * p1 / 2)) else None.

(** structs/intpq.hpp:27-40. *)
Definition push (s : pq) (e : nat) (prio : nat) : option pq :=
  s ← (if decide (length (bins s) ≤ prio) then sz ← grow_size prio; resize s sz else Some s);
  b ← bins s !! prio;
  let prev1 := match b with Some f => upd (prev s) f (Some e) | None => prev s end in
  let nxt' := upd (nxt s) e b in
  let prev' := upd prev1 e (Some e) in
  let end' := if decide (fill s = 0%Z ∨ prio < pend s) then prio else pend s in
  Some (PQ (fill s + 1) end' (<[prio := Some e]> (bins s)) nxt' prev').

(** structs/intpq.hpp:46-47: how far the loop of pop advances over the bins
    [l] from end on. *)
Fixpoint skip (l : list (option nat)) : nat :=
  match l with
  | None :: l => S (skip l)
  | _ => 0
  end.

(** structs/intpq.hpp:42-60. *)
Definition pop (s : pq) : option (pq * option nat) :=
  if decide (fill s = 0%Z) then Some (s, None) else
  let end' := pend s + skip (drop (pend s) (bins s)) in
  b ← bins s !! end';
  e ← b;
  let prev1 := match nxt s e with Some f => upd (prev s) f (Some f) | None => prev s end in
  Some (PQ (fill s - 1) end' (<[end' := nxt s e]> (bins s)) (nxt s) (upd prev1 e None), Some e).

(** structs/intpq.hpp:83-85. *)
Definition mem (s : pq) (e : nat) : bool :=
  match prev s e with Some _ => true | None => false end.

(** structs/intpq.hpp:96-98. *)
Definition fst_in (s : pq) (e : nat) : bool := bool_decide (prev s e = Some e).

(** structs/intpq.hpp:62-77. *)
Definition rm (s : pq) (e : nat) (prio : nat) : option pq :=
  if mem s e then
    if fst_in s e then
      let prev1 := match nxt s e with Some f => upd (prev s) f (Some f) | None => prev s end in
      if decide (prio < length (bins s)) then
        Some (PQ (fill s - 1) (pend s) (<[prio := nxt s e]> (bins s)) (nxt s) (upd prev1 e None))
      else None
    else
      q ← prev s e;
      let prev1 := match nxt s e with Some f => upd (prev s) f (prev s e) | None => prev s end in
      let nxt1 := upd (nxt s) q (nxt s e) in
      Some (PQ (fill s - 1) (pend s) (bins s) nxt1 (upd prev1 e None))
  else None.

(** structs/intpq.hpp:79-81. *)
Definition empty (s : pq) : bool := bool_decide (fill s = 0%Z).

(** structs/intpq.hpp:87-92. *)
Definition clear (s : pq) : pq :=
  PQ 0 0 (replicate (length (bins s)) None) (nxt s) (prev s).

(** ** Client operations *)
Inductive op := OPush (e prio : nat) | OPop | ORm (e prio : nat).

Definition step (s : pq) (o : op) : option (pq * option nat) :=
  match o with
  | OPush e p => s ← push s e p; Some (s, None)
  | OPop => pop s
  | ORm e p => s ← rm s e p; Some (s, None)
  end.
