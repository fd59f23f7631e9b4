(** Model of the best-first searches: search/astar.hpp (A-star),
    search/wastar.hpp (weighted A-star) and search/greedy.hpp (greedy and
    speedy search).

    search, expand, considerkid, init are the same code in the three files but
    for the priority fields of a node, the comparison used by the open list and
    the -dropdups flag; they are modelled once, over [P] (the priority fields
    other than g), [pr_new] (their value in a fresh node), [pr_upd] (their value
    in a node that got a new g), [dropdups] and the open list [o], and
    instantiated at the end of the file.

    Simplifications: a node is an index into the list [nodes] of the nodes that
    were kept; a kid that is destructed (astar.hpp:127,144) never enters it (the
    pool is treated in Pool/).  closed.find looks for a node of [nodes] with the
    wanted state (the hash table is treated in Hash/; every kept node is added
    to it).  Counters do not overflow.  Wall-clock, cpu time and output are left
    out, except that the asynchronous flag Limit::timeup may read true at any
    check.  [None]: the program does not survive. *)
From stdpp Require Import prelude.
From Coq Require Import ZArith.
From Verif Require Export Search.Domain Search.Open.

(** search/search.hpp:58-90; 0 means no limit. [timeup e]: what the flag reads
    when [e] expansions have been made. *)
Record limits := Limits { l_expd : nat; l_gend : nat; timeup : nat → bool }.

Definition no_limits : limits := Limits 0 0 (λ _, false).

Section bestfirst.
Context (D : domain) {P : Type}.
Context (pr_new : Z → St D → P) (pr_upd : P → Z → Z → P) (dropdups : bool).
Context (o : openlist (P * Z)) (lim : limits).
Local Open Scope Z_scope.

(** astar.hpp:13-19, wastar.hpp:14-22, greedy.hpp:12-18. *)
Record node := Node {
  n_parent : option nat; n_state : St D; n_op : Op D; n_pop : Op D; n_g : Z; n_p : P }.

(** The open list's view of a node. *)
Definition n_key (n : node) : P * Z := (n_p n, n_g n).

(** astar.hpp:165-167 and the counters of search.hpp:23. *)
Record sstate := SState {
  nodes : list node; open : ol_T o; expd : nat; gend : nat; reopnd : nat; dups : nat }.

Definition set_open (s : sstate) (q : ol_T o) : sstate :=
  SState (nodes s) q (expd s) (gend s) (reopnd s) (dups s).
Definition add_expd (s : sstate) : sstate :=
  SState (nodes s) (open s) (S (expd s)) (gend s) (reopnd s) (dups s).
Definition add_gend (s : sstate) : sstate :=
  SState (nodes s) (open s) (expd s) (S (gend s)) (reopnd s) (dups s).
Definition add_dups (s : sstate) : sstate :=
  SState (nodes s) (open s) (expd s) (gend s) (reopnd s) (S (dups s)).

(** closed.find: the node whose packed state is [t]. *)
Fixpoint find_node (ns : list node) (t : St D) : option nat :=
  match ns with
  | [] => None
  | n :: ns => if decide (n_state n = t) then Some 0%nat else S <$> find_node ns t
  end.

(** astar.hpp:130-143, wastar.hpp:139-147, greedy.hpp:131-143: the duplicate [d]
    gets the parent, operators and cost of the better path. *)
Definition improve (s : sstate) (d : nat) (dn : node) (n : nat) (op : Op D) (rev : Op D) (g : Z)
    : option sstate :=
  let p := pr_upd (n_p dn) (n_g dn) g in
  let ns := <[d := Node (Some n) (n_state dn) op rev g p]> (nodes s) in
  if ol_mem o (open s) d then
    q ← ol_update o (open s) d (p, g);
    Some (SState ns q (expd s) (gend s) (reopnd s) (dups s))
  else
    q ← ol_push o (open s) d (p, g);
    Some (SState ns q (expd s) (gend s) (S (reopnd s)) (dups s)).

(** astar.hpp:115-153, wastar.hpp:125-159, greedy.hpp:117-154. *)
Definition considerkid (s : sstate) (n : nat) (op : Op D) : option sstate :=
  pn ← nodes s !! n;
  let '(t, c, rev) := edge (n_state pn) op in
  let g := n_g pn + c in
  match find_node (nodes s) t with
  | Some d =>
    dn ← nodes s !! d;
    let s := add_dups s in
    if dropdups || bool_decide (n_g dn ≤ g) then Some s
    else improve s d dn n op rev g
  | None =>
    let p := pr_new g t in
    q ← ol_push o (open s) (length (nodes s)) (p, g);
    Some (SState (nodes s ++ [Node (Some n) t op rev g p]) q (expd s) (gend s) (reopnd s) (dups s))
  end.

(** The loop of expand: astar.hpp:107-112, wastar.hpp:117-122, greedy.hpp:109-114. *)
Fixpoint expand_ops (s : sstate) (n : nat) (os : list (Op D)) : option sstate :=
  match os with
  | [] => Some s
  | op :: os =>
    pn ← nodes s !! n;
    if decide (op = n_pop pn) then expand_ops s n os
    else
      s ← considerkid (add_gend s) n op;
      expand_ops s n os
  end.

(** astar.hpp:103-113, wastar.hpp:113-123, greedy.hpp:105-115. *)
Definition expand (s : sstate) (n : nat) : option sstate :=
  pn ← nodes s !! n;
  expand_ops (add_expd s) n (ops (n_state pn)).

(** search.hpp:296-306: walk back the parent pointers.  The loop is bounded by
    the number of nodes; exceeding it gives [None] (proved impossible). *)
Fixpoint solpath (fuel : nat) (ns : list node) (i : nat) : option (list (St D) * list (Op D)) :=
  match fuel with
  | O => None
  | S fuel =>
    n ← ns !! i;
    match n_parent n with
    | None => Some ([n_state n], [])
    | Some p =>
      '(path, os) ← solpath fuel ns p;
      Some (n_state n :: path, n_op n :: os)
    end
  end.

(** search.hpp:67-71. *)
Definition limit (s : sstate) : bool :=
  timeup lim (expd s)
  || (bool_decide (0 < l_expd lim)%nat && bool_decide (l_expd lim ≤ expd s)%nat)
  || (bool_decide (0 < l_gend lim)%nat && bool_decide (l_gend lim ≤ gend s)%nat).

(** What a search leaves in res.path and res.ops, both in reverse order;
    [None]: both are empty. *)
Definition outcome : Type := option (list (St D) * list (Op D)).

(** One round of the main loop, astar.hpp:72-82, wastar.hpp:81-91,
    greedy.hpp:74-84: the state to go on with, or the end. *)
Definition step (s : sstate) : option (sstate + outcome) :=
  if ol_empty o (open s) || limit s then Some (inr None)
  else
    '(q, n) ← ol_pop o (open s);
    let s := set_open s q in
    pn ← nodes s !! n;
    if isgoal (n_state pn) then
      r ← solpath (S (length (nodes s))) (nodes s) n;
      Some (inr (Some r))
    else
      s ← expand s n;
      Some (inl s).

(** astar.hpp:155-163 and 66-70 (wastar.hpp:161-171, greedy.hpp:156-164). *)
Definition init (s0 : St D) : option sstate :=
  let p := pr_new 0 s0 in
  q ← ol_push o (ol_new o) 0 (p, 0);
  Some (SState [Node None s0 nop nop 0 p] q 0 0 0 0).

Fixpoint loop (fuel : nat) (s : sstate) : option (outcome * sstate) :=
  match fuel with
  | O => None
  | S fuel =>
    r ← step s;
    match r with
    | inr out => Some (out, s)
    | inl s => loop fuel s
    end
  end.

(** The search from [s0], cut off after [fuel] rounds of the main loop. *)
Definition search (s0 : St D) (fuel : nat) : option (outcome * sstate) :=
  s ← init s0; loop fuel s.

(** States of a running search (between two rounds). *)
Inductive running (s0 : St D) : sstate → Prop :=
  | running_init s : init s0 = Some s → running s0 s
  | running_step s s' : running s0 s → step s = Some (inl s') → running s0 s'.
End bestfirst.

(** ** A-star: search/astar.hpp.  P is f; astar.hpp:146,159 and 133. *)
Definition astar_new {D} (h : St D → Z) (g : Z) (s : St D) : Z := (g + h s)%Z.
Definition astar_upd (f g g' : Z) : Z := (f - g + g')%Z.
(** astar.hpp:40-44 (and prio, tieprio in 46-52): keys are (f, g). *)
Definition astar_lt (a b : Z * Z) : bool :=
  if decide (a.1 = b.1) then bool_decide (b.2 < a.2)%Z else bool_decide (a.1 < b.1)%Z.

Definition astar D (h : St D → Z) o lim := search D (astar_new h) astar_upd false o lim.

(** ** Weighted A-star: search/wastar.hpp.  P is (fprime, f); the weight is the
    fraction wn/wd and fprime is kept multiplied by wd (a double, computed with
    rounding, in the code). wastar.hpp:151-152,165-167 and 141-142. *)
Definition wastar_new {D} (wn wd : Z) (h : St D → Z) (g : Z) (s : St D) : Z * Z :=
  (wd * g + wn * h s, g + h s)%Z.
Definition wastar_upd (wd : Z) (p : Z * Z) (g g' : Z) : Z * Z :=
  (p.1 - wd * g + wd * g', p.2 - g + g')%Z.
(** wastar.hpp:43-50: keys are ((fprime, f), g). *)
Definition wastar_lt (a b : Z * Z * Z) : bool :=
  if decide (a.1.1 = b.1.1) then
    if decide (a.1.2 = b.1.2) then bool_decide (b.2 < a.2)%Z
    else bool_decide (a.1.2 < b.1.2)%Z
  else bool_decide (a.1.1 < b.1.1)%Z.

Definition wastar D (wn wd : Z) (h : St D → Z) dropdups o lim :=
  search D (wastar_new wn wd h) (wastar_upd wd) dropdups o lim.

(** ** Greedy (and speedy) search: search/greedy.hpp.  P is the node field h:
    the cost-to-go estimate, or the distance-to-go estimate for speedy search
    (greedy.hpp:146,160); it is not changed by a better path. *)
Definition greedy_new {D} (h : St D → Z) (g : Z) (s : St D) : Z := h s.
Definition greedy_upd (p g g' : Z) : Z := p.
(** greedy.hpp:39-41; keys are (h, g). *)
Definition greedy_lt (a b : Z * Z) : bool := bool_decide (a.1 < b.1)%Z.

Definition greedy D (h : St D → Z) dropdups o lim :=
  search D (greedy_new h) greedy_upd dropdups o lim.
