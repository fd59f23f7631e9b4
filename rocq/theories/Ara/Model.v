(** Model of search/arastar.hpp, class Arastar.

    The weight is the fraction [wt/wd] and dwt the fraction [dw/wd]; fprime is kept multiplied by
    [wd] (doubles, computed with rounding, in the code).  cost is -1 in the code as long as there is
    no incumbent, here [None].

    Simplifications: those of Search/Model.v.  The closed list finds exactly the nodes that were added
    to it since it was last cleared, and so does the hash table inside Incons: the two share the link
    field of a node (arastar.hpp:25 and 84), what that can do to them is the subject of Ara/Incons.v.
    Output other than the incumbent rows is left out. [None]: the program does not survive. *)
From stdpp Require Import prelude.
From Coq Require Import ZArith.
From Verif Require BinHeap.Model.
From Verif Require Export Search.Model.

Section ara.
Context (D : domain) (h : St D → Z) (wn0 dw wd : Z) (lim : limits).
Local Open Scope Z_scope.

(** arastar.hpp:24-57; [n_p] is the field h; openind and (fprime, g) are kept by the heap. *)
Notation node := (node D (P:=Z)).
Notation heap := (BinHeap.Model.heap (Z * Z)).

(** A row of the output, arastar.hpp:185-189 (weight, bound and cost only). The bound is a fraction. *)
Record row := Row { r_wt : Z; r_bound : Z * Z; r_cost : Z }.

(** arastar.hpp:322-328 and res. [a_sols]: the costs and paths of the incumbents, newest first (res
    holds the newest one only). *)
Record astate := AState {
  a_nodes : list node; a_open : heap; a_closed : list nat; a_incons : list nat;
  a_wt : Z; a_cost : option Z;
  a_sols : list (Z * (list (St D) * list (Op D))); a_rows : list row;
  a_expd : nat; a_gend : nat }.

Definition aset_open (s : astate) (q : heap) : astate :=
  AState (a_nodes s) q (a_closed s) (a_incons s) (a_wt s) (a_cost s) (a_sols s) (a_rows s) (a_expd s) (a_gend s).
Definition aadd_expd (s : astate) : astate :=
  AState (a_nodes s) (a_open s) (a_closed s) (a_incons s) (a_wt s) (a_cost s) (a_sols s) (a_rows s) (S (a_expd s)) (a_gend s).
Definition aadd_gend (s : astate) : astate :=
  AState (a_nodes s) (a_open s) (a_closed s) (a_incons s) (a_wt s) (a_cost s) (a_sols s) (a_rows s) (a_expd s) (S (a_gend s)).

(** Node::pred, arastar.hpp:52-56: keys are (fprime, g). *)
Notation lt := astar_lt.

(** closed.find, and mem.find of Incons. *)
Fixpoint find_in (ns : list node) (l : list nat) (t : St D) : option nat :=
  match l with
  | [] => None
  | i :: l =>
    match ns !! i with
    | Some a => if decide (n_state D a = t) then Some i else find_in ns l t
    | None => find_in ns l t
    end
  end.

(** Incons::add, arastar.hpp:67-72. *)
Definition incons_add (ns : list node) (l : list nat) (n : nat) (t : St D) : list nat :=
  match find_in ns l t with Some _ => l | None => l ++ [n] end.

(** arastar.hpp:276-309. *)
Definition aconsiderkid (s : astate) (n : nat) (op : Op D) : option astate :=
  pn ← a_nodes s !! n;
  let '(t, c, rev) := edge (n_state D pn) op in
  let g := n_g D pn + c in
  match find_in (a_nodes s) (a_closed s) t with
  | Some d =>
    dn ← a_nodes s !! d;
    if bool_decide (n_g D dn ≤ g) then Some s
    else
      let f := (BinHeap.Model.key (a_open s) d).1 - wd * n_g D dn + wd * g in
      let q := BinHeap.Model.setkey (a_open s) d (f, g) in
      let ns := <[d := Node D (Some n) (n_state D dn) op rev g (n_p D dn)]> (a_nodes s) in
      if bool_decide (BinHeap.Model.ind q d < 0) then
        Some (AState ns q (a_closed s) (incons_add ns (a_incons s) d (n_state D dn)) (a_wt s) (a_cost s)
          (a_sols s) (a_rows s) (a_expd s) (a_gend s))
      else
        q ← BinHeap.Model.update lt q (BinHeap.Model.ind q d);
        Some (AState ns q (a_closed s) (a_incons s) (a_wt s) (a_cost s) (a_sols s) (a_rows s) (a_expd s) (a_gend s))
  | None =>
    let d := length (a_nodes s) in
    let ns := a_nodes s ++ [Node D (Some n) t op rev g (h t)] in
    q ← BinHeap.Model.push lt (BinHeap.Model.setkey (a_open s) d (wd * g + a_wt s * h t, g)) d;
    Some (AState ns q (d :: a_closed s) (a_incons s) (a_wt s) (a_cost s) (a_sols s) (a_rows s) (a_expd s) (a_gend s))
  end.

(** arastar.hpp:266-273. *)
Fixpoint aexpand_ops (s : astate) (n : nat) (os : list (Op D)) : option astate :=
  match os with
  | [] => Some s
  | op :: os =>
    pn ← a_nodes s !! n;
    if decide (op = n_pop D pn) then aexpand_ops s n os
    else
      s ← aconsiderkid (aadd_gend s) n op;
      aexpand_ops s n os
  end.

(** arastar.hpp:263-274. *)
Definition aexpand (s : astate) (n : nat) : option astate :=
  pn ← a_nodes s !! n;
  aexpand_ops (aadd_expd s) n (ops (n_state D pn)).

(** search.hpp:67-71. *)
Definition alimit (s : astate) : bool :=
  timeup lim (a_expd s)
  || (bool_decide (0 < l_expd lim)%nat && bool_decide (l_expd lim ≤ a_expd s)%nat)
  || (bool_decide (0 < l_gend lim)%nat && bool_decide (l_gend lim ≤ a_gend s)%nat).

(** arastar.hpp:208-210. *)
Definition goodnodes (s : astate) : bool :=
  match BinHeap.Model.front (a_open s) with
  | None => false
  | Some n =>
    match a_cost s with
    | None => true
    | Some c => bool_decide ((BinHeap.Model.key (a_open s) n).1 < wd * c)
    end
  end.

(** One round of improve, arastar.hpp:194-203; second component: whether it found a goal. *)
Definition around (s : astate) : option (astate * bool) :=
  '(q, r) ← BinHeap.Model.pop lt (a_open s);
  n ← r;
  let s := aset_open s q in
  pn ← a_nodes s !! n;
  if isgoal (n_state D pn) then
    r ← solpath D (S (length (a_nodes s))) (a_nodes s) n;
    s ← aexpand (AState (a_nodes s) (a_open s) (a_closed s) (a_incons s) (a_wt s) (Some (n_g D pn))
          ((n_g D pn, r) :: a_sols s) (a_rows s) (a_expd s) (a_gend s)) n;
    Some (s, true)
  else
    s ← aexpand s n;
    Some (s, false).

(** The two loops of findbound, arastar.hpp:218-229 and 232-243, from index [i] on: elements with
    f >= cost are replaced by the last element. [fuel]: the length of the vector is enough. [min]: the
    least f seen, [None] for infinity. *)
Fixpoint prune (fuel : nat) (ns : list node) (c : Z) (i : nat) (l : list nat) (min : option Z) : option (list nat * option Z) :=
  match l !! i with
  | None => Some (l, min)
  | Some n =>
    match fuel with
    | O => None
    | S fuel =>
      a ← ns !! n;
      let f := n_g D a + n_p D a in
      if bool_decide (c ≤ f) then
        y ← last l;
        prune fuel ns c i (removelast (<[i := y]> l)) min
      else
        prune fuel ns c (S i) l (Some (match min with None => f | Some m => Z.min m f end))
    end
  end.

(** findbound, arastar.hpp:214-245; the fraction cost/min, 0 if min is infinite. The second loop edits
    the heap's vector in place. *)
Definition findbound (s : astate) (c : Z) : option (astate * (Z * Z)) :=
  '(inc, min) ← prune (length (a_incons s)) (a_nodes s) c 0 (a_incons s) None;
  '(arr, min) ← prune (length (BinHeap.Model.arr (a_open s))) (a_nodes s) c 0 (BinHeap.Model.arr (a_open s)) min;
  Some (AState (a_nodes s) (BinHeap.Model.setarr (a_open s) arr) (a_closed s) inc (a_wt s) (a_cost s) (a_sols s) (a_rows s)
          (a_expd s) (a_gend s),
        match min with None => (0, 1) | Some m => (c, m) end).

(** The row printed after a successful improve, arastar.hpp:127-131. [wt < epsprime] compares the
    fractions wt/wd and p/q, and holds if q is 0 (p is then positive). *)
Definition report (s : astate) : option astate :=
  c ← a_cost s;
  '(s, b) ← (if bool_decide (a_wt s = wd) then Some (s, (1, 1)) else findbound s c);
  let b := if bool_decide (a_wt s * b.2 < wd * b.1) then (a_wt s, wd) else b in
  Some (AState (a_nodes s) (a_open s) (a_closed s) (a_incons s) (a_wt s) (a_cost s) (a_sols s)
          (Row (a_wt s) b c :: a_rows s) (a_expd s) (a_gend s)).

(** nextwt, arastar.hpp:171-175; the square root of epsilon is 2^-26. *)
Definition nextwt (w : Z) : Z :=
  let w := if bool_decide (wd < w - dw) then w - dw else wd in
  if bool_decide ((w - wd) * 2 ^ 26 < wd) then wd else w.

(** arastar.hpp:253 and 257. *)
Definition newkeys (ns : list node) (w : Z) (l : list nat) : option (list (nat * (Z * Z))) :=
  mapM (λ n, a ← ns !! n; Some (n, (wd * n_g D a + w * n_p D a, n_g D a))) l.

(** nextwt, updateopen (249-261) and closed.clear (138-140). *)
Definition reweigh (s : astate) : option astate :=
  let w := nextwt (a_wt s) in
  ki ← newkeys (a_nodes s) w (a_incons s);
  ko ← newkeys (a_nodes s) w (BinHeap.Model.arr (a_open s));
  q ← BinHeap.Model.append lt (BinHeap.Model.setkeys (BinHeap.Model.setkeys (a_open s) ki) ko) (a_incons s);
  Some (AState (a_nodes s) q [] [] w (a_cost s) (a_sols s) (a_rows s) (a_expd s) (a_gend s)).

(** The main loops, arastar.hpp:125-142 and 193-204: one round of improve, or what follows the end of
    improve. The boolean beside the state: improve has found a goal. The end: whether the search says
    it has converged. *)
Definition astep (s : astate) (goal : bool) : option (astate * bool + astate * bool) :=
  if negb (alimit s) && goodnodes s then
    '(s, g) ← around s;
    Some (inl (s, g || goal))
  else
    s ← (if goal then report s else Some s);
    if bool_decide (a_wt s ≤ wd) then Some (inr (s, true))
    else
      s ← reweigh s;
      if alimit s || BinHeap.Model.empty (a_open s) then Some (inr (s, false))
      else Some (inl (s, false)).

(** arastar.hpp:311-320, 120-122 and the checks of the constructor, 100-105. *)
Definition ainit (s0 : St D) : option astate :=
  if bool_decide (wn0 < wd) || bool_decide (dw ≤ 0) then None
  else
    q ← BinHeap.Model.push lt (BinHeap.Model.setkey (BinHeap.Model.new (λ _, (0, 0))) 0%nat (wn0 * h s0, 0)) 0%nat;
    Some (AState [Node D None s0 nop nop 0 (h s0)] q [0%nat] [] wn0 None [] [] 0 0).

Fixpoint aloop (fuel : nat) (s : astate) (goal : bool) : option (astate * bool) :=
  match fuel with
  | O => None
  | S fuel =>
    r ← astep s goal;
    match r with
    | inr out => Some out
    | inl (s, goal) => aloop fuel s goal
    end
  end.

(** The search, cut off after [fuel] rounds. *)
Definition arastar (s0 : St D) (fuel : nat) : option (astate * bool) :=
  s ← ainit s0; aloop fuel s false.

(** States of a running search. *)
Inductive arunning (s0 : St D) : astate → bool → Prop :=
  | arunning_init s : ainit s0 = Some s → arunning s0 s false
  | arunning_step s g s' g' : arunning s0 s g → astep s g = Some (inl (s', g')) → arunning s0 s' g'.
End ara.
