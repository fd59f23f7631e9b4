(** Model of search/lsslrtastar.hpp (class Lsslrtastar2): LSS-LRTA-star.

    Simplifications: as in Search/Domain.v.  A Node (lsslrtastar.hpp:57-83) is identified with its state: Nodes::get
    (99-114) makes one per state.  Its horig is the heuristic and goal is isgoal (110-111); dead is never set; the
    cached succs (488-494) are recomputed from the operators.  An LssNode is an index into the list of those made in
    the current lookahead, which all start with openind -1 (128); its f and g are the key of the open list, openind
    the index kept with it.  Values and costs are integers (double in the code): FSort (148-152) compares f with a
    tolerance there; the weight of -wt is an integer.  g is [None] for Infinity.  The lookahead limit (332, class
    LookaheadLimit) is any function of the number of the lookahead and of the calls made in it so far;
    ExpansionLimit (521-542) is [λ _ j, lim <=? j].  The flag -complete (412-439) is in Lss/Complete.v; all output is left out.
    Counters do not overflow.  [None]: a failed assertion, or undefined behaviour, or out of fuel. *)
From stdpp Require Import prelude.
From Coq Require Import ZArith.
From Verif.Search Require Import Domain Model.
From Verif Require Import Rta.Model.
From Verif Require BinHeap.Model.
Open Scope Z_scope.
Notation heap := BinHeap.Model.heap.

Section lss.
Context (D : domain) (h : St D → Z) (wt : Z) (onestep : bool) (lim : limits) (stop : nat → nat → bool).

(** What is stored with the states: Node::h, the expanded nodes (Node::expd) and Node::preds. *)
Record mem := Mem { m_h : St D → Z; m_exp : list (St D); m_preds : St D → list (St D * Z) }.

Definition fset {A} (f : St D → A) (s : St D) (a : A) : St D → A := λ t, if decide (t = s) then a else f t.
Definition set_h (m : mem) (s : St D) (v : Z) : mem := Mem (fset (m_h m) s v) (m_exp m) (m_preds m).

(** lsslrtastar.hpp:487-495: the loop over the operators. *)
Fixpoint expand_ops (n : St D) (os : list (Op D)) (m : mem) (st : rcount) : mem * rcount :=
  match os with
  | [] => (m, st)
  | o :: os =>
    let '(k, c, _) := edge n o in
    let m := Mem (m_h m) (m_exp m) (fset (m_preds m) k (m_preds m k ++ [(n, c)])) in
    let m := set_h m k (Z.max (m_h m k) (m_h m n - c)) in
    expand_ops n os m (radd_gend st)
  end.

(** lsslrtastar.hpp:476-499. *)
Definition expand (n : St D) (m : mem) (st : rcount) : mem * rcount :=
  if decide (n ∈ m_exp m) then (m, st)
  else
    let '(m, st) := expand_ops n (ops n) m (radd_expd st) in
    (Mem (m_h m) (n :: m_exp m) (m_preds m), st).

(** lsslrtastar.hpp:166-172. *)
Record lnode := LNode { l_st : St D; l_par : option nat; l_g : option Z; l_op : Op D; l_upd : bool; l_cl : bool }.

(** lssNodes, lssOpen and nclosed, lsslrtastar.hpp:501-504. *)
Record lss := Lss { s_nodes : list lnode; s_open : heap (Z * Z); s_ncl : nat }.

(** lssNodes.find. *)
Fixpoint find_l (ns : list lnode) (s : St D) : option nat :=
  match ns with
  | [] => None
  | n :: ns => if decide (l_st n = s) then Some 0%nat else S <$> find_l ns s
  end.

(** lsslrtastar.hpp:340-363: one successor, [o] leading to [k] for [c], of the node [i]. *)
Definition relax (m : mem) (i : nat) (o : Op D) (k : St D) (c : Z) (L : lss) (goal : option nat)
    : option (lss * option nat) :=
  sn ← s_nodes L !! i;
  if decide ((p ← l_par sn; l_st <$> s_nodes L !! p) = Some k) then Some (L, goal)
  else
    let '(ns, j) :=
      match find_l (s_nodes L) k with
      | Some j => (s_nodes L, j)
      | None => (s_nodes L ++ [LNode k None None nop false false], length (s_nodes L))
      end in
    kn ← ns !! j;
    sg ← l_g sn;
    let g := sg + c in
    L ← (if match l_g kn with None => true | Some kg => bool_decide (g < kg) end then
           let ns := <[j := LNode k (Some i) (Some g) o (l_upd kn) (l_cl kn)]> ns in
           let q := BinHeap.Model.setkey (s_open L) j (g + m_h m k, g) in
           q ← BinHeap.Model.pushupdate astar_lt q j (BinHeap.Model.ind q j);
           Some (Lss ns q (s_ncl L))
         else Some (Lss ns (s_open L) (s_ncl L)));
    kn ← s_nodes L !! j;
    if isgoal k then
      match goal with
      | None => Some (L, Some j)
      | Some b =>
        bn ← s_nodes L !! b;
        kg ← l_g kn;
        bg ← l_g bn;
        Some (L, if bool_decide (kg < bg) then Some j else goal)
      end
    else Some (L, goal).

(** lsslrtastar.hpp:339-364: all successors. *)
Fixpoint relaxes (m : mem) (i : nat) (n : St D) (os : list (Op D)) (L : lss) (goal : option nat)
    : option (lss * option nat) :=
  match os with
  | [] => Some (L, goal)
  | o :: os =>
    let '(k, c, _) := edge n o in
    '(L, goal) ← relax m i o k c L goal;
    relaxes m i n os L goal
  end.

(** lsslrtastar.hpp:332-371, in lookahead number [k], after [j] calls of the lookahead limit. *)
Fixpoint eloop (fuel k j : nat) (m : mem) (L : lss) (st : rcount) (goal : option nat)
    : option (mem * lss * rcount * option nat) :=
  match fuel with
  | 0%nat => None
  | S fuel =>
    if BinHeap.Model.empty (s_open L) then Some (m, L, st, goal)
    else if stop k j then Some (m, L, st, goal)
    else if rreached lim st then Some (m, L, rcalled st, goal)
    else
      '(q, r) ← BinHeap.Model.pop astar_lt (s_open L);
      i ← r;
      sn ← s_nodes L !! i;
      let ncl := if l_cl sn then s_ncl L else S (s_ncl L) in
      let ns := <[i := LNode (l_st sn) (l_par sn) (l_g sn) (l_op sn) (l_upd sn) true]> (s_nodes L) in
      let '(m, st) := expand (l_st sn) m (rcalled st) in
      '(L, goal) ← relaxes m i (l_st sn) (ops (l_st sn)) (Lss ns q ncl) goal;
      if isgoal (l_st sn) then
        q ← BinHeap.Model.push astar_lt (s_open L) i;
        Some (m, Lss (s_nodes L) q (s_ncl L), st, Some i)
      else eloop fuel k (S j) m L st goal
  end.

(** lsslrtastar.hpp:315-330. *)
Definition einit (m : mem) (cur : St D) : option lss :=
  q ← BinHeap.Model.push astar_lt (BinHeap.Model.setkey (BinHeap.Model.new (λ _, (0, 0))) 0 (m_h m cur, 0)) 0;
  Some (Lss [LNode cur None (Some 0) nop false false] q 0).

(** lsslrtastar.hpp:314-373. *)
Definition expandLss (fuel k : nat) (m : mem) (st : rcount) (cur : St D)
    : option (mem * lss * rcount * option nat) :=
  L ← einit m cur;
  eloop fuel k 0 m L st None.

(** HSort, lsslrtastar.hpp:161-163; the key of a node is Node::h. *)
Definition hsort (a b : Z) : bool := bool_decide (a < b).

(** lsslrtastar.hpp:387-402: the loop over the predecessors of the state [x] of the popped node. *)
Fixpoint backups (x : St D) (ps : list (St D * Z)) (m : mem) (ns : list lnode) (q : heap Z) (updated : list (St D))
    : option (mem * list lnode * heap Z * list (St D)) :=
  match ps with
  | [] => Some (m, ns, q, updated)
  | (p, c) :: ps =>
    match find_l ns p with
    | None => backups x ps m ns q updated
    | Some j =>
      sp ← ns !! j;
      if l_cl sp then
        let b := wt * c + m_h m x in
        if negb (l_upd sp) || bool_decide (b < m_h m p) then
          let m := set_h m p b in
          let updated := if l_upd sp then updated else updated ++ [p] in
          let ns := <[j := LNode (l_st sp) (l_par sp) (l_g sp) (l_op sp) true (l_cl sp)]> ns in
          let q := BinHeap.Model.setkey q j b in
          q ← BinHeap.Model.pushupdate hsort q j (BinHeap.Model.ind q j);
          backups x ps m ns q updated
        else backups x ps m ns q updated
      else backups x ps m ns q updated
    end
  end.

(** lsslrtastar.hpp:382-403. *)
Fixpoint lloop (fuel : nat) (m : mem) (ns : list lnode) (q : heap Z) (ncl : nat) (updated : list (St D))
    : option (mem * list (St D)) :=
  match fuel with
  | 0%nat => None
  | S fuel =>
    if decide (ncl = 0%nat) then Some (m, updated)
    else if BinHeap.Model.empty q then Some (m, updated)
    else
      '(q, r) ← BinHeap.Model.pop hsort q;
      i ← r;
      sn ← ns !! i;
      let ncl := if l_cl sn then (ncl - 1)%nat else ncl in
      '(m, ns, q, updated) ← backups (l_st sn) (m_preds m (l_st sn)) m ns q updated;
      lloop fuel m ns q ncl updated
  end.

(** lsslrtastar.hpp:405-406. *)
Definition raise (m : mem) (updated : list (St D)) : mem :=
  foldl (λ m n, set_h m n (Z.max (m_h m n) (h n))) m updated.

(** lsslrtastar.hpp:375-407.  The second heap works on the same openind fields. *)
Definition hkey (m : mem) (ns : list lnode) (i : nat) : Z :=
  match ns !! i with Some n => m_h m (l_st n) | None => 0 end.
Definition hCostLearning (fuel : nat) (m : mem) (L : lss) : option mem :=
  q ← BinHeap.Model.append hsort
    (BinHeap.Model.Heap [] (BinHeap.Model.ind (s_open L)) (hkey m (s_nodes L)))
    (BinHeap.Model.arr (s_open L));
  '(m, updated) ← lloop fuel m (s_nodes L) q (s_ncl L) [];
  Some (raise m updated).

(** lsslrtastar.hpp:442-447. *)
Fixpoint bestopen (ns : list lnode) (q : heap (Z * Z)) (cur : St D) (es : list nat) (best : option nat) : option (option nat) :=
  match es with
  | [] => Some best
  | e :: es =>
    n ← ns !! e;
    if decide (l_st n = cur) then bestopen ns q cur es best
    else
      bestopen ns q cur es
        match best with
        | None => Some e
        | Some b => if BinHeap.Model.pred astar_lt q e b then Some e else Some b
        end
  end.

(** lsslrtastar.hpp:451-457: the operators from [p] up to the node of [cur], and the last node before it; [fuel]
    bounds the length of the path. *)
Fixpoint upward (fuel : nat) (ns : list lnode) (cur : St D) (p : nat) (q : option nat) : option (list (Op D) * option nat) :=
  match fuel with
  | 0%nat => None
  | S fuel =>
    n ← ns !! p;
    if decide (l_st n = cur) then Some ([], q)
    else
      par ← l_par n;
      '(os, r) ← upward fuel ns cur par (Some p);
      Some (l_op n :: os, r)
  end.

(** lsslrtastar.hpp:409-473 (without -complete): the operators to apply next, in order, and the new state. *)
Definition move (L : lss) (cur : St D) (goal : option nat) : option (list (Op D) * St D) :=
  best ← match goal with
         | Some b => Some (Some b)
         | None => bestopen (s_nodes L) (s_open L) cur (BinHeap.Model.arr (s_open L)) None
         end;
  b ← best;
  bn ← s_nodes L !! b;
  if decide (l_st bn = cur) then None
  else
    '(os, r) ← upward (S (length (s_nodes L))) (s_nodes L) cur b None;
    if onestep then
      o ← last os;
      q ← r;
      qn ← s_nodes L !! q;
      Some ([o], l_st qn)
    else Some (reverse os, l_st bn).

(** lsslrtastar.hpp:229-240, cut off after [fuel] moves; [fuel] also bounds the loops of each lookahead. *)
Fixpoint sloop (fuel efuel k : nat) (cur : St D) (os : list (Op D)) (m : mem) (st : rcount)
    : option (mem * rcount * St D * list (Op D)) :=
  match fuel with
  | 0%nat => None
  | S fuel =>
    if isgoal cur then Some (m, st, cur, os)
    else if rreached lim st then Some (m, rcalled st, cur, os)
    else
      '(m, L, st, goal) ← expandLss efuel k m (rcalled st) cur;
      if rreached lim st then Some (m, rcalled st, cur, os)
      else
        m ← match goal with Some _ => Some m | None => hCostLearning efuel m L end;
        '(os', cur) ← move L cur goal;
        sloop fuel efuel (S k) cur (os ++ os') m (rcalled st)
  end.

(** The memory before anything is visited. *)
Definition mem0 : mem := Mem h [] (λ _, []).

(** lsslrtastar.hpp:222-259: res.path and res.ops; both are empty if no goal was reached. *)
Definition lsslrta (s0 : St D) (fuel : nat) : option (rcount * (list (St D) * list (Op D))) :=
  '(_, st, cur, os) ← sloop fuel fuel 0 s0 [] mem0 (RCount 0 0 0);
  Some (st, answer D s0 cur os).
End lss.
