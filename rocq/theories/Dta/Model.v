(** Model of search/dtastar.hpp: DTA-star.

    Simplifications: as in Search/Domain.v.  A Graph::Node (102-119) is identified with its state: Graph::node (130-146)
    makes one per state; its h is a total function that starts as the heuristic, its isgoal is isgoal, and the cached succs
    (151-152) are recomputed from the operators.  An Lss::Node (191-208) is an index into the list of those made in its Lss;
    its f and g are the key of the open list.  Costs are integers and h, f and g exact rationals (doubles in the code).
    The lookahead limit (564) is any function of the number of the step and of the calls made in it so far.  What
    keepGoing decides (600-686, from the clock and the table of probabilities) is any function of the numbers of the
    step and of the round; its effect on the heap of local searches is modelled; that it fails no assertion and reads no
    element of an empty vector is assumed.  Statistics, times and output are left out; counters do not overflow.
    [None]: a failed assertion, or undefined behaviour, or out of fuel, or an infinite value for the current state (590). *)
From stdpp Require Import prelude.
From Coq Require Import ZArith QArith Qabs Qminmax.
From Verif.Search Require Import Domain Model.
From Verif Require Import Rta.Model.
From Verif Require BinHeap.Model.
From Verif Require Geom.Model.
Local Open Scope Z_scope.
Notation heap := BinHeap.Model.heap.
Notation Qltb := Geom.Model.Qltb.
Notation Threshold := Geom.Model.Threshold.

(** dtastar.hpp:225-229 *)
Definition fsort (a b : Q * Q) : bool := if Qeq_bool a.1 b.1 then Qltb b.2 a.2 else Qltb a.1 b.1.

(** dtastar.hpp:349-355 on the results of fg(); [None] stands for a pair of infinities. *)
Definition lsort (a b : option (Q * Q)) : bool :=
  match a, b with
  | None, _ => false
  | Some _, None => true
  | Some x, Some y => fsort x y
  end.

(** dtastar.hpp:315-317 *)
Definition qsort (a b : Q) : bool := Qltb a b.

Section dta.
Context (D : domain) (lim : limits) (stop go : nat → nat → bool) (grain : nat) (learnfull : bool).

(** The graph: Node::h, the nodes with expd set and Node::preds. *)
Record graph := Graph { g_h : St D → Q; g_exp : list (St D); g_preds : St D → list (St D * Z) }.
Definition fset {A} (f : St D → A) (s : St D) (a : A) : St D → A := λ t, if decide (t = s) then a else f t.
Definition set_h (m : graph) (s : St D) (v : Q) : graph := Graph (fset (g_h m) s v) (g_exp m) (g_preds m).

(** dtastar.hpp:158-165 *)
Fixpoint genops (n : St D) (os : list (Op D)) (m : graph) (st : rcount) : graph * rcount :=
  match os with
  | [] => (m, st)
  | o :: os =>
    let '(k, c, _) := edge n o in
    genops n os (Graph (g_h m) (g_exp m) (fset (g_preds m) k (g_preds m k ++ [(n, c)]))) (radd_gend st)
  end.

(** dtastar.hpp:150-169 *)
Definition succs (n : St D) (m : graph) (st : rcount) : graph * rcount :=
  if decide (n ∈ g_exp m) then (m, st)
  else
    let '(m, st) := genops n (ops n) m (radd_expd st) in
    (Graph (g_h m) (n :: g_exp m) (g_preds m), st).

(** dtastar.hpp:191-208 *)
Record tnode := TNode { t_st : St D; t_par : option nat; t_g : Q; t_op : Op D; t_upd : bool; t_cl : bool }.

(** dtastar.hpp:366-390: goal, root, op, g0, open and nclosed of an Lss, and its nodes in the order they were made.  The
    table [nodes] holds all of them but the first: the constructor does not add the root. *)
Record tree := Tree { l_nodes : list tnode; l_open : heap (Q * Q); l_ncl : nat; l_goal : option nat;
                      l_root : St D; l_op : Op D; l_g0 : Z }.

Fixpoint find_st (ns : list tnode) (s : St D) : option nat :=
  match ns with
  | [] => None
  | n :: ns => if decide (t_st n = s) then Some 0%nat else S <$> find_st ns s
  end.
(** nodes.find *)
Definition find_t (ns : list tnode) (s : St D) : option nat := S <$> find_st (tail ns) s.

(** dtastar.hpp:232-245 *)
Definition mktree (m : graph) (cur root : St D) (o : Op D) (c : Z) : option tree :=
  let f := (inject_Z c + g_h m root)%Q in
  if Qle_bool (g_h m cur) (f + Threshold) then
    q ← BinHeap.Model.push fsort (BinHeap.Model.setkey (BinHeap.Model.new (λ _, (0, 0)%Q)) 0 (f, inject_Z c)) 0;
    Some (Tree [TNode root None (inject_Z c) o false false] q 0 (if isgoal root then Some 0%nat else None) root o c)
  else None.

(** dtastar.hpp:357-364 *)
Definition fg (t : tree) : option (Q * Q) :=
  match BinHeap.Model.front (l_open t) with
  | Some i => Some (BinHeap.Model.key (l_open t) i)
  | None => match l_goal t with
            | Some b => (λ n, (t_g n, t_g n)) <$> l_nodes t !! b
            | None => None
            end
  end.

Definition goalclosed (t : tree) : bool :=
  match l_goal t with
  | Some b => match l_nodes t !! b with Some n => t_cl n | None => false end
  | None => false
  end.

(** std::max *)
Definition qmax (a b : Q) : Q := if Qltb a b then b else a.

(** dtastar.hpp:269-302: one successor of the node [i] with the state [s] *)
Definition relax (cur s : St D) (i : nat) (o : Op D) (k : St D) (c : Z) (m : graph) (t : tree) : option (graph * tree) :=
  sn ← l_nodes t !! i;
  if decide (k = cur ∨ (p ← t_par sn; t_st <$> l_nodes t !! p) = Some k) then Some (m, t)
  else
    let m := set_h m k (qmax (g_h m k) (g_h m s - inject_Z c)) in
    if Qltb (g_h m k) 0 then None
    else
      let g := (t_g sn + inject_Z c)%Q in
      let '(ns, j, skip) :=
        match find_t (l_nodes t) k with
        | Some j => (l_nodes t, j, match l_nodes t !! j with Some kn => Qle_bool (t_g kn) g | None => false end)
        | None => (l_nodes t ++ [TNode k None 0 nop false false], length (l_nodes t), false)
        end in
      if skip : bool then Some (m, t)
      else
        kn ← ns !! j;
        let ns := <[j := TNode k (Some i) g o (t_upd kn) (t_cl kn)]> ns in
        let h := qmax (g_h m k) (g_h m s - inject_Z c) in
        let f := (g + h)%Q in
        if Qltb h 0 || Qltb g 0 || Qltb (f + Threshold) (BinHeap.Model.key (l_open t) i).1 || Qltb (f + Threshold) (g_h m cur) then None
        else
          q ← BinHeap.Model.pushupdate fsort (BinHeap.Model.setkey (l_open t) j (f, g)) j (BinHeap.Model.ind (l_open t) j);
          let better := match l_goal t with
                        | None => true
                        | Some b => match ns !! b with Some bn => Qltb g (t_g bn) | None => false end
                        end in
          let goal := if isgoal k && better then Some j else l_goal t in
          Some (m, Tree ns q (l_ncl t) goal (l_root t) (l_op t) (l_g0 t)).

Fixpoint relaxes (cur s : St D) (i : nat) (os : list (Op D)) (m : graph) (t : tree) : option (graph * tree) :=
  match os with
  | [] => Some (m, t)
  | o :: os =>
    let '(k, c, _) := edge s o in
    '(m, t) ← relax cur s i o k c m t;
    relaxes cur s i os m t
  end.

(** dtastar.hpp:251-306 with N = 1, as it is called.  In the comparison k->g < goal->g (300) the goal may be k itself, which
    has its new g then. *)
Definition expand1 (cur : St D) (m : graph) (t : tree) (st : rcount) : option (graph * tree * rcount) :=
  if BinHeap.Model.empty (l_open t) || goalclosed t then Some (m, t, st)
  else if rreached lim st then Some (m, t, rcalled st)
  else
    let st := rcalled st in
    '(q, r) ← BinHeap.Model.pop fsort (l_open t);
    i ← r;
    sn ← l_nodes t !! i;
    let ncl := if t_cl sn then l_ncl t else S (l_ncl t) in
    let ns := <[i := TNode (t_st sn) (t_par sn) (t_g sn) (t_op sn) (t_upd sn) true]> (l_nodes t) in
    let t := Tree ns q ncl (l_goal t) (l_root t) (l_op t) (l_g0 t) in
    if isgoal (t_st sn) then
      b ← l_goal t;
      bn ← l_nodes t !! b;
      if decide (b = i) then Some (m, t, st)
      else if Geom.Model.doubleeq (t_g bn) (t_g sn) then Some (m, t, st)
      else None
    else
      let '(m, st) := succs (t_st sn) m st in
      '(m, t) ← relaxes cur (t_st sn) i (ops (t_st sn)) m t;
      Some (m, t, st).

(** dtastar.hpp:333-342: the loop over the predecessors of the state [x] of the popped node. *)
Fixpoint backups (x : St D) (ps : list (St D * Z)) (m : graph) (ns : list tnode) (q : heap Q) : option (graph * list tnode * heap Q) :=
  match ps with
  | [] => Some (m, ns, q)
  | (p, c) :: ps =>
    match find_t ns p with
    | None => backups x ps m ns q
    | Some j =>
      sp ← ns !! j;
      let b := (g_h m x + inject_Z c)%Q in
      if t_cl sp && (negb (t_upd sp) || Qltb b (g_h m p)) then
        let m := set_h m p b in
        let ns := <[j := TNode (t_st sp) (t_par sp) (t_g sp) (t_op sp) true (t_cl sp)]> ns in
        q ← BinHeap.Model.pushupdate qsort (BinHeap.Model.setkey q j b) j (BinHeap.Model.ind q j);
        backups x ps m ns q
      else backups x ps m ns q
    end
  end.

(** dtastar.hpp:326-343 *)
Fixpoint lloop (fuel : nat) (m : graph) (ns : list tnode) (q : heap Q) (ncl : nat) : option graph :=
  match fuel with
  | 0%nat => None
  | S fuel =>
    if decide (ncl = 0%nat) then Some m
    else if BinHeap.Model.empty q then Some m
    else
      '(q, r) ← BinHeap.Model.pop qsort q;
      i ← r;
      sn ← ns !! i;
      let ncl := if t_cl sn then (ncl - 1)%nat else ncl in
      let ns := <[i := TNode (t_st sn) (t_par sn) (t_g sn) (t_op sn) (t_upd sn) false]> ns in
      '(m, ns, q) ← backups (t_st sn) (g_preds m (t_st sn)) m ns q;
      lloop fuel m ns q ncl
  end.

(** dtastar.hpp:321-344; the learnind of all nodes is -1 before *)
Definition learn (fuel : nat) (m : graph) (t : tree) : option graph :=
  q ← BinHeap.Model.append qsort
    (BinHeap.Model.new (λ i, match l_nodes t !! i with Some n => g_h m (t_st n) | None => 0%Q end))
    (BinHeap.Model.arr (l_open t));
  lloop fuel m (l_nodes t) q (l_ncl t).

(** dtastar.hpp:583-584, for the local searches [is] *)
Fixpoint learns (fuel : nat) (m : graph) (ts : list tree) (is : list nat) : option graph :=
  match is with
  | [] => Some m
  | i :: is => t ← ts !! i; m ← learn fuel m t; learns fuel m ts is
  end.

(** The local searches of a step, by number, and the heap [lss] of them, ordered by fg. *)
Record forest := Forest { f_trees : list tree; f_lss : heap (option (Q * Q)) }.

(** dtastar.hpp:554-558 *)
Fixpoint plant (cur : St D) (os : list (Op D)) (m : graph) (F : forest) : option (graph * forest) :=
  match os with
  | [] => Some (m, F)
  | o :: os =>
    let '(s, c, _) := edge cur o in
    let m := set_h m s (qmax (g_h m s) (g_h m cur - inject_Z c)) in
    if Qltb (g_h m s + inject_Z c + Threshold) (g_h m cur) then None
    else
      t ← mktree m cur s o c;
      let i := length (f_trees F) in
      q ← BinHeap.Model.push lsort (BinHeap.Model.setkey (f_lss F) i (fg t)) i;
      plant cur os m (Forest (f_trees F ++ [t]) q)
  end.

(** dtastar.hpp:564-572 with [e] rounds left; [j] is the number of calls of the lookahead limit so far.  The result has
    lssstop and the number of calls. *)
Fixpoint expands (e k j : nat) (cur : St D) (m : graph) (F : forest) (st : rcount) : option (graph * forest * rcount * bool * nat) :=
  match e with
  | 0%nat => Some (m, F, st, false, j)
  | S e =>
    if stop k j then Some (m, F, st, true, S j)
    else if rreached lim st then Some (m, F, rcalled st, false, S j)
    else
      i ← BinHeap.Model.front (f_lss F);
      t ← f_trees F !! i;
      if goalclosed t then Some (m, F, rcalled st, false, S j)
      else
        '(m, t, st) ← expand1 cur m t (rcalled st);
        q ← BinHeap.Model.update lsort (BinHeap.Model.setkey (f_lss F) i (fg t)) 0;
        expands e k (S j) cur m (Forest (<[i := t]> (f_trees F)) q) st
  end.

(** dtastar.hpp:600-609: false if there is one local search only; else best and second are taken out and put back *)
Definition keepgoing (k r : nat) (F : forest) : option (bool * forest) :=
  if decide (BinHeap.Model.size (f_lss F) = 1%nat) then Some (false, F)
  else
    '(q, a) ← BinHeap.Model.pop lsort (f_lss F);
    a ← a;
    '(q, b) ← BinHeap.Model.pop lsort q;
    b ← b;
    ta ← f_trees F !! a;
    tb ← f_trees F !! b;
    q ← BinHeap.Model.push lsort (BinHeap.Model.setkey q a (fg ta)) a;
    q ← BinHeap.Model.push lsort (BinHeap.Model.setkey q b (fg tb)) b;
    Some (go k r, Forest (f_trees F) q).

(** dtastar.hpp:562-578; [r] is num *)
Fixpoint rounds (fuel k r j : nat) (cur : St D) (m : graph) (F : forest) (st : rcount) : option (graph * forest * rcount) :=
  match fuel with
  | 0%nat => None
  | S fuel =>
    '(m, F, st, lssstop, j) ← expands grain k j cur m F st;
    if rreached lim st then Some (m, F, rcalled st)
    else
      let st := rcalled st in
      i ← BinHeap.Model.front (f_lss F);
      t ← f_trees F !! i;
      match l_goal t with
      | Some _ => Some (m, F, st)
      | None =>
        if lssstop : bool then Some (m, F, st)
        else
          '(b, F) ← keepgoing k r F;
          if b : bool then rounds fuel k (S r) j cur m F st else Some (m, F, st)
      end
  end.

(** dtastar.hpp:589 *)
Definition scale : Q := if learnfull then 1%Q else (11 # 10)%Q.

(** dtastar.hpp:552-598: the operator of the move and the state it leads to *)
Definition step (fuel k : nat) (cur : St D) (m : graph) (st : rcount) : option (graph * rcount * Op D * St D) :=
  let '(m, st) := succs cur m st in
  '(m, F) ← plant cur (ops cur) m (Forest [] (BinHeap.Model.new (λ _, None)));
  '(m, F, st) ← rounds fuel k 0 0 cur m F st;
  '(m, F) ← (if learnfull then
               m ← learns fuel m (f_trees F) (BinHeap.Model.arr (f_lss F));
               q ← BinHeap.Model.reinit lsort
                 (BinHeap.Model.Heap (BinHeap.Model.arr (f_lss F)) (BinHeap.Model.ind (f_lss F))
                   (λ i, match f_trees F !! i with Some t => fg t | None => None end));
               Some (m, Forest (f_trees F) q)
             else Some (m, F));
  i ← BinHeap.Model.front (f_lss F);
  t ← f_trees F !! i;
  '(f, _) ← fg t;
  Some (set_h m cur (f * scale)%Q, st, l_op t, l_root t).

(** dtastar.hpp:518-524 *)
Fixpoint moves (n fuel k : nat) (cur : St D) (m : graph) (st : rcount) (os : list (Op D)) : option (graph * rcount * St D * list (Op D)) :=
  match n with
  | 0%nat => None
  | S n =>
    if isgoal cur then Some (m, st, cur, os)
    else if rreached lim st then Some (m, rcalled st, cur, os)
    else
      '(m, st, o, cur) ← step fuel k cur m (rcalled st);
      moves n fuel (S k) cur m st (os ++ [o])
  end.

(** dtastar.hpp:534-539 *)
Fixpoint rebuild (s : St D) (os : list (Op D)) : list (St D) :=
  match os with
  | [] => [s]
  | o :: os => s :: rebuild (dest s o) os
  end.

(** dtastar.hpp:511-548: res.path and res.ops, both empty without a goal.  The assertion at 543 compares with the state of a
    node that graph.clear() (533) has destroyed; here it is read as if it were still there. *)
Definition search (n fuel : nat) (h : St D → Z) (s0 : St D) : option (list (St D) * list (Op D)) :=
  '(_, _, cur, os) ← moves n fuel 0 s0 (Graph (λ s, inject_Z (h s)) [] (λ _, [])) (RCount 0 0 0) [];
  if isgoal cur then
    let path := rebuild s0 os in
    t ← last path;
    if decide (t = cur) then Some (reverse path, reverse os) else None
  else Some ([], []).
End dta.
Arguments Graph {_}. Arguments g_h {_}. Arguments g_exp {_}. Arguments g_preds {_}.
Arguments Tree {_}. Arguments l_nodes {_}. Arguments l_open {_}. Arguments l_ncl {_}. Arguments l_goal {_}.
Arguments l_root {_}. Arguments l_op {_}. Arguments l_g0 {_}.
Arguments TNode {_}. Arguments t_st {_}. Arguments t_par {_}. Arguments t_g {_}. Arguments t_op {_}. Arguments t_upd {_}. Arguments t_cl {_}.
Arguments Forest {_}. Arguments f_trees {_}. Arguments f_lss {_}.
