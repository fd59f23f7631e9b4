(** Model of DTA-star's decision to go on with a lookahead: keepGoing, search/dtastar.hpp:600-686.

    Doubles are exact rationals and unsigned numbers unbounded; [None] is a failed assertion, an index out of range, the
    back of an empty vector or the conversion of a double that no unsigned number stands for.  The heap and the estimates
    of the lookaheads are left out: the open nodes of the best lookahead are given in the order that std::sort leaves them
    in, with the f of the second lookahead. *)
From stdpp Require Import prelude.
From Coq Require Import ZArith QArith Qround.
From Verif Require Import Dta.Table.
Local Open Scope Q_scope.

(** The fields of a node that are used. *)
Record onode := ONode { n_f : Q; n_g : Q; n_h : Q }.
(** std::min: the first one unless the second is less *)
Definition stdmin (a b : Q) : Q := if Qle_bool a b then a else b.

Section Decide.
(** The table, its extremes, the largest depth, the mean branching factor and (wt*secpergen)/wf. *)
Context (q : list (list (list Q))) (hm fm : Q) (maxdepth : nat) (meanbr r : Q).

(** dtastar.hpp:659-668 for the nodes [ns] and the minimum [m] so far, where [None] is infinity *)
Fixpoint minover (d f : nat) (ns : list onode) (m : option Q) : option (option Q) :=
  match ns with
  | [] => Some m
  | x :: ns =>
    h ← usedbin hm (n_h x);
    ff ← tounsigned (stdmin (inject_Z (Z.of_nat f) - n_g x) fm);
    p ← prob q h d ff;
    let m := Some (match m with None => p | Some m => stdmin m p end) in
    if Qeq_bool p 0 then Some m else minover d f ns m
  end.
(** dtastar.hpp:653-677, [cnt] values of f from [f] on: whether to go, and mintab *)
Fixpoint overf (d stride : nat) (ns : list onode) (cost : Q) (cnt f : nat) (sum : Q) (tab : list (option Q)) : option (bool * list (option Q)) :=
  match cnt with
  | 0%nat => Some (false, tab)
  | S cnt =>
    m0 ← tab !! (d * stride + f)%nat;
    m ← minover d f ns m0;
    let tab := <[(d * stride + f)%nat := m]> tab in
    match m with
    | None => Some (true, tab)
    | Some v => if Qle_bool cost (sum + v) then Some (true, tab) else overf d stride ns cost cnt (S f) (sum + v) tab
    end
  end.
(** dtastar.hpp:647-678, [cnt] depths from [d] on *)
Fixpoint overd (stride : nat) (ns : list onode) (msize f0 f1 cnt d : nat) (tab : list (option Q)) : option (bool * list (option Q)) :=
  match cnt with
  | 0%nat => Some (false, tab)
  | S cnt =>
    let cost := r * inject_Z (Z.of_nat msize) * Qpower meanbr (Z.of_nat d) in
    '(go, tab) ← overf d stride ns cost (f1 - f0) f0 0 tab;
    if (go : bool) then Some (true, tab) else overd stride ns msize f0 f1 cnt (S d) tab
  end.
(** dtastar.hpp:635-681; the last two rounds have an infinite delta, and infinity is no unsigned number *)
Fixpoint grow (fuel : nat) (nodes : list onode) (fbeta : Q) (f0 stride msize mlast : nat) (tab : list (option Q)) : option bool :=
  match fuel with
  | 0%nat => None
  | S fuel =>
    if decide (msize < length nodes)%nat then
      let msize := S msize in
      delta ← (if decide (msize < length nodes - 1)%nat then n_f <$> nodes !! S msize else None);
      if Qle_bool delta fbeta then None
      else
        f1 ← fbin fm delta;
        '(go, tab) ← overd stride (take (msize - mlast) (drop mlast nodes)) msize f0 f1 maxdepth 1 tab;
        if (go : bool) then Some true else grow fuel nodes fbeta f0 stride msize msize tab
    else Some false
  end.
(** dtastar.hpp:620-622 *)
Fixpoint upto (fbeta : Q) (nodes : list onode) : nat :=
  match nodes with
  | [] => 0
  | x :: nodes => if Qle_bool (n_f x) fbeta then S (upto fbeta nodes) else 0
  end.
(** dtastar.hpp:600-686, for [nlss] lookaheads *)
Definition keepgoing (nlss : nat) (fbeta : Q) (nodes : list onode) : option bool :=
  if decide (nlss = 1%nat) then Some false
  else
    f0 ← fbin fm fbeta;
    back ← last nodes;
    realmaxf ← tounsigned (inject_Z (Qceiling (n_f back)));
    grow (S (length nodes)) nodes fbeta f0 (S realmaxf) (upto fbeta nodes) 0 (replicate (S maxdepth * S realmaxf) None).
End Decide.
