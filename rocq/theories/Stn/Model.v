(** Model of structs/stn.{hpp,cc}: simple temporal networks.

    Time is long (stn.hpp:9), here 64 bits.  Nodes are numbered; the fields of the
    nodes are kept in parallel lists and a pointer to a node is its number.
    Machine arithmetic that overflows, indices out of range and failing assertions
    are [None].  Printing (stn.cc:76-112), the copy constructor and Stn::grow on a network
    that already has arcs (which would move the nodes the arcs point to) are left out. *)
From stdpp Require Import prelude gmap.
From Coq Require Import ZArith.
Open Scope Z_scope.

(** stn.hpp:64-74: long has no infinity, so these are its extreme values. *)
Definition inf : Z := 2^63 - 1.
Definition neginf : Z := - 2^63.

Definition inrange (z : Z) : bool := (neginf <=? z) && (z <=? inf).
(** Signed machine addition, subtraction and negation; overflow is undefined. *)
Definition madd (a b : Z) : option Z := if inrange (a + b) then Some (a + b) else None.
Definition msub (a b : Z) : option Z := if inrange (a - b) then Some (a - b) else None.
Definition mneg (a : Z) : option Z := if inrange (- a) then Some (- a) else None.

(** stn.hpp:80-89. *)
Definition subclamp (a b : Z) : option Z :=
  if 0 <=? b then
    x ← madd neginf b;
    if a <? x then Some neginf else msub a b
  else
    x ← madd inf b;
    if x <? a then Some inf else msub a b.

(** stn.hpp:91-100. *)
Definition addclamp (a b : Z) : option Z :=
  if 0 <=? b then
    x ← msub inf b;
    if x <? a then Some inf else madd a b
  else
    x ← msub neginf b;
    if a <? x then Some neginf else madd a b.

Definition arc : Type := nat * Z.
(** stn.hpp:122-129. *)
Record undo_rec := Undo { popout : list nat; prevto : list (nat * Z); prevfrom : list (nat * Z) }.

Global Instance undo_eq_dec : EqDecision undo_rec.
Proof. solve_decision. Defined.

(** stn.hpp:105-137.  [undos] is kept with its back first. *)
Record stn := Stn {
  out : list (list arc); inn : list (list arc);
  tozero : list Z; fromzero : list Z; undos : list undo_rec }.

Definition nnodes (s : stn) : nat := length (tozero s).

(** stn.cc:8-11, 54-60, stn.hpp:113-116. *)
Definition new (num : nat) : stn :=
  Stn (replicate (num + 1) []) (replicate (num + 1) [])
      (0 :: replicate num neginf) (0 :: replicate num inf) [].

(** stn.hpp:25-33; the derived constraints, stn.hpp:35-58, are special cases. *)
Record constr := Constr { ci : nat; cj : nat; ca : Z; cb : Z }.
Definition Before i j a := Constr i j a inf.
Definition After i j a := Constr i j a inf.
Definition NoEarlier i t := Constr 0 i t inf.
Definition NoLater i t := Constr 0 i neginf t.
Definition InWindow i s e := Constr 0 i s e.

(** push_back of an arc at node [i]. *)
Definition pusharc (l : list (list arc)) (i : nat) (a : arc) : list (list arc) :=
  alter (λ x, x ++ [a]) i l.

(** stn.cc:217-228: arcs and the popout list. *)
Definition addarc (o i : list (list arc)) (u v : nat) (w : Z) : list (list arc) * list (list arc) :=
  (pusharc o u (v, w), pusharc i v (u, w)).
Definition addarcs (o i : list (list arc)) (c : constr)
    : option (list (list arc) * list (list arc) * list nat) :=
  let '(o, i, p) :=
    if cb c <? inf then (addarc o i (ci c) (cj c) (cb c), [ci c]) else ((o, i), []) in
  if neginf <? ca c then
    na ← mneg (ca c);
    Some (addarc o i (cj c) (ci c) na, p ++ [cj c])
  else Some ((o, i), p).

(** proplower (stn.cc:230-256) and propupper (stn.cc:258-284) are the same code with
    in/out, tozero/fromzero, subclamp/addclamp and the comparisons exchanged; [dir]
    selects. *)
Inductive dir := Lower | Upper.
Definition leq (d : dir) (a b : Z) : bool := match d with Lower => a <=? b | Upper => b <=? a end.
Definition lt (d : dir) (a b : Z) : bool := match d with Lower => a <? b | Upper => b <? a end.
Definition move (d : dir) (a b : Z) : option Z :=
  match d with Lower => subclamp a b | Upper => addclamp a b end.

(** What one propagation changes: the bounds, the saved values (prevto/prevfrom), and the
    bool arrays toupdt/fromupdt and seen (as sets of the indices that are true). *)
Record pstate := PS { val : list Z; saved : list (nat * Z); updt : gset nat; seen : gset nat }.

Definition save (st : pstate) (v : nat) (old : Z) : list (nat * Z) * gset nat :=
  if decide (v ∈ updt st) then (saved st, updt st)
  else (saved st ++ [(v, old)], {[v]} ∪ updt st).

(** The for loop; [oth] are the bounds of the other direction. *)
Fixpoint loop (rec : pstate → nat → option (pstate * bool)) (d : dir) (oth : list Z)
    (st : pstate) (u : nat) (arcs : list arc) : option (pstate * bool) :=
  match arcs with
  | [] => Some (st, true)
  | (v, w) :: arcs =>
    tu ← val st !! u;
    tv ← val st !! v;
    ov ← oth !! v;
    dist ← move d tu w;
    if leq d dist tv then loop rec d oth st u arcs
    else if lt d ov dist || bool_decide (v ∈ seen st) then Some (st, false)
    else
      let '(sv, up) := save st v tv in
      '(st, ok) ← rec (PS (<[v := dist]> (val st)) sv up ({[v]} ∪ seen st)) v;
      if (ok : bool) then
        loop rec d oth (PS (val st) (saved st) (updt st) (seen st ∖ {[v]})) u arcs
      else Some (st, false)
  end.

Fixpoint prop (fuel : nat) (d : dir) (adj : list (list arc)) (oth : list Z) (st : pstate) (u : nat)
    : option (pstate * bool) :=
  match fuel with
  | 0%nat => None
  | S fuel =>
    arcs ← adj !! u;
    loop (prop fuel d adj oth) d oth st u arcs
  end.

(** The four calls of propagate, stn.cc:203-215, on (tozero, fromzero). *)
Record bounds := Bnd { lo : pstate; hi : pstate }.
Definition setseen (st : pstate) (s : gset nat) : pstate := PS (val st) (saved st) (updt st) s.

Definition proplower (fuel : nat) (s : stn) (b : bounds) (u : nat) : option (bounds * bool) :=
  '(st, ok) ← prop fuel Lower (inn s) (val (hi b)) (lo b) u;
  Some (Bnd st (setseen (hi b) (seen st)), ok).
Definition propupper (fuel : nat) (s : stn) (b : bounds) (u : nat) : option (bounds * bool) :=
  '(st, ok) ← prop fuel Upper (out s) (val (lo b)) (hi b) u;
  Some (Bnd (setseen (lo b) (seen st)) st, ok).

Definition andalso (r : option (bounds * bool)) (f : bounds → option (bounds * bool))
    : option (bounds * bool) :=
  '(b, ok) ← r; if (ok : bool) then f b else Some (b, false).

(** Recursion deeper than the number of nodes plus one is impossible (proved): each level marks
    a new node as seen. *)
Definition propagate (s : stn) (c : constr) : option (bounds * bool) :=
  let fuel := (nnodes s + 2)%nat in
  andalso (andalso (andalso
    (proplower fuel s (Bnd (PS (tozero s) [] ∅ ∅) (PS (fromzero s) [] ∅ ∅)) (ci c))
    (λ b, propupper fuel s b (ci c)))
    (λ b, proplower fuel s b (cj c)))
    (λ b, propupper fuel s b (cj c)).

(** One iteration of stn.cc:184-192. *)
Definition poparc (oi : list (list arc) * list (list arc)) (u : nat)
    : option (list (list arc) * list (list arc)) :=
  let '(o, i) := oi in
  ou ← o !! u;
  '(v, _) ← last ou;
  let o := <[u := removelast ou]> o in
  iv ← i !! v;
  '(u', _) ← last iv;
  if decide (u' = u) then Some (o, <[v := removelast iv]> i) else None.

Fixpoint poparcs (oi : list (list arc) * list (list arc)) (p : list nat)
    : option (list (list arc) * list (list arc)) :=
  match p with
  | [] => Some oi
  | u :: p => oi ← poparc oi u; poparcs oi p
  end.

(** stn.cc:194-198. *)
Definition restore (t : list Z) (l : list (nat * Z)) : list Z :=
  foldl (λ t '(v, z), <[v := z]> t) t l.

(** stn.cc:182-201. *)
Definition undo (s : stn) : option stn :=
  match undos s with
  | [] => None
  | u :: us =>
    '(o, i) ← poparcs (out s, inn s) (popout u);
    Some (Stn o i (restore (tozero s) (prevto u)) (restore (fromzero s) (prevfrom u)) us)
  end.

(** stn.cc:62-74. *)
Definition add (s : stn) (c : constr) : option (stn * bool) :=
  if decide (ci c < nnodes s ∧ cj c < nnodes s)%nat then
    '(o, i, p) ← addarcs (out s) (inn s) c;
    let s1 := Stn o i (tozero s) (fromzero s) (undos s) in
    '(b, ok) ← propagate s1 c;
    let s2 := Stn o i (val (lo b)) (val (hi b))
                (Undo p (saved (lo b)) (saved (hi b)) :: undos s) in
    if (ok : bool) then Some (s2, true)
    else s3 ← undo s2; Some (s3, false)
  else None.

(** stn.hpp:19-21. *)
Definition lower (s : stn) (n : nat) : option Z := tozero s !! n.
Definition upper (s : stn) (n : nat) : option Z := fromzero s !! n.

(** Node::eq, stn.cc:129-155: the nested loops stop at the first pair that matches.
    (The two loops compare all pairs of an arc here and an arc there.) *)
Definition arcs_eq (a b : list arc) : bool :=
  bool_decide (length a = 0%nat) ||
  existsb (λ x, existsb (λ y, bool_decide (x = y)) b) a.
Definition node_eq (s o : stn) (i : nat) : bool :=
  match tozero s !! i, tozero o !! i, fromzero s !! i, fromzero o !! i,
        out s !! i, out o !! i, inn s !! i, inn o !! i with
  | Some t, Some t', Some f, Some f', Some a, Some a', Some b, Some b' =>
    (t =? t') && (f =? f') &&
    bool_decide (length a = length a') && bool_decide (length b = length b') &&
    arcs_eq a a' && arcs_eq b b'
  | _, _, _, _, _, _, _, _ => false
  end.
(** stn.cc:114-127; Undo::eq, stn.cc:157-180, compares all fields element by element. *)
Definition eq (s o : stn) : bool :=
  bool_decide (nnodes s = nnodes o) && bool_decide (length (undos s) = length (undos o)) &&
  forallb (node_eq s o) (seq 0 (nnodes s)) && bool_decide (undos s = undos o).
