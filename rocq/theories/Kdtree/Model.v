(** Model of structs/kdtree.hpp.

    The heap nodes, each owned by exactly one parent pointer, form an inductive
    tree.  The coordinate arithmetic (double in the code) is a parameter: any
    operations on any number type; Props.v lists what the proofs need from it and
    KdFloat.v shows it for IEEE rounding. Node data is a [nat]. *)
From stdpp Require Import prelude.

Record arith (num : Type) := Arith {
  zero : num; ltb : num → num → bool;
  sub : num → num → num; neg : num → num; mul : num → num → num; plus : num → num → num }.
Arguments zero {num}. Arguments ltb {num}. Arguments sub {num}. Arguments neg {num}.
Arguments mul {num}. Arguments plus {num}.

Section model.
Context {num : Type} (A : arith num) (K : nat).

(** structs/kdtree.hpp:14-15. *)
Record elem := Elem { point : nat → num; data : nat }.

(** structs/kdtree.hpp:12-20: [Node e split left right]. *)
Inductive tree := Leaf | Node (e : elem) (split : nat) (l r : tree).

(** structs/kdtree.hpp:91-92. *)
Record kdtree := Kd { root : tree; num_ : nat }.
Definition new : kdtree := Kd Leaf 0.

(** structs/kdtree.hpp:110-124. *)
Fixpoint ins (t : tree) (depth : nat) (n : elem) : tree :=
  match t with
  | Leaf => Node n (depth mod K) Leaf Leaf
  | Node e s l r =>
    if ltb A (point n s) (point e s)
    then Node e s (ins l (depth + 1) n) r
    else Node e s l (ins r (depth + 1) n)
  end.

(** structs/kdtree.hpp:100-108. *)
Definition insert (t : kdtree) (e : elem) : kdtree := Kd (ins (root t) 0 e) (num_ t + 1).

(** structs/kdtree.hpp:167-180 (never called with NULL): s starts at 0 and the K
    squared differences are added in order. *)
Definition sqdist (e : elem) (pt : nat → num) : num :=
  foldl (λ s i, let d := sub A (point e i) (pt i) in plus A s (mul A d d)) (zero A) (seq 0 K).

(** The range variable: [None] is infinity. *)
Definition gt_range (d : num) (range : option num) : bool :=
  match range with None => false | Some r => ltb A r d end.

(** structs/kdtree.hpp:132-165; the second component is *range on return. *)
Fixpoint nearest_ (t : tree) (pt : nat → num) (range : option num) : option elem * option num :=
  match t with
  | Leaf => (None, range)
  | Node e s l r =>
    let diff := sub A (pt s) (point e s) in
    (* thisSide/otherSide, lines 139-147 *)
    let c := ltb A diff (zero A) in
    let diff := if c then neg A diff else diff in
    let '(n, range) := if c then nearest_ l pt range else nearest_ r pt range in
    if gt_range (mul A diff diff) range then (n, range)
    else
      let d := sqdist e pt in
      let '(n, range) :=
        if negb (gt_range d range) then
          (* std::min(d, *range), line 157 *)
          (Some e, match range with None => Some d | Some r => Some (if ltb A r d then r else d) end)
        else (n, range) in
      let '(m, range) := if c then nearest_ r pt range else nearest_ l pt range in
      (match m with Some _ => m | None => n end, range)
  end.

(** structs/kdtree.hpp:126-130. *)
Definition nearest (t : kdtree) (pt : nat → num) : option elem := (nearest_ (root t) pt None).1.

(** structs/kdtree.hpp:194-197. *)
Definition size (t : kdtree) : nat := num_ t.

(** structs/kdtree.hpp:182-192. *)
Fixpoint depth_ (t : tree) : nat :=
  match t with Leaf => 0 | Node _ _ l r => depth_ l `max` depth_ r + 1 end.
Definition depth (t : kdtree) : nat := depth_ (root t).

(** The iterator's stack, structs/kdtree.hpp:70, holds non-null nodes, top first.
    Lines 48-55; popping an empty stack is undefined. *)
Definition push (t : tree) (st : list tree) : list tree :=
  match t with Leaf => st | _ => t :: st end.
Definition it_next (st : list tree) : option (elem * list tree) :=
  match st with
  | Node e s l r :: st => Some (e, push l (push r st))
  | _ => None
  end.

(** [for (it = begin(); it != end(); ++it) visit( *it )], kdtree.hpp:73-82. *)
Fixpoint it_loop (fuel : nat) (st : list tree) : option (list elem) :=
  match st with
  | [] => Some []
  | _ =>
    match fuel with
    | 0 => None
    | S fuel => '(e, st) ← it_next st; l ← it_loop fuel st; Some (e :: l)
    end
  end.
Definition iterate (fuel : nat) (t : kdtree) : option (list elem) := it_loop fuel (push (root t) []).

End model.
