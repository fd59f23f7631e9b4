(** Model of the pancake puzzle: pancake/pancake.hpp and pancake/pancake.cc.

    [N] is the compile-time constant NCAKES.  Cakes are unbounded integers (int in the code),
    positions are [nat], operators [Z].  [None]: an assertion fails or an array is accessed out
    of bounds.  Not modelled: reading the instance, printing, the hash function. *)
From stdpp Require Import prelude.
From Coq Require Import ZArith.
From Verif Require Hash.Model.

Section pancake.
Context (N : nat).

(** pancake.hpp:22-53. *)
Record state := State { cakes : list Z; hval : Z }.

(** pancake.hpp:19. *)
Definition Nop : Z := (-1)%Z.

(** pancake.hpp:23-29. *)
Definition state_eqb (s o : state) : bool :=
  forallb (λ i, bool_decide (cakes s !! i = cakes o !! i)) (seq 0 N).

(** pancake.hpp:45-47: one round of the loop of flip. *)
Definition swap (op : nat) (l : list Z) (n : nat) : option (list Z) :=
  tmp ← l !! n;
  x ← l !! (op - n);
  Some (<[op - n := tmp]> (<[n := x]> l)).

(** pancake.hpp:44-48: the rounds for [ns]. *)
Fixpoint swaps (op : nat) (l : list Z) (ns : list nat) : option (list Z) :=
  match ns with
  | [] => Some l
  | n :: ns => l ← swap op l n; swaps op l ns
  end.

(** pancake.hpp:40-49. *)
Definition flip (l : list Z) (op : Z) : option (list Z) :=
  if decide (0 < op ∧ op < Z.of_nat N)%Z
  then swaps (Z.to_nat op) l (seq 0 (Z.to_nat op / 2 + 1)) else None.

(** pancake.hpp:145-150. *)
Definition gap (l : list Z) (n : nat) : option bool :=
  if decide (n < N) then
    if decide (n = N - 1) then x ← l !! (N - 1); Some (negb (bool_decide (x = Z.of_nat N - 1)%Z))
    else x ← l !! n; y ← l !! (n + 1); Some (negb (bool_decide (Z.abs (x - y) = 1)%Z))
  else None.

(** pancake.hpp:133-142: the loop over the positions [ns]. *)
Fixpoint count_gaps (l : list Z) (ns : list nat) (gaps : Z) : option Z :=
  match ns with
  | [] => Some gaps
  | n :: ns => g ← gap l n; count_gaps l ns (if g : bool then gaps + 1 else gaps)%Z
  end.
Definition ngaps (l : list Z) : option Z := count_gaps l (seq 0 N) 0%Z.

(** pancake.cc:22-30. *)
Definition initialstate (init : list Z) : option state := h ← ngaps init; Some (State init h).

(** pancake.hpp:69-71. *)
Definition isgoal (s : state) : bool := bool_decide (hval s = 0%Z).

(** pancake.hpp:73-83. *)
Definition operators : list Z := (λ i, Z.of_nat i + 1)%Z <$> seq 0 (N - 1).

(** pancake.hpp:85-110. The edge holds a reference to the state, which it changes. *)
Record edge := Edge { e_cost : Z; e_revop : Z; e_state : state; e_oldh : Z }.

(** pancake.hpp:91-101. *)
Definition mkedge (s : state) (op : Z) : option edge :=
  wasgap ← gap (cakes s) (Z.to_nat op);
  l ← flip (cakes s) op;
  hasgap ← gap l (Z.to_nat op);
  let h := if wasgap && negb hasgap then (hval s - 1)%Z else hval s in
  let h := if negb wasgap && hasgap then (h + 1)%Z else h in
  Some (Edge 1 op (State l h) (hval s)).

(** pancake.hpp:103-106. *)
Definition rmedge (e : edge) : option state :=
  l ← flip (cakes (e_state e)) (e_revop e);
  Some (State l (e_oldh e)).

(** pancake.cc:32-44: the loop for the operators below [i]; both lists are in reverse order. *)
Fixpoint pathcost_from (i : nat) (s : state) (path : list state) (os : list Z) (c : Z) : option Z :=
  match i with
  | 0 => if isgoal s then Some c else None
  | S i =>
    op ← os !! i;
    e ← mkedge s op;
    p ← path !! i;
    if state_eqb (e_state e) p then pathcost_from i (e_state e) path os (c + e_cost e)%Z
    else None
  end.
Definition pathcost (init : list Z) (path : list state) (os : list Z) : option Z :=
  s ← initialstate init; pathcost_from (length os) s path os 0%Z.
End pancake.

(** ** Expanding a node in place

    unpack (pancake.hpp:116-118) returns the packed state inside the node itself, so the edge
    made by considerkid (astar.hpp:115-153; the same in wastar.hpp, greedy.hpp, arastar.hpp)
    changes the state stored in the parent node until the end of considerkid. *)

(** The states stored in the nodes while the edge from [n] to the child [k] exists. *)
Definition during {K} (key : nat → K) (n : nat) (k : K) : nat → K :=
  λ e, if decide (e = n) then k else key e.

(** Once the edge is destroyed; node [kid] was added with state [k]. *)
Definition after {K} (key : nat → K) (kid : nat) (k : K) : nat → K :=
  λ e, if decide (e = kid) then k else key e.

(** astar.hpp:121-128: is the child [k] of [n], reached for [c] more, thrown away as a duplicate?
    [g]: the costs of the nodes.  The closed list is the model in Hash/Model.v. *)
Definition dropped {K} (key : nat → K) (hash : K → nat) (eqk : K → K → bool) (g : nat → Z)
    (fuel : nat) (t : Hash.Model.table) (n : nat) (k : K) (c : Z) : option bool :=
  dup ← Hash.Model.find (during key n k) hash eqk fuel t k;
  Some (match dup with Some m => bool_decide (g m ≤ g n + c)%Z | None => false end).
