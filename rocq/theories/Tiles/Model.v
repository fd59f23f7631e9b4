(** Model of the sliding tile domain: tiles/tiles.hpp, tiles/tiles.cc,
    tiles/mdist.hpp, tiles/mdist.cc, the 64-bit packing of tiles/packed.hpp and
    the solvability test of tiles/generator.cc.

    [W] and [H] are the compile-time constants WIDTH and HEIGHT (tiles.hpp:9-13), [goalpos]
    is what the reader stored (tiles.cc:53-58).  Tiles and positions are [nat]; operators are
    [Z] because Nop and Ident are negative (tiles.hpp:19-23).  [None]: an array is read or
    written out of bounds, or an array cell is read that was never written.  Not modelled:
    reading the instance file, printing, the hash vector, the pattern databases (tiles/pdb). *)
From stdpp Require Import prelude.
From Coq Require Import ZArith.

Section tiles.
Context (W H : nat) (goalpos : nat → nat).

(** tiles.hpp:10. *)
Definition ntiles : nat := W * H.

Definition Nop : Z := (-1)%Z.
Definition Ident : Z := (-2)%Z.

(** tiles.cc:61-73: ops[i].mvs[0 .. ops[i].n-1]. *)
Definition mvs (i : nat) : list nat :=
  (if decide (W ≤ i) then [i - W] else []) ++
  (if decide (0 < i mod W) then [i - 1] else []) ++
  (if decide (i mod W < W - 1) then [i + 1] else []) ++
  (if decide (i < ntiles - W) then [i + W] else []).

(** mdist.cc:26-37: md[t][i] is written for 1 <= t < Ntiles. *)
Definition md (t i : nat) : option Z :=
  if decide (1 ≤ t ∧ t < ntiles ∧ i < ntiles) then
    let row := Z.of_nat (goalpos t / W) in
    let col := Z.of_nat (goalpos t mod W) in
    let r := Z.of_nat (i / W) in
    let c := Z.of_nat (i mod W) in
    Some (Z.abs (r - row) + Z.abs (c - col))%Z
  else None.

(** mdist.cc:39-49: incr[t][nw][old] is written for the moves from nw.  The subtraction is
    done on unsigned ints and stored in an int, which gives the difference. *)
Definition incr (t nw old : nat) : option Z :=
  if decide (1 ≤ t ∧ t < ntiles ∧ nw < ntiles ∧ old ∈ mvs nw) then
    next ← md t nw; o ← md t old; Some (o - next)%Z
  else None.

(** mdist.hpp:13-28.  ts[b] holds no tile but whatever was left there. *)
Record state := State { ts : list nat; b : nat; hval : Z }.

(** mdist.hpp:14-22. *)
Definition state_eqb (s o : state) : bool :=
  bool_decide (b s = b o) &&
  forallb (λ i, negb (negb (bool_decide (ts s !! i = ts o !! i)) && negb (bool_decide (i = b s))))
    (seq 0 ntiles).

(** mdist.cc:13-24, the loop from [i] on. b is not initialised. *)
Fixpoint init_from (i : nat) (init : list nat) (bl : option nat) (h : Z) : option (option nat * Z) :=
  match init with
  | [] => Some (bl, h)
  | t :: init =>
    if decide (t = 0) then init_from (S i) init (Some i) h
    else d ← md t i; init_from (S i) init bl (h + d)%Z
  end.
Definition initialstate (init : list nat) : option state :=
  '(bl, h) ← init_from 0 init None 0%Z;
  bl ← bl;
  Some (State init bl h).

(** mdist.hpp:40-55. *)
Definition operators (s : state) : list Z := Z.of_nat <$> mvs (b s).

(** mdist.hpp:38. *)
Definition isgoal (s : state) : bool := bool_decide (hval s = 0%Z).

(** mdist.hpp:61-92: the edge holds a reference to the state, which it changes. *)
Record edge := Edge { e_cost : Z; e_revop : Z; e_state : state; e_oldh : Z }.

(** mdist.hpp:67-79. *)
Definition mkedge (s : state) (op : Z) : option edge :=
  if decide (op = Ident) then Some (Edge 1 Ident s (hval s))
  else if decide (op < 0)%Z then None
  else
    t ← ts s !! Z.to_nat op;
    _ ← ts s !! b s;
    let ts' := <[b s := t]> (ts s) in
    d ← incr t (Z.to_nat op) (b s);
    Some (Edge 1 (Z.of_nat (b s)) (State ts' (Z.to_nat op) (hval s + d)) (hval s)).

(** mdist.hpp:81-87. *)
Definition rmedge (e : edge) : option state :=
  let s := e_state e in
  if decide (e_revop e = Ident) then Some s
  else if decide (e_revop e < 0)%Z then None
  else
    t ← ts s !! Z.to_nat (e_revop e);
    _ ← ts s !! b s;
    Some (State (<[b s := t]> (ts s)) (Z.to_nat (e_revop e)) (e_oldh e)).

(** mdist.hpp:94-97 up to the call of pack: what is packed. *)
Definition canon (s : state) : list nat := <[b s := 0]> (ts s).

(** packed.hpp:54-58; the word has 64 bits. *)
Definition pack64 (l : list nat) : Z :=
  fold_left (λ w t, Z.lor (Z.land (Z.shiftl w 4) (2 ^ 64 - 1)) (Z.of_nat t))%Z l 0%Z.

(** packed.hpp:73-88, the loop for positions below [i]; [acc] are the tiles from [i] on. *)
Fixpoint unpack_from (i : nat) (w : Z) (acc : list nat) (bl : Z) (h : Z) : option (list nat * Z * Z) :=
  match i with
  | 0 => Some (acc, bl, h)
  | S i =>
    let t := Z.to_nat (Z.land w 15) in
    let w := Z.shiftr w 4 in
    if decide (t = 0) then unpack_from i w (t :: acc) (Z.of_nat i) h
    else d ← md t i; unpack_from i w (t :: acc) bl (h + d)%Z
  end.
(** mdist.hpp:99-102; b is unsigned, a state without blank is not met. *)
Definition unpack (w : Z) : option state :=
  '(l, bl, h) ← unpack_from ntiles w [] (-1)%Z 0%Z;
  if decide (bl < 0)%Z then None else Some (State l (Z.to_nat bl) h).

(** mdist.hpp:94-97. *)
Definition pack (s : state) : Z := pack64 (canon s).

(** mdist.cc:51-67, the loop for the operators below [i]: [path] and [os] are in reverse order.
    A failed assertion gives [None]. *)
Fixpoint pathcost_from (i : nat) (s : state) (path : list state) (os : list Z) (c : Z) : option Z :=
  match i with
  | 0 => if isgoal s then Some c else None
  | S i =>
    op ← os !! i;
    e ← mkedge s op;
    p ← path !! i;
    if state_eqb (e_state e) p then pathcost_from i (e_state e) path os (c + e_cost e)%Z
    else None
  end.
Definition pathcost (init : list nat) (path : list state) (os : list Z) : option Z :=
  s ← initialstate init; pathcost_from (length os) s path os 0%Z.
End tiles.

(** generator.cc:31-55.  The row of the blank is computed with the height.  parity wraps at
    2^32, which does not matter for the parity. *)
Definition count_before (pre : list nat) (t : nat) : nat :=
  if decide (t = 0) then 0 else length (filter (λ u, t < u) pre).

Fixpoint parity_from (height : nat) (pre : list nat) (l : list nat) (parity blankrow : nat) : nat * nat :=
  match l with
  | [] => (parity, blankrow)
  | t :: l =>
    let blankrow := if decide (t = 0) then length pre / height + 1 else blankrow in
    parity_from height (pre ++ [t]) l (parity + count_before pre t) blankrow
  end.

(** 0 means solvable.  height - blankrow is computed on unsigned ints: its parity is the one of
    height + blankrow. *)
Definition solvable (l : list nat) (width height : nat) : nat :=
  let '(parity, blankrow) := parity_from height [] l 0 0 in
  let parity := if decide (width mod 2 = 0 ∧ (height + blankrow) mod 2 = 0) then parity + 1 else parity in
  parity mod 2.
