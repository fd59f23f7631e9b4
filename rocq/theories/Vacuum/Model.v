(** The vacuum cleaning domain: vacuum/vacuum.{hpp,cc}, on the grid maps of Gridnav/Model.v.

    An access outside of a vector, a failed assertion and a call of fatal are [None].  The
    characters of an instance file are given by [board x y]; the newlines between its lines are
    not modelled.  vector<bool> is a list of [bool], the vector of chargers a list of 0 and 1. *)
From stdpp Require Import prelude list_numbers.
From Coq Require Import ZArith Lia.
From Verif Require Import Gridnav.Model.
Local Open Scope Z_scope.

(** vacuum.hpp:13-16. *)
Definition Suck : Z := 4.
Definition Charge : Z := 5.
Definition VNop : Z := -1.

(** vacuum.hpp:181-186. *)
Record vacuum := Vacuum {
  vmap : gridmap;
  vx0 : Z; vy0 : Z;
  vdirt : list Z;
  vlocs : list (Z * Z);
  vchg : list Z }.

(** One character of the instance, vacuum.cc:17-42. *)
Definition loadcell (v : vacuum) (x y c : Z) : option vacuum :=
  let i := index (mw (vmap v)) x y in
  if c =? 35 then
    (* GridMap::block, gridmap.hpp:49-52 *)
    fs ← wr (mflags (vmap v)) i OutOfBounds;
    Some (Vacuum (GridMap (mw (vmap v)) (mh (vmap v)) fs (mlife (vmap v)) (mmoves (vmap v)))
      (vx0 v) (vy0 v) (vdirt v) (vlocs v) (vchg v))
  else if c =? 42 then
    ds ← wr (vdirt v) i (Z.of_nat (length (vlocs v)));
    Some (Vacuum (vmap v) (vx0 v) (vy0 v) ds (vlocs v ++ [(x, y)]) (vchg v))
  else if c =? 64 then
    Some (Vacuum (vmap v) x y (vdirt v) (vlocs v) (vchg v))
  else if c =? 58 then
    cs ← wr (vchg v) i 1;
    Some (Vacuum (vmap v) (vx0 v) (vy0 v) (vdirt v) (vlocs v) cs)
  else if c =? 95 then Some v
  else None.

Fixpoint loadcells (v : vacuum) (board : Z → Z → Z) (cells : list (Z * Z)) : option vacuum :=
  match cells with
  | [] => Some v
  | (x, y) :: cells => v ← loadcell v x y (board x y); loadcells v board cells
  end.

(** vacuum.cc:6-51, with the constructor of GridMap, gridmap.cc:14-22. *)
Definition load (width height : Z) (board : Z → Z → Z) : option vacuum :=
  let '(w, h, fs) := setsize width height in
  fs ← fs;
  let m := GridMap w h fs false fourway in
  let v := Vacuum m (-1) (-1) (replicate (Z.to_nat (w * h)) (-1)) [] (replicate (Z.to_nat (w * h)) 0) in
  v ← loadcells v board (flat_map (λ y, map (λ x, (x, y)) (seqZ 1 width)) (seqZ 1 height));
  if (vx0 v <? 0) || (vy0 v <? 0) then None
  else _ ← reverseops (vmap v); Some v.

(** vacuum.hpp:20-43. *)
Record vstate := VState { vloc : Z; venergy : Z; vndirt : Z; vbits : list bool }.

(** vacuum.hpp:25-35; the bits of the other state are read with at(). *)
Fixpoint eqbits (l l' : list bool) : option bool :=
  match l, l' with
  | [], _ => Some true
  | b :: l, b' :: l' => if eqb b b' then eqbits l l' else Some false
  | _ :: _, [] => None
  end.
Definition veq (s s' : vstate) : option bool :=
  if negb (vloc s =? vloc s') || negb (vndirt s =? vndirt s') then Some false
  else eqbits (vbits s) (vbits s').

(** vacuum.cc:67-73; State() sets the energy to -1, vacuum.hpp:22. *)
Definition initialstate (v : vacuum) : vstate :=
  VState (index (mw (vmap v)) (vx0 v) (vy0 v)) (-1) (Z.of_nat (length (vlocs v)))
    (replicate (length (vlocs v)) true).

(** The first loop of h, vacuum.hpp:50-52: the index of the first dirt that is left, or their number. *)
Fixpoint firstdirt (i : nat) (bits : list bool) : nat :=
  match bits with
  | [] => i
  | b :: bits => if b then i else firstdirt (S i) bits
  end.

(** The second loop of h, vacuum.hpp:59-71, over the bits from index [i]. *)
Fixpoint boxloop (read : nat → option (Z * Z)) (i : nat) (bits : list bool) (minx maxx miny maxy : Z)
    : option (Z * Z * Z * Z) :=
  match bits with
  | [] => Some (minx, maxx, miny, maxy)
  | b :: bits =>
    if negb b then boxloop read (S i) bits minx maxx miny maxy
    else
      match read i with
      | None => None
      | Some (x, y) =>
        boxloop read (S i) bits (if x <? minx then x else minx) (if x >? maxx then x else maxx)
          (if y <? miny then y else miny) (if y >? maxy then y else maxy)
      end
  end.

(** vacuum.hpp:49-74, for a given way to read the vector of dirt locations. *)
Definition hread (read : nat → option (Z * Z)) (s : vstate) : option Z :=
  let i := firstdirt 0 (vbits s) in
  match read i with
  | None => None
  | Some (x, y) =>
    match boxloop read (S i) (drop (S i) (vbits s)) x x y y with
    | None => None
    | Some (minx, maxx, miny, maxy) => Some (vndirt s + (maxx - minx) + (maxy - miny))
    end
  end.
(** With reads outside of the vector undefined. *)
Definition h (v : vacuum) (s : vstate) : option Z := hread (λ i, vlocs v !! i) s.

(** vacuum.hpp:80-82. *)
Definition isgoal (s : vstate) : bool := vndirt s =? 0.

(** vacuum.hpp:84-113; the loop over the moves is the one of GridNav::Operators. *)
Definition operators (v : vacuum) (s : vstate) : option (list Z) :=
  if venergy s =? 0 then Some []
  else
    d ← rd (vdirt v) (vloc s);
    suck ← (if 0 <=? d then b ← vbits s !! Z.to_nat d; Some (if (b : bool) then [Suck] else []) else Some []);
    mvs ← opsloop (vmap v) (vloc s) 0 (mmoves (vmap v));
    c ← rd (vchg v) (vloc s);
    Some (suck ++ mvs ++ (if c =? 0 then [] else [Charge])).

(** vacuum.hpp:115-148. *)
Record vedge := VEdge { e_state : vstate; e_cost : Z; e_revop : Z; e_revcost : Z }.
Definition mkedge (v : vacuum) (s : vstate) (op : Z) : option vedge :=
  if op =? Suck then
    d ← rd (vdirt v) (vloc s);
    if decide (0 ≤ d < Z.of_nat (length (vlocs v))) then
      b ← vbits s !! Z.to_nat d;
      if (b : bool) then
        Some (VEdge (VState (vloc s) (venergy s) (vndirt s - 1) (<[Z.to_nat d := false]> (vbits s))) 1 VNop (-1))
      else None
    else None
  else if op =? Charge then None
  else if (0 <=? op) && (op <=? 3) then
    revs ← reverseops (vmap v);
    r ← revs !! Z.to_nat op;
    m ← mmoves (vmap v) !! Z.to_nat op;
    Some (VEdge (VState (vloc s + delta (mw (vmap v)) (mdx m, mdy m)) (venergy s) (vndirt s) (vbits s)) 1 r 1)
  else None.

(** vacuum.cc:75-87. *)
Fixpoint pathcost_from (v : vacuum) (i : nat) (s : vstate) (path : list vstate) (os : list Z) (c : Z) : option Z :=
  match i with
  | 0%nat => if isgoal s then Some c else None
  | S i =>
    op ← os !! i;
    e ← mkedge v s op;
    p ← path !! i;
    b ← veq (e_state e) p;
    if (b : bool) then pathcost_from v i (e_state e) path os (c + e_cost e) else None
  end.
Definition pathcost (v : vacuum) (path : list vstate) (os : list Z) : option Z :=
  pathcost_from v (length os) (initialstate v) path os 0.
