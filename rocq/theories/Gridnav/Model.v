(** Grid maps and grid navigation: gridnav/gridmap.{hpp,cc} and gridnav/gridnav.{hpp,cc}.

    Locations, coordinates and costs are [Z]; the machine integers of the code hold them exactly
    as long as the map has fewer than 2^31 cells, which the model does not restate (setsize
    computes the size with the checked arithmetic of utils/safeint.hpp).  An array read outside
    its bounds, a failed assertion, a call of fatal and a read of an uninitialised value are
    [None].  File parsing (fscanf of the headers) is not modelled: a loader is given the size and
    the characters of the board. *)
From stdpp Require Import prelude.
From stdpp Require Import list_numbers.
From Coq Require Import ZArith Lia.
Local Open Scope Z_scope.

(** gridmap.hpp:125-131. *)
Definition Passable : Z := 1.
Definition OutOfBounds : Z := 2.
Definition Tree : Z := 4.
Definition Swamp : Z := 8.
Definition Water : Z := 16.

(** gridmap.hpp:57-85: the displacement, and the cells checked besides the target; gridmap.cc:262-281
    puts the target first among the checked cells. *)
Record move := Move { mdx : Z; mdy : Z; mchk : list (Z * Z) }.
Definition chks (m : move) : list (Z * Z) := (mdx m, mdy m) :: mchk m.

(** gridmap.cc:283-296. *)
Definition octile : list move :=
  [Move (-1) 0 []; Move 1 0 []; Move 0 (-1) [];
   Move (-1) (-1) [(0, -1); (-1, 0)]; Move 1 (-1) [(0, -1); (1, 0)];
   Move 0 1 []; Move (-1) 1 [(-1, 0); (0, 1)]; Move 1 1 [(1, 0); (0, 1)]].
(** gridmap.cc:298-308. *)
Definition eightway : list move :=
  [Move 1 1 []; Move 1 (-1) []; Move (-1) 1 []; Move (-1) (-1) [];
   Move 0 1 []; Move 0 (-1) []; Move (-1) 0 []; Move 1 0 []].
(** gridmap.cc:310-316. *)
Definition fourway : list move := [Move 0 1 []; Move 0 (-1) []; Move (-1) 0 []; Move 1 0 []].

(** gridmap.hpp:110-121, 133.  The characters kept for drawing are left out. *)
Record gridmap := GridMap {
  mw : Z; mh : Z; mflags : list Z; mlife : bool; mmoves : list move }.

(** gridmap.hpp:29-41. *)
Definition xcoord (g : gridmap) (loc : Z) : Z := loc mod mw g.
Definition ycoord (g : gridmap) (loc : Z) : Z := loc / mw g.
Definition index (w x y : Z) : Z := y * w + x.

(** Array accesses. *)
Definition rd (l : list Z) (i : Z) : option Z := if decide (0 ≤ i) then l !! Z.to_nat i else None.
Definition wr (l : list Z) (i v : Z) : option (list Z) :=
  if decide (0 ≤ i < Z.of_nat (length l)) then Some (<[Z.to_nat i := v]> l) else None.
(** A sequence of writes; a value that is [None] is one whose computation fails. *)
Fixpoint wrs (l : list Z) (ws : list (Z * option Z)) : option (list Z) :=
  match ws with
  | [] => Some l
  | (i, v) :: ws =>
    match v with
    | None => None
    | Some v => match wr l i v with Some l => wrs l ws | None => None end
    end
  end.

(** gridmap.hpp:44-46. *)
Definition blkd (g : gridmap) (l : Z) : option bool :=
  f ← rd (mflags g) l; Some (bool_decide (Z.land f Passable = 0)).

(** gridmap.hpp:136-143. *)
Definition flagsok (g : gridmap) (l0 l1 : Z) : option bool :=
  f0 ← rd (mflags g) l0;
  f1 ← rd (mflags g) l1;
  Some (if decide (Z.land f1 (Z.lor OutOfBounds Tree) ≠ 0) then false
        else if decide (Z.land f0 Water ≠ 0) then bool_decide (Z.land f1 Water ≠ 0)
        else bool_decide (Z.land f1 (Z.lor Passable Swamp) ≠ 0)).

(** gridmap.cc:263, 278. *)
Definition delta (w : Z) (d : Z * Z) : Z := d.1 + w * d.2.

(** gridmap.hpp:89-96. *)
Fixpoint okloop (g : gridmap) (loc : Z) (cs : list (Z * Z)) : option bool :=
  match cs with
  | [] => Some true
  | c :: cs =>
    b ← flagsok g loc (loc + delta (mw g) c);
    if (b : bool) then okloop g loc cs else Some false
  end.
Definition ok (g : gridmap) (loc : Z) (m : move) : option bool := okloop g loc (chks m).

(** gridmap.cc:236-260, on the terrain flags. *)
Definition setsize (width height : Z) : Z * Z * option (list Z) :=
  let w := width + 2 in
  let h := height + 2 in
  (w, h, wrs (replicate (Z.to_nat (w * h)) Passable)
    (flat_map (λ i, [(index w i 0, Some OutOfBounds); (index w i (h - 1), Some OutOfBounds)]) (seqZ 0 w) ++
     flat_map (λ i, [(index w 0 i, Some OutOfBounds); (index w (w - 1) i, Some OutOfBounds)]) (seqZ 0 h))).

(** gridmap.cc:38-57, with the outcome of each random draw given by [blocked x y]. *)
Definition uniform (width height : Z) (blocked : Z → Z → bool) : option (list Z) :=
  let '(w, h, fs) := setsize width height in
  fs ← fs;
  wrs fs (flat_map (λ x, map (λ y, (index w x y, Some (if blocked x y then OutOfBounds else Passable)))
    (seqZ 1 height)) (seqZ 1 width)).

(** gridmap.cc:145-169: the boards of Ruml's format list the highest y first, so the line read
    [y]th (from 1) is stored at row [h - y - 1].  [board x y] is the character read there. *)
Definition rumlflag (c : Z) : option Z :=
  if c =? 32 then Some Passable else if c =? 35 then Some OutOfBounds else None.
Definition load_ruml (width height : Z) (board : Z → Z → Z) : option (list Z) :=
  let '(w, h, fs) := setsize width height in
  fs ← fs;
  wrs fs (flat_map (λ y, map (λ x, ((h - y - 1) * w + x, rumlflag (board x y)))
    (seqZ 1 (w - 2))) (seqZ 1 (h - 2))).

(** gridmap.cc:205-231.  The table of terrain flags is a local array of which only seven entries
    are set, so any other character is a read of an uninitialised value. *)
Definition terrain (c : Z) : option Z :=
  if (c =? 46) || (c =? 71) then Some Passable
  else if (c =? 64) || (c =? 79) then Some OutOfBounds
  else if c =? 84 then Some Tree
  else if c =? 83 then Some Swamp
  else if c =? 87 then Some Water
  else None.
Definition load_sturtevant (width height : Z) (board : Z → Z → Z) : option (list Z) :=
  let '(w, h, fs) := setsize width height in
  fs ← fs;
  wrs fs (flat_map (λ y, map (λ x, (y * w + x, terrain (board x y)))
    (seqZ 1 (w - 2))) (seqZ 1 (h - 2))).

(** ** GridNav *)

(** gridnav.hpp:18-86: a cost is a number of units and a number of square roots of two.  The code
    caches their sum in a double and compares that; the model keeps the two exact numbers. *)
Definition gcost : Type := Z * Z.

(** gridnav.hpp:88-92. *)
Definition Nop : Z := -1.
Definition Ident : Z := 8.

(** gridnav.cc:9-14, 16-20: the location of a given cell. *)
Definition locof (g : gridmap) (x y : Z) : Z := index (mw g) (x + 1) (y + 1).

(** The inner loop of reverseops, gridnav.cc:25-31: the first move opposite to [m], from index [j]. *)
Fixpoint findrev (m : move) (j : Z) (ms : list move) : option Z :=
  match ms with
  | [] => None
  | m' :: ms => if (mdx m =? - mdx m') && (mdy m =? - mdy m') then Some j else findrev m (j + 1) ms
  end.
(** gridnav.cc:22-34; the assertion at the end says that every move has an opposite. *)
Definition reverseops (g : gridmap) : option (list Z) :=
  mapM (λ m, findrev m 0 (mmoves g)) (mmoves g).

(** gridnav.hpp:179-198. *)
Fixpoint opsloop (g : gridmap) (loc i : Z) (ms : list move) : option (list Z) :=
  match ms with
  | [] => Some []
  | m :: ms =>
    b ← ok g loc m;
    rest ← opsloop g loc (i + 1) ms;
    Some (if (b : bool) then i :: rest else rest)
  end.
Definition operators (g : gridmap) (loc : Z) : option (list Z) := opsloop g loc 0 (mmoves g).

(** gridnav.hpp:200-235; the state is its location, the cached heuristic value being recomputed
    for each new location. *)
Record edge := Edge { e_loc : Z; e_cost : gcost; e_revop : Z; e_revcost : gcost }.
Definition mul (g : gridmap) (loc : Z) : Z := if mlife g then mh g - ycoord g loc - 2 else 1.
Definition size (g : gridmap) : Z := mw g * mh g.
Definition mkedge (g : gridmap) (loc op : Z) : option edge :=
  if decide (0 ≤ loc < size g) then
    if decide (op = Ident) then
      Some (Edge loc (mul g loc, 0) Ident (mul g loc, 0))
    else if decide (0 ≤ op) then
      m ← mmoves g !! Z.to_nat op;
      revs ← reverseops g;
      r ← revs !! Z.to_nat op;
      let loc' := loc + delta (mw g) (mdx m, mdy m) in
      if decide (0 ≤ loc' < size g) then
        let c := if decide (mdx m ≠ 0 ∧ mdy m ≠ 0) then (0, mul g loc) else (mul g loc, 0) in
        Some (Edge loc' c r c)
      else None
    else None
  else None.

(** gridnav.hpp:264-268. *)
Definition manhattan (g : gridmap) (l0 l1 : Z) : Z :=
  Z.abs (xcoord g l0 - xcoord g l1) + Z.abs (ycoord g l0 - ycoord g l1).

(** gridnav.hpp:272-279. *)
Definition octiledist (g : gridmap) (l0 l1 : Z) : gcost * Z :=
  let dx := Z.abs (xcoord g l0 - xcoord g l1) in
  let dy := Z.abs (ycoord g l0 - ycoord g l1) in
  let shorter := if dx <? dy then dx else dy in
  let longer := if dx <? dy then dy else dx in
  ((longer - shorter, shorter), longer).

(** gridnav.hpp:282-284. *)
Definition lifecost (g : gridmap) (y : Z) : Z := mh g - y - 3.

(** gridnav.hpp:288-290; the division of C truncates toward zero. *)
Definition sumbetween (a b n : Z) : Z := Z.quot ((a + b) * n) 2.

(** gridnav.hpp:294-301. *)
Definition costfrom (g : gridmap) (y0 y1 : Z) : Z :=
  let last := y1 in
  let last := if y0 >? y1 then last + 1 else last in
  let last := if y0 <? y1 then last - 1 else last in
  sumbetween (lifecost g y0) (lifecost g last) (Z.abs (y0 - y1)).

(** gridnav.hpp:306-320. *)
Definition life4cheap (g : gridmap) (l0 l1 : Z) : gcost * Z :=
  let x := xcoord g l0 - 1 in
  let gx := xcoord g l1 - 1 in
  let y := ycoord g l0 - 1 in
  let gy := ycoord g l1 - 1 in
  let h := mh g - 2 in
  let dx := Z.abs (gx - x) in
  let overcost := lifecost g (if y >? gy then y else gy) in
  let upover := dx * overcost + costfrom g y gy in
  let upoverdown := costfrom g y h + costfrom g h gy in
  if upover <? upoverdown then ((upover, 0), dx + Z.abs (gy - y))
  else ((upoverdown, 0), dx + h - 1 - y + h - 1 - gy).

(** gridnav.hpp:324-343. *)
Definition life8cheap (g : gridmap) (l0 l1 : Z) : gcost * Z :=
  let x := xcoord g l0 - 1 in
  let gx := xcoord g l1 - 1 in
  let y := ycoord g l0 - 1 in
  let gy := ycoord g l1 - 1 in
  let dx := Z.abs (gx - x) in
  let dy := Z.abs (gy - y) in
  if dx <=? dy then ((costfrom g y gy, 0), dy)
  else
    let h := mh g - 2 in
    let maxy := h - 1 in
    let maxup := if maxy - y <? maxy - gy then maxy - y else maxy - gy in
    let extra := dx - dy in
    let up := if maxup <? Z.quot extra 2 then maxup else Z.quot extra 2 in
    let highy := (if y >? gy then y else gy) + up in
    let across := extra - 2 * up in
    let c := costfrom g y highy + across * lifecost g highy + costfrom g highy gy in
    ((c, 0), dx).

(** gridnav.hpp:153-173. *)
Definition computeh (g : gridmap) (l goal : Z) : gcost * Z :=
  if (4 <? Z.of_nat (length (mmoves g))) && negb (mlife g) then octiledist g l goal
  else if (4 <? Z.of_nat (length (mmoves g))) && mlife g then life8cheap g l goal
  else if (Z.of_nat (length (mmoves g)) <=? 4) && mlife g then life4cheap g l goal
  else ((manhattan g l goal, 0), manhattan g l goal).

(** gridnav.cc:36-62, without the printing of the controls (Encode/Model.v has that). *)
Fixpoint pathcost_from (g : gridmap) (goal : Z) (i : nat) (loc : Z) (os : list Z) (c : gcost) : option gcost :=
  match i with
  | 0%nat => if decide (loc = goal) then Some c else None
  | S i =>
    op ← os !! i;
    e ← mkedge g loc op;
    pathcost_from g goal i (e_loc e) os (c.1 + (e_cost e).1, c.2 + (e_cost e).2)
  end.
Definition pathcost (g : gridmap) (start goal : Z) (os : list Z) : option gcost :=
  pathcost_from g goal (length os) start os (0, 0).
