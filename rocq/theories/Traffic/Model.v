(** Model of the traffic domain: traffic/gridmap.hpp, traffic/gridmap.cc, traffic/traffic.hpp and traffic/traffic.cc.

    A robot walks from cell to cell of a grid in which obstacles bounce back and forth; running into one
    sends it back to its start, at time 0.

    Integers are unbounded here: the products of speeds and times, the times and the cell numbers of the code are
    32-bit (int and unsigned int).  Division by zero, uninitialised or out-of-bounds reads and failing assertions
    are [None]. *)
From stdpp Require Import prelude.
From Coq Require Import ZArith.
Local Open Scope Z_scope.

(** gridmap.hpp:126-153 (struct Obstacle) *)
Record obstacle := Obstacle { ox : Z; oy : Z; odx : Z; ody : Z }.

(** gridmap.hpp:39-67 (struct Move): [mone] says whether cost is 1.0 (else the root of 2); [mchk] holds the deltas
    of the chk array.  The names and the dx, dy of the chk array are left out; they are not used. *)
Record move := Move { mdx : Z; mdy : Z; mdelta : Z; mone : bool; mchk : list Z }.

(** gridmap.hpp:156-162; sz is w * h, and mvs holds the [nmvs] moves that were set. *)
Record gridmap := Grid { gw : Z; gh : Z; obstacles : list obstacle; mvs : list move }.
Definition gsz (g : gridmap) : Z := gw g * gh g.

(** gridmap.hpp:32-34 *)
Definition index (w x y : Z) : Z := y * w + x.

(** gridmap.cc:30-49: the arguments after num are pairs of displacements. At most three checks fit. *)
Definition mkmove (w dx dy : Z) (more : list (Z * Z)) : option move :=
  if (3 <? length more + 1)%nat then None else
  Some (Move dx dy (dx + w * dy) (negb (negb (dx =? 0) && negb (dy =? 0)))
    ((dx + w * dy) :: map (λ c, c.1 + w * c.2) more)).

(** gridmap.cc:78-85: S, N, W, E, NOP *)
Definition setfourway (w : Z) : option (list move) :=
  s ← mkmove w 0 1 []; n ← mkmove w 0 (-1) []; wst ← mkmove w (-1) 0 []; e ← mkmove w 1 0 []; nop ← mkmove w 0 0 [];
  Some [s; n; wst; e; nop].
(** gridmap.hpp:14, and gridmap.cc:14-25 once the file is read *)
Definition mkgrid (w h : Z) (obs : list obstacle) : option gridmap :=
  ms ← setfourway w; Some (Grid w h obs ms).

(** gridmap.hpp:133-151, for one axis with [w] cells: position and speed; [/] and [%] of C++ round towards zero. *)
Definition axis (w x dx t : Z) : option Z :=
  let x_p := Z.abs (x + dx * t) in
  if w - 1 =? 0 then None else
  let refl := Z.quot x_p (w - 1) in
  let off := Z.rem x_p (w - 1) in
  Some (if Z.rem refl 2 =? 0 then off else w - off - 1).
Definition positionAt (o : obstacle) (w h t : Z) : option (Z * Z) :=
  x ← axis w (ox o) (odx o) t; y ← axis h (oy o) (ody o) t; Some (x, y).
Definition obsloc (g : gridmap) (o : obstacle) (t : Z) : option Z :=
  p ← positionAt o (gw g) (gh g) t; Some (index (gw g) p.1 p.2).

(** gridmap.hpp:83-109: the loop over the obstacles *)
Fixpoint okobs (g : gridmap) (loc next t : Z) (m : move) (obs : list obstacle) : option bool :=
  match obs with
  | [] => Some true
  | o :: obs =>
      o1 ← obsloc g o (t - 1); o2 ← obsloc g o t;
      if (loc =? o2) && (next =? o1) then Some false else
      if existsb (λ d, (loc + d =? o2) && negb (d =? mdelta m)) (mchk m) then Some false else
      okobs g loc next t m obs
  end.
(** gridmap.hpp:71-112; coord is gridmap.hpp:27-29 *)
Definition ok (g : gridmap) (loc t : Z) (m : move) : option bool :=
  if gw g =? 0 then None else
  let newX := loc mod gw g + mdx m in
  let newY := loc / gw g + mdy m in
  if (newX <? 0) || (newY <? 0) || (gw g <=? newX) || (gh g <=? newY) then Some false else
  okobs g loc (index (gw g) newX newY) t m (obstacles g).

(** traffic.hpp:119-139: cell and time; the cached h and d are left out, see [heur]. *)
Notation tstate := (Z * Z)%type (only parsing).
Record traffic := Traffic { tstart : Z; tfinish : Z; tmap : gridmap }.
(** traffic.cc:9-13 and traffic.hpp:98-109 *)
Definition mktraffic (x0 y0 x1 y1 w h : Z) (obs : list obstacle) : option traffic :=
  g ← mkgrid w h obs; Some (Traffic (index w x0 y0) (index w x1 y1) g).
(** traffic.hpp:90-93 *)
Definition TNop : Z := -1.
Definition Ident : Z := 8.
(** traffic.cc:15-20 *)
Definition initialstate (d : traffic) : tstate := (tstart d, 0).
(** traffic.hpp:178-180 *)
Definition tgoal (d : traffic) (s : tstate) : bool := s.1 =? tfinish d.

(** traffic.hpp:182-191 *)
Fixpoint opsfrom (d : traffic) (s : tstate) (i : Z) (ms : list move) : option (list Z) :=
  match ms with
  | [] => Some []
  | m :: ms =>
      b ← ok (tmap d) s.1 (s.2 + 1) m; l ← opsfrom d s (i + 1) ms;
      Some (if (b : bool) then i :: l else l)
  end.
Definition operators (d : traffic) (s : tstate) : option (list Z) := opsfrom d s 0 (mvs (tmap d)).

(** traffic.hpp:220-226 *)
Fixpoint collides (g : gridmap) (loc t : Z) (obs : list obstacle) : option bool :=
  match obs with
  | [] => Some false
  | o :: obs => p ← obsloc g o t; if loc =? p then Some true else collides g loc t obs
  end.
(** traffic.hpp:212-238: the new state and the cost as (units, sqrts).  mvs[op] exists for the moves that were set
    only (for Ident = 8 it is beyond the array). The reverse operator is always Nop. *)
Definition mkedge (d : traffic) (s : tstate) (op : Z) : option (tstate * (Z * Z)) :=
  let g := tmap d in
  if negb ((0 <=? s.1) && (s.1 <? gsz g)) then None else
  if op <? 0 then None else
  m ← mvs g !! Z.to_nat op;
  c ← collides g (s.1 + mdelta m) (s.2 + 1) (obstacles g);
  let s' := if (c : bool) then initialstate d else (s.1 + mdelta m, s.2 + 1) in
  if negb ((0 <=? s'.1) && (s'.1 <? gsz g)) then None else
  Some (s', if (op =? Ident) || mone m then (1, 0) else (0, 1)).

(** traffic.hpp:171-176 and 268-272, for a state whose h is not cached yet.  (A state made by Edge or initialstate
    is not.  unpack, traffic.hpp:246-250, keeps what the buffer holds; the searches give it new buffers.) *)
Definition heur (d : traffic) (s : tstate) : Z :=
  let w := gw (tmap d) in
  Z.abs (s.1 mod w - tfinish d mod w) + Z.abs (s.1 / w - tfinish d / w).

(** traffic.cc:22-46: [ops] is stored goal first; the result is the cost and the controls that are printed.
    Printing them (controlstr, see Encode.Model) is left out. *)
Fixpoint replay (d : traffic) (s : tstate) (ops : list Z) : option (tstate * (Z * Z)) :=
  match ops with
  | [] => Some (s, (0, 0))
  | op :: ops =>
      e ← mkedge d s op; r ← replay d e.1 ops;
      Some (r.1, (e.2.1 + r.2.1, e.2.2 + r.2.2))
  end.
Definition pathcost (d : traffic) (ops : list Z) : option ((Z * Z) * list Z) :=
  r ← replay d (initialstate d) (reverse ops);
  if tgoal d r.1 then Some (r.2, reverse ops) else None.
