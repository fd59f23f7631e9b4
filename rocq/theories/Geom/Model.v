(** Model of the points, boxes, lines, segments and polygons of utils/geom2d.hpp and
    utils/geom2d.cc, and of visnav/polymap.hpp and polymap.cc.

    Doubles are replaced by exact rationals; rounding is not modelled.  A slope is
    [None] for Infinity, and a point is [None] for Pt::inf().  Arcs, the random
    polygons, giftwrap, triangle, drawing, reading and writing are left out. *)
From stdpp Require Import prelude.
From Coq Require Import QArith Qabs.
Local Open Scope Q_scope.

Definition Qltb (a b : Q) : bool := negb (Qle_bool b a).

(** geom2d.hpp:14 and 20: 2^-52 and its square root. *)
Definition Epsilon : Q := 1 # 4503599627370496.
Definition Threshold : Q := 1 # 67108864.

(** geom2d.hpp:25-27, on finite arguments. *)
Definition doubleeq (a b : Q) : bool := Qltb (Qabs (a - b)) Threshold.
(** The same on slopes. *)
Definition slopeeq (m m' : option Q) : bool :=
  match m, m' with
  | Some a, Some b => doubleeq a b
  | None, None => true
  | _, _ => false
  end.
(** geom2d.hpp:37-39. *)
Definition between (min max x : Q) : bool := Qle_bool (min - Threshold) x && Qle_bool x (max + Threshold).

(** geom2d.hpp:42-129. *)
Record pt := Pt { x : Q; y : Q }.
Definition pteq (p q : pt) : bool := doubleeq (x p) (x q) && doubleeq (y p) (y q).
Definition minus (p q : pt) : pt := Pt (x p - x q) (y p - y q).
Definition scalept (sx sy : Q) (p : pt) : pt := Pt (x p * sx) (y p * sy).
Definition translatept (dx dy : Q) (p : pt) : pt := Pt (x p + dx) (y p + dy).

(** geom2d.hpp:131-206. *)
Record bbox := Bbox { lo : pt; hi : pt }.
(** geom2d.hpp:134-141, 194-205. *)
Definition mkbbox (p q : pt) : bbox :=
  Bbox (Pt (if Qltb (x q) (x p) then x q else x p) (if Qltb (y q) (y p) then y q else y p))
       (Pt (if Qltb (x q) (x p) then x p else x q) (if Qltb (y q) (y p) then y p else y q)).
(** geom2d.hpp:150-160: one turn of the loop. *)
Definition growbbox (b : bbox) (p : pt) : bbox :=
  Bbox (Pt (if Qltb (x p) (x (lo b)) then x p else x (lo b)) (if Qltb (y p) (y (lo b)) then y p else y (lo b)))
       (Pt (if Qltb (x (hi b)) (x p) then x p else x (hi b)) (if Qltb (y (hi b)) (y p) then y p else y (hi b))).
(** geom2d.hpp:145-161: the box of a list of points; the infinite box of no points is [None],
    and the first point replaces all four infinities. *)
Definition bboxof (ps : list pt) : option bbox :=
  match ps with
  | [] => None
  | p :: ps => Some (fold_left growbbox ps (Bbox p p))
  end.
(** geom2d.hpp:169-171. *)
Definition bcontains (b : bbox) (p : pt) : bool := between (x (lo b)) (x (hi b)) (x p) && between (y (lo b)) (y (hi b)) (y p).
(** geom2d.hpp:174-177. *)
Definition bhits (a b : bbox) : bool :=
  negb (Qltb (x (hi b)) (x (lo a)) || Qltb (x (hi a)) (x (lo b)) || Qltb (y (hi b)) (y (lo a)) || Qltb (y (hi a)) (y (lo b))).
(** geom2d.hpp:181-184. *)
Definition btranslate (dx dy : Q) (b : bbox) : bbox := Bbox (translatept dx dy (lo b)) (translatept dx dy (hi b)).
(** geom2d.hpp:187-191. *)
Definition center (b : bbox) : pt := Pt (x (lo b) + (x (hi b) - x (lo b)) / 2) (y (lo b) + (y (hi b) - y (lo b)) / 2).

(** geom2d.hpp:209-257. *)
Record line := Line { m : option Q; b : Q }.
Definition mkline (p0 p1 : pt) : line :=
  let dx := x p1 - x p0 in let dy := y p1 - y p0 in
  if Qltb (Qabs dx) Epsilon then Line None (x p1)
  else Line (Some (dy / dx)) (y p0 - dy / dx * x p0).
(** geom2d.hpp:228-238. *)
Definition lisect (l o : line) : option pt :=
  if slopeeq (m l) (m o) then None
  else match m l, m o with
       | None, None => None
       | Some ml, None => Some (Pt (b o) (ml * b o + b l))
       | None, Some mo => Some (Pt (b l) (mo * b l + b o))
       | Some ml, Some mo => let xx := (b o - b l) / (ml - mo) in Some (Pt xx (ml * xx + b l))
       end.
(** geom2d.hpp:242-247. *)
Definition lcontains (l : line) (p : pt) : bool :=
  match m l with
  | None => doubleeq (x p) (b l)
  | Some ml => doubleeq (y p) (x p * ml + b l)
  end.

(** geom2d.hpp:259-360. *)
Record seg := Seg { sl : line; p0 : pt; p1 : pt; sb : bbox }.
Definition mkseg (p q : pt) : seg := Seg (mkline p q) p q (mkbbox p q).
Definition midpt (s : seg) : pt := Pt ((x (p0 s) + x (p1 s)) / 2) ((y (p0 s) + y (p1 s)) / 2).
(** geom2d.hpp:282-285: the point [f] times the length of the segment away from its start.
    (The code takes the distance and goes through the angle.) *)
Definition along (s : seg) (f : Q) : pt :=
  Pt (x (p0 s) + f * (x (p1 s) - x (p0 s))) (y (p0 s) + f * (y (p1 s) - y (p0 s))).
(** geom2d.hpp:289-293. *)
Definition within (s : seg) (p : pt) : bool :=
  if Qltb (y (hi (sb s)) - y (lo (sb s))) (x (hi (sb s)) - x (lo (sb s)))
  then between (x (lo (sb s))) (x (hi (sb s))) (x p)
  else between (y (lo (sb s))) (y (hi (sb s))) (y p).
(** geom2d.hpp:354-356. *)
Definition isvertical (s : seg) : bool := doubleeq (x (p0 s)) (x (p1 s)).
(** geom2d.hpp:302-341.  Where the slope of a segment that is not vertical is used it is
    finite; 0 stands for the slope that is not there. *)
Definition overlap (s o : seg) : option pt :=
  if within s (p0 o) then Some (p0 o) else if within s (p1 o) then Some (p1 o) else None.
Definition isect (s o : seg) : option pt :=
  if isvertical s && isvertical o then
    if negb (doubleeq (x (p0 s)) (x (p0 o))) then None else overlap s o
  else if slopeeq (m (sl s)) (m (sl o)) then
    if negb (lcontains (sl s) (p0 o)) && negb (lcontains (sl s) (p1 o)) then None else overlap s o
  else
    let p :=
      if isvertical o then Some (Pt (x (p0 o)) (default 0 (m (sl s)) * x (p0 o) + b (sl s)))
      else if isvertical s then Some (Pt (x (p0 s)) (default 0 (m (sl o)) * x (p0 s) + b (sl o)))
      else lisect (sl s) (sl o) in
    match p with
    | Some p => if within s p && within o p then Some p else None
    | None => None
    end.
(** geom2d.hpp:344-350. *)
Definition hits (s o : seg) : bool :=
  if slopeeq (m (sl s)) (Some 0) || slopeeq (m (sl o)) (Some 0) || isvertical s || isvertical o
  then bool_decide (isect s o ≠ None)
  else bhits (sb s) (sb o) && bool_decide (isect s o ≠ None).

(** geom2d.hpp:470-573. *)
Record poly := Poly { verts : list pt; sides : list seg; pb : bbox }.

(** geom2d.cc:200-208: sine and cosine (up to a factor) of the turn at vertex [i]. *)
Definition turn (vs : list pt) (i : nat) : option (Q * Q) :=
  u ← vs !! (if decide (i = 0%nat) then length vs - 1 else i - 1)%nat;
  v ← vs !! i;
  w ← vs !! (if decide (i = length vs - 1)%nat then 0 else i + 1)%nat;
  let a := minus v u in let b := minus w v in
  Some (x b * y a - x a * y b, x b * x a + y b * y a).
(** geom2d.cc:210-217: the angle is pi, which is tested up to the precision of doubles
    there and exactly here.  atan2(0, 0) is 0. *)
Definition straight (t : Q * Q) : bool := Qeq_bool t.1 0 && Qle_bool 0 t.2.
(** geom2d.hpp:566: the angle is below pi. *)
Definition isreflex (vs : list pt) (i : nat) : option bool :=
  t ← turn vs i; Some (Qltb 0 t.1 || Qeq_bool t.1 0 && Qltb t.2 0).

(** [k] is the number of vertices from [i] on. *)
Fixpoint removecolinear (k i : nat) (vs : list pt) : option (list pt) :=
  match k with
  | O => Some vs
  | S k =>
    t ← turn vs i;
    if straight t then removecolinear k i (delete i vs) else removecolinear k (S i) vs
  end.

(** geom2d.cc:219-224. *)
Fixpoint path (p : pt) (vs : list pt) : list seg :=
  match vs with
  | [] => []
  | q :: vs => mkseg p q :: path q vs
  end.
Definition initsides (vs : list pt) : option (list seg) :=
  match vs with
  | [] => None
  | p :: l => Some (path p (l ++ [p]))
  end.

(** geom2d.cc:16-21. *)
Definition mkpoly (vs : list pt) : option poly :=
  if decide (length vs < 3)%nat then None
  else
    bb ← bboxof vs;
    vs ← removecolinear (length vs) 0 vs;
    ss ← initsides vs;
    Some (Poly vs ss bb).

(** geom2d.cc:139-163: whether the side counts. *)
Definition counts (p : pt) (side : seg) : bool :=
  let ray := mkline p (Pt (x p + 1) (y p)) in
  if Qltb (x (hi (sb side))) (x p) || Qltb (y (hi (sb side))) (y p) || Qltb (y p) (y (lo (sb side))) then false
  else match lisect ray (sl side) with
       | None => false
       | Some hit =>
         if Qle_bool (x hit) (x p) || negb (within side hit) then false
         else if pteq (p0 side) hit && Qle_bool (y hit) (y (p1 side)) then false
         else if pteq (p1 side) hit && Qle_bool (y hit) (y (p0 side)) then false
         else true
       end.
Fixpoint containsloop (p : pt) (ss : list seg) (even isect : bool) : bool :=
  match ss with
  | [] => isect && negb even
  | s :: ss => if counts p s then containsloop p ss (negb even) true else containsloop p ss even isect
  end.
Definition contains (q : poly) (p : pt) : bool := containsloop p (sides q) true false.

(** geom2d.hpp:511-520. *)
Definition polyhits (q : poly) (l : seg) : bool := if bhits (pb q) (sb l) then existsb (hits l) (sides q) else false.

(** geom2d.cc:165-175. *)
Definition isects (q : poly) (l : seg) : list pt := omap (isect l) (sides q).

(** geom2d.hpp:546-551.  No vertices: undefined. *)
Definition scalepoly (sx sy : Q) (q : poly) : option poly :=
  let vs := scalept sx sy <$> verts q in
  bb ← bboxof vs; ss ← initsides vs; Some (Poly vs ss bb).
(** geom2d.hpp:555-560. *)
Definition translatepoly (dx dy : Q) (q : poly) : option poly :=
  let vs := translatept dx dy <$> verts q in
  ss ← initsides vs; Some (Poly vs ss (btranslate dx dy (pb q))).

(** polymap.hpp:12-69. *)
Record polymap := PolyMap { polys : list poly; bound : option poly }.
(** polymap.hpp:51-60. *)
Definition obstructed (pm : polymap) (p : pt) : bool :=
  match bound pm with
  | Some bd => if negb (contains bd p) then true else existsb (λ q, contains q p) (polys pm)
  | None => existsb (λ q, contains q p) (polys pm)
  end.
(** polymap.cc:113-126. *)
Definition isvisible (pm : polymap) (p q : pt) : bool :=
  let l := mkseg p q in
  if existsb (λ o, bhits (sb l) (pb o) && polyhits o l) (polys pm) then false
  else match bound pm with
       | None => true
       | Some bd => contains bd p && negb (polyhits bd l)
       end.
(** polymap.cc:83-111; coordinates that stay infinite are [None]. *)
Definition less (a : Q) (b : option Q) : bool := match b with None => true | Some b => Qltb a b end.
Definition greater (a : Q) (b : option Q) : bool := match b with None => true | Some b => Qltb b a end.
Definition mapmin (pm : polymap) : option Q * option Q :=
  match bound pm with
  | Some bd => (Some (x (lo (pb bd))), Some (y (lo (pb bd))))
  | None => fold_left (λ '(mx, my) q, (if less (x (lo (pb q))) mx then Some (x (lo (pb q))) else mx,
                                       if less (y (lo (pb q))) my then Some (y (lo (pb q))) else my)) (polys pm) (None, None)
  end.
Definition mapmax (pm : polymap) : option Q * option Q :=
  match bound pm with
  | Some bd => (Some (x (hi (pb bd))), Some (y (hi (pb bd))))
  | None => fold_left (λ '(mx, my) q, (if greater (x (hi (pb q))) mx then Some (x (hi (pb q))) else mx,
                                       if greater (y (lo (pb q))) my then Some (y (hi (pb q))) else my)) (polys pm) (None, None)
  end.
(** polymap.cc:69-81. *)
Definition mapmap (f : poly → option poly) (pm : polymap) : option polymap :=
  ps ← mapM f (polys pm);
  match bound pm with
  | None => Some (PolyMap ps None)
  | Some bd => bd ← f bd; Some (PolyMap ps (Some bd))
  end.
Definition scalemap (sx sy : Q) : polymap → option polymap := mapmap (scalepoly sx sy).
Definition translatemap (dx dy : Q) : polymap → option polymap := mapmap (translatepoly dx dy).
