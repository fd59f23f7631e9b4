(** Model of visnav/grid2poly.cc: turning a grid of blocked cells into polygons.

    Coordinates are unsigned int in the code.  They stay below w and h except for
    the arguments of blocked(), where x - 1 may wrap around; the wrapped value is
    not below w (or h), so that blocked() is false as it is here for -1.  [None]:
    an array accessed out of bounds, the fatal error "No components found", or
    fuel used up ([n] for the disjoint sets, [fuel] for the tracing loop). *)
From stdpp Require Import prelude.
From Coq Require Import ZArith.
From Verif.Djset Require Import Model.
Local Open Scope Z_scope.

(** grid2poly.cc:62-70. *)
Inductive dir := Up | Down | Left | Right.
#[global] Instance dir_eq_dec : EqDecision dir.
Proof. solve_decision. Defined.
Record pose := Pose { px : Z; py : Z; pdir : dir }.
#[global] Instance pose_eq_dec : EqDecision pose.
Proof. solve_decision. Defined.

Definition pt : Type := Z * Z.

Section tracing.
(** blocked(x, y) of the component. *)
Context (B : Z → Z → bool).

(** grid2poly.cc:72-103. *)
Definition clockwise (c : pose) : pose :=
  let '(Pose x y d) := c in
  match d with
  | Up =>
    if B (x - 1) (y + 1) then Pose (x - 1) (y + 1) Left
    else if B x (y + 1) then Pose x (y + 1) Up
    else Pose x y Right
  | Down =>
    if B (x + 1) (y - 1) then Pose (x + 1) (y - 1) Right
    else if B x (y - 1) then Pose x (y - 1) Down
    else Pose x y Left
  | Left =>
    if B (x - 1) (y - 1) then Pose (x - 1) (y - 1) Down
    else if B (x - 1) y then Pose (x - 1) y Left
    else Pose x y Up
  | Right =>
    if B (x + 1) (y + 1) then Pose (x + 1) (y + 1) Up
    else if B (x + 1) y then Pose (x + 1) y Right
    else Pose x y Down
  end.

(** grid2poly.cc:39-55. *)
Definition corner (c : pose) : pt :=
  match pdir c with
  | Up => (px c, py c + 1)
  | Down => (px c + 1, py c)
  | Right => (px c + 1, py c + 1)
  | Left => (px c, py c)
  end.

(** grid2poly.cc:29-57: the loop. *)
Fixpoint trace (fuel : nat) (minx miny : Z) (cur : pose) (pts : list pt) : option (list pt) :=
  match fuel with
  | O => None
  | S fuel =>
    let next := clockwise cur in
    if decide (pdir cur = pdir next) then trace fuel minx miny next pts
    else if decide (next = Pose minx miny Up) then Some pts
    else trace fuel minx miny next (pts ++ [corner cur])
  end.

(** grid2poly.cc:24-60.  The vertices handed to geom2d::Poly. *)
Definition poly (fuel : nat) (minx miny : Z) : option (list pt) :=
  trace fuel minx miny (Pose minx miny Up) [(minx, miny)].
End tracing.

(** grid2poly.cc:9-11, 136-139. *)
Record comp := Comp { minx : Z; miny : Z; num : nat; cells : list bool }.

Section grid.
Context (w h : nat).

Definition idx (x y : Z) : nat := Z.to_nat (x * Z.of_nat h + y).

(** grid2poly.cc:10-11 (minx and miny are not initialised there). *)
Definition newcomp : comp := Comp 0 0 0 (replicate (w * h) false).

(** grid2poly.cc:132-134. *)
Definition blocked (l : list bool) (x y : Z) : bool :=
  bool_decide (0 ≤ x < Z.of_nat w) && bool_decide (0 ≤ y < Z.of_nat h) && default false (l !! idx x y).

(** grid2poly.cc:13-22. *)
Definition add (c : comp) (x y : Z) : option comp :=
  let '(mx, my) := if bool_decide (num c = 0%nat) || bool_decide (x < minx c) then (x, y) else (minx c, miny c) in
  let my := if bool_decide (x = mx) && bool_decide (y < my) then y else my in
  if decide (idx x y < length (cells c))%nat
  then Some (Comp mx my (S (num c)) (<[idx x y := true]> (cells c))) else None.

(** grid2poly.cc:112-113: the first loop, at most [k] steps. *)
Fixpoint skipright (l : list bool) (k : nat) (x y : Z) : Z :=
  match k with
  | O => x
  | S k => if bool_decide (x < Z.of_nat w) && negb (blocked l x y) then skipright l k (x + 1) y else x
  end.
(** grid2poly.cc:114-117: the other two loops, stopping at the first x that is
    not above [lo] or whose cell is [b]. *)
Fixpoint skipleft (l : list bool) (b : bool) (k : nat) (lo x y : Z) : Z :=
  match k with
  | O => x
  | S k => if bool_decide (lo < x) && Bool.eqb (blocked l x y) (negb b) then skipleft l b k lo (x - 1) y else x
  end.

(** grid2poly.cc:109-124: [k] rows left, from row [y]. *)
Fixpoint invertloop (c : comp) (k : nat) (y : Z) : comp :=
  match k with
  | O => c
  | S k =>
    let startx := skipright (cells c) w (minx c) y in
    let endx := skipleft (cells c) true w startx (Z.of_nat w - 1) y in
    let x := skipleft (cells c) false w startx endx y in
    if decide (x = startx) then invertloop c k (y + 1)
    else Comp (x + 1) y (num c) (cells c)
  end.
Definition invert (c : comp) : comp := invertloop c (h - Z.to_nat (miny c)) (miny c).

(** grid2poly.cc:142-189: PolyMap::PolyMap; the check of the dimensions is left out. *)
Section map.
Context (blkd : list bool).

(** grid2poly.cc:150-163: the cells that the cell at (x, y) is joined with, in
    this order. *)
Definition joins (x y : Z) : list nat :=
  let W := Z.of_nat w in let H := Z.of_nat h in
  let at_ x y := default false (blkd !! idx x y) in
  if at_ x y then
    (if bool_decide (x < W - 1) && at_ (x + 1) y then [idx (x + 1) y] else []) ++
    (if bool_decide (y < H - 1) && at_ x (y + 1) then [idx x (y + 1)] else []) ++
    (if bool_decide (y < H - 1) && bool_decide (0 < x) && at_ (x - 1) (y + 1) then [idx (x - 1) (y + 1)] else []) ++
    (if bool_decide (y < H - 1) && bool_decide (x < W - 1) && at_ (x + 1) (y + 1) then [idx (x + 1) (y + 1)] else [])
  else [].

(** All cells, column by column. *)
Definition scan : list (Z * Z) :=
  x ← Z.of_nat <$> seq 0 w; y ← Z.of_nat <$> seq 0 h; [(x, y)].

Fixpoint joinall (n : nat) (s : dj) (i : nat) (js : list nat) : option dj :=
  match js with
  | [] => Some s
  | j :: js => s ← join n s i j; joinall n s i js
  end.

Fixpoint forest (n : nat) (s : dj) (cs : list (Z * Z)) : option dj :=
  match cs with
  | [] => Some s
  | (x, y) :: cs => s ← joinall n s (idx x y) (joins x y); forest n s cs
  end.

(** grid2poly.cc:167-179; [aux] holds the aux field of every set, 0 being NULL. *)
Definition place (n : nat) (st : dj * (nat → nat) * list comp) (x y : Z) : option (dj * (nat → nat) * list comp) :=
  let '(s, aux, cs) := st in
  if default false (blkd !! idx x y) then
    '(s, r) ← find n s (idx x y);
    let '(aux, cs) :=
      if decide (aux r = 0%nat) then (upd aux r (S (length cs)), cs ++ [newcomp]) else (aux, cs) in
    c ← cs !! (aux r - 1)%nat;
    c ← add c x y;
    Some (s, aux, <[(aux r - 1)%nat := c]> cs)
  else Some (s, aux, cs).

Fixpoint placeall (n : nat) (st : dj * (nat → nat) * list comp) (cs : list (Z * Z)) :
    option (dj * (nat → nat) * list comp) :=
  match cs with
  | [] => Some st
  | (x, y) :: cs => st ← place n st x y; placeall n st cs
  end.

Definition components (n : nat) : option (list comp) :=
  s ← forest n new scan;
  '(_, _, cs) ← placeall n (s, λ _, 0%nat, []) scan;
  Some cs.

Definition comppoly (fuel : nat) (c : comp) : option (list pt) :=
  poly (blocked (cells c)) fuel (minx c) (miny c).

(** The result: bound and polys. *)
Definition polymap (n fuel : nat) : option (list pt * list (list pt)) :=
  cs ← components n;
  match cs with
  | [] => None
  | c :: cs =>
    b ← comppoly fuel (invert c);
    ps ← mapM (comppoly fuel) cs;
    Some (b, ps)
  end.
End map.
End grid.
