(** Model of the platform game: plat2d/tile.{hpp,cc}, lvl.{hpp,cc}, body.{hpp,cc}, player.{hpp,cc}, and of
    plat2d/plat2d.{hpp,cc} without the heuristic (the visibility graph) and the pictures.

    Lengths and speeds are integers here, in units of a 40th of a pixel: all the constants of the game are multiples of
    it (the slowest is 0.7 * 3.25 = 91/40 pixels), and so is everything computed from them in exact arithmetic.  The
    tolerance of geom2d::between and geom2d::doubleeq (less than 1e-5) makes no difference between such numbers.
    Rounding of doubles is not modelled.  Undefined behaviour and failed assertions are [None]. *)
From stdpp Require Import prelude.
From Coq Require Import ZArith.
Local Open Scope Z_scope.

Definition px : Z := 40.
(** floor and ceil *)
Definition floorpx (x : Z) : Z := px * (x / px).
Definition ceilpx (x : Z) : Z := - floorpx (- x).

(** ** Tiles *)
(** tile.cc:27-35: the seven kinds *)
Inductive tile := Air | Wall | Water | Down | DownWater | Up | UpWater.
Global Instance tile_eq_dec : EqDecision tile.
Proof. solve_decision. Defined.
(** tile.hpp:10-16 *)
Definition collide (t : tile) : bool := match t with Wall => true | _ => false end.
Definition water (t : tile) : bool := match t with Water | DownWater | UpWater => true | _ => false end.
Definition down (t : tile) : bool := match t with Down | DownWater => true | _ => false end.
Definition up (t : tile) : bool := match t with Up | UpWater => true | _ => false end.
(** tile.cc:14-25: a tile from its character; other characters are refused. *)
Definition readtile (c : Z) : option tile :=
  if c =? 32 then Some Air else if c =? 35 then Some Wall else if c =? 119 then Some Water else if c =? 100 then Some Down
  else if c =? 68 then Some DownWater else if c =? 117 then Some Up else if c =? 85 then Some UpWater else None.
(** tile.hpp:18-21 *)
Definition tilew : Z := 32 * px.
Definition tileh : Z := 32 * px.
(** tile.hpp:43-50 *)
Definition gravity (t : tile) : Z := if water t then 10 else 20.
(** drag() * Runspeed *)
Definition speed (t : tile) : Z := if water t then 91 else 130.

(** ** Levels *)
(** lvl.hpp:66-82 *)
Record level := Lvl { lw : Z; lh : Z; blks : list tile }.
(** lvl.hpp:57-59,70-72; the double given for a coordinate is converted to unsigned int, which is undefined if it is
    negative. *)
Definition tileat (l : level) (x y : Z) : option tile := if bool_decide (x < 0 ∨ y < 0) then None else blks l !! Z.to_nat (x * lh l + y).

(** lvl.cc:23-46: the numbers of the header are read already, [f] is the rest of the file.  None is a fatal error. *)
Fixpoint readrow (n : nat) (f : list Z) : option (list tile * list Z) :=
  match n with
  | O => match f with 10 :: f => Some ([], f) | _ => None end
  | S n => match f with
           | c :: f => match readtile c with
                       | Some t => match readrow n f with Some (ts, f) => Some (t :: ts, f) | None => None end
                       | None => None
                       end
           | [] => None
           end
  end.
Fixpoint readrows (w h : nat) (f : list Z) : option (list (list tile)) :=
  match h with
  | O => Some []
  | S h => match readrow w f with
           | Some (r, f) => match readrows w h f with Some rs => Some (r :: rs) | None => None end
           | None => None
           end
  end.
(** blk(x, y) = blks + x*h + y: the rows are stored column by column. *)
Definition columns (w : nat) (rows : list (list tile)) : list tile := concat (map (λ x, map (λ r, default Air (r !! x)) rows) (seq 0 w)).
Definition readlvl (d w h : nat) (f : list Z) : option level :=
  if negb (bool_decide (d = 1%nat)) || bool_decide (2 ^ 32 <= Z.of_nat w * Z.of_nat h) then None else
  match f with
  | 10 :: f => match readrows w h f with Some rows => Some (Lvl (Z.of_nat w) (Z.of_nat h) (columns w rows)) | None => None end
  | _ => None
  end.

(** ** Boxes *)
(** geom2d.hpp:133-213, body.hpp:36-58 *)
Record bbox := Box { minx : Z; miny : Z; maxx : Z; maxy : Z }.
Definition translate (b : bbox) (dx dy : Z) : bbox := Box (minx b + dx) (miny b + dy) (maxx b + dx) (maxy b + dy).
(** body.hpp:24-34 *)
Record isect := Is { is : bool; isx : Z; isy : Z }.
Definition noisect : isect := Is false 0 0.
(** body.hpp:12-18 *)
Definition lineisect (a b oa ob : Z) : Z :=
  if bool_decide (oa <= b <= ob) then b - oa else if bool_decide (a <= ob <= b) then ob - a else - px.
(** body.hpp:43-51 *)
Definition boxisect (r o : bbox) : isect :=
  let ix := lineisect (minx r) (maxx r) (minx o) (maxx o) in
  if bool_decide (0 < ix) then
    let iy := lineisect (miny r) (maxy r) (miny o) (maxy o) in
    if bool_decide (0 < iy) then Is true ix iy else noisect
  else noisect.
(** tile.hpp:25-28 *)
Definition tilebox (x y : Z) : bbox := Box (x * tilew) (y * tileh) ((x + 1) * tilew) ((y + 1) * tileh).
(** tile.hpp:36-40 *)
Definition tileisect (t : tile) (x y : Z) (r : bbox) : isect := if collide t then boxisect r (tilebox x y) else noisect.

(** Conversion of a double to unsigned int drops the fraction. *)
Definition tounsigned (num den : Z) : option Z := let q := Z.quot num den in if bool_decide (q < 0) then None else Some q.
(** lvl.cc:48-65; the box [b] there is not used. *)
Definition hitzone (a : bbox) : option (Z * Z * Z * Z) :=
  x0 ← tounsigned (minx a) tilew; y0 ← tounsigned (miny a) tileh; x1 ← tounsigned (ceilpx (maxx a)) tilew; y1 ← tounsigned (ceilpx (maxy a)) tileh;
  Some (if bool_decide (0 < x0) then x0 - 1 else x0, if bool_decide (0 < y0) then y0 - 1 else y0, x1, y1).
Definition zrange (a b : Z) : list Z := map (λ i, a + Z.of_nat i) (seq 0 (Z.to_nat (b - a + 1))).
Fixpoint foldm {A B} (f : B → A → option A) (xs : list B) (a : A) : option A :=
  match xs with [] => Some a | x :: xs => match f x a with Some a => foldm f xs a | None => None end end.
(** lvl.cc:76-85 and 94-103: the loops over the tiles of the zone *)
Definition zonetiles (z : Z * Z * Z * Z) : list (Z * Z) := let '(x0, y0, x1, y1) := z in x ← zrange x0 x1; map (λ y, (x, y)) (zrange y0 y1).
Definition testy (l : level) (mv : bbox) (xy : Z * Z) (i : isect) : option isect :=
  t ← tileat l xy.1 xy.2;
  let s := tileisect t xy.1 xy.2 mv in
  Some (if is s && bool_decide (isy i < isy s) then Is true (isx i) (isy s) else i).
Definition testx (l : level) (mv : bbox) (xy : Z * Z) (i : isect) : option isect :=
  t ← tileat l xy.1 xy.2;
  let s := tileisect t xy.1 xy.2 mv in
  Some (if is s && bool_decide (isx i < isx s) then Is true (isx s) (isy i) else i).
(** lvl.cc:67-106 *)
Definition lvlisect (l : level) (r : bbox) (vx vy : Z) : option isect :=
  z ← hitzone r;
  i ← (if bool_decide (vy = 0) then Some noisect else foldm (testy l (translate r 0 vy)) (zonetiles z) noisect);
  if bool_decide (vx = 0) then Some i
  else foldm (testx l (translate r vx (vy + (if bool_decide (vy < 0) then isy i else - isy i)))) (zonetiles z) i.
(** lvl.hpp:63-66: the tile with the center of the box, and its coordinates *)
Definition majorblk (l : level) (r : bbox) : option (tile * Z * Z) :=
  x ← tounsigned (minx r + maxx r) (2 * tilew); y ← tounsigned (miny r + maxy r) (2 * tileh);
  t ← tileat l x y; Some (t, x, y).

(** ** Bodies *)
(** body.hpp:60-86; Maxdy is 12 pixels *)
Record body := Body { bbx : bbox; bdy : Z; fall : bool }.
Definition maxdy : Z := 12 * px.
(** body.cc:75-80 *)
Definition tillwhole (loc vel : Z) : Z := if bool_decide (0 < vel) then ceilpx loc - loc else floorpx loc - loc.
(** body.cc:34-51, for one of the axes *)
Definition step1 (loc v : Z) : Z :=
  let d := tillwhole loc v in
  let d := if bool_decide (d = 0 ∧ v ≠ 0) then (if bool_decide (v < 0) then - px else px) else d in
  if bool_decide (Z.abs v < Z.abs d) then v else d.
(** body.cc:15-29, [n] rounds at most *)
Fixpoint moveloop (n : nat) (l : level) (xmul ymul : Z) (b : bbox) (vx vy leftx lefty : Z) (fallis : isect) : option (bbox * isect) :=
  if bool_decide (0 < leftx ∨ 0 < lefty) then
    match n with
    | O => None
    | S n =>
        let dx := step1 (minx b) vx in
        let dy := step1 (miny b) vy in
        i ← lvlisect l b dx dy;
        let fallis := if is i && bool_decide (isy i ≠ 0) then i else fallis in
        let dx' := dx - xmul * isx i in
        let dy' := dy - ymul * isy i in
        moveloop n l xmul ymul (translate b dx' dy') (vx - dx') (vy - dy') (leftx - Z.abs dx) (lefty - Z.abs dy) fallis
    end
  else Some (b, fallis).
(** The number of rounds allowed here: one for each pixel of the way and a few more.  That it suffices is part of the
    theorems (otherwise the result is None). *)
Definition rounds (dx dy : Z) : nat := Z.to_nat (Z.abs dx / px + Z.abs dy / px + 6).
(** body.cc:53-73 *)
Definition dofall (l : level) (b : bbox) (dy : Z) (fl : bool) (i : isect) : option body :=
  let '(dy, fl) := if bool_decide (0 < dy) && bool_decide (0 < isy i) && fl then (dy, false)
                   else if bool_decide (dy < 0) && bool_decide (0 < isy i) then (0, true) else (dy, fl) in
  let '(dy, fl) := if negb (is i) && negb fl then (0, true) else (dy, fl) in
  if fl && bool_decide (dy < maxdy) then t ← majorblk l b; Some (Body b (dy + gravity t.1.1) fl)
  else Some (Body b dy fl).
(** body.cc:8-32 *)
Definition move (l : level) (b : body) (dx : Z) : option body :=
  let xmul := if bool_decide (0 < dx) then 1 else -1 in
  let ymul := if bool_decide (0 < bdy b) then 1 else -1 in
  r ← moveloop (rounds dx (bdy b)) l xmul ymul (bbx b) dx (bdy b) (Z.abs dx) (Z.abs (bdy b)) noisect;
  dofall l r.1 (bdy b) (fall b) r.2.

(** ** Players *)
(** player.hpp:15-63 *)
Record player := Player { pbody : body; jframes : Z }.
Record controls := Ctl { cleft : bool; cright : bool; cjump : bool }.
Definition playerw : Z := 21 * px.
Definition playerh : Z := 29 * px.
Definition jmpspeed : Z := 8 * px.
Definition maxjframes : Z := 8.
(** player.cc:28-40 *)
Definition chngjmp (p : player) (a : controls) : player :=
  let b := pbody p in
  if negb (cjump a) && fall b then
    Player (if bool_decide (bdy b < 0) then
              let dy := bdy b + (maxjframes - jframes p) * px in Body (bbx b) (if bool_decide (0 < dy) then 0 else dy) (fall b)
            else b) 0
  else if cjump a && negb (fall b) then Player (Body (bbx b) (- jmpspeed) true) maxjframes
  else p.
(** player.cc:13-26 *)
Definition xvel (l : level) (p : player) (a : controls) : option Z :=
  let dx := (if cleft a then -130 else 0) + (if cright a then 130 else 0) in
  t ← majorblk l (bbx (pbody p));
  Some (if bool_decide (dx = 0) then dx else (if bool_decide (dx < 0) then -1 else 1) * speed t.1.1).
(** player.cc:6-11 *)
Definition act (l : level) (p : player) (a : controls) : option player :=
  let p := chngjmp p a in
  dx ← xvel l p a;
  b ← move l (pbody p) dx;
  Some (Player b (if bool_decide (0 < jframes p) then jframes p - 1 else jframes p)).
(** player.hpp:48-50 *)
Definition canjump (p : player) : bool :=
  negb (fall (pbody p)) || (bool_decide (jframes p = 0) && bool_decide (bdy (pbody p) <= 0)) || bool_decide (0 < jframes p).

(** ** The domain *)
(** plat2d.cc:17-39: how the search for start and goal in a level ends *)
Inductive scan := Found (gx gy x0 y0 : Z) | ManyGoals | ManyStarts | NoGoal | NoStart | OutOfRange.
Definition scantile (l : level) (xy : Z * Z) (r : scan) : scan :=
  match r with
  | Found gx gy x0 y0 =>
      match tileat l xy.1 xy.2 with
      | None => OutOfRange
      | Some t =>
          if down t && bool_decide (gx < lw l ∨ gy < lh l) then ManyGoals else
          let '(gx, gy) := if down t then (xy.1, xy.2) else (gx, gy) in
          if up t && bool_decide (x0 < lw l ∨ x0 < lh l) then ManyStarts else
          let '(x0, y0) := if up t then (xy.1, xy.2) else (x0, y0) in
          Found gx gy x0 y0
      end
  | r => r
  end.
Definition scanlvl (l : level) : scan :=
  match foldl (λ r xy, scantile l xy r) (Found (lw l) (lh l) (lw l) (lh l)) (zonetiles (0, 0, lw l - 1, lh l - 1)) with
  | Found gx gy x0 y0 => if bool_decide (lw l <= gx ∨ lh l <= gy) then NoGoal else if bool_decide (lw l <= x0 ∨ lh l <= y0) then NoStart else Found gx gy x0 y0
  | r => r
  end.
(** plat2d.cc:56-60, player.hpp:36-37, body.hpp:65-66 *)
Definition initialstate (x0 y0 : Z) : player :=
  let x := x0 * tilew + 7 * px in
  let y := y0 * tileh + 2 * px in
  Player (Body (Box x y (x + playerw) (y + playerh)) 0 false) 0.
(** plat2d.hpp:108-111 *)
Definition isgoal (l : level) (gx gy : Z) (p : player) : option bool :=
  t ← majorblk l (bbx (pbody p)); Some (bool_decide (t.1.2 = gx ∧ t.2 = gy)).
(** plat2d.cc:7-15, plat2d.hpp:113-138 *)
Definition left := Ctl true false false.
Definition right := Ctl false true false.
Definition jump := Ctl false false true.
Definition leftjump := Ctl true false true.
Definition rightjump := Ctl false true true.
Definition ops (p : player) : list controls := if canjump p then [left; right; jump; leftjump; rightjump] else [left; right; jump].
Global Instance controls_eq_dec : EqDecision controls.
Proof. solve_decision. Defined.
(** plat2d.hpp:149-177 (struct Edge): the next state and the reverse operator, if any; every edge costs 1.  The
    distances of the assertions are those of the corners here; the sizes of both boxes are equal.  The assertion about
    operator 0 concerns none of [ops]. *)
Definition edge (l : level) (p : player) (a : controls) : option (player * option controls) :=
  q ← act l p a;
  let r := if bool_decide (miny (bbx (pbody p)) = miny (bbx (pbody q)))
           then (if bool_decide (a = left) then Some right else if bool_decide (a = right) then Some left else None) else None in
  if bool_decide (Z.abs (minx (bbx (pbody p)) - minx (bbx (pbody q))) <= 130 ∧ Z.abs (miny (bbx (pbody p)) - miny (bbx (pbody q))) <= maxdy)
  then Some (q, r) else None.
(** plat2d.hpp:94-98 and 180-199; jframes is an unsigned char. *)
Record packed := Pkd { kx : Z; ky : Z; kdy : Z; kj : Z }.
Definition pack (p : player) : packed :=
  let b := pbody p in Pkd (minx (bbx b)) (miny (bbx b)) (bdy b) (if fall b then Z.lor (jframes p) 128 else jframes p).
Definition unpack (k : packed) : player :=
  Player (Body (Box (kx k) (ky k) (kx k + playerw) (ky k + playerh)) (kdy k) (negb (bool_decide (Z.land (kj k) 128 = 0)))) (Z.land (kj k) 127).
