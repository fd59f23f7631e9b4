(** Model of segments/segments.{hpp,cc}: moving and rotating line segments with a gripper.

    Simplifications: coordinates and costs are exact - a cost is kept as the squared distance the gripper travels
    and the numbers of unit and of diagonal steps, its value is given in Admissible.v - and the floating-point
    geometry is left open: [line] stands for Segments::line, [ok] for Oper::ok (sweeps and collisions).  unsigned int
    and int have 32 bits, conversions wrap around, an overflowing int would be undefined.  Segs' radii only matter
    to [line].  A vector index out of range is [None]. *)
From stdpp Require Import prelude.
From Coq Require Import ZArith.
From Verif Require Import Text.Model.
Open Scope Z_scope.

Definition u32 (z : Z) : Z := z mod 2 ^ 32.
(** The conversion of an unsigned int to int. *)
Definition i32 (z : Z) : Z := (z + 2 ^ 31) mod 2 ^ 32 - 2 ^ 31.

(** segments.hpp:13-28. *)
Record pose := Pose { px : Z; py : Z; rot : Z }.
Global Instance pose_eq : EqDecision pose.
Proof. solve_decision. Defined.

(** segments.hpp:59-63, less the radius. *)
Record seg := Seg { start : pose; goal : pose }.

(** segments.hpp:164, 204-211. *)
Inductive kind := None_ | Rotate | Move.
Global Instance kind_eq : EqDecision kind.
Proof. solve_decision. Defined.
Record oper := Oper { op : kind; oseg : nat; delta : Z; dy : Z }.

(** segments.cc:13. *)
Definition Nop : oper := Oper None_ 0 0 0.

(** segments.cc:144-152. *)
Definition oper_eqb (a b : oper) : bool :=
  if decide (op b ≠ op a) then false
  else match op a with
       | None_ => true
       | Rotate => bool_decide (oseg a = oseg b) && (delta a =? delta b)
       | Move => bool_decide (oseg a = oseg b) && (delta a =? delta b) && (dy a =? dy b)
       end.

(** segments.cc:154-158. *)
Definition reverse_op (o : oper) : oper :=
  match op o with None_ => Nop | _ => Oper (op o) (oseg o) (- delta o) (- dy o) end.

(** segments.cc:525-530. *)
Definition wrapind (i n : Z) : Z :=
  let i := Z.rem i n in
  if i <? 0 then i + n else i.

(** The squared travel of the gripper, unit steps, diagonal steps. *)
Record scost := SCost { travel2 : Z; units : Z; diags : Z }.

(** segments.cc:69-79 and 98-112: the corners between which the lines [bounds] run. *)
Definition bounds_file (width height : Z) : list ((Z * Z) * (Z * Z)) :=
  [((0, 0), (0, width)); ((0, width), (height, width)); ((height, width), (height, 0)); ((height, 0), (0, 0))].
Definition bounds_seg (w h : Z) : list ((Z * Z) * (Z * Z)) :=
  [((0, 0), (w, 0)); ((w, 0), (w, h)); ((w, h), (0, h)); ((0, h), (w, 0))].

Section segments.
Context {L : Type} (nangles : Z) (segs : list seg) (line : nat → pose → L) (ok : oper → list pose → list L → bool).

(** segments.hpp:111-123: the gripper, the segments' poses and lines, the number of misplaced ones. *)
Record state := State { gx : Z; gy : Z; poses : list pose; lines : list L; nleft : nat }.
(** segments.hpp:131, 157-158. *)
Record packed := Packed { k_poses : list pose; k_x : Z; k_y : Z }.

(** segments.cc:114-126. *)
Fixpoint initloop (i : nat) (ps : list pose) : option (list L * nat) :=
  match ps with
  | [] => Some ([], 0%nat)
  | p :: ps =>
    sg ← segs !! i;
    '(ls, n) ← initloop (S i) ps;
    Some (line i p :: ls, (if decide (p ≠ goal sg) then 1 else 0) + n)%nat
  end.
Definition init (ps : list pose) (x y : Z) : option state :=
  '(ls, n) ← initloop 0 ps; Some (State x y ps ls n).

(** segments.cc:327-339. *)
Definition initialstate : option state := init (start <$> segs) 0 0.
Definition goalstate : option state := init (goal <$> segs) 0 0.

(** segments.cc:160-180. *)
Definition cost (o : oper) (s : state) : option scost :=
  match op o with
  | None_ => Some (SCost 0 0 0)
  | k =>
    p ← poses s !! oseg o;
    let t := if bool_decide (gx s ≠ px p) || bool_decide (gy s ≠ py p)
             then (gx s - px p) * (gx s - px p) + (gy s - py p) * (gy s - py p) else 0 in
    Some (match k with
          | Rotate => SCost t 1 0
          | _ => if (delta o =? 0) || (dy o =? 0) then SCost t 1 0 else SCost t 0 1
          end)
  end.

(** segments.cc:271-291. *)
Definition moves (i : nat) : list oper :=
  Oper Rotate i (-1) 0 :: Oper Rotate i 1 0 ::
  ((λ d, Oper Move i d.1 d.2) <$> [(-1, -1); (-1, 0); (-1, 1); (0, -1); (0, 1); (1, -1); (1, 0); (1, 1)]).
Definition operators (s : state) : list oper :=
  filter (λ o, ok o (poses s) (lines s) = true) (mjoin (moves <$> seq 0 (length (poses s)))).

(** segments.cc:304, 308-309. *)
Definition newpose (o : oper) (p : pose) : pose :=
  match op o with
  | None_ => p
  | Rotate => Pose (px p) (py p) (wrapind (i32 (u32 (rot p + delta o))) nangles)
  | Move => Pose (u32 (px p + delta o)) (u32 (py p + dy o)) (rot p)
  end.

(** segments.cc:293-325: cost, revop, revcost (not set by a Nop) and state. *)
Definition edge (s : state) (o : oper) : option (scost * oper * option scost * state) :=
  c ← cost o s;
  match op o with
  | None_ => Some (c, reverse_op o, None, s)
  | _ =>
    p ← poses s !! oseg o;
    sg ← segs !! oseg o;
    let p' := newpose o p in
    let n := if decide (p = goal sg)
             then if decide (p' = goal sg) then nleft s else S (nleft s)
             else if decide (p' = goal sg) then (nleft s - 1)%nat else nleft s in
    let s' := State (px p') (py p') (<[oseg o := p']> (poses s)) (<[oseg o := line (oseg o) p']> (lines s)) n in
    rc ← cost (reverse_op o) s';
    Some (c, reverse_op o, Some rc, s')
  end.

(** segments.hpp:249-260. *)
Definition isgoal (s : state) : bool := (nleft s =? 0)%nat.
Definition pack (s : state) : packed := Packed (poses s) (gx s) (gy s).
Definition unpack (k : packed) : option state := init (k_poses k) (k_x k) (k_y k).

(** The operators are applied one after the other. *)
Fixpoint run (s : state) (os : list oper) : option (list scost * state) :=
  match os with
  | [] => Some ([], s)
  | o :: os => '(c, _, _, s') ← edge s o; '(cs, t) ← run s' os; Some (c :: cs, t)
  end.

(** segments.cc:354-382, in three parts: the octile distances (straight and diagonal steps), the rotations, and the
    least squared distance of the gripper; nothing is left to do if [None]. *)
Definition adist (p q : pose) : Z :=
  let a := wrapind (i32 (u32 (rot q - rot p))) nangles in
  let b := wrapind (i32 (u32 (rot p - rot q))) nangles in
  if a <? b then a else b.
Definition todo (p q : pose) : Z * Z :=
  let dx := Z.abs (i32 (px q) - i32 (px p)) in
  let dy := Z.abs (i32 (py q) - i32 (py p)) in
  let shorter := if dx <? dy then dx else dy in
  let longer := if dy <? dx then dx else dy in
  (longer - shorter + adist p q, shorter).
Definition grip2 (s : state) (p : pose) : Z := (gx s - px p) * (gx s - px p) + (gy s - py p) * (gy s - py p).

(** The loop from segment [i] on. *)
Fixpoint hloop (s : state) (i : nat) (ps : list pose) (u d : Z) (grip : option Z) : option (Z * Z * option Z) :=
  match ps with
  | [] => Some (u, d, grip)
  | p :: ps =>
    sg ← segs !! i;
    if decide (p = goal sg) then hloop s (S i) ps u d grip
    else
      let '(u', d') := todo p (goal sg) in
      let g := grip2 s p in
      let grip := match grip with Some a => if g <? a then Some g else Some a | None => Some g end in
      hloop s (S i) ps (u + u') (d + d') grip
  end.

(** h as a cost; the infinite distance of no segment at all is [None]. *)
Definition h (s : state) : option (option scost) :=
  if (nleft s =? 0)%nat then Some (Some (SCost 0 0 0))
  else
    '(u, d, grip) ← hloop s 0 (poses s) 0 0 None;
    Some (match grip with Some g => Some (SCost g u d) | None => None end).

(** segments.cc:384-403. *)
Fixpoint dloop (i : nat) (ps : list pose) (n : Z) : option Z :=
  match ps with
  | [] => Some n
  | p :: ps =>
    sg ← segs !! i;
    if decide (p = goal sg) then dloop (S i) ps n
    else
      let dx := Z.abs (px (goal sg) - px p) in
      let dy := Z.abs (py (goal sg) - py p) in
      dloop (S i) ps (n + (if dy <? dx then dx else dy) + adist p (goal sg))
  end.
Definition d (s : state) : option Z := if (nleft s =? 0)%nat then Some 0 else dloop 0 (poses s) 0.
End segments.

(** ** Printing and reading operators *)

(** The decimal digits of [n], most significant first; [fuel] is at least their number. *)
Fixpoint digits (fuel : nat) (n : Z) (acc : str) : str :=
  match fuel with
  | 0%nat => acc
  | S fuel => let acc := 48 + n mod 10 :: acc in if n <? 10 then acc else digits fuel (n / 10) acc
  end.
(** What << prints of an unsigned int or an int. *)
Definition show (z : Z) : str := if z <? 0 then 45 :: digits 11 (- z) [] else digits 11 z [].

Definition c_r : Z := 114.
Definition c_m : Z := 109.
Definition space : Z := 32.

(** segments.cc:423-430, one operator; a Nop is a fatal error. *)
Definition showop (o : oper) : option str :=
  match op o with
  | Rotate => Some ([c_r; space] ++ show (Z.of_nat (oseg o)) ++ [space] ++ show (delta o))
  | Move => Some ([c_m; space] ++ show (Z.of_nat (oseg o)) ++ [space] ++ show (delta o) ++ [space] ++ show (dy o))
  | None_ => None
  end.
(** segments.cc:421-432: [ops] has the last operator first. *)
Fixpoint showops (os : list oper) : option str :=
  match os with [] => Some [] | o :: os => a ← showop o; b ← showops os; Some (a ++ b) end.
Definition pathstring (ops : list oper) : option str := showops (reverse ops).

(** A std::stringstream that is read: what is left, the eof and the fail bit. *)
Record stream := Stream { left_ : str; eof : bool; failed : bool }.

Definition skipws (i : stream) : stream :=
  let r := (span isspace (left_ i)).2 in Stream r (eof i || bool_decide (r = [])) (failed i).

(** >> to a char: nothing is read once a bit is set; at the end of the input both are set. *)
Definition readchar (i : stream) : option Z * stream :=
  if eof i || failed i then (None, Stream (left_ i) (eof i) true)
  else
    let i := skipws i in
    match left_ i with
    | [] => (None, Stream [] true true)
    | c :: r => (Some c, Stream r (eof i) (failed i))
    end.

Definition isdigit (c : Z) : bool := (48 <=? c) && (c <=? 57).
Definition number (s : str) : Z := fold_left (λ n c, 10 * n + (c - 48)) s 0.

(** >> to an int: a sign, digits; the end of the input right after the last digit sets eof.  Without digits the
    value is 0, a number out of range is cut to the range, and both fail. *)
Definition readint (i : stream) : option Z * stream :=
  if eof i || failed i then (None, Stream (left_ i) (eof i) true)
  else
    let i := skipws i in
    if eof i then (None, Stream [] true true)
    else
      let '(neg, r) := match left_ i with
                       | c :: r => if c =? 45 then (true, r) else if c =? 43 then (false, r) else (false, c :: r)
                       | [] => (false, [])
                       end in
      let '(ds, r) := span isdigit r in
      let n := if neg then - number ds else number ds in
      let e := bool_decide (r = []) in
      if bool_decide (ds = []) then (Some 0, Stream r e true)
      else if n <? - 2 ^ 31 then (Some (- 2 ^ 31), Stream r e true)
      else if 2 ^ 31 - 1 <? n then (Some (2 ^ 31 - 1), Stream r e true)
      else (Some n, Stream r e false).

(** segments.cc:452-485.  A value that was never set, a bad tag (fatal) and running out of [fuel] are [None];
    the segment number is converted to unsigned. *)
Fixpoint scanloop (fuel : nat) (i : stream) (ops : list oper) : option (list oper) :=
  match fuel with
  | 0%nat => None
  | S fuel =>
    if eof i then Some ops
    else
      let '(tag, i) := readchar i in
      let '(sg, i) := readint i in
      if eof i then Some ops
      else
        tag ← tag;
        sg ← sg;
        if tag =? c_m then
          let '(dx, i) := readint i in
          let '(y, i) := readint i in
          dx ← dx;
          y ← y;
          scanloop fuel i (ops ++ [Oper Move (Z.to_nat (u32 sg)) dx y])
        else if tag =? c_r then
          let '(dl, i) := readint i in
          dl ← dl;
          scanloop fuel i (ops ++ [Oper Rotate (Z.to_nat (u32 sg)) dl 0])
        else None
  end.
Definition scanops (s : str) : option (list oper) := scanloop (S (length s)) (Stream s false false) [].
