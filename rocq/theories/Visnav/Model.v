(** Model of visnav/visgraph.hpp, visgraph.cc, visnav.hpp and visnav.cc.

    Points are exact rationals (Geom/Model.v); the distance of two points
    (geom2d.hpp:52-56) is a parameter, instantiated with the Euclidean distance of
    real numbers in Visnav/Props.v.  Reading, writing, drawing, hash and dumpstate
    are left out.  Accesses out of range are [None]. *)
From stdpp Require Import prelude.
From Coq Require Import QArith.
From Verif.Geom Require Import Model.
Local Open Scope nat_scope.

Section visgraph.
Context {C : Type} (distance : pt → pt → C).

(** visgraph.hpp:40-50. *)
Record edge := Edge { src : nat; dst : nat; dist : C }.
(** visgraph.hpp:52-62. *)
Record vert := Vert { id : nat; loc : pt; edges : list edge }.
(** visgraph.hpp:64-65, 94: the vertices, the map, and the obstacle of the first vertices. *)
Record graph := Graph { gverts : list vert; gmap : polymap; polyno : list nat }.

Definition pushedge (e : edge) (v : vert) : vert := Vert (id v) (loc v) (edges v ++ [e]).
(** visgraph.cc:201-205. *)
Definition addedge (g : graph) (i j : nat) : option graph :=
  u ← gverts g !! i;
  v ← gverts g !! j;
  let d := distance (loc u) (loc v) in
  Some (Graph (alter (pushedge (Edge j i d)) j (alter (pushedge (Edge i j d)) i (gverts g))) (gmap g) (polyno g)).

(** The test of visgraph.cc:190 and 194: the point is inside the obstacle of vertex [i]. *)
Definition blockedat (g : graph) (i : nat) (p : pt) : option bool :=
  if decide (i < length (polyno g)) then
    k ← polyno g !! i;
    q ← polys (gmap g) !! k;
    Some (contains q p)
  else Some false.
(** visgraph.cc:185-199.  [along] takes the fraction of the length. *)
Definition consideredge (g : graph) (i j : nat) : option graph :=
  u ← gverts g !! i;
  v ← gverts g !! j;
  let ray := mkseg (loc u) (loc v) in
  let p0 := along ray (1 # 1000) in
  b0 ← blockedat g i p0;
  if (b0 : bool) then Some g
  else
    let p1 := along ray (1 - (1 # 1000))%Q in
    b1 ← blockedat g j p1;
    if (b1 : bool) then Some g
    else if isvisible (gmap g) p0 p1 then addedge g i j
    else Some g.

(** The loops over pairs. *)
Fixpoint overpairs (f : graph → nat → nat → option graph) (g : graph) (l : list (nat * nat)) : option graph :=
  match l with
  | [] => Some g
  | (i, j) :: l => g ← f g i j; overpairs f g l
  end.
(** The pairs i < j < n in the order of the two nested loops. *)
Definition pairs (n : nat) : list (nat * nat) := i ← seq 0 n; (λ j, (i, j)) <$> seq (S i) (n - S i).

(** visgraph.cc:139-143, 149-153: the indices of the reflex vertices. *)
Definition reflexes (vs : list pt) : option (list nat) :=
  l ← mapM (λ j, b ← isreflex vs j; Some (j, b)) (seq 0 (length vs));
  Some (fst <$> filter (λ jb : nat * bool, jb.2 = true) l).

(** visgraph.cc:158-175. *)
Definition addpoly (g : graph) (q : poly) (vs : list nat) : option graph :=
  let id0 := length (gverts g) in
  ps ← mapM (λ j, verts q !! j) vs;
  let g := Graph (gverts g ++ imap (λ k p, Vert (id0 + k) p []) ps) (gmap g) (polyno g) in
  let n := length (verts q) in
  overpairs (λ g i j,
    a ← vs !! i;
    b ← vs !! j;
    if decide ((a + 1) mod n = b ∨ (b + 1) mod n = a) then addedge g (id0 + i) (id0 + j) else Some g)
    g (pairs (length vs)).

(** visgraph.cc:138-147: the obstacles [k], [k+1], ... *)
Fixpoint addpolys (g : graph) (k : nat) (qs : list poly) : option graph :=
  match qs with
  | [] => Some g
  | q :: qs =>
    vs ← reflexes (verts q);
    g ← addpoly g q vs;
    addpolys (Graph (gverts g) (gmap g) (polyno g ++ replicate (length vs) k)) (S k) qs
  end.
(** visgraph.cc:136-156. *)
Definition populateverts (g : graph) : option graph :=
  g ← addpolys g 0 (polys (gmap g));
  match bound (gmap g) with
  | None => Some g
  | Some q => vs ← reflexes (verts q); addpoly g q vs
  end.
(** visgraph.cc:177-183. *)
Definition visedges (g : graph) : option graph := overpairs consideredge g (pairs (length (gverts g))).
(** visgraph.cc:19-21, 131-134. *)
Definition build (pm : polymap) : option graph :=
  g ← populateverts (Graph [] pm []); visedges g.

(** visgraph.cc:123-129. *)
Definition add (g : graph) (p : pt) : option (graph * nat) :=
  let vid := length (gverts g) in
  g ← overpairs consideredge (Graph (gverts g ++ [Vert vid p []]) (gmap g) (polyno g)) ((λ i, (i, vid)) <$> seq 0 vid);
  Some (g, vid).

(** visgraph.cc:102-115. *)
Definition redist (vs : list vert) (v : vert) : option vert :=
  es ← mapM (λ e, u ← vs !! dst e; Some (Edge (src e) (dst e) (distance (loc v) (loc u)))) (edges v);
  Some (Vert (id v) (loc v) es).
Definition scale (sx sy : Q) (g : graph) : option graph :=
  pm ← scalemap sx sy (gmap g);
  let vs := (λ v, Vert (id v) (scalept sx sy (loc v)) (edges v)) <$> gverts g in
  vs ← mapM (redist vs) vs;
  Some (Graph vs pm (polyno g)).
(** visgraph.cc:117-121. *)
Definition translate (dx dy : Q) (g : graph) : option graph :=
  pm ← translatemap dx dy (gmap g);
  Some (Graph ((λ v, Vert (id v) (translatept dx dy (loc v)) (edges v)) <$> gverts g) pm (polyno g)).

(** visnav.hpp:110-112, visnav.cc:8-12. *)
Record visnav := VisNav { target : pt; start : nat; finish : nat; vgraph : graph }.
Definition mkvisnav (g : graph) (p0 p1 : pt) : option visnav :=
  '(g, s) ← add g p0;
  '(g, f) ← add g p1;
  Some (VisNav p1 s f g).
(** visnav.cc:14-16. *)
Definition initialstate (d : visnav) : nat := start d.
(** visnav.hpp:51-56. *)
Definition h (d : visnav) (s : nat) : option C := v ← gverts (vgraph d) !! s; Some (distance (loc v) (target d)).
(** visnav.hpp:62-65. *)
Definition isgoal (d : visnav) (s : nat) : bool := bool_decide (s = finish d).
(** visnav.hpp:67-81: operators are the edges of the vertex. *)
Definition operators (d : visnav) (s : nat) : option (list edge) := v ← gverts (vgraph d) !! s; Some (edges v).
(** visnav.hpp:83-91. *)
Record succ := Succ { cost : C; revop : edge; revcost : C; state : nat }.
Definition apply (op : edge) : succ := Succ (dist op) op (dist op) (dst op).
(** visnav.cc:49-62; the operators and states come in reverse.  A failed assertion or a missing state is [None]. *)
Fixpoint pathloop (plus : C → C → C) (s : nat) (c : C) (l : list (nat * edge)) : option (nat * C) :=
  match l with
  | [] => Some (s, c)
  | (t, op) :: l => if decide (state (apply op) = t) then pathloop plus t (plus c (cost (apply op))) l else None
  end.
Definition pathcost (plus : C → C → C) (zero : C) (d : visnav) (path : list nat) (ops : list edge) : option C :=
  if decide (length path < length ops) then None
  else
    '(s, c) ← pathloop plus (initialstate d) zero (reverse (zip path ops));
    if isgoal d s then Some c else None.
End visgraph.
Arguments edge : clear implicits.
Arguments vert : clear implicits.
Arguments graph : clear implicits.
Arguments visnav : clear implicits.
Arguments succ : clear implicits.
