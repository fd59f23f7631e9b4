(** The dock robot domain: drobot/drobot.{hpp,cc}.

    Unsigned numbers are [nat]; they never reach 2^32 in the states considered.  The box held by
    the robot and the goal of a box are [None] where the code has -1.  An access outside of a vector,
    a failed assertion and a call of fatal are [None].  Costs are exact numbers instead of floats:
    integers, where 0.01 is the number [un], [None] for infinity. *)
From stdpp Require Import prelude sorting.
From Coq Require Import ZArith Lia.

(** Costs. *)
Notation xcost := (option Z).
Definition xadd (a b : xcost) : xcost :=
  match a, b with Some a, Some b => Some (a + b)%Z | _, _ => None end.
Definition xlt (a b : xcost) : bool :=
  match a, b with Some a, Some b => Z.ltb a b | Some _, None => true | None, _ => false end.

(** drobot.hpp:13-97; a pile is its stack, bottom first. *)
Notation pile := (list nat).
Record loc := Loc { cranes : list nat; piles : list pile }.

(** Pile::operator<, drobot.hpp:87-89, as an order: "not greater". *)
Definition bottom (p : pile) : nat := default 0 (head p).
Definition pile_le (p q : pile) : Prop := bottom p ≤ bottom q.
Global Instance pile_le_dec p q : Decision (pile_le p q) := decide (bottom p ≤ bottom q).

(** std::sort of piles and cranes.  The order of elements that compare equal is not determined by
    the code; it is never relevant below, where bottom boxes are distinct.  Comparing an empty pile
    reads outside of it. *)
Definition sortpiles (ps : list pile) : option (list pile) :=
  if bool_decide ([] ∈ ps) then None else Some (merge_sort pile_le ps).
Definition sortcranes (cs : list nat) : list nat := merge_sort le cs.

(** [v\[i\] = v.back(); v.pop_back()], drobot.cc:15-17 and 37-39. *)
Definition rmswap {A} (i : nat) (l : list A) : option (list A) :=
  b ← last l;
  Some (removelast (if bool_decide (1 < length l) then <[i := b]> l else l)).

(** Loc::pop, drobot.cc:7-22. *)
Definition pop (l : loc) (p : nat) : option (nat * loc) :=
  st ← piles l !! p;
  box ← last st;
  let st' := removelast st in
  let ps := <[p := st']> (piles l) in
  ps' ← (match st' with
         | [] => ps ← rmswap p ps; sortpiles ps
         | _ => Some ps
         end);
  Some (box, Loc (cranes l) ps').

(** Loc::push, drobot.cc:24-31; [None] for the pile stands for -1 converted to unsigned. *)
Definition push (l : loc) (box : nat) (p : option nat) : option loc :=
  match p ≫= λ p, st ← piles l !! p; Some (p, st) with
  | None => ps ← sortpiles (piles l ++ [[box]]); Some (Loc (cranes l) ps)
  | Some (p, st) => Some (Loc (cranes l) (<[p := st ++ [box]]> (piles l)))
  end.

(** Loc::rmcrane, drobot.cc:33-43. *)
Definition rmcrane (l : loc) (c : nat) : option (nat * loc) :=
  box ← cranes l !! c;
  cs ← rmswap c (cranes l);
  Some (box, Loc (sortcranes cs) (piles l)).

(** Loc::addcrane, drobot.cc:45-48. *)
Definition addcrane (l : loc) (box : nat) : loc := Loc (sortcranes (cranes l ++ [box])) (piles l).

(** The loop of findpile and findcrane, drobot.hpp:46-52 and 63-69, over the keys of the elements;
    [fuel] bounds the number of rounds, which is at most [u - l]. *)
Fixpoint bsearch (key : nat → option nat) (box l u fuel : nat) : option nat :=
  match fuel with
  | 0 => Some l
  | S fuel =>
    if bool_decide (l < u) then
      let m := (u - l) / 2 + l in
      k ← key m;
      if bool_decide (k < box) then bsearch key box (m + 1) u fuel else bsearch key box l m fuel
    else Some l
  end.
(** drobot.hpp:39-54 and 58-71: the outer option is a bad access, the inner one the result -1. *)
Definition find (keys : list (option nat)) (box : nat) : option (option nat) :=
  let n := length keys in
  if bool_decide (n = 0) then Some None
  else
    let key i := mjoin (keys !! i) in
    l ← bsearch key box 0 n n;
    if bool_decide (l < n) then
      k ← key l;
      Some (if bool_decide (k = box) then Some l else None)
    else Some None.
Definition findpile (l : loc) (box : nat) : option (option nat) := find (head <$> piles l) box.
Definition findcrane (l : loc) (box : nat) : option (option nat) := find (Some <$> cranes l) box.

(** drobot.hpp:101-113; only the fields an operator uses are kept. *)
Inductive oper :=
  | NoOp
  | Push (c : nat) (p : option nat)
  | Pop (p : nat)
  | Load (c : nat)
  | Unload
  | Move (l : nat).
Global Instance oper_eq_dec : EqDecision oper.
Proof. solve_decision. Defined.

(** drobot.hpp:312-333. *)
Record drobot := Drobot {
  un : Z;
  nlocs : nat;
  nboxes : nat;
  maxpiles : list nat;
  maxcranes : list nat;
  adj : list (list xcost);
  goal : list (option nat) }.

(** drobot.hpp:122-197; the cached estimates are [None] where the code has -1. *)
Record state := State {
  locs : list loc;
  boxlocs : list nat;
  rbox : option nat;
  rloc : nat;
  sh : option xcost;
  sd : option xcost;
  nleft : Z }.

(** The effect of the constructor of State on one box at location [l], drobot.cc:179-182, 186-190
    and 195-197. *)
Definition place (d : drobot) (l : nat) (acc : option (list nat * Z)) (box : nat) : option (list nat * Z) :=
  '(bl, n) ← acc;
  g ← goal d !! box;
  if bool_decide (box < length bl) then
    Some (<[box := l]> bl, match g with Some g => if bool_decide (g ≠ l) then n + 1 else n | None => n end)%Z
  else None.
Fixpoint placelocs (d : drobot) (l : nat) (ls : list loc) (acc : option (list nat * Z)) : option (list nat * Z) :=
  match ls with
  | [] => acc
  | x :: ls => placelocs d (S l) ls (foldl (place d l) acc (cranes x ++ concat (piles x)))
  end.
(** drobot.cc:167-199. *)
Definition mkstate (d : drobot) (ls : list loc) (rb : option nat) (rl : nat) : option state :=
  let acc := placelocs d 0 ls (Some (replicate (nboxes d) (nlocs d + 1), 0%Z)) in
  let acc := match rb with Some b => place d rl acc b | None => acc end in
  '(bl, n) ← acc;
  Some (State ls bl rb rl None None n).

(** drobot.cc:202 and 206. *)
Definition LoadCost (d : drobot) : Z := un d.
Definition PopCostFact (d : drobot) : Z := 5 * un d.

(** The result of applying an operator. *)
Record applied := Applied { a_state : state; a_cost : xcost; a_revop : oper; a_revcost : xcost }.

Definition setloc (s : state) (l : loc) : state :=
  State (<[rloc s := l]> (locs s)) (boxlocs s) (rbox s) (rloc s) (sh s) (sd s) (nleft s).
Definition setrbox (s : state) (b : option nat) : state :=
  State (locs s) (boxlocs s) b (rloc s) (sh s) (sd s) (nleft s).

(** Edge::apply, drobot.cc:208-306. *)
Definition apply (d : drobot) (s : state) (o : oper) : option applied :=
  match o with
  | Push c p =>
    l ← locs s !! rloc s;
    '(box, l) ← rmcrane l c;
    '(bot, sz) ← (match p ≫= λ p, piles l !! p with
                  | Some st => b ← head st; Some (b, length st)
                  | None => Some (box, 0)
                  end);
    l ← push l box p;
    q ← findpile l bot;
    q ← q;
    Some (Applied (setloc s l) (Some (PopCostFact d * (Z.of_nat sz + 1))%Z) (Pop q)
      (Some (PopCostFact d * (Z.of_nat sz + 2))%Z))
  | Pop p =>
    l ← locs s !! rloc s;
    st ← piles l !! p;
    bot ← head st;
    let sz := length st in
    '(box, l) ← pop l p;
    let l := addcrane l box in
    c ← findcrane l box;
    c ← c;
    q ← (if bool_decide (sz = 1) then Some (Some (length (piles l))) else findpile l bot);
    Some (Applied (setloc s l) (Some (PopCostFact d * (Z.of_nat sz + 1))%Z) (Push c q)
      (Some (PopCostFact d * Z.of_nat sz)%Z))
  | Load c =>
    match rbox s with
    | Some _ => None
    | None =>
      l ← locs s !! rloc s;
      '(box, l) ← rmcrane l c;
      Some (Applied (setrbox (setloc s l) (Some box)) (Some (LoadCost d)) Unload (Some (LoadCost d)))
    end
  | Unload =>
    box ← rbox s;
    l ← locs s !! rloc s;
    let l := addcrane l box in
    m ← maxcranes d !! rloc s;
    if bool_decide (length (cranes l) ≤ m) then
      c ← findcrane l box;
      c ← c;
      Some (Applied (setrbox (setloc s l) None) (Some (LoadCost d)) (Load c) (Some (LoadCost d)))
    else None
  | Move dst =>
    let src := rloc s in
    '(bl, n) ← (match rbox s with
      | None => Some (boxlocs s, nleft s)
      | Some b =>
        g ← goal d !! b;
        match g with
        | None => Some (boxlocs s, nleft s)
        | Some g =>
          if bool_decide (b < length (boxlocs s)) then
            Some (<[b := dst]> (boxlocs s),
              if bool_decide (g = src) then nleft s + 1
              else if bool_decide (g = dst) then nleft s - 1 else nleft s)%Z
          else None
        end
      end);
    c ← adj d !! src ≫= λ r, r !! dst;
    rc ← adj d !! dst ≫= λ r, r !! src;
    Some (Applied (State (locs s) bl (rbox s) dst (sh s) (sd s) n) c (Move src) rc)
  | NoOp => None
  end.

(** The constructor of Edge, drobot.hpp:272-277; the estimates to restore are kept next to it. *)
Definition mkedge (d : drobot) (s : state) (o : oper) : option (applied * (option xcost * option xcost)) :=
  a ← apply d s o;
  let t := a_state a in
  Some (Applied (State (locs t) (boxlocs t) (rbox t) (rloc t) None None (nleft t))
    (a_cost a) (a_revop a) (a_revcost a), (sh t, sd t)).
(** Its destructor, drobot.hpp:279-283. *)
Definition unedge (d : drobot) (e : applied * (option xcost * option xcost)) : option state :=
  a ← apply d (a_state e.1) (a_revop e.1);
  let t := a_state a in
  Some (State (locs t) (boxlocs t) (rbox t) (rloc t) e.2.1 e.2.2 (nleft t)).

(** drobot.cc:308-343. *)
Definition operators (d : drobot) (s : state) : option (list oper) :=
  l ← locs s !! rloc s;
  mp ← maxpiles d !! rloc s;
  mc ← maxcranes d !! rloc s;
  (* lastpile + 1 *)
  let npush := if bool_decide (mp ≤ length (piles l)) then mp else S (length (piles l)) in
  let nc := length (cranes l) in
  Some (
    flat_map (λ c, map (λ p, Push c (Some p)) (seq 0 npush)) (seq 0 nc) ++
    (if bool_decide (nc < mc) then
       map Pop (seq 0 (length (piles l))) ++
       (match rbox s with Some _ => [Unload] | None => [] end)
     else []) ++
    (match rbox s with None => map Load (seq 0 nc) | Some _ => [] end) ++
    map Move (filter (λ i, i ≠ rloc s) (seq 0 (nlocs d)))).

(** drobot.hpp:245-247. *)
Definition isgoal (s : state) : bool := bool_decide (nleft s = 0%Z).

(** ** Packing *)

Definition wr {A} (v : list A) (i : nat) (x : A) : option (list A) :=
  if bool_decide (i < length v) then Some (<[i := x]> v) else None.
Fixpoint wrs {A} (v : list A) (ws : list (nat * A)) : option (list A) :=
  match ws with
  | [] => Some v
  | (i, x) :: ws => v ← wr v i x; wrs v ws
  end.

(** The writes of drobot.cc:376-385 for the locations from [i], from position [cur]. *)
Fixpoint packlocs (d : drobot) (i cur : nat) (ls : list loc) : option (list (nat * nat)) :=
  match ls with
  | [] => Some []
  | l :: ls =>
    mc ← maxcranes d !! i;
    mp ← maxpiles d !! i;
    rest ← packlocs d (S i) (cur + mc + mp * nboxes d) ls;
    Some (imap (λ c box, (box, cur + c)) (cranes l) ++
          concat (imap (λ p st, imap (λ s box, (box, cur + mc + s + p * nboxes d)) st) (piles l)) ++ rest)
  end.
(** drobot.cc:365-390. *)
Definition pack (d : drobot) (s : state) : option (list nat) :=
  ws ← packlocs d 0 1 (locs s);
  wrs (replicate (nboxes d + 1) 0)
    ((match rbox s with Some b => [(b, 0)] | None => [] end) ++ ws ++ [(nboxes d, rloc s)]).

(** std::vector::resize to at least [n] elements, as in [if (v.size() < n) v.resize(n, x)]. *)
Definition grow {A} (n : nat) (x : A) (l : list A) : list A := l ++ replicate (n - length l) x.

(** The search for the place of a box among the locations from [l], drobot.cc:405-429; [ls] are
    those locations. *)
Fixpoint unplace (d : drobot) (b p l : nat) (ls : list loc) : option (list loc) :=
  match ls with
  | [] => None
  | x :: ls =>
    mc ← maxcranes d !! l;
    if bool_decide (p < mc) then
      Some (Loc (<[p := b]> (grow (p + 1) (nboxes d + 1) (cranes x))) (piles x) :: ls)
    else
      let p := p - mc in
      mp ← maxpiles d !! l;
      if bool_decide (p < mp * nboxes d) then
        let pid := p / nboxes d in
        let ht := p mod nboxes d in
        let ps := grow (pid + 1) [] (piles x) in
        st ← ps !! pid;
        Some (Loc (cranes x) (<[pid := <[ht := b]> (grow (ht + 1) (nboxes d + 1) st)]> ps) :: ls)
      else
        ls ← unplace d b (p - mp * nboxes d) (S l) ls;
        Some (x :: ls)
  end.
Fixpoint unplaces (d : drobot) (pos : list nat) (bs : list nat) (acc : option nat * list loc) : option (option nat * list loc) :=
  match bs with
  | [] => Some acc
  | b :: bs =>
    p ← pos !! b;
    if bool_decide (p = 0) then unplaces d pos bs (Some b, acc.2)
    else
      ls ← unplace d b (p - 1) 0 acc.2;
      unplaces d pos bs (acc.1, ls)
  end.
(** drobot.cc:392-436. *)
Definition unpack (d : drobot) (pos : list nat) : option state :=
  rl ← pos !! nboxes d;
  '(rb, ls) ← unplaces d pos (seq 0 (nboxes d)) (None, replicate (nlocs d) (Loc [] []));
  mkstate d ls rb rl.

(** State::operator==, drobot.hpp:170-178. *)
Definition seq_locs (a b : list loc) : option bool :=
  foldr (λ i acc, r ← acc; x ← a !! i; y ← b !! i;
    Some (bool_decide (cranes x = cranes y ∧ piles x = piles y) && r))
    (Some true) (seq 0 (length a)).
Definition state_eq (s t : state) : option bool :=
  if bool_decide (rloc s ≠ rloc t ∨ rbox s ≠ rbox t ∨ nleft s ≠ nleft t) then Some false
  else seq_locs (locs s) (locs t).

(** drobot.cc:157-165. *)
Definition initialstate (d : drobot) (initlocs : list loc) : option state :=
  s ← mkstate d initlocs None 0;
  pkd ← pack d s;
  s1 ← unpack d pkd;
  b ← state_eq s s1;
  if (b : bool) then Some s else None.

(** ** The table of shortest paths and the heuristic *)

Definition tget (n : nat) (t : list (xcost * xcost)) (i j : nat) : option (xcost * xcost) := t !! (i * n + j).

(** drobot.cc:460-471. *)
Definition inittable (d : drobot) : option (list (xcost * xcost)) :=
  mapM (λ ij : nat * nat, let '(i, j) := ij in
    c ← adj d !! i ≫= λ r, r !! j;
    Some (if bool_decide (i = j) then (Some 0%Z, Some 0%Z)
          else match c with None => (None, None) | Some c => (Some c, Some 1%Z) end))
    (flat_map (λ i, map (λ j, (i, j)) (seq 0 (nlocs d))) (seq 0 (nlocs d))).

(** The body of the loops, drobot.cc:476-482; line 481 compares a cost, in units, to a number of
    steps, [o.2], so the latter is converted: 1 is 100 times 0.01. *)
Definition relax (u : Z) (n : nat) (t : list (xcost * xcost)) (k i j : nat) : option (list (xcost * xcost)) :=
  a ← tget n t i k;
  b ← tget n t k j;
  o ← tget n t i j;
  let c := xadd a.1 b.1 in
  let o1 := if xlt c o.1 then c else o.1 in
  let dd := xadd a.2 b.2 in
  let o2 := if xlt c ((λ m, 100 * u * m)%Z <$> o.2) then dd else o.2 in
  wr t (i * n + j) (o1, o2).
Fixpoint relaxes (u : Z) (n : nat) (t : list (xcost * xcost)) (ijs : list (nat * nat * nat)) : option (list (xcost * xcost)) :=
  match ijs with
  | [] => Some t
  | (k, i, j) :: ijs => t ← relax u n t k i j; relaxes u n t ijs
  end.
(** drobot.cc:459-486. *)
Definition initheuristic (d : drobot) : option (list (xcost * xcost)) :=
  let n := nlocs d in
  t ← inittable d;
  relaxes (un d) n t (flat_map (λ k, flat_map (λ i, map (λ j, (k, i, j)) (seq 0 n)) (seq 0 n)) (seq 0 n)).

(** The first loop of hd, drobot.cc:495-501. *)
Fixpoint hdboxes (d : drobot) (t : list (xcost * xcost)) (s : state) (b : nat) (gs : list (option nat)) (acc : xcost * xcost)
    : option (xcost * xcost) :=
  match gs with
  | [] => Some acc
  | None :: gs => hdboxes d t s (S b) gs acc
  | Some g :: gs =>
    bl ← boxlocs s !! b;
    p ← tget (nlocs d) t bl g;
    hdboxes d t s (S b) gs (xadd acc.1 p.1, xadd acc.2 p.2)
  end.
(** What the second loop adds for one box at location [l], drobot.cc:513-519 and 525-531. *)
Definition hdbox (d : drobot) (l : nat) (box : nat) (ch cd : Z) : option (Z * Z) :=
  g ← goal d !! box;
  Some (match g with
        | None => (0, 0)
        | Some g => if bool_decide (g = l) then (0, 0) else (ch, cd)
        end)%Z.
Definition zsum2 (l : list (Z * Z)) : Z * Z := foldr (λ p acc, (p.1 + acc.1, p.2 + acc.2)%Z) (0, 0)%Z l.
(** drobot.cc:508-533 for the locations from [l]. *)
Fixpoint hdlocs (d : drobot) (l : nat) (ls : list loc) : option (Z * Z) :=
  match ls with
  | [] => Some (0, 0)%Z
  | x :: ls =>
    cs ← mapM (λ box, hdbox d l box (LoadCost d) 1) (cranes x);
    ps ← mapM (λ st, zsum2 <$> mapM (λ ib : nat * nat, hdbox d l ib.2 (PopCostFact d * (Z.of_nat ib.1 + 2) + LoadCost d) 2)
                       (imap pair st)) (piles x);
    rest ← hdlocs d (S l) ls;
    Some ((zsum2 cs).1 + (zsum2 ps).1 + rest.1, (zsum2 cs).2 + (zsum2 ps).2 + rest.2)%Z
  end.
(** drobot.cc:488-536. *)
Definition hd (d : drobot) (t : list (xcost * xcost)) (s : state) : option (xcost * xcost) :=
  if bool_decide (nleft s = 0%Z) then Some (Some 0%Z, Some 0%Z)
  else
    bs ← hdboxes d t s 0 (goal d) (Some 0%Z, Some 0%Z);
    ls ← hdlocs d 0 (locs s);
    Some (xadd bs.1 (Some ((nleft s - 1) * LoadCost d + ls.1)%Z), xadd bs.2 (Some (nleft s - 1 + ls.2)%Z)).

(** DockRobot::pathcost, drobot.cc:345-363; [path] is in reverse order and without costs, as the
    searches report it. *)
Fixpoint pathcost_from (d : drobot) (i : nat) (s : state) (path : list state) (os : list oper) (c : xcost) : option xcost :=
  match i with
  | 0 => if isgoal s then Some c else None
  | S i =>
    o ← os !! i;
    e ← mkedge d s o;
    p ← path !! i;
    b ← state_eq (a_state e.1) p;
    if (b : bool) then pathcost_from d i (a_state e.1) path os (xadd c (a_cost e.1)) else None
  end.
Definition pathcost (d : drobot) (initlocs : list loc) (path : list state) (os : list oper) : option xcost :=
  s ← initialstate d initlocs;
  pathcost_from d (length os) s path os (Some 0%Z).
