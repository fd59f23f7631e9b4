(** Model of the data that heuristics are learned from: the rows about a solution (search/astar-dump.hpp, dumpgoal) and the
    sample taken of such rows (search/learnh/hlms.cc).

    Simplifications: as in Search/Model.v.  Numbers are written and read without loss.  The search of astar-dump.hpp is that
    of astar.hpp (Search/Model.v) but for the fields depth, inedge and d of a node, which it never reads; inedge is set
    together with parent and op (146, 164, 175) to the cost of that edge, and is computed from them here.  A row of the
    sample (the features and the target) is what was read from one line. *)
From stdpp Require Import prelude.
From Coq Require Import ZArith.
From Verif.Search Require Import Domain.
Local Open Scope Z_scope.

(** astar-dump.hpp:105-117: state, h* and d* of each row, along the nodes of the solution from the goal on ([path] and [os] are
    res.path and res.ops). *)
Fixpoint dump {D} (path : list (St D)) (os : list (Op D)) (hstar dstar : Z) : list (St D * Z * Z) :=
  match path with
  | [] => []
  | s :: path' =>
    (s, hstar, dstar) ::
    match path', os with
    | p :: _, o :: os => dump path' os (hstar + cost p o) (dstar + 1)
    | _, _ => []
    end
  end.
Definition dumpgoal {D} (path : list (St D)) (os : list (Op D)) : list (St D * Z * Z) := dump path os 0 0.

(** astar-dump.hpp:101-112: the words of a row, from the fields of the node. *)
Definition altrow : list Z := [35; 97; 108; 116; 114; 111; 119].
Definition pathrow : list Z := [112; 97; 116; 104].
Record fields := Fields { q_g : Z; q_f : Z; q_depth : Z; q_d : Z; q_hstar : Z; q_dstar : Z }.
Definition words (num : Z → list Z) (q : fields) : list (list Z) :=
  [altrow; pathrow; num (q_g q); num (q_f q - q_g q); num (q_depth q); num (q_d q); num (q_hstar q); num (q_dstar q)].

(** hlms.cc:120-140: the features h, g, d and D and the target that are read from the words of a line; the flag is the choice
    of h or d.  [None]: another line, or a word that is not there. *)
Definition readrow (strtod : list Z → Z) (forh : bool) (l : list (list Z)) : option (list Z * Z) :=
  w0 ← l !! 0%nat; w1 ← l !! 1%nat;
  if decide (w0 = altrow ∧ w1 = pathrow) then
    h ← l !! 3%nat; g ← l !! 2%nat; d ← l !! 5%nat; dd ← l !! 4%nat;
    b ← l !! (if forh then 6 else 7)%nat;
    Some ([strtod h; strtod g; strtod d; strtod dd], strtod b)
  else None.

(** rand.cc:29-34: the numbers randgen.integer(lo, hi) can return. *)
Definition integers (lo hi : nat) : list nat := seq lo (hi + 1 - lo).

(** hlms.cc:124-130: the row a record goes to, from the number [t] of records before it (t is increased first) and the
    number drawn if there is one. *)
Definition place (sz t c : nat) : nat := if decide (t < sz)%nat then t else c.
(** The numbers that can be drawn; none is drawn (one way) while there are free rows. *)
Definition draws (sz t : nat) : list nat := if decide (t < sz)%nat then [0%nat] else integers 0 (t + 1).

(** hlms.cc:119-141: the rows, each [None] until it is filled. *)
Definition keep {A} (sz t c : nat) (rows : list (option A)) (a : A) : list (option A) :=
  if decide (place sz t c < sz)%nat then <[place sz t c := Some a]> rows else rows.
Fixpoint sample {A} (sz t : nat) (cs : list nat) (rows : list (option A)) (recs : list A) : list (option A) :=
  match recs, cs with
  | a :: recs, c :: cs => sample sz (S t) cs (keep sz t c rows a) recs
  | _, _ => rows
  end.
(** hlms.cc:57-63 *)
Definition empty {A} (sz : nat) : list (option A) := replicate sz None.

(** All the sequences of numbers that can be drawn for records number [t], [t+1], ... [t+n-1]. *)
Fixpoint sequences (sz t n : nat) : list (list nat) :=
  match n with
  | 0%nat => [[]]
  | S n => cs ← sequences sz t n; c ← draws sz (t + n); [cs ++ [c]]
  end.
