(** Model of the two intrusive chained hash tables, structs/htable.hpp and
    search/closedlist.hpp.  Their add, find and resize code is the same
    statement by statement; it is modelled once, with citations to both.
    Their remove functions differ and are modelled separately.

    Simplifications: elements are pointers ([nat]) whose key never changes while
    they are in a table; hash values and sizes are unbounded naturals (unsigned
    long / unsigned int in the code); the statistics counters ncollide, nresize
    and fills[] are left out.  Undefined behaviour (modulo zero, decrementing a
    zero fill count) is [None]; loops take fuel, running out of it is [None]. *)
From stdpp Require Import prelude.

Section model.
Context {K : Type} (key : nat → K) (hash : K → nat) (eqk : K → K → bool).

(** htable.hpp:157-160 and closedlist.hpp:246-250.  [nxt] is the entry embedded
    in each element (htable.hpp:9-11, closedlist.hpp:13-16); nbins is the
    length of [bins]. *)
Record table := Tbl { fill : nat; bins : list (option nat); nxt : nat → option nat }.

Definition upd (f : nat → option nat) (e : nat) (v : option nat) : nat → option nat :=
  λ x, if decide (x = e) then v else f x.

(** htable.hpp:125-131, closedlist.hpp:237-244. *)
Definition link (b : list (option nat)) (nx : nat → option nat) (e h : nat)
    : option (list (option nat) * (nat → option nat)) :=
  if decide (length b = 0) then None
  else
    let i := h mod length b in
    p ← b !! i;
    Some (<[i := Some e]> b, upd nx e p).

(** Inner loop of resize: htable.hpp:140-143, closedlist.hpp:217-220. *)
Fixpoint move (fuel : nat) (b : list (option nat)) (nx : nat → option nat) (p : option nat)
    : option (list (option nat) * (nat → option nat)) :=
  match p with
  | None => Some (b, nx)
  | Some e =>
    match fuel with
    | 0 => None
    | S fuel =>
      let next := nx e in
      '(b, nx) ← link b nx e (hash (key e));
      move fuel b nx next
    end
  end.

(** Outer loop of resize: htable.hpp:138-144, closedlist.hpp:215-221. *)
Fixpoint move_all (fuel : nat) (b : list (option nat)) (nx : nat → option nat)
    (old : list (option nat)) : option (list (option nat) * (nat → option nat)) :=
  match old with
  | [] => Some (b, nx)
  | p :: old =>
    '(b, nx) ← move fuel b nx p;
    move_all fuel b nx old
  end.

(** htable.hpp:133-153, closedlist.hpp:206-232. *)
Definition resize (fuel : nat) (t : table) (sz : nat) : option table :=
  '(b, nx) ← move_all fuel (replicate sz None) (nxt t) (bins t);
  Some (Tbl (fill t) b nx).

(** Constructors: htable.hpp:21-25, closedlist.hpp:28-32 (nothing to move). The
    embedded entries have arbitrary contents. *)
Definition new (sz : nat) (nx : nat → option nat) : table := Tbl 0 (replicate sz None) nx.

(** htable.hpp:39-45 (Fillfact template argument, default 2), closedlist.hpp:56-62
    (Fillfact = 3), called with the hash of the key (htable.hpp:33-35,
    closedlist.hpp:52-54). Defsz = 1024, Growfact = 2 in both. *)
Definition add (fillfact fuel : nat) (t : table) (e : nat) : option table :=
  let n := length (bins t) in
  t ← (if decide (n ≤ fill t * fillfact)
       then resize fuel t (if decide (n = 0) then 1024 else n * 2) else Some t);
  '(b, nx) ← link (bins t) (nxt t) e (hash (key e));
  Some (Tbl (fill t + 1) b nx).

(** Loop of find: htable.hpp:57-62, closedlist.hpp:69-74. *)
Fixpoint walk (fuel : nat) (nx : nat → option nat) (p : option nat) (k : K) : option (option nat) :=
  match p with
  | None => Some None
  | Some e =>
    if eqk (key e) k then Some (Some e)
    else match fuel with 0 => None | S fuel => walk fuel nx (nx e) k end
  end.

(** htable.hpp:50-63, closedlist.hpp:64-75. *)
Definition find (fuel : nat) (t : table) (k : K) : option (option nat) :=
  if decide (length (bins t) = 0) then None
  else p ← bins t !! (hash k mod length (bins t)); walk fuel (nxt t) p k.

(** Loop of rm/remove: htable.hpp:80-84, closedlist.hpp:105-110; result (q, p). *)
Fixpoint walk2 (fuel : nat) (nx : nat → option nat) (q p : option nat) (k : K)
    : option (option nat * option nat) :=
  match p with
  | None => Some (q, None)
  | Some e =>
    if eqk (key e) k then Some (q, Some e)
    else match fuel with 0 => None | S fuel => walk2 fuel nx (Some e) (nx e) k end
  end.

Definition decfill (t : table) : option nat :=
  match fill t with 0 => None | S n => Some n end.

(** Htable::rm, htable.hpp:70-96.  Line 94 assigns the local variable q instead of
    the predecessor's entry. *)
Definition rm (fuel : nat) (t : table) (k : K) : option (table * bool) :=
  if decide (length (bins t) = 0) then None
  else
    let i := hash k mod length (bins t) in
    h ← bins t !! i;
    '(q, p) ← walk2 fuel (nxt t) None h k;
    match p with
    | None => Some (t, false)
    | Some e =>
      f ← decfill t;
      match q with
      | None => Some (Tbl f (<[i := nxt t e]> (bins t)) (nxt t), true)
      | Some _ => Some (Tbl f (bins t) (nxt t), true)
      end
    end.

(** Both clears: htable.hpp:116-121, closedlist.hpp:43-50. *)
Definition clear (t : table) : table := Tbl 0 (replicate (length (bins t)) None) (nxt t).

(** ClosedList::remove, closedlist.hpp:99-122.  prev starts as the head itself, so
    prev == p means the head matched. *)
Definition remove (fuel : nat) (t : table) (k : K) : option (table * option nat) :=
  if decide (length (bins t) = 0) then None
  else
    let i := hash k mod length (bins t) in
    h ← bins t !! i;
    '(prev, p) ← walk2 fuel (nxt t) h h k;
    match p with
    | None => Some (t, None)
    | Some e =>
      f ← decfill t;
      match prev with
      | None => None
      | Some pr =>
        if decide (pr = e)
        then Some (Tbl f (<[i := nxt t e]> (bins t)) (nxt t), Some e)
        else Some (Tbl f (bins t) (upd (nxt t) pr (nxt t e)), Some e)
      end
    end.

(** ** ClosedList iteration, closedlist.hpp:124-196 *)

Record iter := Iter { it_n : option nat; it_b : nat }.

Global Instance iter_eq_dec : EqDecision iter.
Proof. solve_decision. Defined.

(** closedlist.hpp:177-181: the while loop; [rest] is bins from index [b] on. *)
Fixpoint skip (b : nat) (rest : list (option nat)) : nat :=
  match rest with
  | [] => b
  | None :: rest => skip (S b) rest
  | Some _ :: _ => b
  end.
Definition nextbin (bs : list (option nat)) (b : nat) : nat := skip (S b) (drop (S b) bs).

(** closedlist.hpp:126-138.  bins[0] is read even if there is no bin. *)
Definition it_begin (bs : list (option nat)) : option iter :=
  h ← bs !! 0;
  let b := match h with Some _ => 0 | None => nextbin bs 0 end in
  if decide (b < length bs) then n ← bs !! b; Some (Iter n b) else Some (Iter None b).

(** closedlist.hpp:140-142. *)
Definition it_end (bs : list (option nat)) : iter := Iter None (length bs).

(** closedlist.hpp:160-171.  Dereferencing a null n is undefined. *)
Definition it_next (bs : list (option nat)) (nx : nat → option nat) (it : iter) : option iter :=
  if decide (length bs ≤ it_b it) then Some it
  else
    e ← it_n it;
    match nx e with
    | Some e' => Some (Iter (Some e') (it_b it))
    | None =>
      let b := nextbin bs (it_b it) in
      if decide (b < length bs) then n ← bs !! b; Some (Iter n b) else Some (Iter None b)
    end.

(** The loop [for (it = begin(); it != end(); ++it) visit( *it )], visited nodes in order. *)
Fixpoint it_loop (fuel : nat) (t : table) (it : iter) : option (list nat) :=
  if decide (it = it_end (bins t)) then Some []
  else match fuel with
  | 0 => None
  | S fuel =>
    e ← it_n it;
    it' ← it_next (bins t) (nxt t) it;
    l ← it_loop fuel t it';
    Some (e :: l)
  end.
Definition iterate (fuel : nat) (t : table) : option (list nat) :=
  it ← it_begin (bins t); it_loop fuel t it.

End model.
