(** Model of structs/binheap.hpp (class BinHeap) and of the heap-backed
    OpenList of search/search.hpp.

    Elements are pointers; a pointer is a [nat].  What the code stores inside
    the pointed-to object is kept in two maps of the state: [key] (whatever
    Ops::pred compares) and [ind] (the field written by Ops::setind).
    Ops::pred is the Section variable [lt] applied to keys.
    [None] is "the program does not survive this call": an access outside the
    vector (undefined behaviour) or a call of fatal(). *)
From stdpp Require Import prelude.
From Coq Require Import ZArith Lia.

Section Heap.
  Context {K : Type} (lt : K → K → bool).

  (** structs/binheap.hpp:164 (the vector [heap]); [ind]/[key]: fields of the
      elements, reached through Ops::setind / Ops::pred. *)
  Record heap := Heap { arr : list nat; ind : nat → Z; key : nat → K }.

  (** structs/binheap.hpp: Ops::pred on two elements. *)
  Definition pred (h : heap) (a b : nat) : bool := lt (key h a) (key h b).

  (** structs/binheap.hpp: Ops::setind. *)
  Definition setind (h : heap) (e : nat) (i : Z) : heap :=
    Heap (arr h) (λ x, if decide (x = e) then i else ind h x) (key h).

  Definition setarr (h : heap) (a : list nat) : heap := Heap a (ind h) (key h).

  (** A client writes the field(s) Ops::pred looks at. *)
  Definition setkey (h : heap) (e : nat) (k : K) : heap :=
    Heap (arr h) (ind h) (λ x, if decide (x = e) then k else key h x).

  (** structs/binheap.hpp:139-143. *)
  Definition parent (i : nat) : nat := (i - 1) / 2.
  Definition left (i : nat) : nat := 2 * i + 1.
  Definition right (i : nat) : nat := 2 * i + 2.

  (** structs/binheap.hpp:156-162. *)
  Definition swap (h : heap) (i j : nat) : option heap :=
    a ← arr h !! i;
    b ← arr h !! j;
    let h := setind h a (Z.of_nat j) in
    let h := setind h b (Z.of_nat i) in
    let tmp := a in
    let h := setarr h (<[i := b]> (arr h)) in
    let h := setarr h (<[j := tmp]> (arr h)) in
    Some h.

  (** structs/binheap.hpp:145-154.  The C++ recursion has no bound; the model
      recurses on [fuel] and gives [None] when it runs out, which the callers
      below never see (proved). *)
  Fixpoint pullup (fuel : nat) (h : heap) (i : nat) : option (heap * nat) :=
    match fuel with
    | O => None
    | S fuel =>
      if decide (i = 0) then Some (h, i) else
      let p := parent i in
      a ← arr h !! i;
      b ← arr h !! p;
      if pred h a b then
        h' ← swap h i p;
        pullup fuel h' p
      else Some (h, i)
    end.

  (** structs/binheap.hpp:118-133. *)
  Fixpoint pushdown (fuel : nat) (h : heap) (i : nat) : option (heap * nat) :=
    match fuel with
    | O => None
    | S fuel =>
      let l := left i in
      let r := right i in
      sml ← (if decide (l < length (arr h)) then
               a ← arr h !! l;
               b ← arr h !! i;
               Some (if pred h a b then l else i)
             else Some i);
      sml ← (if decide (r < length (arr h)) then
               a ← arr h !! r;
               b ← arr h !! sml;
               Some (if pred h a b then r else sml)
             else Some sml);
      if decide (sml = i) then Some (h, i)
      else
        h' ← swap h sml i;
        pushdown fuel h' sml
    end.

  (** Enough for any recursion of the two functions above. *)
  Definition fuel (h : heap) : nat := S (length (arr h)).

  (** structs/binheap.hpp:14-18. *)
  Definition push (h : heap) (e : nat) : option heap :=
    let h := setarr h (arr h ++ [e]) in
    let h := setind h e (Z.of_nat (length (arr h) - 1)) in
    '(h, _) ← pullup (fuel h) h (length (arr h) - 1);
    Some h.

  (** structs/binheap.hpp:22-38.  Second component: the returned optional. *)
  Definition pop (h : heap) : option (heap * option nat) :=
    if decide (length (arr h) = 0) then Some (h, None)
    else
      res ← arr h !! 0;
      h ← (if decide (1 < length (arr h)) then
             lst ← last (arr h);
             let h := setarr h (<[0 := lst]> (arr h)) in
             let h := setarr h (removelast (arr h)) in
             top ← arr h !! 0;
             let h := setind h top 0 in
             '(h, _) ← pushdown (fuel h) h 0;
             Some h
           else Some (setarr h (removelast (arr h))));
      Some (setind h res (-1), Some res).

  (** structs/binheap.hpp:43-47. *)
  Definition front (h : heap) : option nat :=
    if decide (length (arr h) = 0) then None else arr h !! 0.

  (** structs/binheap.hpp:52-57.  (The comparison [(unsigned int) i >= size]
      truncates to 32 bits in the code; indices are assumed to be below 2^32.) *)
  Definition update (h : heap) (i : Z) : option heap :=
    if decide (i < 0 ∨ Z.of_nat (length (arr h)) ≤ i)%Z then None
    else
      '(h, i) ← pullup (fuel h) h (Z.to_nat i);
      '(h, _) ← pushdown (fuel h) h i;
      Some h.

  (** structs/binheap.hpp:65-70. *)
  Definition pushupdate (h : heap) (e : nat) (i : Z) : option heap :=
    if decide (i < 0)%Z then push h e else update h i.

  (** structs/binheap.hpp:74. *)
  Definition empty (h : heap) : bool := bool_decide (length (arr h) = 0).

  (** structs/binheap.hpp:78. *)
  Definition clear (h : heap) : heap := setarr h [].

  (** structs/binheap.hpp:81. *)
  Definition size (h : heap) : nat := length (arr h).

  (** structs/binheap.hpp:101-102, the first loop of reinit, from index [i] on
      with [es] the elements still to be visited. *)
  Fixpoint setinds (h : heap) (i : nat) (es : list nat) : heap :=
    match es with
    | [] => h
    | e :: es => setinds (setind h e (Z.of_nat i)) (S i) es
    end.

  (** structs/binheap.hpp:104-108, the second loop of reinit.  When the heap
      has one element the loop starts at 0 (1/2). When it starts at a position
      outside the vector (size 0) the code has already returned. *)
  Fixpoint pushdowns (h : heap) (i : nat) : option heap :=
    '(h', _) ← pushdown (fuel h) h i;
    match i with
    | O => Some h'
    | S i => pushdowns h' i
    end.

  (** structs/binheap.hpp:97-109. *)
  Definition reinit (h : heap) : option heap :=
    if decide (length (arr h) = 0) then Some h
    else
      let h := setinds h 0 (arr h) in
      pushdowns h (length (arr h) / 2).

  (** structs/binheap.hpp:113-116. *)
  Definition append (h : heap) (es : list nat) : option heap :=
    reinit (setarr h (arr h ++ es)).

  (** ** search/search.hpp:96-143: class OpenList (binary heap version).
      Ops::getind is the field [ind]. *)

  (** search/search.hpp:103-105. *)
  Definition ol_push := push.

  (** search/search.hpp:107-112 (NULL is [None]). *)
  Definition ol_pop := pop.

  (** search/search.hpp:114-115. *)
  Definition ol_pre_update (h : heap) (n : nat) : heap := h.

  (** search/search.hpp:117-122. *)
  Definition ol_post_update (h : heap) (n : nat) : option heap :=
    if decide (ind h n < 0)%Z then push h n else update h (ind h n).

  (** search/search.hpp:124-126. *)
  Definition ol_empty := empty.

  (** search/search.hpp:128-130. *)
  Definition ol_mem (h : heap) (n : nat) : bool := negb (bool_decide (ind h n = (-1)%Z)).

  (** search/search.hpp:132-134. *)
  Definition ol_clear := clear.

  (** The freshly constructed heap; every element object has openind = -1
      (search/astar.hpp:21 and the other Node constructors). *)
  Definition new (key0 : nat → K) : heap := Heap [] (λ _, (-1)%Z) key0.

  (** ** Client operations.
      A client first writes priority fields, then calls the heap method. *)
  Inductive op :=
    | OPush (e : nat) (k : K)
    | OPop
    | OUpdate (e : nat) (k : K)
    | OPushUpdate (e : nat) (k : K)
    | OAppend (es : list (nat * K))
    | OReinit (f : nat → K).

  Fixpoint setkeys (h : heap) (es : list (nat * K)) : heap :=
    match es with
    | [] => h
    | (e, k) :: es => setkeys (setkey h e k) es
    end.

  (** One client operation; the output is what pop returned ([None] for the
      other operations).  The index passed to update/pushupdate is the tracked
      one, as in search/wastar.hpp and search/bugsy.hpp:279. *)
  Definition step (h : heap) (o : op) : option (heap * option nat) :=
    match o with
    | OPush e k => h ← push (setkey h e k) e; Some (h, None)
    | OPop => pop h
    | OUpdate e k => h ← update (setkey h e k) (ind h e); Some (h, None)
    | OPushUpdate e k => h ← pushupdate (setkey h e k) e (ind h e); Some (h, None)
    | OAppend es => h ← append (setkeys h es) es.*1; Some (h, None)
    | OReinit f => h ← reinit (Heap (arr h) (ind h) f); Some (h, None)
    end.
End Heap.

Arguments heap : clear implicits.
Arguments op : clear implicits.
