(** Model of search/fhatlrtastar.hpp (class Fhatlrtastar): LSS-LRTA-star led by estimates corrected for the errors
    observed in the lookahead before.

    Simplifications: as in Lss/Model.v, whose memory of the values ([mem]), expansion ([expand]), nodes ([lnode]),
    walk up the parents ([upward]) and raising ([raise]) are used here: the code is the same there.
    Values h and costs are integers; d, the errors and fhat are exact fractions (double in the code).  The lines of
    that code in fhatlrtastar.hpp are 452-474 (expand), 154-160 (nodes), 430-434 (upward) and 412-413 (raise).  An LssNode's fhat, f
    and g are the key of the open list.  The root's fhat is never set (295-301); it is [junk] here, any number. *)
From stdpp Require Import prelude.
From Coq Require Import ZArith QArith.
From Verif.Search Require Import Domain Model.
From Verif Require Import Rta.Model Lss.Model.
From Verif Require BinHeap.Model.
From Verif.Geom Require Model.
Open Scope Z_scope.
Notation Qltb := Geom.Model.Qltb.
Notation doubleeq := Geom.Model.doubleeq.

(** fhatlrtastar.hpp:133-140; f and g are integers here, doubleeq is equality of those. *)
Definition fhatsort (a b : Q * Z * Z) : bool :=
  let '(fhat, f, g) := a in
  let '(fhat', f', g') := b in
  if doubleeq fhat fhat' then
    if bool_decide (f = f') then bool_decide (g' < g) else bool_decide (f < f')
  else Qltb fhat fhat'.
Definition kf (k : Q * Z * Z) : Z := k.1.2.

Section fhat.
Context (D : domain) (h : St D → Z) (d : St D → Q) (onestep : bool) (lim : limits) (stop : nat → nat → bool) (junk : Q).

(** Node::d and Node::derr, fhatlrtastar.hpp:56-57. *)
Record dist := Dist { n_d : St D → Q; n_derr : St D → Q }.
(** herror and derror, fhatlrtastar.hpp:481-482. *)
Record errs := Errs { herror : Q; derror : Q }.
(** lssNodes, lssOpen and nclosed, fhatlrtastar.hpp:476-479. *)
Record fss := Fss { f_nodes : list (lnode D); f_open : heap (Q * Z * Z); f_ncl : nat }.

(** fhatlrtastar.hpp:339-341. *)
Definition guess (er : errs) (dm : dist) (m : mem D) (k : St D) (g : Z) : Q :=
  (inject_Z g + (inject_Z (m_h D m k) + herror er * (n_derr dm k / (1 - derror er))))%Q.

(** fhatlrtastar.hpp:319-350: one successor of the node [i]; [best] is bestkid. *)
Definition frelax (er : errs) (dm : dist) (m : mem D) (i : nat) (o : Op D) (k : St D) (c : Z) (L : fss) (goal best : option nat)
    : option (fss * option nat * option nat) :=
  sn ← f_nodes L !! i;
  if decide ((p ← l_par D sn; l_st D <$> f_nodes L !! p) = Some k) then Some (L, goal, best)
  else
    let '(ns, j) :=
      match find_l D (f_nodes L) k with
      | Some j => (f_nodes L, j)
      | None => (f_nodes L ++ [LNode D k None None nop false false], length (f_nodes L))
      end in
    kn ← ns !! j;
    sg ← l_g D sn;
    let g := sg + c in
    L ← (if match l_g D kn with None => true | Some kg => bool_decide (g < kg) end then
           let ns := <[j := LNode D k (Some i) (Some g) o (l_upd D kn) (l_cl D kn)]> ns in
           let q := BinHeap.Model.setkey (f_open L) j (guess er dm m k g, g + m_h D m k, g) in
           q ← BinHeap.Model.pushupdate fhatsort q j (BinHeap.Model.ind q j);
           Some (Fss ns q (f_ncl L))
         else Some (Fss ns (f_open L) (f_ncl L)));
    kn ← f_nodes L !! j;
    goal ← (if isgoal k then
              match goal with
              | None => Some (Some j)
              | Some b =>
                bn ← f_nodes L !! b;
                kg ← l_g D kn;
                bg ← l_g D bn;
                Some (if bool_decide (kg < bg) then Some j else goal)
              end
            else Some goal);
    let best :=
      match best with
      | None => Some j
      | Some b => if bool_decide (kf (BinHeap.Model.key (f_open L) j) < kf (BinHeap.Model.key (f_open L) b)) then Some j else best
      end in
    Some (L, goal, best).

(** fhatlrtastar.hpp:318-351: all successors. *)
Fixpoint frelaxes (er : errs) (dm : dist) (m : mem D) (i : nat) (n : St D) (os : list (Op D)) (L : fss) (goal best : option nat)
    : option (fss * option nat * option nat) :=
  match os with
  | [] => Some (L, goal, best)
  | o :: os =>
    let '(k, c, _) := edge n o in
    '(L, goal, best) ← frelax er dm m i o k c L goal best;
    frelaxes er dm m i n os L goal best
  end.

(** fhatlrtastar.hpp:353-366: [n] is exp; [bf] and [bd] are f and d of the best successor, [sf] and [sd] those of the node. *)
Definition herr (bf sf : Z) : Q := inject_Z (Z.max 0 (bf - sf)).
Definition derr (bd sd : Q) : Q :=
  let e := (bd + 1 - sd)%Q in
  let e := if Qltb e 0 then 0%Q else e in
  if Qle_bool 1 e then (1 - Geom.Model.Threshold)%Q else e.
Definition blend (old new : Q) (n : nat) : Q := (old + (new - old) / inject_Z (Z.of_nat (n + 1)))%Q.
Definition observe (dm : dist) (L : fss) (i : nat) (s : St D) (best : option nat) (n : nat) (er : errs) : option errs :=
  match best with
  | None => Some er
  | Some b =>
    bn ← f_nodes L !! b;
    Some (Errs (blend (herror er) (herr (kf (BinHeap.Model.key (f_open L) b)) (kf (BinHeap.Model.key (f_open L) i))) n)
               (blend (derror er) (derr (n_d dm (l_st D bn)) (n_d dm s)) n))
  end.

(** fhatlrtastar.hpp:310-373, in lookahead number [k], after [n] expansions; [er] are the errors in use and [nx] the
    new ones (herrnext, derrnext). *)
Fixpoint floop (er : errs) (dm : dist) (fuel k n : nat) (m : mem D) (L : fss) (st : rcount) (goal : option nat) (nx : errs)
    : option (mem D * fss * rcount * option nat * errs) :=
  match fuel with
  | 0%nat => None
  | S fuel =>
    if BinHeap.Model.empty (f_open L) then Some (m, L, st, goal, nx)
    else if stop k n then Some (m, L, st, goal, nx)
    else if rreached lim st then Some (m, L, rcalled st, goal, nx)
    else
      '(q, r) ← BinHeap.Model.pop fhatsort (f_open L);
      i ← r;
      sn ← f_nodes L !! i;
      let ncl := if l_cl D sn then f_ncl L else S (f_ncl L) in
      let ns := <[i := LNode D (l_st D sn) (l_par D sn) (l_g D sn) (l_op D sn) (l_upd D sn) true]> (f_nodes L) in
      let '(m, st) := expand D (l_st D sn) m (rcalled st) in
      '(L, goal, best) ← frelaxes er dm m i (l_st D sn) (ops (l_st D sn)) (Fss ns q ncl) goal None;
      nx ← observe dm L i (l_st D sn) best (S n) nx;
      if isgoal (l_st D sn) then
        q ← BinHeap.Model.push fhatsort (f_open L) i;
        Some (m, Fss (f_nodes L) q (f_ncl L), st, Some i, nx)
      else floop er dm fuel k (S n) m L st goal nx
  end.

(** fhatlrtastar.hpp:289-302. *)
Definition finit (m : mem D) (cur : St D) : option fss :=
  q ← BinHeap.Model.push fhatsort (BinHeap.Model.setkey (BinHeap.Model.new (λ _, (0%Q, 0, 0))) 0 (junk, m_h D m cur, 0)) 0;
  Some (Fss [LNode D cur None (Some 0) nop false false] q 0).

(** fhatlrtastar.hpp:288-379. *)
Definition expandFss (fuel k : nat) (er : errs) (dm : dist) (m : mem D) (st : rcount) (cur : St D)
    : option (mem D * fss * rcount * option nat * errs) :=
  L ← finit m cur;
  floop er dm fuel k 0 m L st None (Errs 0 0).

(** fhatlrtastar.hpp:393-409: the loop over the predecessors of the state [x] of the popped node. *)
Definition set_d (dm : dist) (s : St D) (v e : Q) : dist := Dist (fset D (n_d dm) s v) (fset D (n_derr dm) s e).
Fixpoint fbackups (x : St D) (ps : list (St D * Z)) (m : mem D) (dm : dist) (ns : list (lnode D)) (q : heap Z) (updated : list (St D))
    : option (mem D * dist * list (lnode D) * heap Z * list (St D)) :=
  match ps with
  | [] => Some (m, dm, ns, q, updated)
  | (p, c) :: ps =>
    match find_l D ns p with
    | None => fbackups x ps m dm ns q updated
    | Some j =>
      sp ← ns !! j;
      if l_cl D sp then
        let b := c + m_h D m x in
        if negb (l_upd D sp) || bool_decide (b < m_h D m p) then
          let m := set_h D m p b in
          let dm := set_d dm p (n_d dm x + 1)%Q (n_derr dm x) in
          let updated := if l_upd D sp then updated else updated ++ [p] in
          let ns := <[j := LNode D (l_st D sp) (l_par D sp) (l_g D sp) (l_op D sp) true (l_cl D sp)]> ns in
          let q := BinHeap.Model.setkey q j b in
          q ← BinHeap.Model.pushupdate hsort q j (BinHeap.Model.ind q j);
          fbackups x ps m dm ns q updated
        else fbackups x ps m dm ns q updated
      else fbackups x ps m dm ns q updated
    end
  end.

(** fhatlrtastar.hpp:388-410. *)
Fixpoint flloop (fuel : nat) (m : mem D) (dm : dist) (ns : list (lnode D)) (q : heap Z) (ncl : nat) (updated : list (St D))
    : option (mem D * dist * list (St D)) :=
  match fuel with
  | 0%nat => None
  | S fuel =>
    if decide (ncl = 0%nat) then Some (m, dm, updated)
    else if BinHeap.Model.empty q then Some (m, dm, updated)
    else
      '(q, r) ← BinHeap.Model.pop hsort q;
      i ← r;
      sn ← ns !! i;
      let ncl := if l_cl D sn then (ncl - 1)%nat else ncl in
      '(m, dm, ns, q, updated) ← fbackups (l_st D sn) (m_preds D m (l_st D sn)) m dm ns q updated;
      flloop fuel m dm ns q ncl updated
  end.

(** fhatlrtastar.hpp:381-414. *)
Definition fLearning (fuel : nat) (m : mem D) (dm : dist) (L : fss) : option (mem D * dist) :=
  q ← BinHeap.Model.append hsort
    (BinHeap.Model.Heap [] (BinHeap.Model.ind (f_open L)) (hkey D m (f_nodes L)))
    (BinHeap.Model.arr (f_open L));
  '(m, dm, updated) ← flloop fuel m dm (f_nodes L) q (f_ncl L) [];
  Some (raise D h m updated, dm).

(** fhatlrtastar.hpp:419-424. *)
Fixpoint fbest (ns : list (lnode D)) (q : heap (Q * Z * Z)) (cur : St D) (es : list nat) (best : option nat) : option (option nat) :=
  match es with
  | [] => Some best
  | e :: es =>
    n ← ns !! e;
    if decide (l_st D n = cur) then fbest ns q cur es best
    else
      fbest ns q cur es
        match best with
        | None => Some e
        | Some b => if BinHeap.Model.pred fhatsort q e b then Some e else Some b
        end
  end.

(** fhatlrtastar.hpp:416-450. *)
Definition fmove (L : fss) (cur : St D) (goal : option nat) : option (list (Op D) * St D) :=
  best ← match goal with
         | Some b => Some (Some b)
         | None => fbest (f_nodes L) (f_open L) cur (BinHeap.Model.arr (f_open L)) None
         end;
  b ← best;
  bn ← f_nodes L !! b;
  if decide (l_st D bn = cur) then None
  else
    '(os, r) ← upward D (S (length (f_nodes L))) (f_nodes L) cur b None;
    if onestep then
      o ← last os;
      q ← r;
      qn ← f_nodes L !! q;
      Some ([o], l_st D qn)
    else Some (reverse os, l_st D bn).

(** What is kept from one lookahead to the next. *)
Record fmem := FMem { fm_mem : mem D; fm_dist : dist; fm_errs : errs }.
(** fhatlrtastar.hpp:205-216, cut off after [fuel] moves; [efuel] bounds the loops of each lookahead. *)
Fixpoint fsloop (fuel efuel k : nat) (cur : St D) (os : list (Op D)) (M : fmem) (st : rcount)
    : option (fmem * rcount * St D * list (Op D)) :=
  match fuel with
  | 0%nat => None
  | S fuel =>
    if isgoal cur then Some (M, st, cur, os)
    else if rreached lim st then Some (M, rcalled st, cur, os)
    else
      '(m, L, st, goal, er) ← expandFss efuel k (fm_errs M) (fm_dist M) (fm_mem M) (rcalled st) cur;
      if rreached lim st then Some (FMem m (fm_dist M) er, rcalled st, cur, os)
      else
        '(m, dm) ← match goal with Some _ => Some (m, fm_dist M) | None => fLearning efuel m (fm_dist M) L end;
        '(os', cur) ← fmove L cur goal;
        fsloop fuel efuel (S k) cur (os ++ os') (FMem m dm er) (rcalled st)
  end.

(** The memory before anything is visited: fhatlrtastar.hpp:98-100 and 171-172. *)
Definition fmem0 : fmem := FMem (mem0 D h) (Dist d d) (Errs 0 0).

(** fhatlrtastar.hpp:198-235: res.path and res.ops; both are empty if no goal was reached. *)
Definition fhatlrta (s0 : St D) (fuel : nat) : option (rcount * (list (St D) * list (Op D))) :=
  '(_, st, cur, os) ← fsloop fuel fuel 0 s0 [] fmem0 (RCount 0 0 0);
  Some (st, answer D s0 cur os).
End fhat.
Arguments Dist {D}. Arguments n_d {D}. Arguments n_derr {D}. Arguments Fss {D}. Arguments f_nodes {D}. Arguments f_open {D}. Arguments f_ncl {D}.
Arguments FMem {D}. Arguments fm_mem {D}. Arguments fm_dist {D}. Arguments fm_errs {D}.
