(** Model of search/bugsy.hpp (best-first utility-guided search) and
    search/bugsy-slim.hpp (its cut-down version).

    search, expand, considerkid, init, updateopen and reinitheap are the same
    code in both files but for the estimates that the utility of a node is
    computed from and for what happens to duplicates (bugsy-slim.hpp always
    drops them).  They are modelled once, over the estimator: [E] is the state of
    the estimates, [util] computeutil, [on_expand] and [on_kids] what expand does
    to the estimates before and after its loop, [refresh] the part of updateopen
    before the call of reinitheap.  The two estimators are at the end of the
    file.

    The open list is the binary heap of BinHeap/Model.v, used as the code does:
    nodes are pushed, updated in place, and now and then all keys in the heap are
    rewritten while it is rebuilt.

    Simplifications: those of Search/Model.v (nodes are indices, closed.find is a
    search of the nodes, costs are unbounded integers, counters do not overflow,
    no output).  [None]: the program does not survive. *)
From stdpp Require Import prelude.
From Coq Require Import ZArith QArith.
From Verif Require Import BinHeap.Model.
From Verif Require Import Search.Model.
Local Open Scope Z_scope.

(** bugsy.hpp:23,29,33 and bugsy-slim.hpp:22,27: the fields of a node that the
    estimates are made of, besides g.  bugsy-slim.hpp has no field f (it computes
    g + h where needed) and no depth. *)
Record fields := Fields { p_f : Z; p_h : Z; p_d : Z; p_depth : nat; p_expct : nat }.

(** bugsy.hpp:189-195. *)
Record kidinfo := KidInfo { k_f : Z; k_h : Z; k_d : Z }.

Section bugsy.
Context (D : domain) (hh dd : St D → Z).
Context {E K : Type} (lt : K → K → bool) (k0 : K) (est0 : E).
Context (util : nat → E → Z → fields → E * K).
Context (on_expand : nat → E → fields → E).
Context (on_kids : E → fields → list kidinfo → E).
Context (refresh : nat → E → option E).
Context (dropdups : bool) (lim : limits).

Notation node := (node D (P:=fields)).

(** bugsy.hpp:455-457 and the counters of search.hpp:23; [est] the other members. *)
Record bstate := BState {
  b_nodes : list node; b_open : heap K; b_est : E;
  b_expd : nat; b_gend : nat; b_reopnd : nat; b_dups : nat }.

Definition set_nodes (b : bstate) ns :=
  BState ns (b_open b) (b_est b) (b_expd b) (b_gend b) (b_reopnd b) (b_dups b).
Definition set_open (b : bstate) q :=
  BState (b_nodes b) q (b_est b) (b_expd b) (b_gend b) (b_reopnd b) (b_dups b).
Definition set_est (b : bstate) e :=
  BState (b_nodes b) (b_open b) e (b_expd b) (b_gend b) (b_reopnd b) (b_dups b).
Definition add_expd (b : bstate) :=
  BState (b_nodes b) (b_open b) (b_est b) (S (b_expd b)) (b_gend b) (b_reopnd b) (b_dups b).
Definition add_gend (b : bstate) :=
  BState (b_nodes b) (b_open b) (b_est b) (b_expd b) (S (b_gend b)) (b_reopnd b) (b_dups b).
Definition add_reopnd (b : bstate) :=
  BState (b_nodes b) (b_open b) (b_est b) (b_expd b) (b_gend b) (S (b_reopnd b)) (b_dups b).
Definition add_dups (b : bstate) :=
  BState (b_nodes b) (b_open b) (b_est b) (b_expd b) (b_gend b) (b_reopnd b) (S (b_dups b)).

(** computeutil(n): bugsy.hpp:310-346, bugsy-slim.hpp:193-196.  The fields u and
    t are written into the key of the node. *)
Definition computeutil (b : bstate) (i : nat) : option bstate :=
  n ← b_nodes b !! i;
  let '(e, k) := util (b_expd b) (b_est b) (n_g D n) (n_p D n) in
  Some (set_open (set_est b e) (setkey (b_open b) i k)).

(** bugsy.hpp:240-291, bugsy-slim.hpp:153-174 (where a duplicate is always
    dropped and no kidinfo is made; the estimator of bugsy-slim.hpp ignores it). *)
Definition considerkid (b : bstate) (i : nat) (op : Op D) : option (bstate * kidinfo) :=
  pn ← b_nodes b !! i;
  let '(t, c, rev) := edge (n_state D pn) op in
  let g := n_g D pn + c in
  let kd := Z.max (dd t) (p_d (n_p D pn) - 1) in
  let kh := Z.max (hh t) (p_h (n_p D pn) - c) in
  let p := Fields (g + kh) kh kd (S (p_depth (n_p D pn))) (b_expd b) in
  let info := KidInfo (g + kh) kh kd in
  match find_node D (b_nodes b) t with
  | Some j =>
    dn ← b_nodes b !! j;
    let b := add_dups b in
    if dropdups || bool_decide (n_g D dn ≤ g) then Some (b, info)
    else
      let b := if decide (ind (b_open b) j < 0) then add_reopnd b else b in
      let q := n_p D dn in
      let q := Fields (p_f q - n_g D dn + g) (p_h q) (p_d q) (p_depth q) (p_expct q) in
      let b := set_nodes b (<[j := Node D (Some i) (n_state D dn) op rev g q]> (b_nodes b)) in
      b ← computeutil b j;
      o ← pushupdate lt (b_open b) j (ind (b_open b) j);
      Some (set_open b o, info)
  | None =>
    let j := length (b_nodes b) in
    let b := set_nodes b (b_nodes b ++ [Node D (Some i) t op rev g p]) in
    b ← computeutil b j;
    o ← push lt (b_open b) j;
    Some (set_open b o, info)
  end.

(** bugsy.hpp:209-218, bugsy-slim.hpp:148-175. *)
Fixpoint expand_ops (b : bstate) (i : nat) (os : list (Op D)) : option (bstate * list kidinfo) :=
  match os with
  | [] => Some (b, [])
  | op :: os =>
    pn ← b_nodes b !! i;
    if decide (op = n_pop D pn) then expand_ops b i os
    else
      '(b, k) ← considerkid (add_gend b) i op;
      '(b, ks) ← expand_ops b i os;
      Some (b, k :: ks)
  end.

(** bugsy.hpp:199-237, bugsy-slim.hpp:142-176. *)
Definition expand (b : bstate) (i : nat) : option bstate :=
  pn ← b_nodes b !! i;
  let b := add_expd b in
  let b := set_est b (on_expand (b_expd b) (b_est b) (n_p D pn)) in
  '(b, ks) ← expand_ops b i (ops (n_state D pn));
  pn ← b_nodes b !! i;
  Some (set_est b (on_kids (b_est b) (n_p D pn) ks)).

(** The first loop of reinitheap, bugsy.hpp:373-374, at the positions [is]. *)
Fixpoint recompute (b : bstate) (is : list nat) : option bstate :=
  match is with
  | [] => Some b
  | i :: is =>
    x ← arr (b_open b) !! i;
    b ← computeutil b x;
    recompute b is
  end.

(** The second loop, bugsy.hpp:376-379. *)
Fixpoint rebuild (b : bstate) (is : list nat) : option bstate :=
  match is with
  | [] => Some b
  | i :: is =>
    x ← arr (b_open b) !! i;
    b ← computeutil b x;
    '(q, _) ← pushdown lt (fuel (b_open b)) (b_open b) i;
    rebuild (set_open b q) is
  end.

(** [a], [a-1], ..., [0]. *)
Definition downto (a : nat) : list nat := reverse (seq 0 (S a)).

(** bugsy.hpp:369-380, bugsy-slim.hpp:221-232. *)
Definition reinitheap (b : bstate) : option bstate :=
  let size := length (arr (b_open b)) in
  if decide (size = 0%nat) then Some b
  else
    b ← recompute b (reverse (seq (S (size / 2)) (size - 1 - size / 2)));
    rebuild b (downto (size / 2)).

(** bugsy.hpp:350-365, bugsy-slim.hpp:200-217. *)
Definition updateopen (b : bstate) : option bstate :=
  match refresh (b_expd b) (b_est b) with
  | None => Some b
  | Some e => reinitheap (set_est b e)
  end.

(** search.hpp:67-71, as in Search/Model.v. *)
Definition blimit (b : bstate) : bool :=
  timeup lim (b_expd b)
  || (bool_decide (0 < l_expd lim)%nat && bool_decide (l_expd lim ≤ b_expd b)%nat)
  || (bool_decide (0 < l_gend lim)%nat && bool_decide (l_gend lim ≤ b_gend b)%nat).

(** One round of the main loop, bugsy.hpp:139-148, bugsy-slim.hpp:98-107. *)
Definition bstep (b : bstate) : option (bstate + outcome D) :=
  if empty (b_open b) || blimit b then Some (inr None)
  else
    '(q, r) ← pop lt (b_open b);
    i ← r;
    let b := set_open b q in
    pn ← b_nodes b !! i;
    if isgoal (n_state D pn) then
      r ← solpath D (S (length (b_nodes b))) (b_nodes b) i;
      Some (inr (Some r))
    else
      b ← expand b i;
      b ← updateopen b;
      Some (inl b).

(** bugsy.hpp:293-306 and 134-137, bugsy-slim.hpp:178-189 and 93-96. *)
Definition binit (s0 : St D) : option bstate :=
  let p := Fields (hh s0) (hh s0) (dd s0) 0 0 in
  let b := BState [Node D None s0 nop nop 0 p] (new (λ _, k0)) est0 0 0 0 0 in
  b ← computeutil b 0%nat;
  o ← push lt (b_open b) 0%nat;
  Some (set_open b o).

Fixpoint bloop (fuel : nat) (b : bstate) : option (outcome D * bstate) :=
  match fuel with
  | O => None
  | S fuel =>
    r ← bstep b;
    match r with
    | inr out => Some (out, b)
    | inl b => bloop fuel b
    end
  end.

(** The search from [s0], cut off after [fuel] rounds of the main loop. *)
Definition bsearch (s0 : St D) (fuel : nat) : option (outcome D * bstate) :=
  b ← binit s0; bloop fuel b.

(** States of a running search (between two rounds). *)
Inductive brunning (s0 : St D) : bstate → Prop :=
  | brunning_init b : binit s0 = Some b → brunning s0 b
  | brunning_step b b' : brunning s0 b → bstep b = Some (inl b') → brunning s0 b'.
End bugsy.

(** ** The order of the open list: bugsy.hpp:54-62, bugsy-slim.hpp:48-60.
    Keys are (u, t, f, g); u and t are doubles in the code and exact fractions
    here. *)
Definition ukey : Type := Q * Q * Z * Z.

Definition bugsy_lt (a b : ukey) : bool :=
  let '(ua, ta, fa, ga) := a in
  let '(ub, tb, fb, gb) := b in
  if negb (Qeq_bool ua ub) then negb (Qle_bool ua ub)
  else if negb (Qeq_bool ta tb) then negb (Qle_bool tb ta)
  else if negb (fa =? fb) then fa <? fb
  else gb <? ga.

(** ** The estimator of bugsy-slim.hpp *)

(** bugsy-slim.hpp:234-247. [ticks]: how often the clock has been read. *)
Record sest := SEst {
  s_timeper : Q; s_avgdelay : Q; s_delaysum : Z; s_lasttime : Q; s_lastexpd : nat;
  s_nextresort : nat; s_nresort : nat; s_ticks : nat }.

Section slim.
Context (wf wt : Q) (clock : nat → Q).

(** bugsy-slim.hpp:70-71,92. *)
Definition slim0 : sest := SEst 0 0 0 (clock 0%nat) 0 128 0 1.

(** bugsy-slim.hpp:194. *)
Definition slim_t (e : sest) (p : fields) : Q :=
  s_timeper e * (if Qle_bool (s_avgdelay e) 0 then 1 else s_avgdelay e) * inject_Z (p_d p).

(** bugsy-slim.hpp:193-196. *)
Definition slim_util (expd : nat) (e : sest) (g : Z) (p : fields) : sest * ukey :=
  let t := slim_t e p in
  let u := (- (wf * inject_Z (p_h p + g) + wt * t))%Q in
  (e, (u, t, g + p_h p, g)).

(** bugsy-slim.hpp:145. *)
Definition slim_expand (expd : nat) (e : sest) (p : fields) : sest :=
  SEst (s_timeper e) (s_avgdelay e) (s_delaysum e + (Z.of_nat expd - Z.of_nat (p_expct p)))
    (s_lasttime e) (s_lastexpd e) (s_nextresort e) (s_nresort e) (s_ticks e).

Definition slim_kids (e : sest) (p : fields) (ks : list kidinfo) : sest := e.

(** bugsy-slim.hpp:200-215. *)
Definition slim_refresh (expd : nat) (e : sest) : option sest :=
  if decide (expd < s_nextresort e)%nat then None
  else
    let nexpd := inject_Z (Z.of_nat expd - Z.of_nat (s_lastexpd e)) in
    let t := clock (s_ticks e) in
    Some (SEst ((t - s_lasttime e) / nexpd) (inject_Z (s_delaysum e) / nexpd) 0 t expd
      (s_nextresort e * 2) (S (s_nresort e)) (S (s_ticks e)))%Q.

Definition slim_search D hh dd lim s0 fuel :=
  bsearch D hh dd bugsy_lt (0%Q, 0%Q, 0, 0) slim0 slim_util slim_expand slim_kids slim_refresh true lim s0 fuel.
Definition slim_step D hh dd lim :=
  bstep D hh dd bugsy_lt slim_util slim_expand slim_kids slim_refresh true lim.
Definition slim_running D hh dd lim :=
  brunning D hh dd bugsy_lt (0%Q, 0%Q, 0, 0) slim0 slim_util slim_expand slim_kids slim_refresh true lim.
End slim.

(** ** The estimator of bugsy.hpp *)

(** bugsy.hpp:407-442: the options.  [o_dlms] and [o_interph] are not
    initialised by the constructor (bugsy.hpp:71-91) and hold whatever was in
    memory unless their option is given; here they are arguments. *)
Record bopts := BOpts {
  o_resort : bool; o_hlms : option (Q * Q * Q * Q); o_dlms : option (Q * Q * Q * Q);
  o_hhat : bool; o_dhat : bool; o_interph : bool; o_expdelay : bool }.

(** bugsy.hpp:423-453. *)
Record best := BEst {
  e_navg : nat; e_herror : Q; e_derror : Q; e_herrlast : Q; e_derrlast : Q;
  e_avgdelay : Q; e_delaylast : Q;
  e_lasttime : Q; e_timeper : Q; e_lastnodes : nat;
  e_nextresort : nat; e_nresort : nat; e_ticks : nat }.

Section full.
Context (wf wt : Q) (o : bopts) (clock : nat → Q).

(** bugsy.hpp:77-90,133. *)
Definition full0 : best := BEst 0 0 0 0 0 0 0 (clock 0%nat) 0 0 128 0 1.

(** bugsy.hpp:400-405. *)
Definition evallms (g : Z) (p : fields) (c : Q * Q * Q * Q) : Q :=
  let '(c0, c1, c2, c3) := c in
  (inject_Z (p_h p) * c0 + inject_Z g * c1 + inject_Z (p_d p) * c2
   + inject_Z (Z.of_nat (p_depth p)) * c3)%Q.

(** bugsy.hpp:311-324: without resorting, the estimates in use follow the
    measured ones at once.  (Line 314 sets avgdelay from delaylast, not delaylast
    from avgdelay.) *)
Definition full_track (expd : nat) (e : best) : best :=
  if o_resort o then e
  else
    let '(lasttime, timeper, lastnodes, ticks) :=
      if decide (0 < expd)%nat then
        let t := clock (e_ticks e) in
        let dt := (t - e_lasttime e)%Q in
        (t, e_timeper e + (dt - e_timeper e) / inject_Z (Z.of_nat expd), S (e_lastnodes e), S (e_ticks e))%Q
      else (e_lasttime e, e_timeper e, e_lastnodes e, e_ticks e) in
    BEst (e_navg e) (e_herror e) (e_derror e) (e_herror e) (e_derror e)
      (e_delaylast e) (e_delaylast e) lasttime timeper lastnodes
      (e_nextresort e) (e_nresort e) ticks.

(** bugsy.hpp:325-327, 340-341.  (A double division by 1 - derrlast = 0 gives an
    infinity or NaN, here 0.) *)
Definition full_d (e : best) (g : Z) (p : fields) : Q :=
  let d := match o_dlms o with Some c => evallms g p c | None => inject_Z (p_d p) end in
  if o_dhat o then (d / (1 - e_derrlast e))%Q else d.

(** bugsy.hpp:329-338. *)
Definition full_h (e : best) (g : Z) (p : fields) : Q :=
  let h := match o_hlms o with Some c => evallms g p c | None => inject_Z (p_h p) end in
  if o_hhat o then
    let hhat := (h + full_d e g p * e_herrlast e)%Q in
    if o_interph o then
      let w := (wf / (wf + wt))%Q in
      (inject_Z (p_h p) * w + hhat * (1 - w))%Q
    else hhat
  else h.

(** bugsy.hpp:340-344. *)
Definition full_t (e : best) (g : Z) (p : fields) : Q :=
  let d := full_d e g p in
  let d := if o_expdelay o && negb (Qle_bool (e_delaylast e) 0) then (d * e_delaylast e)%Q else d in
  (e_timeper e * d)%Q.

(** bugsy.hpp:310-346. *)
Definition full_util (expd : nat) (e : best) (g : Z) (p : fields) : best * ukey :=
  let e := full_track expd e in
  let f := (full_h e g p + inject_Z g)%Q in
  let t := full_t e g p in
  let u := (- (wf * f + wt * t))%Q in
  (e, (u, t, p_f p, g)).

(** bugsy.hpp:202-205. *)
Definition full_expand (expd : nat) (e : best) (p : fields) : best :=
  if o_expdelay o then
    let delay := inject_Z (Z.of_nat expd - Z.of_nat (p_expct p)) in
    BEst (e_navg e) (e_herror e) (e_derror e) (e_herrlast e) (e_derrlast e)
      (e_avgdelay e + (delay - e_avgdelay e) / inject_Z (Z.of_nat expd))%Q (e_delaylast e)
      (e_lasttime e) (e_timeper e) (e_lastnodes e) (e_nextresort e) (e_nresort e) (e_ticks e)
  else e.

(** bugsy.hpp:207,216-217: the kid with the least f (the first one among
    equals); Kidinfo() has f = -1. *)
Definition bestkid (ks : list kidinfo) : kidinfo :=
  foldl (λ b k, if (k_f b <? 0) || (k_f k <? k_f b) then k else b) (KidInfo (-1) (-1) (-1)) ks.

(** bugsy.hpp:225-228. *)
Definition mean (m : Q) (err : Z) (n : nat) : Q :=
  let err := if err <? 0 then 0 else err in
  (m + (inject_Z err - m) / inject_Z (Z.of_nat n))%Q.

(** bugsy.hpp:220-236. *)
Definition full_kids (e : best) (p : fields) (ks : list kidinfo) : best :=
  let b := bestkid ks in
  if k_f b <? 0 then e
  else
    let n := S (e_navg e) in
    BEst n
      (if o_hhat o then mean (e_herror e) (k_f b - p_f p) n else e_herror e)
      (if o_dhat o then mean (e_derror e) (k_d b + 1 - p_d p) n else e_derror e)
      (e_herrlast e) (e_derrlast e) (e_avgdelay e) (e_delaylast e)
      (e_lasttime e) (e_timeper e) (e_lastnodes e) (e_nextresort e) (e_nresort e) (e_ticks e).

(** bugsy.hpp:350-362. *)
Definition full_refresh (expd : nat) (e : best) : option best :=
  if negb (o_resort o) || bool_decide (expd < e_nextresort e)%nat then None
  else
    let t := clock (e_ticks e) in
    Some (BEst (e_navg e) (e_herror e) (e_derror e) (e_herror e) (e_derror e)
      (e_avgdelay e) (e_avgdelay e) t
      ((t - e_lasttime e) / inject_Z (Z.of_nat expd - Z.of_nat (e_lastnodes e)))%Q expd
      (e_nextresort e * 2) (S (e_nresort e)) (S (e_ticks e))).

Definition full_search D hh dd dropdups lim s0 fuel :=
  bsearch D hh dd bugsy_lt (0%Q, 0%Q, 0, 0) full0 full_util full_expand full_kids full_refresh dropdups lim s0 fuel.
Definition full_step D hh dd dropdups lim :=
  bstep D hh dd bugsy_lt full_util full_expand full_kids full_refresh dropdups lim.
Definition full_running D hh dd dropdups lim :=
  brunning D hh dd bugsy_lt (0%Q, 0%Q, 0, 0) full0 full_util full_expand full_kids full_refresh dropdups lim.
End full.
