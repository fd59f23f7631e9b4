(** Model of the limits of a search and of a lookahead: search/search.cc (Limit, its timers,
    LookaheadLimit::fromArgs) and search/lsslrtastar.hpp (ExpansionLimit, MaxTimeLimit). *)
From stdpp Require Import base list option sorting numbers.
From Coq Require Import ZArith Lia QArith Qround.
From Verif.Text Require Import Model.
Local Open Scope Z_scope.

(** ** Numbers on the command line *)

Definition ULMAX : Z := 18446744073709551615.
Definition UINT : Z := 4294967296.

Definition isdigit (c : Z) : bool := (48 <=? c) && (c <=? 57).

Fixpoint dropspace (s : str) : str :=
  match s with
  | c :: s' => if isspace c then dropspace s' else s
  | [] => []
  end.

(** The digits at the front of [s], read in base ten after the value [a]. *)
Fixpoint readdigits (a : Z) (s : str) : Z :=
  match s with
  | c :: s' => if isdigit c then readdigits (10 * a + (c - 48)) s' else a
  | [] => a
  end.

(** strtoul(s, _, 10) of the C library: white space, a sign, digits; too large values give ULONG_MAX, a minus
    sign negates in unsigned long, and text that is no number gives zero. *)
Definition strtoul (s : str) : Z :=
  let s := dropspace s in
  let '(neg, s) := match s with
                   | 45 :: s' => (true, s')
                   | 43 :: s' => (false, s')
                   | _ => (false, s)
                   end in
  let v := readdigits 0 s in
  if ULMAX <? v then ULMAX else if neg : bool then (- v) mod (ULMAX + 1) else v.

(** ** Limit *)

Definition f_expd : str := [45; 101; 120; 112; 100].
Definition f_gend : str := [45; 103; 101; 110; 100].
Definition f_mem : str := [45; 109; 101; 109].
Definition f_cputime : str := [45; 99; 112; 117; 116; 105; 109; 101].
Definition f_walltime : str := [45; 119; 97; 108; 108; 116; 105; 109; 101].

(** search.hpp:84 (the flag [timeup] is part of [world] below). *)
Record limit := Limit { expd : Z; gend : Z; mem : Z; cputime : Z; walltime : Z }.

(** search.cc:40-41 *)
Definition nolimit : limit := Limit 0 0 0 0 0.

Section args.
(** strtod of the C library: the number and the text after it; no conversion is (0, the whole text).
    Infinities and NaN are not modelled. *)
Context (strtod : str → Q * str).

(** search.cc:59-82, the value part: None is the call of fatal, or a number that does not fit unsigned long (the
    conversion is undefined).  The calls of getrlimit and setrlimit are not modelled; they are assumed to succeed. *)
Definition memlimit (s : str) : option Z :=
  let '(m, rest) := strtod s in
  m ← match rest with
      | 71 :: _ => Some (m * 1000000000)%Q
      | 77 :: _ => Some (m * 1000000)%Q
      | 75 :: _ => Some (m * 1000)%Q
      | [] => Some m
      | _ => None
      end;
  if decide (0 ≤ Qfloor m ≤ ULMAX) then Some (Qfloor m) else None.

(** search.cc:43-57.  The loop over the arguments from index i on. *)
Fixpoint parselimit (argv : list str) (l : limit) : option limit :=
  match argv with
  | a :: ((v :: rest) as tl) =>
      if decide (a = f_expd) then parselimit rest (Limit (strtoul v) (gend l) (mem l) (cputime l) (walltime l))
      else if decide (a = f_gend) then parselimit rest (Limit (expd l) (strtoul v) (mem l) (cputime l) (walltime l))
      else if decide (a = f_mem) then
        m ← memlimit v; parselimit rest (Limit (expd l) (gend l) m (cputime l) (walltime l))
      else if decide (a = f_cputime) then parselimit rest (Limit (expd l) (gend l) (mem l) (strtoul v) (walltime l))
      else if decide (a = f_walltime) then parselimit rest (Limit (expd l) (gend l) (mem l) (cputime l) (strtoul v))
      else parselimit tl l
  | _ => Some l
  end.

Definition mklimit (argv : list str) : option limit := parselimit argv nolimit.

(** ** LookaheadLimit::fromArgs *)

Definition f_lookahead : str := [45; 108; 111; 111; 107; 97; 104; 101; 97; 100].
Definition f_dynlss : str := [45; 100; 121; 110; 108; 115; 115].
Definition f_lvl : str := [45; 108; 118; 108].
Definition f_gscale : str := [45; 103; 115; 99; 97; 108; 101].

Inductive looklimit :=
  | LExp (n : Z)                                                   (* new ExpansionLimit(n) *)
  | LMax (alg root level : str) (n : Z) (gscale : Q).              (* new MaxTimeLimit(alg, root, level, n, gscale) *)

(** search.cc:186-194: the first -lookahead that has a word after it; zero if there is none.  The test
    [end == NULL] is never true after strtoul. *)
Fixpoint findlook (argv : list str) : Z :=
  match argv with
  | a :: ((v :: _) as tl) => if decide (a = f_lookahead) then strtoul v mod UINT else findlook tl
  | _ => 0
  end.

(** search.cc:199-201: the word after the first -dynlss *)
Fixpoint finddyn (argv : list str) : option str :=
  match argv with
  | a :: ((v :: _) as tl) => if decide (a = f_dynlss) then Some v else finddyn tl
  | _ => None
  end.

(** search.cc:204-213.  None is the call of fatal. *)
Fixpoint findlvl (argv : list str) (level : str) (gscale : Q) : option (str * Q) :=
  match argv with
  | a :: ((v :: rest) as tl) =>
      if decide (a = f_lvl) then findlvl rest v gscale
      else if decide (a = f_gscale) then
        if decide ((strtod v).2 = v) then None else findlvl rest level (strtod v).1
      else findlvl tl level gscale
  | _ => Some (level, gscale)
  end.

(** search.cc:185-223.  None is a call of fatal.  The number is an unsigned int. *)
Definition fromargs (argv : list str) : option looklimit :=
  let n := findlook argv in
  if n <? 1 then None
  else match finddyn argv with
       | None => Some (LExp n)
       | Some root =>
           '(level, gs) ← findlvl argv [] (-1)%Q;
           if Qle_bool gs 0 then None
           else if decide (level = []) then None
           else alg ← argv !! 1%nat; Some (LMax alg root level n gs)
       end.
End args.

(** ** ExpansionLimit, lsslrtastar.hpp:521-542 *)

Record explimit := Exp { en : Z; elim : Z }.

(** lsslrtastar.hpp:527-529 *)
Definition estart (e : explimit) : explimit := Exp 0 (elim e).

(** lsslrtastar.hpp:531-533; n is an unsigned int *)
Definition estop (e : explimit) : bool * explimit := (elim e <=? en e, Exp ((en e + 1) mod UINT) (elim e)).

(** The answers to [k] calls of stop in a row. *)
Fixpoint estops (k : nat) (e : explimit) : list bool :=
  match k with
  | O => []
  | S k' => let '(b, e') := estop e in b :: estops k' e'
  end.

(** ** MaxTimeLimit, lsslrtastar.hpp:557-762 *)

(** lsslrtastar.hpp:559-569 *)
Record lookup := Lookup { size : Z; maxtime : Q }.

(** std::max *)
Definition qmax (a b : Q) : Q := if Qle_bool b a then a else b.

(** lsslrtastar.hpp:651-660: the entry of this size gets the larger time, or a new entry is added at the end. *)
Fixpoint addrun (tbl : list lookup) (s : Z) (t : Q) : list lookup :=
  match tbl with
  | [] => [Lookup s t]
  | e :: tbl' => if decide (size e = s) then Lookup s (qmax (maxtime e) t) :: tbl'
                 else e :: addrun tbl' s t
  end.

(** lsslrtastar.hpp:630-661.  A training file is its lookahead, from the attributes of its path, and the largest
    mean step time in it, -1 if it has none.  The file system and dfread are not modelled here. *)
Fixpoint addruns (tbl : list lookup) (fs : list (Z * Q)) : list lookup :=
  match fs with
  | [] => tbl
  | (s, t) :: fs' => if Qle_bool 0 t then addruns (addrun tbl s t) fs' else addruns tbl fs'
  end.

Definition lessize (a b : lookup) : Prop := size a ≤ size b.
Global Instance lessize_dec a b : Decision (lessize a b).
Proof. unfold lessize. apply _. Defined.

(** lsslrtastar.hpp:663-666: None is the call of fatal.  std::sort is modelled by merge sort: the sizes differ, so
    every sorting algorithm gives the same table. *)
Definition mktable (fs : list (Z * Q)) : option (list lookup) :=
  match addruns [] fs with
  | [] => None
  | tbl => Some (merge_sort lessize tbl)
  end.

(** lsslrtastar.hpp:736-742.  back() of an empty vector is undefined: None. *)
Fixpoint maxlss (tbl : list lookup) (t : Q) : option Z :=
  match tbl with
  | [] => None
  | e :: tbl' => if Qle_bool t (maxtime e) then Some (size e)
                 else match tbl' with [] => Some (size e) | _ => maxlss tbl' t end
  end.

(** lsslrtastar.hpp:755-761 *)
Record maxlimit := Max { gscale : Q; deadline : Q; lim0 : Z; mlim : Z; missed : Z; table : list lookup }.

(** lsslrtastar.hpp:714-732 with [now] the processor time read at 716; the counter n is that of [explimit] and
    is set to zero here too. *)
Definition mstart (now g : Q) (m : maxlimit) : option maxlimit :=
  if Qle_bool g 0 then Some (Max (gscale m) (deadline m) (lim0 m) (lim0 m) (missed m) (table m))
  else
    let dl := if Qeq_bool (deadline m) 0 then now else deadline m in
    let miss := if Qle_bool now dl then missed m else missed m + 1 in
    let g := if Qle_bool g 1 then g else (g - 1)%Q in
    let dl := (dl + g * gscale m)%Q in
    l ← maxlss (table m) (dl - now)%Q;
    Some (Max (gscale m) dl (lim0 m) l miss (table m)).

(** ** Timers of a limit *)

Inductive timer := Real | Prof.
Global Instance timer_eq : EqDecision timer.
Proof. solve_decision. Defined.

(** What the program and the operating system know: the limit that is signalled (search.cc:85), for each timer
    whether it is armed and whether its signal is handled by handletimeout, and the flag [timeup] of each limit.
    Limits are numbered; [conf] has their numbers. *)
Record world := World { timed : option nat; armed : timer → bool; handled : timer → bool; timeup : nat → bool }.

Definition world0 : world := World None (λ _, false) (λ _, false) (λ _, false).

Definition put (t : timer) (b : bool) (f : timer → bool) : timer → bool := λ t', if decide (t' = t) then b else f t'.

Inductive outcome := Ok (w : world) | Fatal | Killed | Crash.

(** search.cc:121-136 and 138-151.  The calls of sigaction and setitimer are assumed to succeed; a timer is armed
    for one signal (it_interval is zero). *)
Definition settimer (t : timer) (w : world) : world := World (timed w) (put t true (armed w)) (put t true (handled w)) (timeup w).
Definition stoptimer (t : timer) (w : world) : world := World (timed w) (put t false (armed w)) (put t false (handled w)) (timeup w).

(** search.cc:97-108 *)
Definition start (conf : nat → limit) (i : nat) (w : world) : outcome :=
  let l := conf i in
  if (walltime l =? 0) && (cputime l =? 0) then Ok w
  else
    let w := match timed w with None => World (Some i) (armed w) (handled w) (timeup w) | Some _ => w end in
    if decide (timed w = Some i) then
      let w := if 0 <? walltime l then settimer Real w else w in
      let w := if 0 <? cputime l then settimer Prof w else w in
      Ok w
    else Fatal.

(** search.cc:110-118 *)
Definition finish (conf : nat → limit) (i : nat) (w : world) : outcome :=
  let l := conf i in
  if (walltime l =? 0) && (cputime l =? 0) then Ok w
  else
    let w := if 0 <? walltime l then stoptimer Real w else w in
    let w := if 0 <? cputime l then stoptimer Prof w else w in
    Ok (World None (armed w) (handled w) (timeup w)).

(** The time of a timer runs out: nothing if it is not armed; else its signal kills the process, or runs
    handletimeout, search.cc:87-89, which dereferences [timed]. *)
Definition ring (t : timer) (w : world) : outcome :=
  if armed w t then
    if handled w t then
      match timed w with
      | None => Crash
      | Some i => Ok (World (timed w) (put t false (armed w)) (handled w) (λ j, if decide (j = i) then true else timeup w j))
      end
    else Killed
  else Ok w.

Inductive event := Start (i : nat) | Finish (i : nat) | Ring (t : timer).

Definition happen (conf : nat → limit) (e : event) (w : world) : outcome :=
  match e with
  | Start i => start conf i w
  | Finish i => finish conf i w
  | Ring t => ring t w
  end.

Fixpoint run (conf : nat → limit) (es : list event) (w : world) : outcome :=
  match es with
  | [] => Ok w
  | e :: es' => match happen conf e w with Ok w' => run conf es' w' | o => o end
  end.

(** search.hpp:67-71 for a limit [i] and the counts of a search *)
Definition reached (conf : nat → limit) (i : nat) (w : world) (expds gends : Z) : bool :=
  timeup w i || ((0 <? expd (conf i)) && (expd (conf i) <=? expds)) || ((0 <? gend (conf i)) && (gend (conf i) <=? gends)).
