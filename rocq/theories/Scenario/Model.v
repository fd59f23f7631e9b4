(** Model of gridnav/scenario.cc: the entries of a scenario file are solved and the costs compared with those of the file.

    Simplifications: as in Search/Domain.v.  The entries are those the input operator (102-110) reads; the version line and
    the options (-maproot and -entry, 13-27) are read already.  A map is what the constructor of GridMap makes of the file
    with some name, which does not change during the run; the instance made of a map and coordinates is any domain with a
    start (GridNav, 82), the costs of which are multiples of some unit [u].  The search is any function of the number of
    its calls and of the instance; it is reset after each call (46).  Counters do not overflow, and times are exact. *)
From stdpp Require Import prelude.
From Coq Require Import ZArith QArith Qabs.
From Verif.Search Require Import Domain.
Local Open Scope Z_scope.

(** scenario.cc:11, as a float *)
Definition Eps : Q := 10737418 # 1073741824.

(** scenario.hpp:24-30 *)
Record entry := Entry { e_bucket : Z; e_file : list Z; e_w : Z; e_h : Z; e_x0 : Z; e_y0 : Z; e_x1 : Z; e_y1 : Z; e_opt : Q }.

(** search.hpp:21-23, search.cc:16-18 *)
Record stats := Stats { s_wall0 : Q; s_wall1 : Q; s_cpu0 : Q; s_cpu1 : Q; s_expd : Z; s_gend : Z; s_reopnd : Z; s_dups : Z }.
Definition stats0 : stats := Stats 0 0 0 0 0 0 0 0.
(** search.hpp:41-52 *)
Definition add (a b : stats) : stats :=
  Stats 0 ((s_wall1 a - s_wall0 a) + (s_wall1 b - s_wall0 b)) 0 ((s_cpu1 a - s_cpu0 a) + (s_cpu1 b - s_cpu0 b))
    (s_expd a + s_expd b) (s_gend a + s_gend b) (s_reopnd a + s_reopnd b) (s_dups a + s_dups b).

(** A row of the output (93-98): number, entry, cost, length of the path and counters. *)
Record row := Row { w_num : nat; w_ent : entry; w_cost : Z; w_len : nat; w_stats : stats }.

(** gridnav.cc:52-57: the state and the cost after the operators from the last one of the list on *)
Definition exec {D : domain} (s0 : St D) (os : list (Op D)) : St D * Z :=
  foldr (λ o '(s, c), (dest s o, c + cost s o)) (s0, 0) os.
(** gridnav.cc:36-62.  [None]: the assertion that the last state is a goal fails. *)
Definition pathcost {D : domain} (s0 : St D) (os : list (Op D)) : option Z :=
  let '(s, c) := exec s0 os in if isgoal s then Some c else None.

Section scenario.
Context {Map : Type} (load : list Z → option Map) (root : list Z).
Context (dom : Map → Z → Z → Z → Z → domain) (start : ∀ m x0 y0 x1 y1, St (dom m x0 y0 x1 y1)) (u : Q).
Context (srch : nat → ∀ D : domain, St D → option (list (St D) * list (Op D) * stats)).
Context (want : Z).

(** scenario.cc:71-79; the cache is lastmap with its name *)
Definition getmap (cache : option (list Z * Map)) (file : list Z) : option (Map * option (list Z * Map)) :=
  let path := root ++ file in
  match cache with
  | Some (p, m) =>
    if decide (p = path) then Some (m, cache)
    else m ← load path; Some (m, Some (path, m))
  | None => m ← load path; Some (m, Some (path, m))
  end.

(** scenario.cc:83-101, the [k]-th call of the search for the entry number [n].  [None]: a fatal error or a failed assertion. *)
Definition run1 (k n : nat) (e : entry) (cache : option (list Z * Map)) : option (row * option (list Z * Map)) :=
  '(m, cache) ← getmap cache (e_file e);
  '(path, os, st) ← srch k (dom m (e_x0 e) (e_y0 e) (e_x1 e) (e_y1 e)) (start m (e_x0 e) (e_y0 e) (e_x1 e) (e_y1 e));
  c ← pathcost (start m (e_x0 e) (e_y0 e) (e_x1 e) (e_y1 e)) os;
  let cost := (inject_Z c * u)%Q in
  if negb (Qle_bool (Qabs (cost - e_opt e)) Eps) && negb (Qeq_bool (e_opt e) 0 && Qeq_bool cost (-1)) then None
  else Some (Row n e c (length path) st, cache).

(** scenario.cc:39-47: [n] is nentries; the result has the rows, res and nentries *)
Fixpoint loop (ents : list entry) (k n : nat) (cache : option (list Z * Map)) (rows : list row) (res : stats) : option (list row * stats * nat) :=
  match ents with
  | [] => Some (rows, res, n)
  | e :: ents =>
    if decide (0 ≤ want ∧ Z.of_nat n ≠ want) then loop ents k (S n) cache rows res
    else
      '(r, cache) ← run1 k n e cache;
      loop ents (S k) (S n) cache (rows ++ [r]) (add res (w_stats r))
  end.
(** scenario.cc:33-51 *)
Definition run (ents : list entry) : option (list row * stats * nat) := loop ents 0 0 None [] stats0.
End scenario.
