(** Model of search/anyprof/profile.{hpp,cc}: the profile of an anytime search and the stopping policy made from it.

    Doubles are rationals here: arithmetic is exact.  Failed assertions and reads out of range are [None]. Reading and
    writing profiles as text (profile.cc:26-60) is not modelled. *)
From stdpp Require Import prelude.
From Coq Require Import QArith Qround.

Definition ltb (a b : Q) : bool := negb (Qle_bool b a).
Definition qn (n : nat) : Q := inject_Z (Z.of_nat n).

(** profile.hpp:17-21 *)
Record solution := Sol { scost : Q; stime : Q }.
Notation stream := (list solution).
(** profile.hpp:59-65 *)
Record extents := Ext { mincost : Q; maxcost : Q; mintime : Q; maxtime : Q }.

(** A loop whose body may fail. *)
Fixpoint foldm {A B} (f : B → A → option A) (xs : list B) (a : A) : option A :=
  match xs with [] => Some a | x :: xs => match f x a with Some a => foldm f xs a | None => None end end.
(** v[i] = x *)
Definition set {A} (l : list A) (i : nat) (x : A) : option (list A) := if decide (i < length l)%nat then Some (<[i := x]> l) else None.

(** profile.cc:76-93.  None stands for the infinite values before the first solution, which replaces all four. *)
Definition widen (o : option extents) (s : solution) : option extents :=
  Some match o with
  | None => Ext (scost s) (scost s) (stime s) (stime s)
  | Some e => Ext (if ltb (scost s) (mincost e) then scost s else mincost e)
                  (if ltb (maxcost e) (scost s) then scost s else maxcost e)
                  (if ltb (stime s) (mintime e) then stime s else mintime e)
                  (if ltb (maxtime e) (stime s) then stime s else maxtime e)
  end.
Definition getextents (streams : list stream) : option extents := foldl (foldl widen) None streams.

(** profile.hpp:76-84 *)
Definition qtindex (ntime qi dt : nat) : nat := (qi * ntime + dt)%nat.
Definition qqtindex (ncost ntime qj qi dt : nat) : nat := (qj * ncost * ntime + qi * ntime + dt)%nat.

(** The conversion of a double to unsigned int drops the fraction. *)
Definition trunc (x : Q) : nat := Z.to_nat (Qfloor x).
(** profile.hpp:88-96; with no bins the result is out of range. *)
Definition costbin (ncost : nat) (e : extents) (c : Q) : option nat :=
  if negb (Qle_bool (mincost e) c) || negb (Qle_bool c (maxcost e)) || bool_decide (ncost = 0%nat) then None
  else if Qeq_bool c (maxcost e) then Some (ncost - 1)%nat
  else let width := (maxcost e - mincost e) / qn ncost in Some (trunc ((c - mincost e) / width)).
(** profile.hpp:100-108 *)
Definition timebin (ntime : nat) (e : extents) (dt : Q) : option nat :=
  if negb (Qle_bool 0 dt) || negb (Qle_bool dt (maxtime e - mintime e)) || bool_decide (ntime = 0%nat) then None
  else if Qeq_bool dt (maxtime e - mintime e) then Some (ntime - 1)%nat
  else let width := (maxtime e - mintime e) / qn ntime in Some (trunc (dt / width)).

(** profile.hpp:110-116 *)
Record tables := Tab { qt : list nat; qqt : list nat }.
(** v[i]++ *)
Definition bump (l : list nat) (i : nat) : option (list nat) := match l !! i with Some x => Some (<[i := S x]> l) | None => None end.

Section profile.
Context (ncost ntime : nat).

(** profile.cc:111-114 and 120-123 *)
Definition bumps (qi curq : nat) (dts : list nat) (tb : tables) : option tables :=
  foldm (λ dt tb,
    match bump (qt tb) (qtindex ntime qi dt) with
    | Some a => match bump (qqt tb) (qqtindex ncost ntime curq qi dt) with Some b => Some (Tab a b) | None => None end
    | None => None
    end) dts tb.
(** profile.cc:104-123: the solutions after [s] *)
Fixpoint countfrom (e : extents) (s : solution) (qi : nat) (rest : stream) (curq curdt : nat) (tb : tables) : option tables :=
  match rest with
  | [] => bumps qi curq (seq curdt (ntime - curdt)) tb
  | r :: rest =>
      if negb (ltb (stime s) (stime r)) || negb (Qle_bool (scost r) (scost s)) then None else
      match costbin ncost e (scost r), timebin ntime e (stime r - stime s) with
      | Some nextq, Some nextdt =>
          match bumps qi curq (seq curdt (nextdt - curdt)) tb with
          | Some tb => countfrom e s qi rest nextq nextdt tb
          | None => None
          end
      | _, _ => None
      end
  end.
(** profile.cc:99-124; the solutions from the [i]th on are the tails of the stream. *)
Fixpoint countstream (e : extents) (st : stream) (tb : tables) : option tables :=
  match st with
  | [] => Some tb
  | s :: rest =>
      match costbin ncost e (scost s) with
      | Some qi => match countfrom e s qi rest qi 0 tb with Some tb => countstream e rest tb | None => None end
      | None => None
      end
  end.
(** profile.cc:95-126, from the tables of initbins (62-68) *)
Definition countsolutions (e : extents) (streams : list stream) : option tables :=
  foldm (countstream e) streams (Tab (replicate (ncost * ntime) 0%nat) (replicate (ncost * ncost * ntime) 0%nat)).

(** profile.cc:137-148; [None] as the least probability is infinity. *)
Definition mkprob (tb : tables) (qi dt n qj : nat) (st : list Q * option Q) : option (list Q * option Q) :=
  let '(probs, small) := st in
  let i := qqtindex ncost ntime qj qi dt in
  match qqt tb !! i with
  | None => None
  | Some m =>
      if bool_decide (qi < qj)%nat && negb (bool_decide (m = 0%nat)) then None else
      let p := qn m / qn n in
      match set probs i p with
      | Some probs => Some (probs, if ltb 0 p && match small with None => true | Some s => ltb p s end then Some p else small)
      | None => None
      end
  end.
(** profile.cc:129-150 *)
Definition rawprobs (tb : tables) : option (list Q * option Q) :=
  foldm (λ qi, foldm (λ dt st,
    match qt tb !! qtindex ntime qi dt with
    | None => None
    | Some n => if bool_decide (n = 0%nat) then Some st else foldm (mkprob tb qi dt n) (seq 0 ncost) st
    end) (seq 0 ntime)) (seq 0 ncost) (replicate (ncost * ncost * ntime) 0, None).
(** v[i] = f(v[i]) *)
Definition upd (f : Q → Q) (i : nat) (probs : list Q) : option (list Q) := match probs !! i with Some p => Some (<[i := f p]> probs) | None => None end.
(** profile.cc:152-160 *)
Definition smooth (small : Q) (probs : list Q) : option (list Q) :=
  foldm (λ qi, foldm (λ dt, foldm (λ qj, upd (λ p, p + small / 2) (qqtindex ncost ntime qj qi dt)) (seq 0 (S qi))) (seq 0 ntime)) (seq 0 ncost) probs.
(** sum += qqtprobs[...] *)
Definition sumcells (probs : list Q) (qi dt : nat) (qjs : list nat) : option Q :=
  foldm (λ qj sum, match probs !! qqtindex ncost ntime qj qi dt with Some p => Some (sum + p) | None => None end) qjs 0.
(** profile.cc:162-184 *)
Definition normalize (probs : list Q) : option (list Q) :=
  foldm (λ qi, foldm (λ dt probs,
    match sumcells probs qi dt (seq 0 ncost) with
    | None => None
    | Some sum =>
        if negb (ltb 0 sum) then None else
        match foldm (λ qj, upd (λ p, p / sum) (qqtindex ncost ntime qj qi dt)) (seq 0 (S qi)) probs with
        | None => None
        | Some probs =>
            match sumcells probs qi dt (seq 0 (S qi)) with
            | None => None
            | Some sum => if ltb (1 - (1 # 100000000)) sum && ltb sum (1 + (1 # 100000000)) then Some probs else None
            end
        end
    end) (seq 0 ntime)) (seq 0 ncost) probs.
(** profile.cc:128-185.  Without any probability, infinity is added, and the assertion about the sum fails (if there are
    bins at all). *)
Definition mkprobs (tb : tables) : option (list Q) :=
  match rawprobs tb with
  | None => None
  | Some (probs, None) => if bool_decide (ncost * ntime = 0)%nat then Some probs else None
  | Some (probs, Some small) => match smooth small probs with Some probs => normalize probs | None => None end
  end.
End profile.

(** profile.hpp:55-65,118-120 *)
Record profile := Prof { ncost : nat; ntime : nat; ext : extents; probs : list Q }.
(** profile.cc:8-12,70-74 *)
Definition mkprofile (nc nt : nat) (streams : list stream) : option profile :=
  match getextents streams with
  | None => None
  | Some e => match countsolutions nc nt e streams with
              | Some tb => match mkprobs nc nt tb with Some ps => Some (Prof nc nt e ps) | None => None end
              | None => None
              end
  end.
(** profile.hpp:49-53 *)
Definition binprob (p : profile) (q2 q1 dt : nat) : option Q :=
  if bool_decide (q2 < ncost p ∧ q1 < ncost p ∧ dt < ntime p)%nat then probs p !! qqtindex (ncost p) (ntime p) q2 q1 dt else Some 0.

(** ** The monitor *)
Section monitor.
Context (p : profile) (wf wt : Q).

(** profile.cc:189-190 *)
Definition qwidth : Q := (maxcost (ext p) - mincost (ext p)) / qn (ncost p).
Definition twidth : Q := (maxtime (ext p) - mintime (ext p)) / qn (ntime p).
(** profile.hpp:159-173 *)
Definition bincost (q : nat) : Q := mincost (ext p) + qn q * qwidth + qwidth / 2.
Definition bintime (t : nat) : Q := mintime (ext p) + qn t * twidth + twidth / 2.
Definition binutil (q t : nat) : Q := - (wf * bincost q + wt * bintime t).
(** profile.hpp:177-181 *)
Definition index (q t : nat) : option nat := if bool_decide (q < ncost p ∧ t < ntime p)%nat then Some (q * ntime p + t)%nat else None.

(** profile.hpp:193-202: value and policy of the cells that were seen *)
Notation cells := (list (option (Q * bool))).
Definition put (q t : nat) (x : Q * bool) (c : cells) : option cells :=
  match index q t with Some i => set c i (Some x) | None => None end.
(** profile.cc:217-223 *)
Definition lookahead (c : cells) (q1 t : nat) : option (Q * Q) :=
  foldm (λ q2 acc, let '(vgo, psum) := acc in
    match binprob p q2 q1 1, index q2 (t + 1) with
    | Some prob, Some i => match c !! i with Some (Some (val, _)) => Some (vgo + prob * val, psum + prob) | _ => None end
    | _, _ => None
    end) (rev (seq 0 (S q1))) (0, 0).
(** profile.cc:215-241 *)
Definition decidecell (q1 t : nat) (c : cells) : option cells :=
  match lookahead c q1 t with
  | None => None
  | Some (vgo, psum) =>
      if negb (ltb (1 - (1 # 100000000)) psum && ltb psum (1 + (1 # 100000000))) then None else
      let vstop := binutil q1 t in
      put q1 t (if ltb vstop vgo then (vgo, false) else (vstop, true)) c
  end.
(** profile.cc:187-244.  If there is a single time bin, [ntime - 2] is a large number; the first round of the loop finds
    no probability in the (missing) next time step, and the assertion fails. *)
Definition mkmonitor : option cells :=
  match foldm (λ q, put q (ntime p - 1) (binutil q (ntime p - 1), true)) (seq 0 (ncost p)) (replicate (ncost p * ntime p) None) with
  | None => None
  | Some c =>
      match foldm (λ t, put 0 t (binutil 0 t, true)) (seq 0 (ntime p)) c with
      | None => None
      | Some c =>
          if bool_decide (ntime p < 2 ∧ 1 < ncost p)%nat then None
          else foldm (λ q1, foldm (decidecell q1) (rev (seq 0 (ntime p - 1)))) (seq 1 (ncost p - 1)) c
      end
  end.
(** profile.hpp:141-154 *)
Definition stop (c : cells) (cost time : Q) : option bool :=
  if ltb cost (mincost (ext p)) || ltb time (mintime (ext p)) then Some false
  else if Qle_bool (maxcost (ext p)) cost || Qle_bool (maxtime (ext p)) time then Some true
  else match index (trunc ((cost - mincost (ext p)) / qwidth)) (trunc ((time - mintime (ext p)) / twidth)) with
       | Some i => match c !! i with Some (Some (_, b)) => Some b | _ => None end
       | None => None
       end.
End monitor.
