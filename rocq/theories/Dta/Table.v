(** Model of the table of probabilities that DTA-star is trained with: search/dtastar.hpp:740-786 and the classes of the table
    (789-891).

    Doubles are exact rationals and unsigned numbers are unbounded; [None] is a failed assertion, an index out of range, or
    the conversion of a double that no unsigned number stands for.  Reading the rows (688-738) and plotting are left out. *)
From stdpp Require Import prelude.
From Coq Require Import ZArith QArith Qround.
Local Open Scope Q_scope.

(** dtastar.hpp:13-19 *)
Record row := Row { r_h : Q; r_d : nat; r_f : Q }.

(** std::max: the first one unless it is less *)
Definition stdmax (a b : Q) : Q := if Qle_bool b a then a else b.
(** The conversion of a double to an unsigned number. *)
Definition tounsigned (x : Q) : option nat := if Qle_bool x (-1 # 1) then None else Some (Z.to_nat (Qfloor x)).

(** dtastar.hpp:740-755: the depth, the largest h, the largest f and the number of bins.  Without rows the extremes are
    infinite, and the number of bins is not defined.  The minima are not used. *)
Definition extremes (rows : list row) : option (nat * Q * Q * nat) :=
  match rows with
  | [] => None
  | r :: rs =>
    let hm := foldl (λ m r, stdmax m (r_h r)) (r_h r) rs in
    let fm := foldl (λ m r, stdmax m (r_f r)) (r_f r) rs in
    n ← tounsigned (inject_Z (Qceiling (stdmax fm hm)) + 1);
    Some (foldl (λ m r, Nat.max m (r_d r)) 0%nat rows, hm, fm, n)
  end.

(** dtastar.hpp:773-775 and 777-779 *)
Definition hbin (hm h : Q) : option nat := tounsigned (stdmax h hm).
Definition fbin (fm f : Q) : option nat := tounsigned (stdmax f fm).

(** Fs, 789-813: a number of rows and the counters of the bins of f *)
Definition fs : Type := nat * list Z.
(** Hs, Ds: by the bin of h and the depth; 877-881, 817-821, 795-797 *)
Definition resize (n dmax : nat) : list (list fs) := replicate n (replicate (S dmax) (0%nat, replicate n 0%Z)).

(** dtastar.hpp:760-768 *)
Definition addrow (hm fm : Q) (q : list (list fs)) (r : row) : option (list (list fs)) :=
  h ← hbin hm (r_h r);
  f ← fbin fm (r_f r);
  if decide (f < h)%nat then None
  else
    ds ← q !! h;
    c ← ds !! r_d r;
    if decide (length c.2 < f)%nat then None
    else Some (<[h := <[r_d r := (S c.1, imap (λ i x, if decide (i < f)%nat then (x + 1)%Z else x) c.2)]> ds]> q).

(** dtastar.hpp:759-769 *)
Fixpoint addrows (hm fm : Q) (q : list (list fs)) (rows : list row) : option (list (list fs)) :=
  match rows with
  | [] => Some q
  | r :: rows => q ← addrow hm fm q r; addrows hm fm q rows
  end.

(** dtastar.hpp:799-804, 823-826, 883-886 *)
Definition normal (c : fs) : list Q :=
  (λ x, if decide (c.1 = 0%nat) then inject_Z x else inject_Z x / inject_Z (Z.of_nat c.1)) <$> c.2.
(** dtastar.hpp:439-441 and 757-771 *)
Definition train (rows : list row) : option (list (list (list Q))) :=
  '(dmax, hm, fm, n) ← extremes rows;
  q ← addrows hm fm (resize n dmax) rows;
  Some (fmap (M := list) (fmap (M := list) normal) q).

(** q[h][d][i] *)
Definition prob (q : list (list (list Q))) (h d i : nat) : option Q := ds ← q !! h; c ← ds !! d; c !! i.
(** dtastar.hpp:660: the bin of h that the decision to go on looks at *)
Definition usedbin (hm h : Q) : option nat := hbin hm (if Qle_bool h hm then h else hm).
