(** Model of Ranker: utils/utils.hpp (struct Ranker) and utils/rank.cc.
    Tree indices are [nat]; counters are unsigned int (32 bit, wrapping), the rank is unsigned
    long (64 bit, wrapping); an access out of bounds is [None].  The destructor (rank.cc:23-25,
    which applies delete to an array) is left out. *)
From stdpp Require Import prelude.
From Coq Require Import ZArith.
From Verif.Arith Require Import Model.
Open Scope Z_scope.

Record ranker := mk_ranker { r_sz : Z; r_bits : nat; r_n : nat; r_treesz : nat }.

(** rank.cc:13-21; a shift of 1 (an int) by 31 or more overflows: [None]. *)
Definition new_ranker (sz : Z) (n : nat) : option ranker :=
  let bits := Z.to_nat (ilog2 sz) in
  if (bits + 1 <=? 30)%nat then Some (mk_ranker sz bits n (2 ^ (bits + 1) + 1)) else None.

(** rank.cc:51-61. *)
Definition left (i : nat) : nat := (i * 2)%nat.
Definition parent (i : nat) : nat := (i / 2)%nat.
Definition odd (i : nat) : bool := negb (i mod 2 =? 0)%nat.

(** tree[i]++. *)
Definition incr (i : nat) (tree : list Z) : option (list Z) :=
  t ← tree !! i; Some (<[i := u32 (t + 1)]> tree).

(** rank.cc:36-42: the inner loop, [j] iterations left; returns the tree, ctr and nd. *)
Fixpoint climb (j : nat) (tree : list Z) (ctr : Z) (nd : nat) : option (list Z * Z * nat) :=
  match j with
  | 0%nat => Some (tree, ctr, nd)
  | S j =>
    let prnt := parent nd in
    ctr ← (if odd nd then t ← tree !! left prnt; Some (u32 (ctr - t)) else Some ctr);
    tree ← incr nd tree;
    climb j tree ctr prnt
  end.

(** rank.cc:32-46: the outer loop over the first [k] remaining elements of [p]; [i] counts from 1. *)
Fixpoint rankloop (r : ranker) (k : nat) (i : Z) (p : list nat) (tree : list Z) (rank : Z) : option Z :=
  match k with
  | 0%nat => Some rank
  | S k =>
    match p with
    | [] => None
    | x :: p =>
      '(tree, ctr, nd) ← climb (r_bits r) tree (Z.of_nat x) (2 ^ r_bits r + x)%nat;
      tree ← incr nd tree;
      rankloop r k (i + 1) p tree (u64 (rank * u32 (r_sz r + 1 - i) + ctr))
    end
  end.

(** rank.cc:27-49. *)
Definition rank (r : ranker) (p : list nat) : option Z :=
  rankloop r (r_n r) 1 p (replicate (r_treesz r) 0) 0.
