(** Model of the pattern databases: tiles/pdb.hpp, tiles/pdb.cc.

    Tile positions are unsigned int (32 bit, wrapping products), indices unsigned
    long (64 bit).  An entry is an unsigned char.  [None]: a failed assertion or
    an array accessed out of bounds.  The array pat (a copy of the pattern, never
    read) and the line printed by the constructor are left out. *)
From stdpp Require Import prelude.
From Coq Require Import ZArith.
From Verif.Arith Require Import Model.
From Verif.Rank Require Import Model.
Local Open Scope Z_scope.

Section pdb.
(** Tiles::Ntiles, tiles.hpp:10. *)
Context (N : Z).

(** pdb.hpp:44-69: the index is computed by a multiplication scheme or by a ranker. *)
Inductive kind := Sparse | Compact (r : ranker).

(** pdb.hpp:34-41.  [costs] has costssz elements. *)
Record pdb := Pdb { d_kind : kind; d_patsz : nat; d_costs : list Z; d_nents : Z }.

(** pdb.cc:6-13. *)
Definition newpdb (k : kind) (costssz : Z) (psz : nat) : pdb :=
  Pdb k psz (replicate (Z.to_nat costssz) 0) (fallfact N psz).

(** pdb.cc:15-16.  (pow is taken to be exact, as it is for powers of two, and the
    result to fit into an unsigned long.) *)
Definition new_sparse (psz : nat) : pdb := newpdb Sparse (N ^ Z.of_nat psz) psz.

(** pdb.cc:18-20. *)
Definition new_compact (psz : nat) : option pdb :=
  r ← new_ranker N psz;
  Some (newpdb (Compact r) (fallfact N psz) psz).

(** pdb.hpp:50-53, [k] iterations left; [ps] starts at the next position. *)
Fixpoint sparseloop (k : nat) (ps : list nat) (ind mul : Z) : option Z :=
  match k with
  | 0%nat => Some ind
  | S k =>
    match ps with
    | [] => None
    | p :: ps => sparseloop k ps (u64 (ind + u32 (Z.of_nat p * mul))) (u32 (mul * N))
    end
  end.

(** pdb.hpp:46-56, 62-64. *)
Definition posind (d : pdb) (ps : list nat) : option Z :=
  match d_kind d with
  | Sparse =>
    match ps with
    | [] => None
    | p :: ps => sparseloop (d_patsz d - 1) ps (Z.of_nat p) (u32 N)
    end
  | Compact r => rank r ps
  end.

(** pdb.hpp:15-19: where the entry is. *)
Definition poscost (d : pdb) (ps : list nat) : option nat :=
  ind ← posind d ps;
  if decide (ind < Z.of_nat (length (d_costs d))) then Some (Z.to_nat ind) else None.

(** pdb.hpp:21-27: positions given as bytes. *)
Fixpoint widen (k : nat) (ps : list nat) : option (list nat) :=
  match k with
  | 0%nat => Some []
  | S k => match ps with [] => None | p :: ps => l ← widen k ps; Some ((p mod 256)%nat :: l) end
  end.

Definition poscost_bytes (d : pdb) (ps : list nat) : option nat :=
  if decide (Z.of_nat (d_patsz d) ≤ N) then
    psbig ← widen (d_patsz d) ps;
    poscost d psbig
  else None.

(** Reading and writing through the pointer returned. *)
Definition getcost (d : pdb) (ps : list nat) : option Z :=
  i ← poscost d ps; d_costs d !! i.

Definition setcost (d : pdb) (ps : list nat) (v : Z) : option pdb :=
  i ← poscost d ps;
  Some (Pdb (d_kind d) (d_patsz d) (<[i := v mod 256]> (d_costs d)) (d_nents d)).
End pdb.
