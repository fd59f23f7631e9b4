(** Model of utils/pool.hpp: a pool of equally sized objects.

    A slot is (block number, offset).  [mem] is the word that the union Ent
    (pool.hpp:64-67) shares between the user's object bytes and the link of the
    free list: while a slot is live the user may overwrite it at will.
    Sizes are unbounded (unsigned int / int in the code); constructors and
    destructors of the objects (construct, destruct, pool.hpp:38-46) are
    get/put plus user code that writes to the object. Reading outside a block is [None]. *)
From stdpp Require Import prelude.

Definition slot : Type := nat * nat.

(** pool.hpp:69-72. *)
Record pool := Pool {
  blksz : nat; nxt : nat; freed : option slot; blk : Z; nblks : nat;
  mem : slot → option slot }.

Definition upd (m : slot → option slot) (o : slot) (v : option slot) : slot → option slot :=
  λ x, if decide (x = o) then v else m x.

(** pool.hpp:55-62. *)
Definition newblk (p : pool) : pool :=
  let b := (blk p + 1)%Z in
  Pool (blksz p) 0 (freed p) b
    (if decide (Z.of_nat (nblks p) ≤ b)%Z then nblks p + 1 else nblks p) (mem p).

(** pool.hpp:10-12. *)
Definition new (sz : nat) (m : slot → option slot) : pool := newblk (Pool sz 0 None (-1) 0 m).

(** pool.hpp:19-30. *)
Definition get (p : pool) : option (pool * slot) :=
  match freed p with
  | Some res => Some (Pool (blksz p) (nxt p) (mem p res) (blk p) (nblks p) (mem p), res)
  | None =>
    let p := if decide (nxt p = blksz p) then newblk p else p in
    if decide (0 ≤ blk p < Z.of_nat (nblks p))%Z then
      if decide (nxt p < blksz p) then
        Some (Pool (blksz p) (nxt p + 1) (freed p) (blk p) (nblks p) (mem p),
              (Z.to_nat (blk p), nxt p))
      else None
    else None
  end.

(** pool.hpp:32-36. *)
Definition put (p : pool) (o : slot) : pool :=
  Pool (blksz p) (nxt p) (Some o) (blk p) (nblks p) (upd (mem p) o (freed p)).

(** The user of a live object overwrites its bytes. *)
Definition scribble (p : pool) (o : slot) (v : option slot) : pool :=
  Pool (blksz p) (nxt p) (freed p) (blk p) (nblks p) (upd (mem p) o v).

(** pool.hpp:49-51. *)
Definition blocks (p : pool) : nat := nblks p.
