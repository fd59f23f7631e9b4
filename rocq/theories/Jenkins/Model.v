(** Model of utils/hash.c: hashlittle2 and hashbytes, as compiled on a little-endian machine
    (HASH_LITTLE_ENDIAN 1, VALGRIND undefined).  Memory is a function from addresses to bytes; an
    unsigned 32-bit word is an integer from 0 to 2^32-1.  hashlittle, which nothing calls, is left
    out; hashlittle2 is the same code with a second initial value. *)
From stdpp Require Import prelude.
From Coq Require Import ZArith.
Open Scope Z_scope.

Definition W32 : Z := 4294967296.

(** Arithmetic of uint32_t. *)
Definition add32 (x y : Z) : Z := (x + y) mod W32.
Definition sub32 (x y : Z) : Z := (x - y) mod W32.
Definition shl32 (x k : Z) : Z := (Z.shiftl x k) mod W32.
Definition xor32 (x y : Z) : Z := Z.lxor x y.

(** hash.c:72. *)
Definition rot (x k : Z) : Z := Z.lor (shl32 x k) (Z.shiftr x (32 - k)).

Record words := Words { wa : Z; wb : Z; wc : Z }.

(** The statement "x -= z; x ^= rot(z,k); z += y;" of hash.c:120-125; it gives the new x and z. *)
Definition mixstep (x y z k : Z) : Z * Z := (xor32 (sub32 x z) (rot z k), add32 z y).

(** hash.c:118-126. *)
Definition mix (w : words) : words :=
  let '(a, b, c) := (wa w, wb w, wc w) in
  let '(a, c) := mixstep a b c 4 in
  let '(b, a) := mixstep b c a 6 in
  let '(c, b) := mixstep c a b 8 in
  let '(a, c) := mixstep a b c 16 in
  let '(b, a) := mixstep b c a 19 in
  let '(c, b) := mixstep c a b 4 in
  Words a b c.

(** The statement "x ^= y; x -= rot(y,k);" of hash.c:155-161. *)
Definition finalstep (x y k : Z) : Z := sub32 (xor32 x y) (rot y k).

(** hash.c:153-162. *)
Definition final (w : words) : words :=
  let '(a, b, c) := (wa w, wb w, wc w) in
  let c := finalstep c b 14 in
  let a := finalstep a c 11 in
  let b := finalstep b a 25 in
  let c := finalstep c b 16 in
  let a := finalstep a c 4 in
  let b := finalstep b a 14 in
  let c := finalstep c b 24 in
  Words a b c.

Section reads.
Context (m : nat → Z).

(** Reading k[i] through pointers to uint32_t, uint16_t and uint8_t. *)
Definition rd8 (p i : nat) : Z := m (p + i)%nat.
Definition rd16 (p i : nat) : Z := m (p + 2 * i)%nat + 256 * m (p + 2 * i + 1)%nat.
Definition rd32 (p i : nat) : Z :=
  m (p + 4 * i)%nat + 256 * m (p + 4 * i + 1)%nat + 65536 * m (p + 4 * i + 2)%nat + 16777216 * m (p + 4 * i + 3)%nat.

Definition adds (w : words) (x y z : Z) : words := Words (add32 (wa w) x) (add32 (wb w) y) (add32 (wc w) z).

(** hash.c:388-396, 454-462 and 500-517: the loops over all blocks but the last.  They give the
    final pointer, the remaining length and the words.  Every round lowers the length, so [fuel] =
    the length is enough. *)
Fixpoint loop32 (fuel : nat) (p len : nat) (w : words) : nat * nat * words :=
  match fuel with
  | O => (p, len, w)
  | S fuel =>
    if bool_decide (12 < len)%nat then
      loop32 fuel (p + 12) (len - 12) (mix (adds w (rd32 p 0) (rd32 p 1) (rd32 p 2)))
    else (p, len, w)
  end.

(** k[i] + (((uint32_t)k[i+1])<<16). *)
Definition pair16 (p i : nat) : Z := add32 (rd16 p i) (shl32 (rd16 p (i + 1)) 16).

Fixpoint loop16 (fuel : nat) (p len : nat) (w : words) : nat * nat * words :=
  match fuel with
  | O => (p, len, w)
  | S fuel =>
    if bool_decide (12 < len)%nat then
      loop16 fuel (p + 12) (len - 12) (mix (adds w (pair16 p 0) (pair16 p 2) (pair16 p 4)))
    else (p, len, w)
  end.

(** x += k[i]; x += k[i+1]<<8; x += k[i+2]<<16; x += k[i+3]<<24. *)
Definition add4 (x : Z) (p i : nat) : Z :=
  add32 (add32 (add32 (add32 x (rd8 p i)) (shl32 (rd8 p (i + 1)) 8)) (shl32 (rd8 p (i + 2)) 16)) (shl32 (rd8 p (i + 3)) 24).

Fixpoint loop8 (fuel : nat) (p len : nat) (w : words) : nat * nat * words :=
  match fuel with
  | O => (p, len, w)
  | S fuel =>
    if bool_decide (12 < len)%nat then
      loop8 fuel (p + 12) (len - 12) (mix (Words (add4 (wa w) p 0) (add4 (wb w) p 4) (add4 (wc w) p 8)))
    else (p, len, w)
  end.

(** hash.c:410-425: the last block by 32-bit reads, masked.  [None]: zero length, no mixing. *)
Definition tail32 (p len : nat) (w : words) : option words :=
  let k := rd32 p in
  match len with
  | 12%nat => Some (adds w (k 0%nat) (k 1%nat) (k 2%nat))
  | 11%nat => Some (adds w (k 0%nat) (k 1%nat) (Z.land (k 2%nat) 0xffffff))
  | 10%nat => Some (adds w (k 0%nat) (k 1%nat) (Z.land (k 2%nat) 0xffff))
  | 9%nat => Some (adds w (k 0%nat) (k 1%nat) (Z.land (k 2%nat) 0xff))
  | 8%nat => Some (adds w (k 0%nat) (k 1%nat) 0)
  | 7%nat => Some (adds w (k 0%nat) (Z.land (k 1%nat) 0xffffff) 0)
  | 6%nat => Some (adds w (k 0%nat) (Z.land (k 1%nat) 0xffff) 0)
  | 5%nat => Some (adds w (k 0%nat) (Z.land (k 1%nat) 0xff) 0)
  | 4%nat => Some (adds w (k 0%nat) 0 0)
  | 3%nat => Some (adds w (Z.land (k 0%nat) 0xffffff) 0 0)
  | 2%nat => Some (adds w (Z.land (k 0%nat) 0xffff) 0 0)
  | 1%nat => Some (adds w (Z.land (k 0%nat) 0xff) 0 0)
  | 0%nat => None
  | _ => Some w
  end.

(** hash.c:464-494: the last block by 16-bit reads. *)
Definition tail16 (p len : nat) (w : words) : option words :=
  let k := rd16 p in
  let k8 := rd8 p in
  match len with
  | 12%nat => Some (adds w (pair16 p 0) (pair16 p 2) (pair16 p 4))
  | 11%nat => Some (Words (add32 (wa w) (pair16 p 0)) (add32 (wb w) (pair16 p 2))
                (add32 (add32 (wc w) (shl32 (k8 10%nat) 16)) (k 4%nat)))
  | 10%nat => Some (adds w (pair16 p 0) (pair16 p 2) (k 4%nat))
  | 9%nat => Some (adds w (pair16 p 0) (pair16 p 2) (k8 8%nat))
  | 8%nat => Some (adds w (pair16 p 0) (pair16 p 2) 0)
  | 7%nat => Some (Words (add32 (wa w) (pair16 p 0)) (add32 (add32 (wb w) (shl32 (k8 6%nat) 16)) (k 2%nat)) (wc w))
  | 6%nat => Some (adds w (pair16 p 0) (k 2%nat) 0)
  | 5%nat => Some (adds w (pair16 p 0) (k8 4%nat) 0)
  | 4%nat => Some (adds w (pair16 p 0) 0 0)
  | 3%nat => Some (Words (add32 (add32 (wa w) (shl32 (k8 2%nat) 16)) (k 0%nat)) (wb w) (wc w))
  | 2%nat => Some (adds w (k 0%nat) 0 0)
  | 1%nat => Some (adds w (k8 0%nat) 0 0)
  | 0%nat => None
  | _ => Some w
  end.

(** hash.c:519-536: the last block by bytes; the cases fall through, so case n adds the bytes n-1
    down to 0. *)
Definition addbyte (p : nat) (w : words) (i : nat) : words :=
  let x := shl32 (rd8 p i) (8 * Z.of_nat (i mod 4)) in
  if bool_decide (8 ≤ i)%nat then Words (wa w) (wb w) (add32 (wc w) x)
  else if bool_decide (4 ≤ i)%nat then Words (wa w) (add32 (wb w) x) (wc w)
  else Words (add32 (wa w) x) (wb w) (wc w).
Fixpoint downfrom (p : nat) (n : nat) (w : words) : words :=
  match n with
  | O => w
  | S i => downfrom p i (addbyte p w i)
  end.
Definition tail8 (p len : nat) (w : words) : option words :=
  if bool_decide (len = 0)%nat then None
  else if bool_decide (len ≤ 12)%nat then Some (downfrom p len w)
  else Some w.

(** hash.c:370-541: hashlittle2 for a key of [len] bytes at address [p]; gives the new ( *pc, *pb). *)
Definition hashlittle2 (p len : nat) (pc pb : Z) : Z * Z :=
  let i := add32 (add32 0xdeadbeef (Z.of_nat len mod W32)) pc in
  let w := Words i i (add32 i pb) in
  let '(w, last) :=
    if bool_decide (p mod 4 = 0)%nat then
      let '(p, len, w) := loop32 len p len w in (w, tail32 p len w)
    else if bool_decide (p mod 2 = 0)%nat then
      let '(p, len, w) := loop16 len p len w in (w, tail16 p len w)
    else
      let '(p, len, w) := loop8 len p len w in (w, tail8 p len w) in
  match last with
  | None => (wc w, wb w)
  | Some w => let w := final w in (wc w, wb w)
  end.

(** hash.c:543-554. *)
Definition hashbytes (p n : nat) : Z :=
  let '(l0, l1) := hashlittle2 p n 1000420526 598948860 in
  Z.lor (Z.shiftl l1 32) l0.
End reads.
