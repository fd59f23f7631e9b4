(** Model of utils/math.cc (ilog2, ipow, fallfact), utils/safeops.hpp and utils/rand.cc (bits,
    integer).  The floating point functions (normcdf, phi, integrate, Normal, Rand::real) are left out. *)
From stdpp Require Import prelude.
From Coq Require Import ZArith.
Open Scope Z_scope.

Definition u32 (z : Z) : Z := z mod 2^32.
Definition u64 (z : Z) : Z := z mod 2^64.

(** *** math.cc *)

(** One of the tests of math.cc:18-37: "if (v & mask) { lg += k; v >>= k; }". *)
Definition logstep (mask k : Z) (lv : Z * Z) : Z * Z :=
  let '(lg, v) := lv in
  if Z.land v mask =? 0 then (lg, v) else (lg + k, Z.shiftr v k).
(** math.cc:12-39. *)
Definition ilog2 (v : Z) : Z :=
  if v =? 0 then 0
  else
    let lv := logstep 4294901760 16 (0, v) in
    let lv := logstep 65280 8 lv in
    let lv := logstep 240 4 lv in
    let lv := logstep 12 2 lv in
    let lv := logstep 2 1 lv in
    fst lv + 1.

(** math.cc:41-46; unsigned long has 64 bits. *)
Fixpoint ipowloop (e : nat) (b r : Z) : Z :=
  match e with 0%nat => r | S e => ipowloop e b (u64 (r * b)) end.
Definition ipow (b : Z) (e : nat) : Z := ipowloop e b 1.

(** math.cc:48-53; [k] iterations left, x - i is an unsigned int. *)
Fixpoint ffloop (k : nat) (x i f : Z) : Z :=
  match k with 0%nat => f | S k => ffloop k x (i + 1) (u64 (f * u32 (x - i))) end.
Definition fallfact (x : Z) (n : nat) : Z := ffloop (n - 1) x 1 x.

(** *** safeops.hpp *)

(** Result of a checked operation: a value, an exception, or undefined behaviour. *)
Inductive res := Ret (z : Z) | Throw | UB.

(** Signed types of at least the width of int: k value bits. *)
Section signed.
Context (k : Z).
Definition smax : Z := 2^k - 1.
Definition smin : Z := - 2^k.
Definition ret (z : Z) : res := if (smin <=? z) && (z <=? smax) then Ret z else UB.
(** A comparison "e < x" whose left side is computed in N. *)
Definition ltchk (e x : Z) (t f : res) : res :=
  match ret e with Ret e => if e <? x then t else f | _ => UB end.
Definition gtchk (e x : Z) (t f : res) : res :=
  match ret e with Ret e => if x <? e then t else f | _ => UB end.

(** safeops.hpp:31-37. *)
Definition sadd (a b : Z) : res :=
  let r := if (a <? 0) && (b <? 0) then gtchk (smin - b) a Throw (ret (a + b)) else ret (a + b) in
  if (0 <? a) && (0 <? b) then ltchk (smax - b) a Throw r else r.
(** safeops.hpp:39-45. *)
Definition ssub (a b : Z) : res :=
  let r := if (a <? 0) && (0 <? b) then gtchk (smin + b) a Throw (ret (a - b)) else ret (a - b) in
  if (0 <? a) && (b <? 0) then ltchk (smax + b) a Throw r else r.
(** safeops.hpp:47-61; division truncates (and MIN / -1 is undefined). *)
Definition smul (a b : Z) : res :=
  let r := ret (a * b) in
  let r := if (a <? 0) && (b <? 0) then
             if (a =? smin) || (b =? smin) then Throw
             else match ret (smin ÷ b) with
                  | Ret q => gtchk (- q) a Throw r
                  | _ => UB
                  end
           else r in
  let r := if (0 <? a) && (b <? 0) then ltchk (smin ÷ b) a Throw r else r in
  let r := if (a <? 0) && (0 <? b) then ltchk (smin ÷ a) b Throw r else r in
  if (0 <? a) && (0 <? b) then ltchk (smax ÷ b) a Throw r else r.
(** safeops.hpp:63-67. *)
Definition sdiv (a b : Z) : res :=
  if (b =? 0) || ((a =? smin) && (b =? -1)) then Throw else ret (a ÷ b).
End signed.

(** Unsigned types with k bits; arithmetic wraps. *)
Section unsigned.
Context (k : Z).
Definition umax : Z := 2^k - 1.
Definition wrap (z : Z) : Z := z mod 2^k.
(** safeops.hpp:75-79. *)
Definition uadd (a b : Z) : res := if wrap (umax - b) <? a then Throw else Ret (wrap (a + b)).
(** safeops.hpp:81-85. *)
Definition usub (a b : Z) : res := if wrap (umax - b) <? a then Throw else Ret (wrap (a - b)).
(** safeops.hpp:87-91. *)
Definition umul (a b : Z) : res :=
  if (0 <? a) && (0 <? b) && (umax / b <? a) then Throw else Ret (wrap (a * b)).
(** safeops.hpp:93-97. *)
Definition udiv (a b : Z) : res := if b =? 0 then Throw else Ret (a / b).
End unsigned.

(** safeops.hpp:115-123 for an unsigned type. *)
Definition can_umul (k a b : Z) : bool := match umul k a b with Throw => false | _ => true end.

(** *** rand.cc *)

(** rand.cc:12-13. *)
Definition Mul : Z := 2685821657736338717.
Definition Vini : Z := 4101842887655102017.

(** rand.cc:21-27: the next state, which is also the returned value. *)
Definition bits (v : Z) : Z :=
  let v := Z.lxor v (Z.shiftr v 21) in
  let v := Z.lxor v (u64 (Z.shiftl v 35)) in
  let v := Z.lxor v (Z.shiftr v 4) in
  u64 (v * Mul).

(** rand.cc:16-19: the state after construction. *)
Definition newrand (seed : Z) : Z := bits (Z.lxor Vini seed).

Definition long (z : Z) : bool := (- 2^63 <=? z) && (z <=? 2^63 - 1).
(** Conversion of uint64_t to int64_t. *)
Definition toint64 (z : Z) : Z := if z <? 2^63 then z else z - 2^64.

(** rand.cc:29-34: new state and result; signed overflow and division by zero are [None]. *)
Definition integer (v min max : Z) : option (Z * Z) :=
  if min =? max then Some (v, min)
  else if negb (long (max + 1)) || negb (long (max + 1 - min)) then None
  else
    let d := u64 (max + 1 - min) in
    if d =? 0 then None
    else
      let v := bits v in
      Some (v, toint64 (u64 (v mod d + u64 min))).
