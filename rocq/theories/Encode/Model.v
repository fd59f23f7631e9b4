(** Model of utils/encode.cc (run-length, ASCII-85 and base 64 coding) and of
    controlstr/controlvec (gridnav/gridnav.cc:64-77; traffic/traffic.cc has the same code).

    A std::string is a list of byte values 0..255; where the code reads a char as a
    number, [schar] gives its (signed, 8 bit) value.  The loops walk an index through the
    string; here they walk through the remaining suffix, so "data[i+k]" is element k of the suffix.
    Failing assertions and reads beyond the end are [None].  Strings are assumed
    shorter than 2^32 - 5 (the indices are unsigned int). *)
From stdpp Require Import prelude.
From Coq Require Import ZArith.
Open Scope Z_scope.

(** The value of a byte read as char (signed on the supported platforms). *)
Definition schar (b : Z) : Z := if b <? 128 then b else b - 256.
(** Conversion of an int to char, as stored. *)
Definition tobyte (z : Z) : Z := z mod 256.

(** encode.cc:7-10. *)
Definition Maxrun : nat := 127.
Definition Minrun : nat := 3.

(** The while loop of cntsame, encode.cc:14-15: how many leading elements of [s] equal [c],
    where [n] characters were already counted. *)
Fixpoint cntloop (c : Z) (n : nat) (s : list Z) : nat :=
  match s with
  | x :: s => if decide (n < Maxrun)%nat then if x =? c then cntloop c (S n) s else n else n
  | [] => n
  end.
(** encode.cc:12-17 on the suffix starting at strt. *)
Definition cntsame (c : Z) (s : list Z) : nat := cntloop c 1 s.

(** encode.cc:35-41 and 50-55. *)
Definition flush (buf dst : list Z) : option (list Z) :=
  if decide (length buf = 0)%nat then Some dst
  else if decide (length buf < Maxrun)%nat then
    Some (dst ++ [tobyte (Z.of_nat (length buf) - 1)] ++ buf)
  else None.

(** encode.cc:22-56; every iteration consumes at least one character, so the length of
    the input is enough fuel. *)
Fixpoint rlloop (fuel : nat) (data buf dst : list Z) : option (list Z) :=
  match data with
  | [] => flush buf dst
  | c :: rest =>
    match fuel with
    | 0%nat => None
    | S fuel =>
      let nsame := cntsame c rest in
      if decide (nsame < Minrun)%nat then
        let buf := buf ++ [c] in
        if decide (length buf = Maxrun) then
          rlloop fuel rest [] (dst ++ [tobyte (Z.of_nat Maxrun - 1)] ++ buf)
        else rlloop fuel rest buf dst
      else
        dst ← flush buf dst;
        if decide (nsame <= Maxrun)%nat then
          rlloop fuel (drop nsame data) [] (dst ++ [tobyte (1 - Z.of_nat nsame); c])
        else None
    end
  end.
Definition runlenenc (data : list Z) : option (list Z) := rlloop (length data) data [] [].

(** encode.cc:59-82. *)
Fixpoint rldec (fuel : nat) (data dst : list Z) : option (list Z) :=
  match data with
  | [] => Some dst
  | b :: rest =>
    match fuel with
    | 0%nat => None
    | S fuel =>
      let n := schar b in
      if n <? 0 then
        let len := - n + 1 in
        if len <=? Z.of_nat Maxrun then
          match rest with
          | [] => None
          | c :: rest => rldec fuel rest (dst ++ replicate (Z.to_nat len) c)
          end
        else None
      else if n + 1 <=? Z.of_nat Maxrun then
        let k := Z.to_nat (n + 1) in
        if decide (k <= length rest)%nat then rldec fuel (drop k rest) (dst ++ take k rest) else None
      else None
    end
  end.
Definition runlendec (data : list Z) : option (list Z) := rldec (length data) data [].

(** *** ASCII 85 *)

Definition u32 (z : Z) : Z := z mod 2^32.

(** The for loop of digits85, encode.cc:92-97, from iteration [i]. *)
Fixpoint digitsloop (k : nat) (i : Z) (offs word : Z) (dst : list Z) : list Z * Z :=
  match k with
  | 0%nat => (dst, word)
  | S k =>
    let digit := word mod 85 in
    let word := word / 85 in
    let pos := u32 (offs + 5 - i) in
    let dst := if pos <? Z.of_nat (length dst) then <[Z.to_nat pos := tobyte (digit + 33)]> dst else dst in
    digitsloop k (i + 1) offs word dst
  end.
(** encode.cc:84-99; 'z' is 122 and '!' is 33. *)
Definition digits85 (dst : list Z) (n : nat) (word : Z) : option (list Z) :=
  if (word =? 0) && bool_decide (n = 5%nat) then Some (dst ++ [122])
  else
    let offs := u32 (Z.of_nat (length dst) - 1) in
    let '(dst, word) := digitsloop 5 0 offs word (dst ++ replicate n 0) in
    if word =? 0 then Some dst else None.

(** encode.cc:106-126. *)
Fixpoint a85loop (fuel : nat) (data dst : list Z) : option (list Z) :=
  match data with
  | b0 :: b1 :: b2 :: b3 :: rest =>
    match fuel with
    | 0%nat => None
    | S fuel =>
      let word := u32 (Z.shiftl b0 24) in
      let word := Z.lor word (Z.shiftl b1 16) in
      let word := Z.lor word (Z.shiftl b2 8) in
      let word := Z.lor word b3 in
      dst ← digits85 dst 5 word;
      a85loop fuel rest dst
    end
  | [] => Some dst
  | b0 :: rest =>
    let word := u32 (Z.shiftl b0 24) in
    let word := match rest with b1 :: _ => Z.lor word (Z.shiftl b1 16) | [] => word end in
    let word := match rest with _ :: b2 :: _ => Z.lor word (Z.shiftl b2 8) | _ => word end in
    digits85 dst (length data + 1) word
  end.
Definition ascii85enc (data : list Z) : option (list Z) := a85loop (length data) data [].

(** *** Base 64 *)

(** encode.cc:134-139: A-Z, a-z, 0-9, +, /. *)
Definition base64tab : list Z :=
  [65; 66; 67; 68; 69; 70; 71; 72; 73; 74; 75; 76; 77; 78; 79; 80;
   81; 82; 83; 84; 85; 86; 87; 88; 89; 90; 97; 98; 99; 100; 101; 102;
   103; 104; 105; 106; 107; 108; 109; 110; 111; 112; 113; 114; 115; 116; 117; 118; 119;
   120; 121; 122; 48; 49; 50; 51; 52; 53; 54; 55; 56; 57; 43; 47].

(** encode.cc:153-158: e[3], e[2], e[1], e[0]. *)
Definition sextet (b : Z) : option Z := base64tab !! Z.to_nat (Z.land b 63).
Definition group64 (b : Z) : option (list Z) :=
  e3 ← sextet b;
  let b := Z.shiftr b 6 in
  e2 ← sextet b;
  let b := Z.shiftr b 6 in
  e1 ← sextet b;
  let b := Z.shiftr b 6 in
  e0 ← sextet b;
  Some [e0; e1; e2; e3].

(** encode.cc:146-170; '=' is 61.  The padding test holds exactly when fewer than three characters
    are left, and then pad is 3 minus their number. *)
Fixpoint b64loop (fuel : nat) (data enc : list Z) : option (list Z) :=
  match data with
  | [] => Some enc
  | d0 :: rest =>
    match fuel with
    | 0%nat => None
    | S fuel =>
      let b := Z.shiftl (Z.land (schar d0) 255) 16 in
      let b := match rest with d1 :: _ => Z.lor b (Z.shiftl (Z.land (schar d1) 255) 8) | _ => b end in
      let b := match rest with _ :: d2 :: _ => Z.lor b (Z.land (schar d2) 255) | _ => b end in
      e ← group64 b;
      let e := if decide (length data < 3)%nat then
                 let pad := (3 - length data)%nat in
                 let e := if decide (0 < pad)%nat then <[3%nat := 61]> e else e in
                 if decide (1 < pad)%nat then <[2%nat := 61]> e else e
               else e in
      b64loop fuel (drop 2 rest) (enc ++ e)
    end
  end.
Definition base64enc (data : list Z) : option (list Z) := b64loop (length data) data [].

(** encode.cc:177-181: the static table; entries that are not assigned are 0. *)
Fixpoint index_of (c : Z) (l : list Z) (i : Z) : Z :=
  match l with [] => 0 | x :: l => if x =? c then i else index_of c l (i + 1) end.
Definition tab (c : Z) : option Z :=
  let i := schar c in if 0 <=? i then Some (index_of i base64tab 0) else None.

(** encode.cc:185-196. *)
Fixpoint b64dec (fuel : nat) (data dec : list Z) : option (list Z) :=
  match data with
  | [] => Some dec
  | c0 :: c1 :: c2 :: c3 :: rest =>
    match fuel with
    | 0%nat => None
    | S fuel =>
      t0 ← tab c0;
      t1 ← tab c1;
      t2 ← (if c2 =? 61 then Some 0 else tab c2);
      t3 ← (if c3 =? 61 then Some 0 else tab c3);
      let b := Z.shiftl t0 18 in
      let b := Z.lor b (Z.shiftl t1 12) in
      let b := if c2 =? 61 then b else Z.lor b (Z.shiftl t2 6) in
      let b := if c3 =? 61 then b else Z.lor b t3 in
      let dec := dec ++ [tobyte (Z.shiftr (Z.land b 16711680) 16)] in
      let dec := if c2 =? 61 then dec else dec ++ [tobyte (Z.shiftr (Z.land b 65280) 8)] in
      let dec := if c3 =? 61 then dec else dec ++ [tobyte (Z.land b 255)] in
      b64dec fuel rest dec
    end
  | _ => None
  end.
Definition base64dec (data : list Z) : option (list Z) := b64dec (length data) data [].

(** *** Control strings *)

(** gridnav.cc:64-69; a control is an unsigned int. *)
Definition controlstr (v : list Z) : option (list Z) :=
  s ← runlenenc (map (λ c, tobyte (Z.land c 255)) v);
  base64enc s.
(** gridnav.cc:71-77: a char is converted to unsigned int. *)
Definition controlvec (s : list Z) : option (list Z) :=
  bytes ← base64dec s;
  bytes ← runlendec bytes;
  Some (map (λ b, u32 (schar b)) bytes).
