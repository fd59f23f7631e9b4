(** Model of utils/str.cc, the pair/row writer and the reader of utils/datafile.cc, readline and the
    path functions of utils/fs.cc, and commas of utils/testing.cc.

    A string is a list of character codes.  printf-style formatting is left out: the functions
    take the text the format produces. *)
From stdpp Require Import prelude.
From Coq Require Import ZArith.
Open Scope Z_scope.

Notation str := (list Z) (only parsing).

(** Results of calls that may end the program or be undefined. *)
Inductive outcome (A : Type) := Ok (a : A) | Fatal | Undef.
Arguments Ok {_} _.
Arguments Fatal {_}.
Arguments Undef {_}.

Definition quote : Z := 34.
Definition slash : Z := 47.
Definition dot : Z := 46.
Definition comma : Z := 44.
Definition newline : Z := 10.
(** isspace in the C locale. *)
Definition isspace (c : Z) : bool := ((9 <=? c) && (c <=? 13)) || (c =? 32).

(** *** str.cc *)

(** str.cc:7-15. *)
Fixpoint prefixloop (s p : str) {struct p} : bool :=
  match p, s with
  | [], _ => true
  | y :: p, x :: s => if x =? y then prefixloop s p else false
  | _ :: _, [] => false
  end.
Definition hasprefix (s p : str) : bool :=
  if (length s <? length p)%nat then false else prefixloop s p.

(** Split off the longest prefix of characters satisfying [f] (the counting loops of gettoken). *)
Fixpoint span (f : Z → bool) (s : str) : str * str :=
  match s with
  | [] => ([], [])
  | c :: s' => if f c then let '(a, b) := span f s' in (c :: a, b) else ([], s)
  end.

(** str.cc:17-43 on the C string [s]: [Ok None] is NULL, [Ok (Some (t, rest))] is the token [t];
    [rest] is what follows the NUL written after the token, empty if the token ended the string. *)
Definition gettoken (s : str) : outcome (option (str * str)) :=
  match (span isspace s).2 with
  | [] => Ok None
  | c :: s' =>
    if c =? quote then
      let '(t, r) := span (λ c, negb (c =? quote)) s' in
      match r with
      | [] => Fatal
      | _ :: r => Ok (Some (t, r))
      end
    else
      let '(t, r) := span (λ c, negb (isspace c)) (c :: s') in
      Ok (Some (t, drop 1 r))
  end.

(** str.cc:45-72; the loop over the characters. *)
Fixpoint tokloop (s : str) (toks : list str) (tok : str) (instring : bool) : outcome (list str) :=
  match s with
  | [] =>
    if instring then Fatal
    else Ok (if (0 <? length tok)%nat then toks ++ [tok] else toks)
  | c :: s =>
    if c =? quote then
      if instring then tokloop s (toks ++ [tok]) [] false
      else tokloop s toks tok true
    else if negb instring && isspace c then
      if (0 <? length tok)%nat then tokloop s (toks ++ [tok]) [] instring
      else tokloop s toks tok instring
    else tokloop s toks (tok ++ [c]) instring
  end.
Definition tokens (s : str) : outcome (list str) := tokloop s [] [] false.

(** *** datafile.cc: writing *)

(** datafile.cc:12. *)
Definition Bufsz : nat := 256.

(** The fixed parts of the formats: #pair, two blanks and a quote; quote tab quote; quote newline;
    #altcols, two blanks and a quote; #altrow, two blanks and a quote. *)
Definition s_pair : str := [35; 112; 97; 105; 114; 32; 32; 34].
Definition s_mid : str := [34; 9; 34].
Definition s_end : str := [34; 10].
Definition s_altcols : str := [35; 97; 108; 116; 99; 111; 108; 115; 32; 32; 34].
Definition s_altrow : str := [35; 97; 108; 116; 114; 111; 119; 32; 32; 34].

(** snprintf with buffer size [sz] writes at most sz - 1 characters (and a NUL). *)
Definition snprintf (sz : nat) (text : str) : str := take (sz - 1) text.

(** datafile.cc:21-52: the text written to the file, for the formatted value [value]. *)
Definition dfpair (key value : str) : outcome str :=
  let header := s_pair ++ key ++ s_mid in
  let n := length header in
  if (Bufsz <? n)%nat then Fatal
  else
    let m := length value in
    if (Bufsz - n <? m)%nat then
      (* dfpair_sz with a buffer of m + n + 1 characters *)
      let sz := (m + n + 1)%nat in
      Ok (snprintf sz header ++ snprintf (sz - n) value ++ s_end)
    else
      Ok (snprintf Bufsz header ++ snprintf (Bufsz - n) value ++ s_end).

(** The column loops of dfrowhdr and dfrow, datafile.cc:62-68 and 82-108: append the pieces to the
    buffer contents [buf], [n] characters of which count as used. *)
Fixpoint dfcols (pieces : list str) (buf : str) (n : nat) : outcome str :=
  match pieces with
  | [] => Ok buf
  | p :: pieces =>
    if (Bufsz - n <? length p)%nat then Fatal
    else dfcols pieces (buf ++ snprintf (Bufsz - n) p) (n + length p)
  end.
(** datafile.cc:54-72. *)
Definition dfrowhdr (name : str) (cols : list str) : outcome str :=
  let header := s_altcols ++ name ++ [quote] in
  if (Bufsz <? length header)%nat then Fatal
  else
    match dfcols (map (λ c, [9; 34] ++ name ++ [32] ++ c ++ [34]) cols) (snprintf Bufsz header) (length header) with
    | Ok b => Ok (b ++ [newline])
    | o => o
    end.
(** datafile.cc:74-113; [cols] are the formatted numbers. *)
Definition dfrow (name : str) (cols : list str) : outcome str :=
  let header := s_altrow ++ name ++ [quote] in
  if (Bufsz <? length header)%nat then Fatal
  else
    match dfcols (map (λ c, 9 :: c) cols) (snprintf Bufsz header) (length header) with
    | Ok b => Ok (b ++ [newline])
    | o => o
    end.

(** *** fs.cc: readline; datafile.cc: reading *)

(** fs.cc:15-41 on the rest of the file: [Ok None] is the end; otherwise the line and the rest.
    Read errors and echo are left out.  For an empty line that is not the end of the file the code evaluates
    line[line.size()-1], which is out of range. *)
Definition readline (f : str) : outcome (option (str * str)) :=
  let '(line, r) := span (λ c, negb (c =? newline)) f in
  match line, r with
  | [], [] => Ok None
  | [], _ :: _ => Undef
  | _, _ =>
    let line := if default 0 (last line) =? 13 then take (length line - 1) line else line in
    Ok (Some (line, drop 1 r))
  end.

Definition s_kpair : str := [35; 112; 97; 105; 114].
Definition s_kaltcols : str := [35; 97; 108; 116; 99; 111; 108; 115].
Definition s_kaltrow : str := [35; 97; 108; 116; 114; 111; 119].

(** datafile.cc:219-225; every token consumes a character, so the length is enough fuel. *)
Fixpoint linetoks (fuel : nat) (left : str) : outcome (list str) :=
  match fuel, left with
  | _, [] => Ok []
  | 0%nat, _ => Undef
  | S fuel, _ =>
    match gettoken left with
    | Ok None => Ok []
    | Ok (Some (t, r)) =>
      match linetoks fuel r with Ok ts => Ok (t :: ts) | o => o end
    | Fatal => Fatal
    | Undef => Undef
    end
  end.

(** datafile.cc:205-227 for one line: the token list passed to the handler, if any.  The
    line is copied with strcpy, so it ends at the first NUL. *)
Definition seeline (line : str) : outcome (option (list str)) :=
  let line := (span (λ c, negb (c =? 0)) line).1 in
  let kw := if hasprefix line s_kpair then Some s_kpair
            else if hasprefix line s_kaltcols then Some s_kaltcols
            else if hasprefix line s_kaltrow then Some s_kaltrow
            else None in
  match kw with
  | None => Ok None
  | Some kw =>
    match linetoks (length line) (drop (length kw) line) with
    | Ok ts => Ok (Some (kw :: ts))
    | Fatal => Fatal
    | Undef => Undef
    end
  end.

(** datafile.cc:200-233: the calls of the handler, in order; a line consumes a character. *)
Fixpoint dfreadloop (fuel : nat) (f : str) : outcome (list (list str)) :=
  match fuel with
  | 0%nat => Undef
  | S fuel =>
    match readline f with
    | Ok None => Ok []
    | Ok (Some (line, rest)) =>
      match seeline line with
      | Ok o =>
        match dfreadloop fuel rest with
        | Ok calls => Ok (match o with Some ts => ts :: calls | None => calls end)
        | o => o
        end
      | Fatal => Fatal
      | Undef => Undef
      end
    | Fatal => Fatal
    | Undef => Undef
    end
  end.
Definition dfread (f : str) : outcome (list (list str)) := dfreadloop (S (length f)) f.

(** *** fs.cc: paths.  Paths contain no NUL. *)

(** strrchr(p, '/'): what precedes and what follows the last slash. *)
Fixpoint lastslash (p : str) : option (str * str) :=
  match p with
  | [] => None
  | c :: p' =>
    match lastslash p' with
    | Some (a, b) => Some (c :: a, b)
    | None => if c =? slash then Some ([], p') else None
    end
  end.

(** fs.cc:126-139. *)
Definition basename (p : str) : str :=
  if bool_decide (p = []) || bool_decide (p = [dot]) then [dot]
  else match lastslash p with
       | None => p
       | Some (_, b) => if bool_decide (b = []) then [dot] else b
       end.
(** fs.cc:141-161. *)
Definition dirname (p : str) : str :=
  if bool_decide (p = []) || bool_decide (p = [dot]) then [dot]
  else if bool_decide (p = [slash]) then [slash]
  else match lastslash p with
       | None => [dot]
       | Some (a, _) =>
         let res := a ++ [slash] in
         if (1 <? length res)%nat && (default 0 (last res) =? slash) then take (length res - 1) res else res
       end.
(** fs.cc:163-170; the last character of an empty string is out of range. *)
Definition pathcat (dir base : str) : outcome str :=
  match last dir with
  | None => Undef
  | Some c => if c =? slash then Ok (dir ++ base) else Ok (dir ++ [slash] ++ base)
  end.
(** fs.cc:172-186. *)
Fixpoint pathcatloop (path : str) (ents : list str) : outcome str :=
  match ents with
  | [] => Ok path
  | e :: ents =>
    match last path with
    | None => Undef
    | Some c => pathcatloop ((if c =? slash then path else path ++ [slash]) ++ e) ents
    end
  end.
Definition pathcatn (ents : list str) : outcome str := pathcatloop [] ents.

(** *** testing.cc *)

(** strrchr(str, '.'): the text before the last dot, and the rest from it on. *)
Fixpoint lastdot (s : str) : option (str * str) :=
  match s with
  | [] => None
  | c :: s' =>
    match lastdot s' with
    | Some (a, b) => Some (c :: a, b)
    | None => if c =? dot then Some ([], s) else None
    end
  end.

(** testing.cc:156-164 over the reversed integer part; [space] cells are left in front of cur,
    [acc] is what has been written.  Writing beyond the front of the buffer is [Undef]. *)
Fixpoint groups (r : str) (till space : nat) (acc : str) : outcome str :=
  match r with
  | [] => Ok acc
  | c :: r' =>
    if (space =? 0)%nat then Undef
    else
      let acc := c :: acc in
      let till := (till - 1)%nat in
      if (till =? 0)%nat && negb (bool_decide (r' = [])) then
        if (space - 1 =? 0)%nat then Undef
        else groups r' 3 (space - 2) (comma :: acc)
      else groups r' till (space - 1) acc
  end.

(** testing.cc:124-167 for the formatted text [s] (no NUL inside). *)
Definition commas (s : str) : outcome str :=
  let n := length s in
  if (128 <=? n)%nat then Fatal
  else if (n =? 0)%nat then Undef
  else
    let '(ipart, frac) := default (s, []) (lastdot s) in
    let size := (n + (n + 1) / 3 + 1)%nat in
    (* the NUL and the fraction *)
    let space := (size - (length frac + 1))%nat in
    groups (reverse ipart) 3 space frac.
