(** Model of two command-line tools on data files: rdb/addattrs.cc and rdb/dfcmplt.cc.

    A file is the list of its characters.  Opening, renaming and the temporary file of addattrs succeed: the result is
    the new contents of the file.  Warnings are left out.  Strings, the reader and the writer are those of Text.Model,
    attribute lists those of Rdb.Model. *)
From stdpp Require Import prelude gmap.
From Coq Require Import ZArith.
From Verif Require Import Text.Model Rdb.Model.
Local Open Scope Z_scope.

(** addattrs.cc:72-81, for all calls that dfread makes (31): attributes whose keys are in the file are dropped; cols[1] of
    a pair without a key is out of range. *)
Fixpoint dropall (calls : list (list str)) (a : rattrs) : outcome rattrs :=
  match calls with
  | [] => Ok a
  | cols :: calls =>
    match cols with
    | [] => Undef
    | c :: cols =>
      if decide (c = s_kpair) then
        match cols with
        | [] => Undef
        | k :: _ => dropall calls (if mem a k then (rm a k).2 else a)
        end
      else dropall calls a
    end
  end.

(** addattrs.cc:46-51; [n] is the number of attributes, which falls by one each round.  Arguments contain no NUL, so c_str()
    shows all of a key and a value. *)
Fixpoint writeall (n : nat) (a : rattrs) : outcome str :=
  match n with
  | 0%nat => Ok []
  | S n =>
    match front a with
    | None => Undef
    | Some k =>
      let '(v, a) := lookup a k in
      match pop_front a with
      | None => Undef
      | Some a =>
        match dfpair k v with
        | Ok t => match writeall n a with Ok r => Ok (t ++ r) | o => o end
        | o => o
        end
      end
    end
  end.

(** What c_str() shows of a string. *)
Definition cstr (s : str) : str := (span (λ c, negb (c =? 0)) s).1.

(** addattrs.cc:41-55 on the rest [f] of the file; a line consumes a character. *)
Fixpoint copyloop (fuel : nat) (f : str) (a : rattrs) (added : bool) : outcome str :=
  match fuel with
  | 0%nat => Undef
  | S fuel =>
    match readline f with
    | Ok None => Ok []
    | Ok (Some (l, rest)) =>
      let add := negb added && hasprefix (cstr l) s_kpair in
      match (if add then writeall (size a) a else Ok []) with
      | Ok new =>
        match copyloop fuel rest a (added || add) with
        | Ok r => Ok (new ++ cstr (l ++ [newline]) ++ r)
        | o => o
        end
      | o => o
      end
    | Fatal => Fatal
    | Undef => Undef
    end
  end.

(** addattrs.cc:17-65: the contents of the file afterwards, for the arguments after the file name. *)
Definition addattrs (f : str) (args : list str) : outcome str :=
  match attrargs args with
  | Ok a =>
    if decide (size a = 0%nat) then Ok f
    else
      match dfread f with
      | Ok calls =>
        match dropall calls a with
        | Ok a => copyloop (S (length f)) f a false
        | Fatal => Fatal
        | Undef => Undef
        end
      | Fatal => Fatal
      | Undef => Undef
      end
  | Fatal => Fatal
  | Undef => Undef
  end.

(** datafile.cc:14-15: "#start data file format 4" and "#end data file format 4", with newlines *)
Definition s_format : str := [32; 100; 97; 116; 97; 32; 102; 105; 108; 101; 32; 102; 111; 114; 109; 97; 116; 32; 52].
Definition start4 : str := [35; 115; 116; 97; 114; 116] ++ s_format ++ [newline].
Definition end4 : str := [35; 101; 110; 100] ++ s_format ++ [newline].

(** dfcmplt.cc:33-37: the last line; the first one already has its newline (29) *)
Fixpoint lastline (fuel : nat) (f : str) (prev : str) : outcome str :=
  match fuel with
  | 0%nat => Undef
  | S fuel =>
    match readline f with
    | Ok None => Ok prev
    | Ok (Some (l, rest)) => lastline fuel rest l
    | Fatal => Fatal
    | Undef => Undef
    end
  end.
(** dfcmplt.cc:26-43, for an open file: whether it is complete (exit status 0) *)
Definition dfcmplt (f : str) : outcome bool :=
  match readline f with
  | Ok None => Ok false
  | Ok (Some (l, rest)) =>
    if decide (l ++ [newline] = start4) then
      match lastline (S (length rest)) rest (l ++ [newline]) with
      | Ok prev => Ok (bool_decide (prev ++ [newline] = end4))
      | Fatal => Fatal
      | Undef => Undef
      end
    else Ok false
  | Fatal => Fatal
  | Undef => Undef
  end.
