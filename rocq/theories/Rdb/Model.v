(** Model of the results database: rdb/rdb.hpp and rdb/rdb.cc, with the file system functions of utils/fs.cc they use.

    Strings are lists of character codes (Text.Model).  An error that ends the program is [Fatal], an undefined read
    is [Undef].  Functions that walk the file system take fuel; [None] means that it ran out. *)
From stdpp Require Import prelude gmap.
From Coq Require Import ZArith.
From Verif Require Import Text.Model.
Local Open Scope Z_scope.

(** ** Attribute lists *)

(** rdb.hpp:56-57: the map and the queue of keys *)
Record rattrs := Attrs { pairs : gmap str str; keys : list str }.
Definition noattrs : rattrs := Attrs ∅ [].

(** rdb.hpp:43-45 *)
Definition mem (a : rattrs) (k : str) : bool := bool_decide (is_Some (pairs a !! k)).
(** rdb.cc:33-39 *)
Definition push_back (a : rattrs) (k v : str) : bool * rattrs :=
  if mem a k then (false, a) else (true, Attrs (<[k := v]> (pairs a)) (keys a ++ [k])).
(** rdb.cc:41-47 *)
Definition push_front (a : rattrs) (k v : str) : bool * rattrs :=
  if mem a k then (false, a) else (true, Attrs (<[k := v]> (pairs a)) (k :: keys a)).
(** rdb.hpp:22-26; front() of an empty queue and erasing the end iterator are undefined. *)
Definition pop_front (a : rattrs) : option rattrs :=
  match keys a with
  | [] => None
  | k :: ks => if mem a k then Some (Attrs (delete k (pairs a)) ks) else None
  end.
(** rdb.hpp:29 *)
Definition front (a : rattrs) : option str := head (keys a).
(** rdb.hpp:32 *)
Definition size (a : rattrs) : nat := length (keys a).
(** rdb.cc:53-58: erase the first occurrence *)
Fixpoint erase (k : str) (ks : list str) : list str :=
  match ks with [] => [] | k' :: ks => if bool_decide (k' = k) then ks else k' :: erase k ks end.
(** rdb.cc:49-62.  (The key is passed by reference: if it is the string that front() returned, it is read after the
    loop has destroyed it.  Here it is a value.) *)
Definition rm (a : rattrs) (k : str) : bool * rattrs :=
  if mem a k then (true, Attrs (delete k (pairs a)) (erase k (keys a))) else (false, a).
(** rdb.hpp:39: operator[] of std::map inserts an empty string if the key is missing. *)
Definition lookup (a : rattrs) (k : str) : str * rattrs :=
  match pairs a !! k with Some v => (v, a) | None => ([], Attrs (<[k := []]> (pairs a)) (keys a)) end.
(** rdb.cc:64-78; the iterator of a missing key is not dereferenceable. *)
Definition eqsign : Z := 61.
Definition blank : Z := 32.
Fixpoint stringloop (m : gmap str str) (r : str) (ks : list str) : option str :=
  match ks with
  | [] => Some r
  | k :: ks => v ← m !! k; stringloop m ((if bool_decide (r = []) then r else r ++ [blank]) ++ k ++ [eqsign] ++ v) ks
  end.
Definition string (a : rattrs) : option str := stringloop (pairs a) [] (keys a).

(** ** Command-line arguments *)

(** Position of the first '=': what precedes and what follows it. *)
Fixpoint findeq (s : str) : option (str * str) :=
  match s with
  | [] => None
  | c :: s => if c =? eqsign then Some ([], s) else match findeq s with Some (a, b) => Some (c :: a, b) | None => None end
  end.
(** rdb.cc:213-233: Ok None is the result -1; otherwise the key, the value and the remaining arguments. *)
Fixpoint frontpair (key : str) (args : list str) : outcome (option (str * str * list str)) :=
  match args with
  | [] => Ok None
  | arg :: args =>
      match findeq arg with
      | None => frontpair (key ++ arg ++ [blank]) args
      | Some ([], vl) =>
          match last key with
          | None => Undef
          | Some c => Ok (Some (if c =? blank then take (length key - 1) key else key, vl, args))
          end
      | Some (pre, vl) => Ok (Some (key ++ pre, vl, args))
      end
  end.
(** rdb.cc:199-211; the loop ends because every round uses an argument. *)
Fixpoint attrargsloop (n : nat) (a : rattrs) (args : list str) : outcome rattrs :=
  match n with
  | 0%nat => Ok a
  | S n =>
      match args with
      | [] => Ok a
      | _ =>
          match frontpair [] args with
          | Ok None => Ok a
          | Ok (Some (k, v, args)) => attrargsloop n (push_back a k v).2 args
          | Fatal => Fatal
          | Undef => Undef
          end
      end
  end.
Definition attrargs (args : list str) : outcome rattrs := attrargsloop (length args) noattrs args.

(** ** The file system *)

(** Regular files (their contents do not matter here) and directories, with the entries in the order in which readdir
    lists them. No links, no devices, no permissions. *)
Inductive node := File | Dir (ents : list (str * node)).

Fixpoint assoc (es : list (str * node)) (c : str) : option node :=
  match es with [] => None | (c', n) :: es => if bool_decide (c' = c) then Some n else assoc es c end.

(** The names of a path: empty ones and "." do not count.  ".." is not treated, and paths that lead through it are not
    modelled. All paths are relative to one directory (the working directory or the root). *)
Fixpoint split (cur : str) (s : str) : list str :=
  match s with
  | [] => [cur]
  | c :: s => if c =? slash then cur :: split [] s else split (cur ++ [c]) s
  end.
Definition comps (p : str) : list str := filter (λ c, c ≠ [] ∧ c ≠ [dot]) (split [] p).

(** stat(2): the node, ENOENT, or another error (a regular file where a directory is needed). *)
Inductive statres := Found (n : node) | Noent | Err.
Fixpoint find (n : node) (cs : list str) : statres :=
  match cs with
  | [] => Found n
  | c :: cs =>
      match n with
      | File => Err
      | Dir es => match assoc es c with Some n => find n cs | None => Noent end
      end
  end.

Section fs.
(** Where a new entry appears in the listing of a directory is up to the file system. *)
Context (place : list str → str → nat).

(** Replace the entry [c], or add it. *)
Fixpoint replace (es : list (str * node)) (c : str) (n : node) : list (str * node) :=
  match es with [] => [] | (c', n') :: es => if bool_decide (c' = c) then (c, n) :: es else (c', n') :: replace es c n end.
Definition setent (es : list (str * node)) (c : str) (n : node) : list (str * node) :=
  match assoc es c with
  | Some _ => replace es c n
  | None => let i := place es.*1 c in take i es ++ (c, n) :: drop i es
  end.
Fixpoint setat (t : node) (cs : list str) (n : node) : option node :=
  match cs with
  | [] => Some n
  | c :: cs =>
      match t with
      | File => None
      | Dir es =>
          match cs, assoc es c with
          | [], _ => Some (Dir (setent es c n))
          | _, Some t' => match setat t' cs n with Some t' => Some (Dir (setent es c t')) | None => None end
          | _, None => None
          end
      end
  end.

(** fs.cc:67-75 *)
Definition fileexists (t : node) (p : str) : outcome bool :=
  match find t (comps p) with Found _ => Ok true | Noent => Ok false | Err => Fatal end.
(** fs.cc:77-85 *)
Definition isdir (t : node) (p : str) : outcome bool :=
  match find t (comps p) with Found (Dir _) => Ok true | Found File => Ok false | Noent => Ok false | Err => Fatal end.
(** fs.cc:43-65, with concat set *)
Definition readdir (t : node) (p : str) : outcome (list str) :=
  match last p with
  | None => Undef
  | Some c =>
      let p := if c =? slash then p else p ++ [slash] in
      match find t (comps p) with Found (Dir es) => Ok (map (λ e, p ++ e) es.*1) | _ => Fatal end
  end.
(** mkdir(2) where nothing is there yet (rdb.cc:143-147) *)
Definition mkdir (t : node) (p : str) : outcome node :=
  match setat t (comps p) (Dir []) with Some t => Ok t | None => Fatal end.
(** rdb.cc:176-181: fopen for writing. *)
Definition touch (t : node) (p : str) : outcome node :=
  match find t (comps p) with
  | Found (Dir _) => Fatal
  | Found File => Ok t
  | Noent => match setat t (comps p) File with Some t => Ok t | None => Fatal end
  | Err => Fatal
  end.

(** ** Paths and attributes *)

(** strstr(3): the string from the first occurrence on *)
Fixpoint strstr (s pat : str) : option str :=
  if bool_decide (pat `prefix_of` s) then Some s else match s with [] => None | _ :: s => strstr s pat end.
(** "KEY=" *)
Definition KEYeq : str := [75; 69; 89; 61].
(** "UNSPECIFIED" *)
Definition unspecified : str := [85; 78; 83; 80; 69; 67; 73; 70; 73; 69; 68].

(** rdb.cc:162-174 *)
Fixpoint getkeyloop (ents : list str) : option str :=
  match ents with
  | [] => None
  | e :: ents => match strstr e KEYeq with Some s => Some (drop (length KEYeq) s) | None => getkeyloop ents end
  end.
Definition getkey (t : node) (p : str) : outcome (option str) :=
  match readdir t p with Ok es => Ok (getkeyloop es) | Fatal => Fatal | Undef => Undef end.

(** Sequencing. *)
Definition bindo {A B} (o : outcome A) (f : A → outcome B) : outcome B :=
  match o with Ok a => f a | Fatal => Fatal | Undef => Undef end.
Definition bindf {A B} (o : option (outcome A)) (f : A → option (outcome B)) : option (outcome B) :=
  match o with Some (Ok a) => f a | Some Fatal => Some Fatal | Some Undef => Some Undef | None => None end.
Notation "'do' x <- o ; f" := (bindo o (λ x, f)) (at level 200, x name, o at level 100, f at level 200).
Notation "'dof' x <- o ; f" := (bindf o (λ x, f)) (at level 200, x name, o at level 100, f at level 200).

(** rdb.cc:141-160, by recursion on the attributes left; the tree is the file system afterwards. *)
Fixpoint makepath (n : nat) (t : node) (root : str) (a : rattrs) : outcome (node * str) :=
  match n with
  | 0%nat => Ok (t, root)
  | S n =>
      if bool_decide (size a = 0%nat) then Ok (t, root) else
      do ex <- fileexists t root;
      do t <- (if (ex : bool) then Ok t else mkdir t root);
      match front a with
      | None => Undef
      | Some key =>
          let (vl, a) := lookup a key in
          do kfile <- pathcat root (KEYeq ++ key);
          do kex <- fileexists t kfile;
          do t <- (if (kex : bool) then Ok t else touch t kfile);
          match pop_front a with
          | None => Undef
          | Some a => do root <- pathcat root vl; makepath n t root a
          end
      end
  end.

(** rdb.cc:117-139 *)
Fixpoint pathfor (fuel : nat) (t : node) (path : str) (a : rattrs) : option (outcome (node * str)) :=
  match fuel with
  | 0%nat => None
  | S fuel =>
      if bool_decide (size a = 0%nat) then Some (Ok (t, path)) else
      dof ex <- Some (fileexists t path);
      if (ex : bool) then
        dof d <- Some (isdir t path);
        if negb d && bool_decide (0 < size a)%nat then Some Fatal else
        dof ok <- Some (getkey t path);
        match ok with
        | None => Some (makepath (size a) t path a)
        | Some curkey =>
            if mem a curkey then
              let (v, a) := lookup a curkey in
              dof path <- Some (pathcat path v);
              pathfor fuel t path (rm a curkey).2
            else
              dof path <- Some (pathcat path unspecified);
              pathfor fuel t path a
        end
      else Some (makepath (size a) t path a)
  end.

(** rdb.cc:86-115: [collect], with [addfiles] in its place.  The attributes are not changed: lookup is called for a key
    that is there. *)
Fixpoint collect (fuel : nat) (t : node) (path : str) (a : rattrs) (files : list str) : option (outcome (list str)) :=
  match fuel with
  | 0%nat => None
  | S fuel =>
      let addfiles (path : str) (files : list str) : option (outcome (list str)) :=
        match strstr path KEYeq with
        | Some _ => Some (Ok files)
        | None =>
            dof ex <- Some (fileexists t path);
            if negb ex then Some (Ok files) else
            dof d <- Some (isdir t path);
            if (d : bool) then collect fuel t path a files else Some (Ok (files ++ [path]))
        end in
      dof ex <- Some (fileexists t path);
      dof d <- Some (isdir t path);
      if negb ex || negb d then Some (Ok files) else
      dof ok <- Some (getkey t path);
      match ok with
      | None => Some (Ok files)
      | Some curkey =>
          if mem a curkey then
            let (k, a) := lookup a curkey in
            if bool_decide (k = []) then Some Fatal else
            dof path <- Some (pathcat path k);
            addfiles path files
          else
            dof ents <- Some (readdir t path);
            foldl (λ acc e, dof files <- acc; addfiles e files) (Some (Ok files)) ents
      end
  end.
(** rdb.cc:80-84 *)
Definition withattrs (fuel : nat) (t : node) (root : str) (a : rattrs) : option (outcome (list str)) :=
  collect fuel t root a [].

(** rdb.cc:183-197 *)
Fixpoint pathattrs (fuel : nat) (t : node) (path : str) (a : rattrs) : option (outcome rattrs) :=
  match fuel with
  | 0%nat => None
  | S fuel =>
      dof ex <- Some (fileexists t path);
      if negb ex then Some (Ok a) else
      let dir := dirname path in
      let file := basename path in
      dof ok <- Some (getkey t dir);
      match ok with
      | None => Some (Ok a)
      | Some key => pathattrs fuel t dir (push_front a key file).2
      end
  end.
End fs.
