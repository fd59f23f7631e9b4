(** Reading the rows that DTA-star is trained with: dfReadRows, search/dtastar.hpp:21-64, and the loop over the files
    (726-737), on what dfread reports of the files (Text.Model).

    Doubles are exact rationals; strtol and strtod are parameters, and give some number for any string: the tests
    [end == NULL] (37, 50, 54, 60) are never true.  [Undef] is a token that is missing. *)
From stdpp Require Import strings.
From stdpp Require Import prelude.
From Coq Require Import ZArith QArith.
From Verif Require Import Text.Model Dta.Table.
Local Open Scope Q_scope.
Local Open Scope list_scope.

Definition s_branching : str := [98; 114; 97; 110; 99; 104; 105; 110; 103]%Z.
Definition s_sample : str := [115; 97; 109; 112; 108; 101]%Z.

(** dtastar.hpp:21-28 *)
Record info := Info { i_branching : Q; i_nsamples : nat; i_rows : list row }.

Section Rows.
Context (strtol : str → Z) (strtod : str → Q).

(** dtastar.hpp:30-64 *)
Definition readrow (toks : list str) (i : info) : outcome info :=
  match toks with
  | [] => Undef
  | t0 :: toks =>
    if decide (t0 ≠ s_kaltrow) then Ok i
    else
      match toks with
      | [] => Undef
      | t1 :: toks =>
        if decide (t1 = s_branching) then
          match toks with
          | [] => Undef
          | t2 :: _ =>
            let b := strtol t2 in
            if decide (b < 0)%Z then Fatal
            else
              let n := S (i_nsamples i) in
              Ok (Info (i_branching i + (inject_Z b - i_branching i) / inject_Z (Z.of_nat n)) n (i_rows i))
          end
        else if decide (t1 ≠ s_sample) then Ok i
        else
          match toks with
          | t2 :: t3 :: t4 :: _ =>
            let d := strtol t3 in
            if decide (d < 0)%Z then Fatal
            else Ok (Info (i_branching i) (i_nsamples i) (i_rows i ++ [Row (strtod t2) (Z.to_nat d) (strtod t4)]))
          | [t2; t3] => if decide (strtol t3 < 0)%Z then Fatal else Undef
          | _ => Undef
          end
      end
  end.
Fixpoint readcalls (calls : list (list str)) (i : info) : outcome info :=
  match calls with
  | [] => Ok i
  | c :: calls => match readrow c i with Ok i => readcalls calls i | o => o end
  end.
(** dtastar.hpp:726-737, for the calls of each file: the rows and the mean branching factor *)
Fixpoint readfiles (files : list (list (list str))) (i : info) : outcome (list row * Q) :=
  match files with
  | [] => Ok (i_rows i, i_branching i)
  | f :: files =>
    match readcalls f i with
    | Ok i => readfiles files i
    | Fatal => Fatal
    | Undef => Undef
    end
  end.
Definition readall (files : list (list (list str))) : outcome (list row * Q) := readfiles files (Info 0 0 []).
End Rows.
