(** Model of search/restartingsearch.hpp: a search that makes the first step of each solution and searches again.

    Simplifications: as in Search/Domain.v.  The search that is restarted is any function of the number of its calls and of
    the state it starts from to the lists res.path and res.ops, which are stored from the goal to the start.  The call of
    d.act (26) is left out: no domain of the repository has such a function.  Times and output are left out. *)
From stdpp Require Import prelude.
From Verif.Search Require Import Domain.

Section restart.
Context (D : domain) (srch : nat → St D → list (St D) * list (Op D)).

(** restartingsearch.hpp:17-30.  [None]: out of fuel, or path.back() or path[path.size()-2] is not there. *)
Fixpoint loop (fuel k : nat) (cur : St D) (path : list (St D)) (os : list (Op D)) : option (list (St D) * list (Op D)) :=
  match fuel with
  | 0 => None
  | S fuel =>
    let '(p, o) := srch k cur in
    match last o with
    | None => Some (path, os)
    | Some x =>
      s ← last p;
      t ← p !! (length p - 2);
      loop fuel (S k) t (path ++ [s]) (os ++ [x])
    end
  end.

(** restartingsearch.hpp:13-36 *)
Definition search (fuel : nat) (s0 : St D) : option (list (St D) * list (Op D)) :=
  '(path, os) ← loop fuel 0 s0 [] [];
  Some (reverse path, reverse os).
End restart.
