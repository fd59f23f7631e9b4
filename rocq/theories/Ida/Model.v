(** Model of search/idastar.hpp: iterative deepening A-star. *)
From stdpp Require Import prelude.
From Coq Require Import ZArith.
From Verif.Search Require Import Domain Model.
Open Scope Z_scope.

(** The counters of search/search.hpp:18-20 used here, minoob (idastar.hpp:86), and how
    often limit() was called: the time flag is looked at then. *)
Record istate := IState { i_expd : nat; i_gend : nat; i_calls : nat; i_minoob : Z }.

Definition add_expd (st : istate) : istate := IState (S (i_expd st)) (i_gend st) (i_calls st) (i_minoob st).
Definition add_gend (st : istate) : istate := IState (i_expd st) (S (i_gend st)) (i_calls st) (i_minoob st).
Definition set_minoob (st : istate) (z : Z) : istate := IState (i_expd st) (i_gend st) (i_calls st) z.

Section ida.
Context (D : domain) (h : St D → Z) (lim : limits).

(** search.hpp:67-71. *)
Definition reached (st : istate) : bool :=
  timeup lim (i_calls st)
  || (bool_decide (0 < l_expd lim)%nat && bool_decide (l_expd lim ≤ i_expd st)%nat)
  || (bool_decide (0 < l_gend lim)%nat && bool_decide (l_gend lim ≤ i_gend st)%nat).
Definition called (st : istate) : istate := IState (i_expd st) (i_gend st) (S (i_calls st)) (i_minoob st).

(** res.path and res.ops when a goal was found. *)
Definition found : Type := option (list (St D) * list (Op D)).

(** idastar.hpp:49-53. *)
Definition outofbound (st : istate) (f : Z) : istate :=
  if bool_decide (i_minoob st = -1) || bool_decide (f < i_minoob st) then set_minoob st f else st.

(** idastar.hpp:58-82: the loop over the operators; [rec] is the recursive call. *)
Fixpoint each (rec : istate → St D → Op D → Z → option (istate * found))
    (s : St D) (pop : Op D) (g : Z) (os : list (Op D)) (st : istate) : option (istate * found) :=
  match os with
  | [] => Some (st, None)
  | o :: os =>
    if reached st then Some (called st, None)
    else
      let st := called st in
      if decide (o = pop) then each rec s pop g os st
      else
        let '(t, c, r) := edge s o in
        '(st, res) ← rec (add_gend st) t r (g + c);
        match res with
        | Some (path, ops) => Some (st, Some (path ++ [s], ops ++ [o]))
        | None => each rec s pop g os st
        end
  end.

(** idastar.hpp:41-83.  The recursion takes fuel; [None] is running out of it. *)
Fixpoint dfs (fuel : nat) (bound : Z) (st : istate) (s : St D) (pop : Op D) (g : Z)
    : option (istate * found) :=
  match fuel with
  | 0%nat => None
  | S fuel =>
    let f := g + h s in
    if bool_decide (f ≤ bound) && isgoal s then Some (st, Some ([s], []))
    else if bool_decide (bound < f) then Some (outofbound st f, None)
    else each (dfs fuel bound) s pop g (ops s) (add_expd st)
  end.

(** idastar.hpp:25-35. *)
Fixpoint iterate (fuel depth : nat) (s0 : St D) (bound : Z) (st : istate) : option (istate * found) :=
  match fuel with
  | 0%nat => None
  | S fuel =>
    if reached st then Some (called st, None)
    else
      '(st, res) ← dfs depth bound (set_minoob (called st) (-1)) s0 nop 0;
      match res with
      | Some r => Some (st, Some r)
      | None => iterate fuel depth s0 (i_minoob st) st
      end
  end.

(** idastar.hpp:19-38, cut off after [fuel] iterations or at recursion depth [fuel]. *)
Definition idastar (s0 : St D) (fuel : nat) : option (istate * found) :=
  iterate fuel fuel s0 (h s0) (IState 0 0 0 (-1)).
End ida.
