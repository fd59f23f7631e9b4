(** Model of search/rrt.hpp: rapidly exploring random trees.

    Simplifications: as in Search/Domain.v (costs are not used).  A Node is an index into the list of nodes in the order of
    their insertion; a kid that is not inserted (98-101) is never seen again.  The coordinates of a state
    (State::vector) and those of the n-th sample are parameters, as is the arithmetic on coordinates (doubles in the code);
    squared distances are finite.  Pictures and output are left out; counters do not overflow.  The search has no other
    end than a goal, so the model gives what has become of it after each number of iterations. *)
From stdpp Require Import prelude.
From Coq Require Import ZArith.
From Verif.Search Require Import Domain.
From Verif.Kdtree Require Import Model.
From Verif Require Limits.Model.
Local Open Scope Z_scope.

(** rrt.hpp:29-36: the seed after the options.  [argv[i++]] is the word "-s" itself, and the word after it is skipped. *)
Definition f_s : list Z := [45; 115].
Fixpoint parseseed (argv : list (list Z)) (seed : Z) : Z :=
  match argv with
  | a :: ((_ :: rest) as tl) => if decide (a = f_s) then parseseed rest (Limits.Model.strtoul a) else parseseed tl seed
  | _ => seed
  end.

Section rrt.
Context (D : domain) {num : Type} (A : arith num) (K : nat) (vec : St D → nat → num) (samp : nat → nat → num).

(** rrt.hpp:20-26 *)
Record rnode := RNode { n_par : option nat; n_st : St D; n_op : Op D; n_ops : list (Op D) }.

(** The tree (167), and expd and gend of the result. *)
Record rrt := Rrt { r_nodes : list rnode; r_tree : @kdtree num; r_expd : Z; r_gend : Z }.

(** rrt.hpp:127-134 *)
Definition sqd (a b : nat → num) : num :=
  foldl (λ s i, let d := sub A (a i) (b i) in plus A s (mul A d d)) (zero A) (seq 0 K).

(** rrt.hpp:70-97, and the number of operators looked at: [inl o] is the jump to done with the operator [o], [inr None] an
    infinite dist and [inr (Some (dist, o))] the nearest successor. *)
Fixpoint scan (s : St D) (pt : nat → num) (used os : list (Op D)) (best : option (num * Op D)) (gend : Z) : (Op D + option (num * Op D)) * Z :=
  match os with
  | [] => (inr best, gend)
  | o :: os =>
    if decide (o ∈ used) then scan s pt used os best (gend + 1)
    else if isgoal (dest s o) then (inl o, gend + 1)
    else
      let dst := sqd pt (vec (dest s o)) in
      if match best with None => true | Some (d, _) => ltb A dst d end
      then scan s pt used os (Some (dst, o)) (gend + 1)
      else scan s pt used os best (gend + 1)
  end.

(** search.hpp:297-306, from the node [i] on; [fuel] bounds the length of the path. *)
Fixpoint climb (fuel : nat) (ns : list rnode) (i : nat) : option (list (St D) * list (Op D)) :=
  match fuel with
  | 0%nat => None
  | S fuel =>
    n ← ns !! i;
    match n_par n with
    | None => Some ([n_st n], [])
    | Some p => '(path, os) ← climb fuel ns p; Some (n_st n :: path, n_op n :: os)
    end
  end.

(** rrt.hpp:56-107, the [n]-th iteration.  [inl]: res.path and res.ops.  [None]: the tree has no nearest node or a node is
    missing. *)
Definition iter (n : nat) (r : rrt) : option ((list (St D) * list (Op D)) + rrt) :=
  near ← nearest A K (r_tree r) (samp n);
  node ← r_nodes r !! data near;
  let '(k, gend) := scan (n_st node) (samp n) (n_ops node) (ops (n_st node)) None (r_gend r) in
  match k with
  | inl o =>
    '(path, os) ← climb (length (r_nodes r)) (r_nodes r) (data near);
    Some (inl (dest (n_st node) o :: path, o :: os))
  | inr None => Some (inr (Rrt (r_nodes r) (r_tree r) (r_expd r + 1) gend))
  | inr (Some (_, o)) =>
    let kid := RNode (Some (data near)) (dest (n_st node) o) o [] in
    let node := RNode (n_par node) (n_st node) (n_op node) (o :: n_ops node) in
    Some (inr (Rrt (<[data near := node]> (r_nodes r) ++ [kid])
                   (insert A K (r_tree r) (Elem (vec (n_st kid)) (length (r_nodes r))))
                   (r_expd r + 1) gend))
  end.

(** rrt.hpp:45-54; the op of the root is not set in the code and never read *)
Definition init (s0 : St D) : rrt :=
  Rrt [RNode None s0 nop []] (insert A K new (Elem (vec s0) 0%nat)) 0 0.

(** The search after [n] iterations, or its result. *)
Fixpoint runs (s0 : St D) (n : nat) : option ((list (St D) * list (Op D)) + rrt) :=
  match n with
  | 0%nat => Some (inr (init s0))
  | S n =>
    x ← runs s0 n;
    match x with
    | inl res => Some (inl res)
    | inr r => iter n r
    end
  end.
End rrt.
Arguments RNode {_}. Arguments n_par {_}. Arguments n_st {_}. Arguments n_op {_}. Arguments n_ops {_}.
Arguments Rrt {_ _}. Arguments r_nodes {_ _}. Arguments r_tree {_ _}. Arguments r_expd {_ _}. Arguments r_gend {_ _}.
