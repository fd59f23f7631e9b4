(** Model of structs/djset.hpp: disjoint sets as a forest of objects. *)
From stdpp Require Import prelude.

(** structs/djset.hpp:44-45.  Objects are pointers ([nat]); their fields are
    maps.  rank is an [unsigned int] in the code, unbounded here. *)
Record dj := DJ { parent : nat → nat; rank : nat → nat }.

Definition upd (f : nat → nat) (e v : nat) : nat → nat := λ x, if decide (x = e) then v else f x.

(** structs/djset.hpp:6: every object just constructed. *)
Definition new : dj := DJ id (λ _, 0).

(** structs/djset.hpp:10-13. *)
Definition clear (s : dj) (x : nat) : dj := DJ (upd (parent s) x x) (upd (rank s) x 0).

(** structs/djset.hpp:16-21.  The recursion is bounded by fuel; [None] is
    running out of it (proved not to happen with enough fuel). *)
Fixpoint find (fuel : nat) (s : dj) (x : nat) : option (dj * nat) :=
  match fuel with
  | 0 => None
  | S fuel =>
    if decide (parent s x = x) then Some (s, x)
    else
      '(s, r) ← find fuel s (parent s x);
      let s := DJ (upd (parent s) x r) (rank s) in
      Some (s, parent s x)
  end.

(** structs/djset.hpp:25-37: this = [x], o = [y]. *)
Definition join (fuel : nat) (s : dj) (x y : nat) : option dj :=
  '(s, root) ← find fuel s x;
  '(s, oroot) ← find fuel s y;
  if decide (root = oroot) then Some s
  else if decide (rank s root < rank s oroot) then
    Some (DJ (upd (parent s) root oroot) (rank s))
  else
    let s := DJ (upd (parent s) oroot root) (rank s) in
    Some (if decide (rank s root = rank s oroot)
          then DJ (parent s) (upd (rank s) x (rank s x + 1))
          else s).
