(** C94: the letters of a Sturtevant map say where one can go. *)
From stdpp Require Import prelude.
From Coq Require Import ZArith Lia.
From Verif.Gridnav Require Import Model Props.
Local Open Scope Z_scope.

(** The letters: '.' and 'G' are ground, '@' and 'O' out of bounds, 'T' trees, 'S' swamp, 'W' water. *)
Inductive land := Ground | Out | Trees | Marsh | Sea.
Global Instance land_eq_dec : EqDecision land.
Proof. solve_decision. Defined.
Definition letter (c : Z) (t : land) : Prop :=
  match t with
  | Ground => c = 46 ∨ c = 71
  | Out => c = 64 ∨ c = 79
  | Trees => c = 84
  | Marsh => c = 83
  | Sea => c = 87
  end.
(** Nobody goes out of bounds or into trees; who is at sea stays there; everybody else goes on ground and through
    swamps. *)
Definition passage (a b : land) : bool :=
  match a, b with
  | _, (Out | Trees) => false
  | Sea, Sea => true
  | Sea, _ => false
  | _, (Ground | Marsh) => true
  | _, Sea => false
  end.

(** The flags of the letters. *)
Lemma terrain_letter c f : terrain c = Some f → ∃ t, letter c t ∧
  f = match t with Ground => 1 | Out => 2 | Trees => 4 | Marsh => 8 | Sea => 16 end.
Proof.
  unfold terrain.
  destruct (Z.eqb_spec c 46); [intros [= <-]; by exists Ground; split; [left|]|].
  destruct (Z.eqb_spec c 71); [intros [= <-]; by exists Ground; split; [right|]|].
  destruct (Z.eqb_spec c 64); [intros [= <-]; by exists Out; split; [left|]|].
  destruct (Z.eqb_spec c 79); [intros [= <-]; by exists Out; split; [right|]|].
  destruct (Z.eqb_spec c 84); [intros [= <-]; by exists Trees|].
  destruct (Z.eqb_spec c 83); [intros [= <-]; by exists Marsh|].
  destruct (Z.eqb_spec c 87); [intros [= <-]; by exists Sea|]. done.
Qed.

(** On a map that was loaded, every cell has one of the letters, and the check made for a step from a cell to another
    (or past it, for a diagonal step) allows it exactly if their letters do.  A cell can be start or goal (main_gridnav
    refuses others) exactly if it is ground. *)
Theorem C94_letters width height board fs life ms : 0 ≤ width → 0 ≤ height →
  load_sturtevant width height board = Some fs →
  let g := GridMap (width + 2) (height + 2) fs life ms in
  ∀ x y x' y', 1 ≤ x ≤ width → 1 ≤ y ≤ height → 1 ≤ x' ≤ width → 1 ≤ y' ≤ height →
  ∃ a b, letter (board x y) a ∧ letter (board x' y') b ∧
    flagsok g (index (mw g) x y) (index (mw g) x' y') = Some (passage a b) ∧
    blkd g (index (mw g) x y) = Some (bool_decide (a ≠ Ground)).
Proof.
  intros Hw Hh Hl g x y x' y' Hx Hy Hx' Hy'.
  destruct (C54_sturtevant_maps_bordered _ _ _ _ Hw Hh Hl) as [_ Hc].
  destruct (Hc x y Hx Hy) as (f & Hf & Hr). destruct (Hc x' y' Hx' Hy') as (f' & Hf' & Hr').
  apply terrain_letter in Hf as (a & Ha & ->). apply terrain_letter in Hf' as (b & Hb & ->).
  exists a, b. split; [done|]. split; [done|]. unfold flagsok, blkd, index, g; simpl.
  rewrite (Z.add_comm _ x), (Z.add_comm _ x'), Hr, Hr'. cbn [mbind option_bind].
  destruct a, b; done.
Qed.

(** A letter stands for one kind of land only. *)
Theorem C94_letters_differ c a b : letter c a → letter c b → a = b.
Proof. destruct a, b; simpl; lia || done. Qed.

(** A map of two rows: ground, swamp, water; tree, out of bounds, ground. *)
Definition ex_board (x y : Z) : Z :=
  if decide (y = 1) then (if decide (x = 1) then 46 else if decide (x = 2) then 83 else 87)
  else (if decide (x = 1) then 84 else if decide (x = 2) then 64 else 71).
Example C94_nonvacuous : load_sturtevant 3 2 ex_board =
  Some [2; 2; 2; 2; 2; 2; 1; 8; 16; 2; 2; 4; 2; 1; 2; 2; 2; 2; 2; 2].
Proof. vm_compute. done. Qed.

Print Assumptions C94_letters.
Print Assumptions C94_letters_differ.
