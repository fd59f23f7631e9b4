(** C56 in real numbers: a diagonal step weighs the square root of two. *)
From stdpp Require Import prelude.
From Coq Require Import ZArith Lia Reals Lra.
From Verif Require Import Gridnav.Model Gridnav.Props Gridnav.Heur.
Local Open Scope R_scope.

(** gridnav.hpp:80-82, in exact arithmetic. *)
Definition rvalue (c : gcost) : R := IZR c.1 + IZR c.2 * sqrt 2.

Lemma sqrt2_bounds : 1 <= sqrt 2 <= 2.
Proof.
  split.
  - rewrite <-sqrt_1 at 1. apply sqrt_le_1; lra.
  - rewrite <-(sqrt_square 2) at 2 by lra. apply sqrt_le_1; lra.
Qed.

Theorem C56_admissible_with_root g l goal os c :
  good_map g → inside g l → inside g goal → path g l os goal c →
  rvalue (computeh g l goal).1 <= rvalue c.
Proof.
  intros Hg Hl Hgo Hp.
  pose proof (computeh_bound g 1 l goal os c Hg Hl Hgo (or_introl eq_refl) Hp) as H1.
  pose proof (computeh_bound g 2 l goal os c Hg Hl Hgo (or_intror eq_refl) Hp) as H2.
  apply IZR_le in H1, H2. unfold weigh in H1, H2. rewrite !plus_IZR, !mult_IZR in H1, H2.
  unfold rvalue. pose proof sqrt2_bounds. nra.
Qed.

Print Assumptions C56_admissible_with_root.
