(** C15 for IEEE double arithmetic: coordinates are doubles and every operation is
    rounded to nearest even, as the C++ code computes (structs/kdtree.hpp:137, 151,
    176-177).  Overflow to infinity and NaNs are left out: the format has the
    precision and the subnormals of binary64 but no largest exponent. *)
From stdpp Require Import prelude.
From Coq Require Import Reals Lra Lia.
From Flocq Require Import Core Plus_error.
From Verif.Kdtree Require Import Model Props.

Open Scope R_scope.

(** 53 bits of precision, least exponent -1074. *)
Definition fexp : Z → Z := FLT_exp (-1074) 53.
Definition rnd (x : R) : R := round radix2 fexp ZnearestE x.
Definition double (x : R) : Prop := generic_format radix2 fexp x.

Definition Farith : arith R := {|
  zero := 0; ltb := Rlt_bool;
  sub := λ x y, rnd (x - y); neg := Ropp;
  mul := λ x y, rnd (x * y); plus := λ x y, rnd (x + y) |}.

Local Instance prec_gt : Prec_gt_0 53.
Proof. done. Qed.
Local Instance fexp_valid : Valid_exp fexp.
Proof. apply FLT_exp_valid. done. Qed.

Lemma rnd_le x y : x <= y → rnd x <= rnd y.
Proof. apply round_le; typeclasses eauto. Qed.
Lemma rnd_0 : rnd 0 = 0.
Proof. apply round_0; typeclasses eauto. Qed.
Lemma rnd_opp x : rnd (- x) = - rnd x.
Proof. apply round_NE_opp. Qed.
Lemma rnd_id x : double x → rnd x = x.
Proof. apply round_generic; typeclasses eauto. Qed.
Lemma rnd_double x : double (rnd x).
Proof. apply generic_format_round; typeclasses eauto. Qed.

Lemma rnd_sub_neg q t : double q → double t → (rnd (q - t) < 0 ↔ q < t).
Proof.
  intros Hq Ht. split; intros H.
  - apply Rnot_le_lt. intros Hle. assert (rnd 0 <= rnd (q - t)) by (apply rnd_le; lra).
    rewrite rnd_0 in *. lra.
  - assert (rnd (q - t) <= 0) as Hle by (rewrite <-rnd_0; apply rnd_le; lra).
    assert (rnd (q - t) ≠ 0) as Hne; [|lra].
    unfold rnd. replace (q - t) with (q + - t) by ring.
    assert (generic_format radix2 fexp (- t)) as Hot by by apply generic_format_opp.
    assert (q + - t ≠ 0) as Hnz by lra.
    by apply round_plus_neq_0; try typeclasses eauto.
Qed.

Lemma sq_mono a b : 0 <= a → a <= b → rnd (a * a) <= rnd (b * b).
Proof. intros Ha Hb. apply rnd_le. nra. Qed.

Lemma Flaws : laws Farith double.
Proof.
  split; simpl.
  - intros a. apply Rlt_bool_false. lra.
  - intros a b c. case Rlt_bool_spec; [done|]. intros H1 _. case Rlt_bool_spec; [done|].
    intros H2 _. apply Rlt_bool_false. lra.
  - intros a b. case Rlt_bool_spec; [|done]. intros H _. apply Rlt_bool_false. lra.
  - intros q t Hq Ht. pose proof (rnd_sub_neg q t Hq Ht) as H.
    case Rlt_bool_spec; case Rlt_bool_spec; intros H1 H2; try done; exfalso; lra.
  - intros q t p Hq Ht Hp. case Rlt_bool_spec; [|done]. intros Hqt _.
    case Rlt_bool_spec; [done|]. intros Htp _. apply Rlt_bool_false.
    rewrite <-rnd_opp. apply sq_mono.
    + rewrite <-rnd_0. apply rnd_le. lra.
    + apply rnd_le. lra.
  - intros q t p Hq Ht Hp. case Rlt_bool_spec; [done|]. intros Hqt _.
    case Rlt_bool_spec; [|done]. intros Htp _. apply Rlt_bool_false.
    replace (rnd (p - q) * rnd (p - q)) with (rnd (q - p) * rnd (q - p)).
    + apply sq_mono.
      * rewrite <-rnd_0. apply rnd_le. lra.
      * apply rnd_le. lra.
    + replace (q - p) with (- (p - q)) by ring. rewrite rnd_opp. ring.
  - intros q t Hq Ht.
    assert (rnd (t - q) = - rnd (q - t)) as ->.
    { rewrite <-rnd_opp. f_equal. ring. }
    split; apply Rlt_bool_false; apply Req_le; f_equal; ring.
  - intros p q Hp Hq. apply Rlt_bool_false. rewrite <-rnd_0. apply rnd_le. nra.
  - apply generic_format_0.
  - intros. apply rnd_double.
  - intros a p q Ha Hp Hq. case Rlt_bool_spec; [done|]. intros Ha0 _.
    set (s := rnd (rnd (p - q) * rnd (p - q))).
    assert (0 <= s) as Hs. { unfold s. rewrite <-rnd_0 at 1. apply rnd_le. nra. }
    split; apply Rlt_bool_false.
    + rewrite <-(rnd_id a) at 1 by done. apply rnd_le. lra.
    + rewrite <-(rnd_id s) at 1 by apply rnd_double. apply rnd_le. lra.
Qed.

(** With double coordinates and rounded arithmetic the element returned has the least
    computed squared distance among all inserted elements. *)
Theorem C15_nearest_is_minimal_in_double_arithmetic K es (q : nat → R) e :
  (1 ≤ K)%nat → (∀ e, e ∈ es → ok_point double K (point e)) → ok_point double K q →
  nearest Farith K (build Farith K es) q = Some e →
  e ∈ es ∧ ∀ e', e' ∈ es → sqdist Farith K e q <= sqdist Farith K e' q.
Proof.
  intros HK Hok Hq Hn.
  destruct (C15_nearest_is_minimal Farith double Flaws K es q e HK Hok Hq Hn) as [He Hmin].
  split; [done|]. intros e' He'. specialize (Hmin e' He'). simpl in Hmin.
  revert Hmin. case Rlt_bool_spec; done.
Qed.

(** Hypotheses are met: integers up to 2^53 are doubles. *)
Example ex_double : double 3.
Proof.
  apply (generic_format_FLT radix2 (-1074) 53). exists (Float radix2 3 0); simpl.
  - unfold F2R. simpl. ring.
  - lia.
  - lia.
Qed.

Print Assumptions C15_nearest_is_minimal_in_double_arithmetic.
