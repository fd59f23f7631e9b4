(** Specification vocabulary shared by several components. *)
From stdpp Require Import prelude.

(** The C++ "Compare" requirement (strict weak order) on a boolean predicate. *)
Record strict_weak {K} (lt : K → K → bool) : Prop := {
  sw_irrefl : ∀ a, lt a a = false;
  sw_trans : ∀ a b c, lt a b = true → lt b c = true → lt a c = true;
  sw_incomp : ∀ a b c,
    lt a b = false → lt b a = false → lt b c = false → lt c b = false →
    lt a c = false ∧ lt c a = false }.

Section lemmas.
  Context {K} (lt : K → K → bool) (H : strict_weak lt).
  Lemma sw_asym a b : lt a b = true → lt b a = false.
  Proof using H.
    intros E. destruct (lt b a) eqn:E'; [|done].
    pose proof (sw_trans _ H _ _ _ E E'). by rewrite (sw_irrefl _ H) in *.
  Qed.
  Lemma sw_neg_trans a b c : lt b a = false → lt c b = false → lt c a = false.
  Proof using H.
    intros H1 H2. destruct (lt c a) eqn:E; [|done].
    destruct (lt a b) eqn:E1.
    { by rewrite (sw_trans _ H _ _ _ E E1) in H2. }
    destruct (lt b c) eqn:E2.
    { by rewrite (sw_trans _ H _ _ _ E2 E) in H1. }
    destruct (sw_incomp _ H a b c) as [_ ?]; congruence.
  Qed.
End lemmas.

(** [Z.ltb] and the lexicographic order used by the examples. *)
Lemma ltb_strict_weak : strict_weak Z.ltb.
Proof. split; intros; rewrite ?Z.ltb_lt, ?Z.ltb_ge, ?Z.ltb_irrefl in *; try lia. Qed.
