(** Search domains, and what a solution is. *)
From stdpp Require Import prelude.
From Coq Require Import ZArith Lia.

(** What the search algorithms use of a domain class D (search/domain_template):
    D::State and D::PackedState, D::Oper with D::Nop, D::Operators (the
    applicable operators of a state, in order), D::Edge (successor state, cost
    and reverse operator) and D::isgoal.

    Simplifications: State and PackedState are one type, i.e. pack and unpack
    are inverse to each other and packed equality is equality; making an Edge
    leaves its source state unchanged once the Edge is destroyed; costs are
    unbounded integers.  Domains for which one of these fails are treated in
    the domain files. *)
Record domain := Domain {
  St : Type;
  Op : Type;
  St_eq : EqDecision St;
  Op_eq : EqDecision Op;
  nop : Op;
  ops : St → list Op;
  edge : St → Op → St * Z * Op;
  isgoal : St → bool;
}.
Global Existing Instance St_eq.
Global Existing Instance Op_eq.

Arguments nop {_}. Arguments ops {_}. Arguments edge {_}. Arguments isgoal {_}.

Section spec.
Context (D : domain).

Definition dest (s : St D) (o : Op D) : St D := (edge s o).1.1.
Definition cost (s : St D) (o : Op D) : Z := (edge s o).1.2.
Definition revop (s : St D) (o : Op D) : Op D := (edge s o).2.

(** [walk ss os k]: the states [ss] are visited, in this order, by the
    operators [os], each applicable where it is applied; the costs add up to [k]. *)
Inductive walk : list (St D) → list (Op D) → Z → Prop :=
  | walk_one s : walk [s] [] 0
  | walk_step s o ss os k :
      o ∈ ops s → walk (dest s o :: ss) os k →
      walk (s :: dest s o :: ss) (o :: os) (cost s o + k).

(** A walk from [s0] to a goal state. *)
Definition solution (s0 : St D) (ss : list (St D)) (os : list (Op D)) (k : Z) : Prop :=
  walk ss os k ∧ head ss = Some s0 ∧ ∃ t, last ss = Some t ∧ isgoal t = true.

Definition reachable (s0 s : St D) : Prop :=
  ∃ ss os k, walk ss os k ∧ head ss = Some s0 ∧ last ss = Some s.

(** [h] never overestimates the cost of a cheapest solution. *)
Definition admissible (h : St D → Z) : Prop :=
  ∀ s ss os k, solution s ss os k → (h s ≤ k)%Z.

(** What the searches need: no edge has a negative cost; the reverse operator
    reported with an edge, if it is applicable at its end, leads back to its
    start; Nop is never applicable. *)
Record domain_ok : Prop := {
  ok_cost s o : o ∈ ops s → (0 ≤ cost s o)%Z;
  ok_rev s o : o ∈ ops s → revop s o ∈ ops (dest s o) → dest (dest s o) (revop s o) = s;
  ok_nop (s : St D) : nop ∉ ops s;
}.

(** Finitely many states can be reached. *)
Definition finite_space (s0 : St D) : Prop :=
  ∃ U : list (St D), ∀ s, reachable s0 s → s ∈ U.

Lemma walk_nonempty ss os k : walk ss os k → ss ≠ [].
Proof. by destruct 1. Qed.

Lemma walk_length ss os k : walk ss os k → length ss = S (length os).
Proof. induction 1; simpl in *; lia. Qed.

Lemma walk_nonneg ss os k : domain_ok → walk ss os k → (0 ≤ k)%Z.
Proof. intros OK. induction 1; [done|]. pose proof (ok_cost OK s o). naive_solver lia. Qed.

(** Add a step at the end. *)
Lemma walk_snoc ss os k s o :
  walk ss os k → last ss = Some s → o ∈ ops s →
  walk (ss ++ [dest s o]) (os ++ [o]) (k + cost s o).
Proof.
  intros Hw. revert s. induction Hw as [s1|s1 o1 ss os k Ho Hw IH]; intros s Hl Hs.
  - injection Hl as ->. simpl. replace (0 + cost s o)%Z with (cost s o + 0)%Z by lia.
    apply walk_step; [done|constructor].
  - simpl. rewrite <-Z.add_assoc. apply (walk_step s1 o1 (ss ++ [dest s o])); [done|].
    apply IH; [|done]. exact Hl.
Qed.

Lemma walk_app ss os k ss' os' k' s :
  walk ss os k → last ss = Some s → walk (s :: ss') os' k' →
  walk (ss ++ ss') (os ++ os') (k + k').
Proof.
  intros Hw. induction Hw as [s1|s1 o1 ss os k Ho Hw IH]; intros Hl Hs.
  - injection Hl as ->. done.
  - simpl. rewrite <-Z.add_assoc. apply (walk_step s1 o1 (ss ++ ss')); [done|].
    apply IH; [|done]. exact Hl.
Qed.

Lemma reachable_refl s : reachable s s.
Proof. exists [s], [], 0%Z. repeat constructor. Qed.

Lemma reachable_step s0 s o : reachable s0 s → o ∈ ops s → reachable s0 (dest s o).
Proof.
  intros (ss & os & k & Hw & Hh & Hl) Ho.
  exists (ss ++ [dest s o]), (os ++ [o]), (k + cost s o)%Z. split_and!.
  - by apply walk_snoc.
  - by destruct ss.
  - by rewrite last_snoc.
Qed.

(** What holds of [s0] and is kept by every operator holds of all reachable states. *)
Lemma reachable_inv (P : St D → Prop) s0 s :
  P s0 → (∀ s o, P s → o ∈ ops s → P (dest s o)) → reachable s0 s → P s.
Proof.
  intros H0 Hs (ss & os & k & Hw & Hh & Hl). revert s0 H0 Hh Hl.
  induction Hw as [s1|s1 o ss os k Ho Hw IH]; intros s0 H0 Hh Hl; simpl in Hh; injection Hh as <-.
  - by injection Hl as <-.
  - apply (IH (dest s1 o)); [by apply Hs|done|exact Hl].
Qed.

Lemma closed_finite (U : list (St D)) s0 :
  s0 ∈ U → (∀ s o, s ∈ U → o ∈ ops s → dest s o ∈ U) → finite_space s0.
Proof. intros H0 Hs. exists U. intros s. by apply (reachable_inv (λ s, s ∈ U)). Qed.

(** A lower bound that is zero at goals and drops along an edge by no more than its cost. *)
Definition consistent (h : St D → Z) : Prop :=
  (∀ s, isgoal s = true → (h s ≤ 0)%Z) ∧
  ∀ s o, o ∈ ops s → (h s ≤ cost s o + h (dest s o))%Z.

Lemma consistent_admissible h d :
  consistent d → (∀ s, h s ≤ d s)%Z → admissible h.
Proof.
  intros [Hg Hc] Hle s ss os k (Hw & Hh & t & Hl & Ht).
  cut (d s ≤ k)%Z; [specialize (Hle s); lia|]. clear Hle. revert s Hh Hl.
  induction Hw as [s1|s1 o ss os k Ho Hw IH]; intros s Hh Hl; simpl in Hh; injection Hh as <-.
  - injection Hl as ->. by apply Hg.
  - specialize (IH (dest s1 o) eq_refl Hl). specialize (Hc _ _ Ho). lia.
Qed.
End spec.

Arguments reachable_inv {_}. Arguments closed_finite {D}.
Arguments consistent {_}. Arguments dest {_}. Arguments cost {_}. Arguments revop {_}.
Arguments walk {_}. Arguments solution {_}. Arguments reachable {_}. Arguments admissible {_}.
Arguments finite_space {_}. Arguments ok_cost {_}. Arguments ok_rev {_}. Arguments ok_nop {_}.
