(** What C35, C36 and C41 give together for a domain with finitely many reachable states. *)
From stdpp Require Import prelude.
From Coq Require Import ZArith Lia.
From Verif Require Import Common.Fuel Search.Model Search.Props.
From Verif Require Ida.Model Ida.Props.
Local Open Scope Z_scope.

(** A-star ends; it reports a cheapest solution, or nothing if there is no solution. *)
Lemma astar_solves D (h : St D → Z) o :
  domain_ok D → ol_ok astar_lt nonneg_key o → (∀ s, 0 ≤ h s) → admissible h →
  ∀ s0, finite_space s0 →
  (∃ path os s' k, ends (astar D h o no_limits s0) (Some (path, os), s') ∧
     solution s0 (reverse path) (reverse os) k ∧
     ∀ ss' os' k', solution s0 ss' os' k' → k ≤ k') ∨
  (∃ s', ends (astar D h o no_limits s0) (None, s') ∧ ∀ ss os k, ¬ solution s0 ss os k).
Proof.
  intros OK OL Hh Hadm s0 Hf.
  destruct (C36_astar_terminates D h o no_limits OK OL Hh s0 Hf) as [[out s'] Hends].
  pose proof Hends as [n Hn]. specialize (Hn n (le_n _)).
  destruct out as [[path os]|].
  - left. destruct (C35_astar_optimal D h o no_limits OK OL Hh Hadm s0 n path os s' Hn) as (k & Hs & Hmin).
    exists path, os, s', k. done.
  - right. exists s'. split; [done|]. by apply (C36_astar_complete D h o OK OL Hh s0 n s' Hn).
Qed.

(** IDA-star, when there is a solution. *)
Lemma idastar_solves D (h : St D → Z) :
  domain_ok D → (∀ s, 0 ≤ h s) → admissible h → (∀ s (o : Op D), o ∈ ops s → 1 ≤ cost s o) →
  ∀ s0 ss os k, solution s0 ss os k →
  ∃ path os st k, ends (Ida.Model.idastar D h no_limits s0) (st, Some (path, os)) ∧
     solution s0 (reverse path) (reverse os) k ∧
     ∀ ss' os' k', solution s0 ss' os' k' → k ≤ k'.
Proof.
  intros OK Hh Hadm Hpos s0 ss os k Hsol.
  destruct (Ida.Props.C41_idastar_finds D h OK Hh Hadm Hpos s0 ss os k Hsol) as (st & path & os' & Hends).
  pose proof Hends as [n Hn]. specialize (Hn n (le_n _)).
  destruct (Ida.Props.C41_idastar_optimal D h no_limits OK) with (s0 := s0) (fuel := n) (path := path) (os := os') (st := st)
    as (k' & Hs & Hmin); [done..|].
  exists path, os', st, k'. done.
Qed.

(** Consecutive states of a walk; searches report both lists in reverse order. *)
Lemma walk_lookup D (ss : list (St D)) os k i op :
  walk ss os k → os !! i = Some op →
  ∃ s, ss !! i = Some s ∧ op ∈ ops s ∧ ss !! S i = Some (dest s op).
Proof.
  intros Hw. revert i. induction Hw as [s|s o ss os k Ho Hw IH]; intros i Hi; [done|].
  destruct i as [|i]; [injection Hi as ->; by exists s|]. by destruct (IH i Hi) as (s' & ? & ? & ?); exists s'.
Qed.

Lemma walk_rev_lookup D (path : list (St D)) os k i op :
  walk (reverse path) (reverse os) k → os !! i = Some op →
  ∃ s, path !! S i = Some s ∧ op ∈ ops s ∧ path !! i = Some (dest s op).
Proof.
  intros Hw Hi. assert (Hlt : (i < length os)%nat) by by eapply lookup_lt_Some.
  pose proof (walk_length _ _ _ _ Hw) as Hlen. rewrite !reverse_length in Hlen.
  destruct (walk_lookup D _ _ _ (length os - S i) op Hw) as (s & H1 & H2 & H3).
  - rewrite reverse_lookup by lia. replace (length os - S (length os - S i))%nat with i by lia. done.
  - rewrite reverse_lookup in H1, H3 by lia.
    replace (length path - S (length os - S i))%nat with (S i) in H1 by lia.
    replace (length path - S (S (length os - S i)))%nat with i in H3 by lia. by exists s.
Qed.

Lemma walk_rev_first D (path : list (St D)) os k s0 :
  walk (reverse path) (reverse os) k → head (reverse path) = Some s0 → path !! length os = Some s0.
Proof.
  intros Hw Hh. pose proof (walk_length _ _ _ _ Hw) as Hlen. rewrite !reverse_length in Hlen.
  rewrite head_lookup, reverse_lookup in Hh by lia. rewrite <-Hh. f_equal. lia.
Qed.

Lemma rev_last {A} (l : list A) : last (reverse l) = l !! 0%nat.
Proof. destruct l as [|x l]; [done|]. by rewrite reverse_cons, last_snoc. Qed.
