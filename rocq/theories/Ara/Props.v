(** C44: what ARA-star reports.

    The weight is wn0/wd at first and is lowered by dw/wd; [lim] are any limits. Arastar, ArastarMon and
    ArastarNORA differ in when they stop only: the theorems about [reached] states hold wherever they do. *)
From stdpp Require Import prelude sorting.
From Coq Require Import ZArith Lia ZifyBool ZifyNat.
From Verif Require Import Common.Fuel BinHeap.Model.
From Verif Require Import Search.Model Search.Props Ara.Model Ara.Proofs Ara.Refine Ara.Loop.
Local Open Scope Z_scope.

(** States of a search: while it runs and when it has ended. *)
Definition reached D h wn0 dw wd lim s0 (s : astate D) : Prop :=
  (∃ goal, arunning D h wn0 dw wd lim s0 s goal) ∨
  (∃ fuel conv, arastar D h wn0 dw wd lim s0 fuel = Some (s, conv)).

Section props.
Set Default Proof Using "All".
Context (D : domain) (h : St D → Z) (wn0 dw wd : Z) (lim : limits) (s0 : St D).
Context (OK : domain_ok D) (Hh : ∀ s, 0 ≤ h s) (Hwd : 0 < wd).
Notation reached := (reached D h wn0 dw wd lim s0).
Notation good := (Loop.good D h wd s0).

Lemma arastar_end fuel s' conv : arastar D h wn0 dw wd lim s0 fuel = Some (s', conv) →
  ∃ X, good s' false X ∧
    if conv then a_wt D s' = wd ∧ (alimit D lim s' = true ∨ goodnodes D wd s' = false)
    else a_incons D s' = [] ∧ (alimit D lim s' = true ∨ arr (a_open D s') = []).
Proof.
  unfold arastar. destruct (ainit D h wn0 dw wd s0) as [s|] eqn:Hi; [|done]. cbn [mbind option_bind]. intros Hl.
  destruct (ainit_wt D h wn0 dw wd lim s0 OK Hh Hwd s Hi) as [Hw Hd].
  destruct (ainit_good D h wn0 dw wd lim s0 OK Hh Hwd Hw Hd) as (s1 & Hs1 & Hg & _).
  rewrite Hs1 in Hi. injection Hi as ->.
  by apply (aloop_end D h wn0 dw wd lim s0 OK Hh Hwd fuel s false []).
Qed.

Lemma reached_good s : reached s → ∃ g X, good s g X.
Proof.
  intros [(g & Hr)|(fuel & conv & Hr)].
  - exists g. by apply (arunning_good D h wn0 dw wd lim s0 OK Hh Hwd).
  - destruct (arastar_end _ _ _ Hr) as (X & Hg & _). by exists false, X.
Qed.

(** The incumbents (newest first): every one is strictly cheaper than all before it. *)
Theorem C44_incumbents_improve s : reached s → StronglySorted (λ new old, new.1 < old.1) (a_sols D s).
Proof. intros (g & X & Hg)%reached_good. apply (gd_dec _ _ _ _ _ _ _ Hg). Qed.

(** The path stored with an incumbent is a solution, of at most the incumbent's cost. *)
Theorem C44_incumbents_valid s c path os : reached s → (c, (path, os)) ∈ a_sols D s →
  ∃ k, solution s0 (reverse path) (reverse os) k ∧ k ≤ c.
Proof.
  intros (g & X & Hg)%reached_good Hin. pose proof (gd_sols _ _ _ _ _ _ _ Hg) as Hs. rewrite Forall_forall in Hs.
  by destruct (Hs _ Hin) as [_ ?].
Qed.

(** Every row of the output is about an incumbent, and the costs of the rows strictly decrease. *)
Theorem C44_rows_decrease s : reached s →
  StronglySorted (λ new old, r_cost new < r_cost old) (a_rows D s) ∧
  ∀ r, r ∈ a_rows D s → ∃ p, (r_cost r, p) ∈ a_sols D s.
Proof.
  intros (g & X & Hg)%reached_good. split; [apply (gd_rdec _ _ _ _ _ _ _ Hg)|].
  intros r Hr. by destruct (gd_rlt _ _ _ _ _ _ _ Hg r Hr) as [? _].
Qed.

(** With a consistent heuristic the bound of a row is right: the incumbent's cost is at most bound
    times the cost of any solution. The bound 0 that is printed when no node with a smaller f is left
    stands for 1. *)
Theorem C44_bounds s r : consistent h → reached s → r ∈ a_rows D s →
  let '(p, q) := r_bound r in
  0 < q ∧ p * wd ≤ r_wt r * q ∧
  ((p, q) = (0, 1) ∧ (∀ ss os k, solution s0 ss os k → r_cost r ≤ k) ∨
   ∀ ss os k, solution s0 ss os k → r_cost r * q ≤ p * k).
Proof.
  intros Hc (g & X & Hg)%reached_good Hr. pose proof (gd_rows _ _ _ _ _ _ _ Hg) as Hs. rewrite Forall_forall in Hs.
  destruct (Hs _ Hr) as [H1 H2 H3 H4 H5]. specialize (H5 Hc). by destruct (r_bound r) as [p q].
Qed.

(** With a heuristic that is only admissible, this holds of the bounds that are smaller than the weight. *)
Theorem C44_bounds_admissible s r : admissible h → reached s → r ∈ a_rows D s →
  let '(p, q) := r_bound r in
  p * wd < r_wt r * q →
  ((p, q) = (0, 1) ∧ (∀ ss os k, solution s0 ss os k → r_cost r ≤ k) ∨
   ∀ ss os k, solution s0 ss os k → r_cost r * q ≤ p * k).
Proof.
  intros Hc (g & X & Hg)%reached_good Hr. pose proof (gd_rows _ _ _ _ _ _ _ Hg) as Hs. rewrite Forall_forall in Hs.
  destruct (Hs _ Hr) as [H1 H2 H3 H4 H5]. specialize (H4 Hc). by destruct (r_bound r) as [p q].
Qed.

(** The search ends if finitely many states can be reached. *)
Theorem C44_terminates : wd ≤ wn0 → 0 < dw → finite_space s0 → ∃ r, ends (arastar D h wn0 dw wd lim s0) r.
Proof.
  intros Hw Hd [U HU]. destruct (ainit_good D h wn0 dw wd lim s0 OK Hh Hwd Hw Hd) as (s & Hs & Hg & _).
  destruct (aloop_ends D h wn0 dw wd lim s0 OK Hh Hwd U Hd HU _ _ s false [] Hg (le_n _) (le_n _)) as (r & k & Hk).
  exists r, k. intros n Hn. unfold arastar. rewrite Hs. by apply Hk.
Qed.

End props.

Section props2.
Set Default Proof Using "All".
Context (D : domain) (h : St D → Z) (wn0 dw wd : Z) (s0 : St D).
Context (OK : domain_ok D) (Hh : ∀ s, 0 ≤ h s) (Hwd : 0 < wd).

(** A search without limits ends with a cheapest solution, or without one if there is none. *)
Theorem C44_optimal fuel s' conv : consistent h →
  arastar D h wn0 dw wd no_limits s0 fuel = Some (s', conv) →
  match head (a_sols D s') with
  | Some (c, (path, os)) =>
      solution s0 (reverse path) (reverse os) c ∧ ∀ ss' os' k', solution s0 ss' os' k' → c ≤ k'
  | None => ∀ ss os k, ¬ solution s0 ss os k
  end.
Proof.
  intros Hcons Hr. destruct (arastar_end D h wn0 dw wd no_limits s0 OK Hh Hwd _ _ _ Hr) as (X & Hg & He).
  pose proof (consistent_admissible D h h Hcons (λ t, Z.le_refl _)) as Hadm.
  assert (Hopt : ∀ ss os k, solution s0 ss os k → ∃ c, a_cost D s' = Some c ∧ c ≤ k).
  { intros ss os k Hs. destruct conv.
    - destruct He as [Hw [Hl|Hgn]]; [done|].
      by apply (converged_optimal D h wn0 dw wd no_limits s0 OK Hh Hwd s' X ss os k).
    - destruct He as [Hi [Hl|Ho]]; [done|].
      by apply (empty_optimal D h wn0 dw wd no_limits s0 OK Hh Hwd s' X ss os k). }
  rewrite (gd_cost _ _ _ _ _ _ _ Hg) in Hopt. pose proof (gd_sols _ _ _ _ _ _ _ Hg) as Hs.
  destruct (a_sols D s') as [|[c [path os]] l]; simpl in *.
  - intros ss os k Hsol. by destruct (Hopt ss os k Hsol) as (c & ? & _).
  - apply Forall_cons in Hs as [(_ & k & Hk & Hle) _]. simpl in *.
    assert (Hmin : ∀ ss' os' k', solution s0 ss' os' k' → c ≤ k').
    { intros ss' os' k' Hs'. by destruct (Hopt ss' os' k' Hs') as (c' & [= <-] & ?). }
    specialize (Hmin _ _ _ Hk) as Hck. split; [|done]. by replace c with k by lia.
Qed.

Theorem C44_solves : consistent h → wd ≤ wn0 → 0 < dw → finite_space s0 →
  (∃ s' conv c path os l, ends (arastar D h wn0 dw wd no_limits s0) (s', conv) ∧ a_sols D s' = (c, (path, os)) :: l ∧
     solution s0 (reverse path) (reverse os) c ∧ ∀ ss' os' k', solution s0 ss' os' k' → c ≤ k') ∨
  (∃ s' conv, ends (arastar D h wn0 dw wd no_limits s0) (s', conv) ∧ a_sols D s' = [] ∧ ∀ ss os k, ¬ solution s0 ss os k).
Proof.
  intros Hcons Hw Hd Hf. destruct (C44_terminates D h wn0 dw wd no_limits s0 OK Hh Hwd Hw Hd Hf) as [[s' conv] Hends].
  pose proof Hends as [n Hn]. specialize (Hn n (le_n _)). pose proof (C44_optimal n s' conv Hcons Hn) as Hopt.
  destruct (a_sols D s') as [|[c [path os]] l] eqn:E; simpl in Hopt.
  - right. by exists s', conv.
  - left. by exists s', conv, c, path, os, l.
Qed.
End props2.

(** ** Examples and refutations *)

(** What a run leaves: the rows, the incumbents, and whether it says it has converged. *)
Definition ashow {D} (r : option (astate D * bool)) :=
  '(s, conv) ← r; Some (a_rows D s, a_sols D s, conv).

(** Weights 3, 2, 1. *)
Definition ara_dom : domain := table_domain
  [(0%nat, 1%nat, 3); (0%nat, 2%nat, 1); (2%nat, 1%nat, 1); (1%nat, 4%nat, 4); (4%nat, 3%nat, 4); (2%nat, 5%nat, 3);
   (5%nat, 6%nat, 3); (6%nat, 3%nat, 1)] 3.
Definition ara_h (s : St ara_dom) : Z :=
  match s with 0%nat => 3 | 1%nat => 1 | 2%nat => 2 | 4%nat => 1 | 5%nat => 4 | 6%nat => 1 | _ => 0 end.

Example ara_dom_ok : domain_ok ara_dom.
Proof. by apply table_ok. Qed.
Example ara_h_nonneg s : 0 ≤ ara_h s.
Proof. do 7 (destruct s as [|s]; [done|]). done. Qed.
Example ara_consistent : consistent ara_h.
Proof.
  split.
  - intros s Hs. apply bool_decide_eq_true in Hs as ->. done.
  - intros s t Ht. apply elem_of_list_fmap in Ht as (e & -> & He).
    apply elem_of_list_filter in He as [<- He].
    repeat (apply elem_of_cons in He as [->|He]; [vm_compute; done|]). by apply elem_of_nil in He.
Qed.
Example ara_finite : finite_space (D:=ara_dom) 0%nat.
Proof.
  apply (closed_finite (D:=ara_dom) [0; 1; 2; 3; 4; 5; 6]%nat); [vm_compute; set_solver|].
  intros s t _ Ht. apply elem_of_list_fmap in Ht as (e & -> & He).
  apply elem_of_list_filter in He as [<- He]. unfold dest. simpl.
  repeat (apply elem_of_cons in He as [->|He]; [simpl; set_solver|]). by apply elem_of_nil in He.
Qed.

(** Three incumbents. The cost printed with the first one is more than its path costs (10): state 1 was
    reached by a cheaper path after state 4 was made from it. *)
Example ara_run :
  ashow (arastar ara_dom ara_h 3 1 1 no_limits 0%nat 50) = Some
    ([Row 1 (1, 1) 8; Row 2 (10, 8) 10; Row 3 (3, 1) 11],
     [(8, ([3; 6; 5; 2; 0], [3; 6; 5; 2])%nat);
      (10, ([3; 4; 1; 2; 0], [3; 4; 1; 2])%nat);
      (11, ([3; 4; 1; 2; 0], [3; 4; 1; 2])%nat)], true).
Proof. vm_compute. done. Qed.

Example ara_solves :
  (∃ s' conv c path os l, ends (arastar ara_dom ara_h 3 1 1 no_limits 0%nat) (s', conv) ∧
     a_sols ara_dom s' = (c, (path, os)) :: l ∧
     solution (D:=ara_dom) 0%nat (reverse path) (reverse os) c ∧ ∀ ss' os' k', solution (D:=ara_dom) 0%nat ss' os' k' → c ≤ k') ∨
  (∃ s' conv, ends (arastar ara_dom ara_h 3 1 1 no_limits 0%nat) (s', conv) ∧ a_sols ara_dom s' = [] ∧
     ∀ ss os k, ¬ solution (D:=ara_dom) 0%nat ss os k).
Proof. apply C44_solves; [apply ara_dom_ok|apply ara_h_nonneg|done|apply ara_consistent|done|done|apply ara_finite]. Qed.

(** The rows and incumbents of the theorems exist. *)
Example ara_reached : ∃ s, reached ara_dom ara_h 3 1 1 no_limits 0%nat s ∧
  Row 2 (10, 8) 10 ∈ a_rows ara_dom s ∧ (10, ([3; 4; 1; 2; 0], [3; 4; 1; 2])%nat) ∈ a_sols ara_dom s.
Proof.
  destruct (arastar ara_dom ara_h 3 1 1 no_limits 0%nat 50) as [[s conv]|] eqn:E.
  2: { pose proof ara_run as H. rewrite E in H. done. }
  exists s. split; [right; exists 50%nat, conv; exact E|]. pose proof ara_run as H. rewrite E in H. simpl in H.
  apply (inj Some) in H. clear E. injection H as -> -> ->. split; [right; left|right; left].
Qed.

(** The exact cost is not always the printed one. *)
Theorem C44_exact_cost_refuted :
  ∃ s, reached ara_dom ara_h 3 1 1 no_limits 0%nat s ∧
  ∃ c path os k, (c, (path, os)) ∈ a_sols ara_dom s ∧ (∃ r, r ∈ a_rows ara_dom s ∧ r_cost r = c) ∧
    solution (D:=ara_dom) 0%nat (reverse path) (reverse os) k ∧ k < c.
Proof.
  destruct (arastar ara_dom ara_h 3 1 1 no_limits 0%nat 50) as [[s conv]|] eqn:E.
  2: { pose proof ara_run as H. rewrite E in H. done. }
  exists s. split; [right; exists 50%nat, conv; exact E|]. pose proof ara_run as H. rewrite E in H. simpl in H.
  apply (inj Some) in H. clear E. injection H as -> -> ->.
  exists 11, [3; 4; 1; 2; 0]%nat, [3; 4; 1; 2]%nat, 10. split; [right; right; left|].
  split; [exists (Row 3 (3, 1) 11); split; [right; right; left|done]|]. split; [|done].
  change (solution (D:=ara_dom) 0%nat [0; 2; 1; 4; 3]%nat [2; 1; 4; 3]%nat 10).
  split; [|split; [done|by exists 3%nat]].
  apply (walk_step ara_dom 0%nat 2%nat [1; 4; 3]%nat [1; 4; 3]%nat 9); [vm_compute; set_solver|].
  apply (walk_step ara_dom 2%nat 1%nat [4; 3]%nat [4; 3]%nat 8); [vm_compute; set_solver|].
  apply (walk_step ara_dom 1%nat 4%nat [3]%nat [3]%nat 4); [vm_compute; set_solver|].
  apply (walk_step ara_dom 4%nat 3%nat [] [] 0); [vm_compute; set_solver|]. constructor.
Qed.

(** The bound 0: a row whose printed bound is no bound at all, though the heuristic is consistent. *)
Definition line_dom : domain := table_domain [(0%nat, 1%nat, 1); (1%nat, 2%nat, 1)] 2.

(** (And since the open list is empty then, the search says it has not converged.) *)
Example line_run :
  ashow (arastar line_dom (λ _, 0) 3 1 1 no_limits 0%nat 50) = Some ([Row 3 (0, 1) 2], [(2, ([2; 1; 0], [2; 1])%nat)], false).
Proof. vm_compute. done. Qed.

Theorem C44_bound_zero_refuted :
  ¬ ∀ D (h : St D → Z) wn0 dw wd lim s0, domain_ok D → (∀ s, 0 ≤ h s) → 0 < wd → consistent h →
    ∀ s r, reached D h wn0 dw wd lim s0 s → r ∈ a_rows D s →
    ∀ ss os k, solution s0 ss os k → r_cost r * (r_bound r).2 ≤ (r_bound r).1 * k.
Proof.
  intros H. destruct (arastar line_dom (λ _, 0) 3 1 1 no_limits 0%nat 50) as [[s conv]|] eqn:E.
  2: { pose proof line_run as H'. rewrite E in H'. done. }
  assert (Hr : Row 3 (0, 1) 2 ∈ a_rows line_dom s).
  { pose proof line_run as H'. rewrite E in H'. simpl in H'. apply (inj Some) in H'. clear E. injection H' as -> _ _. left. }
  assert (Hs : reached line_dom (λ _, 0) 3 1 1 no_limits 0%nat s) by (right; exists 50%nat, conv; exact E). clear E.
  assert (Hok : domain_ok line_dom) by by apply table_ok.
  specialize (H line_dom (λ _, 0) 3 1 1 no_limits 0%nat Hok (λ _, Z.le_refl 0) eq_refl).
  feed specialize H.
  { split; [done|]. intros a t Ht. pose proof (ok_cost Hok _ _ Ht). lia. }
  specialize (H s (Row 3 (0, 1) 2) Hs Hr). clear Hs.
  specialize (H [0; 1; 2]%nat [1; 2]%nat 2). simpl in H. cut (solution (D:=line_dom) 0%nat [0; 1; 2]%nat [1; 2]%nat 2).
  { intros Hs. specialize (H Hs). lia. }
  split; [|split; [done|by exists 2%nat]].
  apply (walk_step line_dom 0%nat 1%nat [2]%nat [2]%nat 1); [vm_compute; set_solver|].
  apply (walk_step line_dom 1%nat 2%nat [] [] 0); [vm_compute; set_solver|]. constructor.
Qed.

(** "converged yes" is printed when a limit ends the last iteration, here without any solution found. *)
Theorem C44_converged_under_limit_refuted :
  ashow (arastar line_dom (λ _, 0) 1 1 1 (Limits 1 0 (λ _, false)) 0%nat 50) = Some ([], [], true) ∧
  solution (D:=line_dom) 0%nat [0; 1; 2]%nat [1; 2]%nat 2.
Proof.
  split; [vm_compute; done|]. split; [|split; [done|by exists 2%nat]].
  apply (walk_step line_dom 0%nat 1%nat [2]%nat [2]%nat 1); [vm_compute; set_solver|].
  apply (walk_step line_dom 1%nat 2%nat [] [] 0); [vm_compute; set_solver|]. constructor.
Qed.

(** With a heuristic that is admissible but not consistent, "converged yes" and the bound 1 can be
    wrong, without any limit: the inconsistent nodes of the last iteration are never expanded. *)
Definition inc_dom : domain := table_domain
  [(0%nat, 1%nat, 6); (0%nat, 2%nat, 2); (2%nat, 1%nat, 2); (1%nat, 3%nat, 10); (0%nat, 5%nat, 7); (5%nat, 3%nat, 8)] 3.
Definition inc_h (s : St inc_dom) : Z := match s with 2%nat => 12 | _ => 0 end.
Definition inc_dist (s : nat) : Z := match s with 0%nat => 14 | 1%nat => 10 | 2%nat => 12 | 5%nat => 8 | _ => 0 end.

Theorem C44_inconsistent_refuted :
  domain_ok inc_dom ∧ admissible inc_h ∧ (∀ s, 0 ≤ inc_h s) ∧
  ashow (arastar inc_dom inc_h 1 1 1 no_limits 0%nat 50) = Some ([Row 1 (1, 1) 15], [(15, ([3; 5; 0], [3; 5])%nat)], true) ∧
  solution (D:=inc_dom) 0%nat [0; 2; 1; 3]%nat [2; 1; 3]%nat 14.
Proof.
  split_and!.
  - by apply table_ok.
  - apply (consistent_admissible inc_dom inc_h inc_dist).
    + split.
      * intros s Hs. apply bool_decide_eq_true in Hs as ->. done.
      * intros s t Ht. apply elem_of_list_fmap in Ht as (e & -> & He).
        apply elem_of_list_filter in He as [<- He].
        repeat (apply elem_of_cons in He as [->|He]; [vm_compute; done|]). by apply elem_of_nil in He.
    + intros s. do 6 (destruct s as [|s]; [vm_compute; done|]). done.
  - intros s. do 6 (destruct s as [|s]; [vm_compute; done|]). done.
  - vm_compute. done.
  - split; [|split; [done|by exists 3%nat]].
    apply (walk_step inc_dom 0%nat 2%nat [1; 3]%nat [1; 3]%nat 12); [vm_compute; set_solver|].
    apply (walk_step inc_dom 2%nat 1%nat [3]%nat [3]%nat 10); [vm_compute; set_solver|].
    apply (walk_step inc_dom 1%nat 3%nat [] [] 0); [vm_compute; set_solver|]. constructor.
Qed.

Print Assumptions C44_incumbents_improve.
Print Assumptions C44_incumbents_valid.
Print Assumptions C44_rows_decrease.
Print Assumptions C44_bounds.
Print Assumptions C44_bounds_admissible.
Print Assumptions C44_terminates.
Print Assumptions C44_optimal.
Print Assumptions C44_solves.
Print Assumptions C44_exact_cost_refuted.
Print Assumptions C44_bound_zero_refuted.
Print Assumptions C44_converged_under_limit_refuted.
Print Assumptions C44_inconsistent_refuted.
