(** Sorting pancakes with iterative deepening: C73. *)
From stdpp Require Import prelude.
From Coq Require Import ZArith Lia.
From Verif Require Import Common.Fuel Pancake.Model Pancake.Props.
From Verif Require Import Search.Model Search.Props Search.Solve.
From Verif Require Ida.Model.
Local Open Scope nat_scope.

Section domain.
Set Default Proof Using "All".
Context (N : nat).

Definition stack : Type := dsig (λ l : list Z, l ≡ₚ sorted_stack N).

(** A state with its number of gaps. *)
Definition load (l : stack) : state := State (proj1_sig l) (default 0%Z (ngaps N (proj1_sig l))).
Definition store (s : state) (dflt : stack) : stack :=
  match decide (cakes s ≡ₚ sorted_stack N) with left p => dexist (cakes s) p | right _ => dflt end.

(** The domain as search/idastar.hpp uses it: it keeps no states but the one it changes. *)
Definition cake_domain : domain := {|
  St := stack; Op := Z; St_eq := _; Op_eq := _;
  nop := Nop;
  ops _ := operators N;
  edge l op :=
    match mkedge N (load l) op with
    | Some e => (store (e_state e) l, e_cost e, e_revop e)
    | None => (l, 1%Z, Nop)
    end;
  isgoal l := Pancake.Model.isgoal (load l);
|}.
Definition cake_h (l : St cake_domain) : Z := hval (load l).

Lemma stack_perm (l : stack) : proj1_sig l ≡ₚ sorted_stack N.
Proof. apply (proj2_dsig l). Qed.
Lemma load_reached l : reached N (proj1_sig l) (load l).
Proof.
  apply reached_init. unfold initialstate, load. rewrite ngaps_sum; [done|]. apply perm_length, stack_perm.
Qed.
Lemma load_wf l : wf N (load l).
Proof. apply (reached_wf N (proj1_sig l)); [apply perm_length, stack_perm|apply load_reached]. Qed.

Lemma wf_eq s s' : wf N s → wf N s' → cakes s = cakes s' → s = s'.
Proof. destruct s, s'. intros [_ H1] [_ H2]. simpl in *. intros ->. congruence. Qed.

Lemma cake_step (l : St cake_domain) op : op ∈ ops l →
  ∃ e, mkedge N (load l) op = Some e ∧ load (dest l op) = e_state e ∧ e_cost e = 1%Z ∧ e_revop e = op ∧
    proj1_sig (dest l op) = turned (Z.to_nat op) (proj1_sig l) ∧
    cost l op = 1%Z ∧ revop l op = op ∧ (Z.abs (hval (e_state e) - hval (load l)) ≤ 1)%Z.
Proof.
  intros Hop. simpl in Hop. pose proof (load_wf l) as Hwf. apply operators_elem in Hop as (p & -> & Hp).
  destruct (edge_spec N (load l) p Hwf Hp) as (e & He & Hc & Hr & _ & Hcakes & Hwf' & Hab).
  exists e. rewrite Nat2Z.id.
  assert (Hd : dest l (Z.of_nat p) = store (e_state e) l) by (unfold dest; simpl; by rewrite He).
  assert (Hs : proj1_sig (dest l (Z.of_nat p)) = turned p (proj1_sig l)).
  { rewrite Hd. unfold store. case_decide as Hperm; [exact Hcakes|]. destruct Hperm.
    rewrite Hcakes, turned_perm. apply stack_perm. }
  split_and!; try done.
  - apply wf_eq; [apply load_wf|done|]. simpl. by rewrite Hs, Hcakes.
  - unfold cost. simpl. by rewrite He.
  - unfold revop. simpl. by rewrite He.
Qed.

Lemma cake_domain_ok : domain_ok cake_domain.
Proof.
  split.
  - intros l op Hop. destruct (cake_step l op Hop) as (e & _ & _ & _ & _ & _ & -> & _). done.
  - intros l op Hop Hrev. destruct (cake_step l op Hop) as (e & _ & _ & _ & _ & Hd & _ & Hr & _).
    rewrite Hr in *. destruct (cake_step (dest l op) op Hrev) as (e' & _ & _ & _ & _ & Hd' & _).
    apply dsig_eq. rewrite Hd', Hd. simpl in Hop. apply operators_elem in Hop as (p & -> & Hp).
    rewrite Nat2Z.id. apply turned_twice. rewrite (perm_length N); [lia|apply stack_perm].
  - intros l Hin. simpl in Hin. apply operators_elem in Hin as (p & Hp & _). unfold Nop in Hp. lia.
Qed.

Lemma cake_h_nonneg l : (0 ≤ cake_h l)%Z.
Proof.
  destruct (load_wf l) as [Hl Hh]. unfold cake_h. rewrite ngaps_sum in Hh by done.
  pose proof (sumgaps_nonneg (gapb N (cakes (load l))) (seq 0 N)) as Hn. apply (inj Some) in Hh.
  by rewrite Hh in Hn.
Qed.

Lemma cake_h_admissible : admissible cake_h.
Proof.
  eapply (consistent_admissible _ _ cake_h); [|done]. split.
  - intros l Hg. simpl in Hg. apply bool_decide_eq_true in Hg. unfold cake_h. lia.
  - intros l op Hop. destruct (cake_step l op Hop) as (e & _ & Hd & _ & _ & _ & -> & _ & Hab).
    unfold cake_h. rewrite Hd. lia.
Qed.

Lemma cake_walk_cost (ss : list (St cake_domain)) os k : walk ss os k → k = Z.of_nat (length os).
Proof.
  induction 1 as [s|s op ss os k Hop Hw IH]; [done|].
  destruct (cake_step s op Hop) as (_ & _ & _ & _ & _ & _ & -> & _). cbn [length].
  rewrite Nat2Z.inj_succ, <-IH. lia.
Qed.

(** pathcost on what a search reports. *)
Lemma pathcost_solution (l : St cake_domain) path os k :
  solution l (reverse path) (reverse os) k →
  pathcost N (proj1_sig l) (load <$> path) os = Some (Z.of_nat (length os)).
Proof.
  intros (Hw & Hh & g & Hl & Hg). unfold pathcost.
  destruct (initial_wf N (proj1_sig l)) as (s & Hi & Hc & Hwf); [apply perm_length, stack_perm|].
  assert (s = load l) as -> by (apply wf_eq; [done|apply load_wf|done]).
  rewrite Hi. cbn [mbind option_bind]. clear Hi Hc Hwf.
  pose proof (walk_rev_first _ _ _ _ _ Hw Hh) as H0. rewrite rev_last in Hl.
  cut (∀ i (p : St cake_domain) c, i ≤ length os → path !! i = Some p →
    pathcost_from N i (load p) (load <$> path) os c = Some (c + Z.of_nat i)%Z).
  { intros Hgo. etrans; [by apply (Hgo (length os) l 0%Z)|]. f_equal. }
  induction i as [|i IH]; intros p c Hle Hp.
  - assert (p = g) as -> by congruence. cbn [pathcost_from]. simpl in Hg. rewrite Hg. f_equal. lia.
  - destruct (lookup_lt_is_Some_2 os i) as [op Hop]; [lia|].
    destruct (walk_rev_lookup _ _ _ _ _ _ Hw Hop) as (p' & Hp' & Hops & Hpd).
    assert (p' = p) as -> by congruence. cbn [pathcost_from].
    assert (Hop' : @lookup nat Z (list Z) (@list_lookup Z) i os = Some op) by exact Hop.
    rewrite Hop'. cbn [mbind option_bind].
    destruct (cake_step p op Hops) as (e & He & Hd & Hec & _).
    rewrite He. cbn [mbind option_bind].
    assert (Hpd' : @lookup nat stack (list stack) (@list_lookup stack) i path = Some (dest p op)) by exact Hpd.
    rewrite list_lookup_fmap, Hpd'. cbn [fmap option_fmap option_map mbind option_bind].
    rewrite <-Hd. assert (state_eqb N (load (dest p op)) (load (dest p op)) = true) as ->.
    { unfold state_eqb. apply forallb_forall. intros j _. by apply bool_decide_eq_true. }
    etrans; [apply (IH (dest p op)); [lia|done]|]. f_equal. rewrite Hec. lia.
Qed.

(** Every stack can be sorted. *)
Lemma turn_reachable (s0 l : St cake_domain) p (t : stack) : 0 < p < N → reachable s0 l →
  proj1_sig t = turned p (proj1_sig l) → reachable s0 t.
Proof.
  intros Hp Hr Ht.
  assert (Hop : Z.of_nat p ∈ ops l) by (simpl; apply operators_elem; by exists p).
  assert (t = dest l (Z.of_nat p)) as ->.
  { destruct (cake_step l (Z.of_nat p) Hop) as (_ & _ & _ & _ & _ & Hd & _). apply dsig_eq.
    rewrite Ht, Hd. by rewrite Nat2Z.id. }
  by apply reachable_step.
Qed.

Lemma mk_stack l : l ≡ₚ sorted_stack N → ∃ t : stack, proj1_sig t = l.
Proof. intros Hp. by exists (dexist l Hp). Qed.

(** Bring cake [k] to the top, then down to its place; the cakes below are in place already. *)
Lemma place_one (s0 l : St cake_domain) k : k < N → reachable s0 l →
  (∀ i, k < i < N → proj1_sig l !! i = Some (Z.of_nat i)) →
  ∃ l' : stack, reachable s0 l' ∧ ∀ i, k ≤ i < N → proj1_sig l' !! i = Some (Z.of_nat i).
Proof.
  intros Hk Hr Hdone. pose proof (stack_perm l) as Hp. pose proof (perm_length N _ Hp) as Hlen.
  assert (Hin : Z.of_nat k ∈ proj1_sig l).
  { rewrite Hp. apply elem_of_list_lookup. exists k. by apply sorted_lookup. }
  apply elem_of_list_lookup_1 in Hin as [j Hj]. assert (Hjl : j < N) by (apply lookup_lt_Some in Hj; lia).
  assert (Hjk : j ≤ k).
  { destruct (decide (j ≤ k)); [done|]. rewrite Hdone in Hj by lia. injection Hj. lia. }
  assert (H1 : ∃ l1 : stack, reachable s0 l1 ∧ proj1_sig l1 !! 0 = Some (Z.of_nat k) ∧
    ∀ i, k < i < N → proj1_sig l1 !! i = Some (Z.of_nat i)).
  { destruct (decide (j = 0)) as [->|Hj0]; [by exists l|].
    destruct (mk_stack (turned j (proj1_sig l))) as [l1 Hl1]; [by rewrite turned_perm|].
    exists l1. split; [by apply (turn_reachable s0 l j); [lia|..]|]. rewrite Hl1. split.
    - rewrite turned_lookup by lia. rewrite decide_True by lia. by rewrite Nat.sub_0_r.
    - intros i Hi. rewrite turned_lookup by lia. rewrite decide_False by lia. by apply Hdone. }
  destruct H1 as (l1 & Hr1 & Htop & Hdone1).
  pose proof (perm_length N _ (stack_perm l1)) as Hlen1.
  destruct (decide (k = 0)) as [->|Hk0].
  { exists l1. split; [done|]. intros i Hi. destruct (decide (i = 0)) as [->|]; [done|]. apply Hdone1. lia. }
  destruct (mk_stack (turned k (proj1_sig l1))) as [l2 Hl2]; [by rewrite turned_perm; apply stack_perm|].
  exists l2. split; [by apply (turn_reachable s0 l1 k); [lia|..]|]. rewrite Hl2. intros i Hi.
  rewrite turned_lookup by lia. case_decide.
  - assert (i = k) as -> by lia. by rewrite Nat.sub_diag.
  - apply Hdone1. lia.
Qed.

Lemma always_solvable (s0 : St cake_domain) : ∃ ss os k, solution s0 ss os k.
Proof.
  assert (H : ∀ m, m ≤ N → ∃ l : stack, reachable (D:=cake_domain) s0 l ∧
    ∀ i, N - m ≤ i < N → proj1_sig l !! i = Some (Z.of_nat i)).
  { induction m as [|m IH]; intros Hm.
    - exists s0. split; [apply reachable_refl|]. lia.
    - destruct IH as (l & Hr & Hl); [lia|].
      destruct (place_one s0 l (N - S m)) as (l' & Hr' & Hl'); [lia|done| |].
      { intros i Hi. apply Hl. lia. }
      by exists l'. }
  destruct (H N (le_n N)) as (l & (ss & os & k & Hw & Hh & Hla) & Hl).
  exists ss, os, k. split; [done|]. split; [done|]. exists l. split; [done|]. simpl.
  apply (C52_zero_exactly_at_sorted N (proj1_sig l)); [apply stack_perm|apply load_reached|].
  apply list_eq. intros i. pose proof (perm_length N _ (stack_perm l)) as Hlen.
  destruct (decide (i < N)).
  - rewrite sorted_lookup by done. apply Hl. lia.
  - rewrite !lookup_ge_None_2; [done| |simpl; lia]. unfold sorted_stack. rewrite fmap_length, seq_length. lia.
Qed.
End domain.

(** For every number of cakes and every stack of them, iterative deepening with the gap heuristic
    ends with a shortest sequence of flips that sorts the stack; the cost computed for it is the
    number of flips, and no assertion fails while computing it. *)
Theorem C73_idastar_sorts_pancakes N (l : stack N) :
  ∃ path os st, ends (Ida.Model.idastar (cake_domain N) (cake_h N) no_limits l) (st, Some (path, os)) ∧
    solution (D:=cake_domain N) l (reverse path) (reverse os) (Z.of_nat (length os)) ∧
    (∀ ss' os' k', solution (D:=cake_domain N) l ss' os' k' → length os ≤ length os') ∧
    pathcost N (proj1_sig l) (load N <$> path) os = Some (Z.of_nat (length os)).
Proof.
  destruct (always_solvable N l) as (ss & os & k & Hsol).
  destruct (idastar_solves (cake_domain N) (cake_h N) (cake_domain_ok N) (cake_h_nonneg N)
    (cake_h_admissible N)) with (s0 := l) (ss := ss) (os := os) (k := k)
    as (path & os1 & st & k1 & He & Hs & Hmin).
  - intros s op Hop. destruct (cake_step N s op Hop) as (_ & _ & _ & _ & _ & _ & -> & _). done.
  - done.
  - pose proof (cake_walk_cost N _ _ _ (proj1 Hs)) as Hk.
    rewrite reverse_length in Hk. exists path, os1, st. rewrite <-Hk. split_and!; [done..| |].
    + intros ss' os' k' Hs'. pose proof (Hmin _ _ _ Hs') as Hle.
      pose proof (cake_walk_cost N _ _ _ (proj1 Hs')). lia.
    + rewrite Hk. by eapply pathcost_solution.
Qed.

(** Solutions are flips of the top cakes that end in the sorted stack. *)
Theorem C73_solutions_are_flips N (l : stack N) ss os k :
  solution (D:=cake_domain N) l ss os k →
  Forall (λ op, 0 < op < Z.of_nat N)%Z os ∧
  foldl (λ l op, turned (Z.to_nat op) l) (proj1_sig l) os = sorted_stack N.
Proof.
  intros (Hw & Hh & g & Hl & Hg). revert l Hh Hl.
  induction Hw as [s|s op ss os k Hop Hw IH]; intros l Hh Hl; simpl in Hh; injection Hh as <-.
  - injection Hl as ->. split; [done|]. simpl in *.
    apply (C52_zero_exactly_at_sorted N (proj1_sig g)) in Hg; [done|apply stack_perm|apply load_reached].
  - destruct (cake_step N s op Hop) as (_ & _ & _ & _ & _ & Hd & _).
    destruct (IH (dest s op) eq_refl Hl) as [Hos Hf]. split.
    + constructor; [|done]. simpl in Hop. apply operators_elem in Hop as (p & -> & Hp). lia.
    + simpl. rewrite <-Hf. f_equal. symmetry. exact Hd.
Qed.

(** ** Example *)
Definition ex_stack : stack 5 := dexist (P:=λ l, l ≡ₚ sorted_stack 5) [3; 0; 1; 2; 4]%Z ex_perm.
Example ex_ida :
  match Ida.Model.idastar (cake_domain 5) (cake_h 5) no_limits ex_stack 100 with
  | Some (_, Some (path, os)) => Some (map (λ s : stack 5, proj1_sig s) path, os)
  | _ => None
  end = Some ([[0; 1; 2; 3; 4]; [2; 1; 0; 3; 4]; [3; 0; 1; 2; 4]]%Z, [2; 3]%Z).
Proof. vm_compute. done. Qed.

Print Assumptions C73_idastar_sorts_pancakes.
Print Assumptions C73_solutions_are_flips.
