(** Properties C05 and C06: Intpq. *)
From stdpp Require Import prelude.
From Coq Require Import ZArith Lia ZifyNat.
From Verif.Intpq Require Import Model Proofs.

(** ** Specification: the contents are a list of (element, priority), most
    recently pushed first. *)
Definition remove (e : nat) (c : list (nat * nat)) : list (nat * nat) :=
  filter (λ x, x.1 ≠ e) c.

Definition contents_step (c : list (nat * nat)) (o : op) (r : option nat) : list (nat * nat) :=
  match o with
  | OPush e p => (e, p) :: c
  | OPop => match r with Some e => remove e c | None => c end
  | ORm e _ => remove e c
  end.

(** Priorities must leave room for the growth formula (below about 2^32/1.5);
    elements are pushed only when absent and removed, with their priority, only
    when present. *)
Definition legal (c : list (nat * nat)) (o : op) : Prop :=
  match o with
  | OPush e p => e ∉ c.*1 ∧ (3 * (Z.of_nat p + 1) / 2 < 2 ^ 32)%Z
  | OPop => True
  | ORm e p => (e, p) ∈ c
  end.

Inductive reach : pq → list (nat * nat) → Prop :=
  | reach_new sz nxt0 : reach (new sz nxt0) []
  | reach_step s c o s' r :
      reach s c → legal c o → step s o = Some (s', r) → reach s' (contents_step c o r).

(** [e] has minimal priority and was pushed last among those of that priority. *)
Definition next (c : list (nat * nat)) (e : nat) : Prop :=
  ∃ c1 p c2, c = c1 ++ (e, p) :: c2 ∧
    (∀ x q, (x, q) ∈ c → p ≤ q) ∧ (∀ x q, (x, q) ∈ c1 → q ≠ p).

Lemma chain_next c p e l :
  chain c p = e :: l → ∃ c1 c2, c = c1 ++ (e, p) :: c2 ∧ ∀ x q, (x, q) ∈ c1 → q ≠ p.
Proof.
  induction c as [|[x q] c IH]; intros Hc; [done|]. rewrite chain_cons in Hc.
  case_decide as Hq.
  - injection Hc as -> _. subst q. exists [], c. split; [done|].
    intros y r H. by apply elem_of_nil in H.
  - destruct (IH Hc) as (c1 & c2 & -> & H1). exists ((x, q) :: c1), c2. split; [done|].
    intros y r [H|H]%elem_of_cons; [congruence|by eapply H1].
Qed.

Lemma step_repr s c o :
  repr s c → legal c o →
  ∃ s' r, step s o = Some (s', r) ∧ repr s' (contents_step c o r) ∧
    match o with
    | OPop => match r with None => c = [] | Some e => next c e end
    | _ => r = None
    end.
Proof.
  intros Hr Hl. destruct o as [e p| |e p]; simpl in *.
  - destruct Hl as [He Hp]. destruct (push_spec s c e p) as (s' & -> & Hr'); [done..|].
    simpl. eauto.
  - pose proof (pop_spec s c Hr) as Hpop. case_decide as Hc.
    + rewrite Hpop. eexists _, _. split; [done|]. done.
    + destruct Hpop as (s' & e & p & l & -> & Hr' & Hch & Hmin).
      eexists _, _. split; [done|]. split; [done|].
      destruct (chain_next _ _ _ _ Hch) as (c1 & c2 & Hcc & H1).
      exists c1, p, c2. done.
  - destruct (rm_spec s c e p) as (s' & -> & Hr'); [done..|]. simpl. eauto.
Qed.

Lemma reach_repr s c : reach s c → repr s c.
Proof.
  induction 1 as [sz nxt0|s c o s' r Hr IH Hl Hs].
  - apply new_repr.
  - destruct (step_repr s c o) as (s'' & r' & Hs' & Hrepr & _); [done..|]. by simplify_eq.
Qed.

(** ** C05 *)
Theorem C05_legal_operations_succeed s c o :
  reach s c → legal c o → is_Some (step s o).
Proof.
  intros Hr Hl. apply reach_repr in Hr.
  destruct (step_repr s c o) as (s' & r & -> & _); by eauto.
Qed.

Theorem C05_pop_returns_newest_of_least_priority s c :
  reach s c →
  ∃ s' r, pop s = Some (s', r) ∧ match r with None => c = [] | Some e => next c e end.
Proof.
  intros Hr. apply reach_repr in Hr.
  destruct (step_repr s c OPop) as (s' & r & Hs & _ & Hn); [done..|]. eauto.
Qed.

Theorem C05_mem_empty_exact s c :
  reach s c →
  (∀ e, mem s e = true ↔ e ∈ c.*1) ∧ (empty s = true ↔ c = []) ∧ NoDup c.*1.
Proof.
  intros Hr. apply reach_repr in Hr. split_and!.
  - intros e. unfold mem. pose proof (r_out _ _ Hr e) as Ho.
    destruct (prev s e), (decide (e ∈ c.*1)); naive_solver.
  - unfold empty. rewrite bool_decide_eq_true, (r_fill _ _ Hr).
    destruct c; simpl; [done|]. split; [lia|done].
  - apply Hr.
Qed.

(** rm removes exactly its argument: the remaining operations behave as if it
    had never been there (they are described by [remove e c]). *)
Theorem C05_rm_removes_exactly s c e p :
  reach s c → (e, p) ∈ c →
  ∃ s', rm s e p = Some s' ∧ mem s' e = false ∧ (∀ x, x ≠ e → mem s' x = mem s x) ∧
    ∃ s'' r, pop s' = Some (s'', r) ∧
      match r with None => remove e c = [] | Some y => next (remove e c) y end.
Proof.
  intros Hr He. destruct (rm_spec s c e p) as (s' & Hrm & _); [by apply reach_repr|done|].
  assert (reach s' (remove e c)) as Hr'.
  { eapply (reach_step s c (ORm e p) s' None); [done..|]. simpl. by rewrite Hrm. }
  exists s'. split; [done|].
  pose proof (proj1 (C05_mem_empty_exact _ _ Hr)) as Hm.
  pose proof (proj1 (C05_mem_empty_exact _ _ Hr')) as Hm'.
  assert (∀ x, x ∈ (remove e c).*1 ↔ x ≠ e ∧ x ∈ c.*1) as Hin.
  { intros x. unfold remove. rewrite !elem_of_list_fmap. setoid_rewrite elem_of_list_filter.
    split; [intros ([y q] & -> & ? & ?)|intros (? & [y q] & -> & ?)]; simpl in *.
    - split; [done|]. by exists (y, q).
    - by exists (y, q). }
  split_and!.
  - apply not_true_iff_false. rewrite Hm', Hin. tauto.
  - intros x Hx. apply eq_bool_prop_intro. split; intros H%Is_true_true; apply Is_true_true;
      rewrite ?Hm, ?Hm', ?Hin in *; tauto.
  - by apply C05_pop_returns_newest_of_least_priority.
Qed.

(** ** C06: clear does not reset the entries. *)
Theorem C06_clear_leaves_entries_marked s c e p :
  reach s c → (e, p) ∈ c →
  empty (clear s) = true ∧ mem (clear s) e = true ∧
  (∃ s', rm (clear s) e p = Some s' ∧ empty s' = false ∧
     ((∀ x, (x, p) ∈ c → x = e) → pop s' = None)).
Proof.
  intros Hr He. pose proof (reach_repr _ _ Hr) as Hrep.
  pose proof (proj1 (C05_mem_empty_exact _ _ Hr)) as Hm.
  assert (mem s e = true) as Hmem.
  { apply Hm. apply elem_of_list_fmap. by exists (e, p). }
  split_and!; [done|done|].
  unfold rm. change (mem (clear s) e) with (mem s e). rewrite Hmem.
  change (fst_in (clear s) e) with (fst_in s e).
  assert (∀ n, skip (replicate n None) = n) as Hsk by (by induction n as [|n IHn]; simpl; f_equal).
  assert (∀ n i, skip (<[i := None]> (replicate n None)) = n) as Hsk'.
  { intros n i. rewrite list_insert_id'; [done|]. intros Hi.
    rewrite replicate_length in Hi. by apply lookup_replicate. }
  destruct (fst_in s e) eqn:Hf.
  - simpl. rewrite replicate_length, decide_True by (by eapply Hrep).
    eexists. split; [done|]. split; [done|]. intros Hone.
    unfold pop. simpl. rewrite drop_0.
    assert (nxt s e = None) as Hne.
    { pose proof (r_link _ _ Hrep p) as Hl.
      assert (e ∈ chain c p) as Hec by by apply elem_of_chain.
      assert (∀ x, x ∈ chain c p → x = e) as Hall.
      { intros x Hx. apply elem_of_chain in Hx. by apply Hone. }
      pose proof (NoDup_chain c p (r_nodup _ _ Hrep)) as Hnd.
      destruct (chain c p) as [|a [|b l]]; [by apply elem_of_nil in Hec| |].
      - simpl in Hl. assert (a = e) as -> by (apply Hall; by left). apply Hl.
      - assert (a = e) as -> by (apply Hall; by left).
        assert (b = e) as -> by (apply Hall; right; by left).
        apply NoDup_cons in Hnd as [Hnd _]. exfalso. apply Hnd. by left. }
    rewrite Hne, Hsk'.
    by rewrite lookup_ge_None_2 by (rewrite insert_length, replicate_length; done).
  - simpl. unfold mem in Hmem. destruct (prev s e); [|done]. simpl.
    eexists. split; [done|]. split; [done|]. intros _.
    unfold pop. simpl. rewrite drop_0, Hsk.
    by rewrite lookup_ge_None_2 by (rewrite replicate_length; done).
Qed.

(** Removing a stale bucket head makes its old successor reappear: pop returns
    an element although nothing has been pushed since clear. *)
Theorem C06_rm_after_clear_resurrects s c e f p l :
  reach s c → filter (λ x, x.2 = p) c = (e, p) :: (f, p) :: l →
  ∃ s', rm (clear s) e p = Some s' ∧ ∃ s'', pop s' = Some (s'', Some f).
Proof.
  intros Hr Hc. pose proof (reach_repr _ _ Hr) as Hrep.
  pose proof (r_link _ _ Hrep p) as Hl. unfold chain in Hl. rewrite Hc in Hl. simpl in Hl.
  destruct Hl as (Hpe & Hne & _).
  assert ((e, p) ∈ c) as He.
  { assert ((e, p) ∈ filter (λ x, x.2 = p) c) as H by (rewrite Hc; by left).
    by apply elem_of_list_filter in H as [_ ?]. }
  assert (p < length (bins s)) as Hp by by eapply Hrep.
  unfold rm. change (mem (clear s) e) with (mem s e). unfold mem. rewrite Hpe.
  change (fst_in (clear s) e) with (fst_in s e). unfold fst_in.
  rewrite bool_decide_eq_true_2 by done. simpl.
  rewrite replicate_length, decide_True by done.
  eexists. split; [done|]. unfold pop. simpl. rewrite drop_0, Hne.
  assert (∀ n i x, i < n → skip (<[i := Some x]> (replicate n None)) = i) as Hsk.
  { intros n. induction n as [|n IHn]; intros i x Hi; [lia|].
    destruct i; simpl; [done|]. f_equal. apply IHn. lia. }
  rewrite Hsk by done.
  rewrite list_lookup_insert by (by rewrite replicate_length). simpl. eauto.
Qed.

(** ** Non-vacuity *)
Definition ex_ops : list op :=
  [OPush 1 5; OPush 2 5; OPush 3 2; OPush 4 9; OPop; OPush 5 5; ORm 2 5; OPush 6 7; OPush 7 5].

Definition legalb (c : list (nat * nat)) (o : op) : bool :=
  match o with
  | OPush e p => bool_decide (e ∉ c.*1) && bool_decide (3 * (Z.of_nat p + 1) / 2 < 2 ^ 32)%Z
  | OPop => true
  | ORm e p => bool_decide ((e, p) ∈ c)
  end.

Fixpoint steps (s : pq) (c : list (nat * nat)) (os : list op) : option (pq * list (nat * nat)) :=
  match os with
  | [] => Some (s, c)
  | o :: os =>
    if legalb c o then '(s', r) ← step s o; steps s' (contents_step c o r) os else None
  end.

Lemma steps_reach s c os s' c' : reach s c → steps s c os = Some (s', c') → reach s' c'.
Proof.
  revert s c. induction os as [|o os IH]; intros s c Hr Hs; simpl in Hs; [by simplify_eq|].
  destruct (legalb c o) eqn:Hl; [|done].
  assert (legal c o).
  { destruct o; simpl in *; rewrite ?andb_true_iff, ?bool_decide_eq_true in Hl; tauto. }
  destruct (step s o) as [[s1 r]|] eqn:Hst; [|done]. simpl in Hs.
  eapply IH; [|done]. by eapply reach_step.
Qed.

(** A queue created with 4 bins that has grown; buckets with several entries. *)
Example ex_reach : ∃ s, reach s [(7, 5); (6, 7); (5, 5); (4, 9); (1, 5)] ∧
  next [(7, 5); (6, 7); (5, 5); (4, 9); (1, 5)] 7.
Proof.
  assert (option_map snd (steps (new 4 (λ _, None)) [] ex_ops) =
          Some [(7, 5); (6, 7); (5, 5); (4, 9); (1, 5)]) as H by (vm_compute; reflexivity).
  destruct (steps (new 4 (λ _, None)) [] ex_ops) as [[s c]|] eqn:E; [|discriminate H].
  cbn [option_map snd] in H. injection H as ->.
  exists s. split; [eapply steps_reach; [constructor|exact E]|].
  clear E. exists [], 5, [(6, 7); (5, 5); (4, 9); (1, 5)]. split_and!; [done| |].
  - intros x q H. repeat (apply elem_of_cons in H as [H|H]; [simplify_eq; lia|]).
    by apply elem_of_nil in H.
  - intros x q H. by apply elem_of_nil in H.
Qed.

Print Assumptions C05_legal_operations_succeed.
Print Assumptions C05_pop_returns_newest_of_least_priority.
Print Assumptions C05_mem_empty_exact.
Print Assumptions C05_rm_removes_exactly.
Print Assumptions C06_clear_leaves_entries_marked.
Print Assumptions C06_rm_after_clear_resurrects.
