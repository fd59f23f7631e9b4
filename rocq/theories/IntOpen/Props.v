(** Property C04 (and the integer-list part of C03): OpenList<int>. *)
From stdpp Require Import prelude fin_maps gmap.
From Coq Require Import ZArith Lia.
From Verif.IntOpen Require Import Model Proofs.

(** ** Specification: a map from contained nodes to (prio, tieprio). *)
Definition contents_step (c : gmap nat (Z * Z)) (o : op) (r : option nat) : gmap nat (Z * Z) :=
  match o with
  | OPush n p t | OUpdate n p t => <[n := (p, t)]> c
  | OPop => match r with Some n => delete n c | None => c end
  end.

(** Pushing a contained node and popping an empty list are not allowed (the
    searches test empty() first); costs are non-negative ints. *)
Definition legal (c : gmap nat (Z * Z)) (o : op) : Prop :=
  match o with
  | OPush n p t => c !! n = None ∧ (0 ≤ p)%Z ∧ (0 ≤ t)%Z
  | OPop => c ≠ ∅
  | OUpdate n p t => (0 ≤ p)%Z ∧ (0 ≤ t)%Z
  end.

Inductive reach : ol → gmap nat (Z * Z) → Prop :=
  | reach_new p t : reach (ol_new p t) ∅
  | reach_step s c o s' r :
      reach s c → legal c o → step s o = Some (s', r) → reach s' (contents_step c o r).

(** [n] is contained, nothing contained has a smaller prio, and nothing with
    the same prio has a larger tieprio. *)
Definition first (c : gmap nat (Z * Z)) (n : nat) : Prop :=
  ∃ p t, c !! n = Some (p, t) ∧
    ∀ m p' t', c !! m = Some (p', t') → (p < p' ∨ p = p' ∧ t' ≤ t)%Z.

Definition repr (s : ol) (c : gmap nat (Z * Z)) : Prop :=
  inv s ∧ fill s = Z.of_nat (size c) ∧
  ∀ n, c !! n = if decide (ind s n = -1)%Z then None else Some (prio s n, tie s n).

Lemma step_repr s c o :
  repr s c → legal c o →
  ∃ s' r, step s o = Some (s', r) ∧ repr s' (contents_step c o r) ∧
    match o with
    | OPop => ∃ n, r = Some n ∧ first c n
    | _ => r = None
    end.
Proof.
  intros (Hinv & Hfill & Hc) Hl. destruct o as [n p t| |n p t]; simpl in *.
  - destruct Hl as (Hn & Hp & Ht).
    assert (ind s n = -1)%Z as Hi. { rewrite Hc in Hn. by case_decide. }
    destruct (push_spec (ol_write s n p t) n) as (s' & -> & Hinv' & Hp' & Ht' & Hf & Hin & Hout).
    { by apply inv_write. }
    { done. }
    { simpl. unfold setind. by rewrite decide_True. }
    { simpl. unfold setind. by rewrite decide_True. }
    simpl. eexists _, _. split; [done|]. split; [|done].
    split_and!; [done| |].
    + rewrite map_size_insert_None by done. simpl in Hf. lia.
    + intros m. rewrite Hp', Ht'. simpl. unfold setind.
      destruct (decide (m = n)) as [->|Hmn].
      * rewrite lookup_insert. by rewrite decide_False by lia.
      * rewrite lookup_insert_ne by done. rewrite Hout by done. simpl. by rewrite Hc.
  - destruct (pop_spec s) as (s' & n & -> & Hinv' & Hp' & Ht' & Hf & Hn & Hin & Hout & Hmin).
    { done. }
    { apply map_choose in Hl as (n & x & Hn). exists n. rewrite Hc in Hn. by case_decide. }
    simpl. eexists _, _. split; [done|].
    assert (c !! n = Some (prio s n, tie s n)) as Hcn.
    { rewrite Hc. by rewrite decide_False. }
    split.
    + split_and!; [done| |].
      * rewrite map_size_delete_Some by (by eexists).
        assert (size c ≠ 0) by (by apply map_size_non_empty_iff). lia.
      * intros m. rewrite Hp', Ht'. destruct (decide (m = n)) as [->|Hmn].
        -- rewrite lookup_delete. by rewrite decide_True.
        -- rewrite lookup_delete_ne by done. rewrite Hout by done. by rewrite Hc.
    + exists n. split; [done|]. exists (prio s n), (tie s n). split; [done|].
      intros m p' t' Hm. rewrite Hc in Hm. case_decide; [done|]. simplify_eq. by apply Hmin.
  - destruct Hl as (Hp & Ht).
    destruct (pre_update_spec s n Hinv) as (s1 & -> & Hinv1 & Hp1 & Ht1 & Hf1 & Hin1 & Hout1).
    simpl. unfold ol_post_update. simpl. rewrite decide_True by lia.
    destruct (push_spec (ol_write s1 n p t) n) as (s' & -> & Hinv' & Hp' & Ht' & Hf & Hin & Hout).
    { by apply inv_write. }
    { done. }
    { simpl. unfold setind. by rewrite decide_True. }
    { simpl. unfold setind. by rewrite decide_True. }
    simpl. eexists _, _. split; [done|]. split; [|done].
    split_and!; [done| |].
    + simpl in Hf. rewrite Hf, Hf1. case_decide as Hi.
      * rewrite map_size_insert_None; [lia|]. rewrite Hc. by rewrite decide_True.
      * rewrite map_size_insert_Some; [lia|]. rewrite Hc, decide_False by done. by eexists.
    + intros m. rewrite Hp', Ht'. simpl. rewrite Hp1, Ht1. unfold setind.
      destruct (decide (m = n)) as [->|Hmn].
      * rewrite lookup_insert. by rewrite decide_False by lia.
      * rewrite lookup_insert_ne by done. rewrite Hout by done. simpl. rewrite Hc.
        destruct (decide (ind s m = -1)%Z), (decide (ind s1 m = -1)%Z); naive_solver.
Qed.

Lemma reach_repr s c : reach s c → repr s c.
Proof.
  induction 1 as [p t|s c o s' r Hr IH Hl Hs].
  - split_and!.
    + split; cbn [ol_new qs ind prio tie min].
      * intros p0 q Hq. apply lookup_replicate in Hq as [-> _]. apply mq_new_ok.
      * intros p0 q _ Hlt. lia.
      * by left.
    + done.
    + intros n. simpl. by rewrite lookup_empty.
  - destruct (step_repr s c o) as (s'' & r' & Hs' & Hrepr & _); [done..|]. by simplify_eq.
Qed.

(** ** C04 *)

(** Every legal operation completes: no vector is read out of range and no
    assertion fails. *)
Theorem C04_legal_operations_succeed s c o :
  reach s c → legal c o → is_Some (step s o).
Proof.
  intros Hr Hl. apply reach_repr in Hr.
  destruct (step_repr s c o) as (s' & r & -> & _); by eauto.
Qed.

(** pop returns a node of minimal prio and, among those, of maximal tieprio. *)
Theorem C04_pop_returns_first s c :
  reach s c → c ≠ ∅ → ∃ s' n, ol_pop s = Some (s', n) ∧ first c n.
Proof.
  intros Hr Hne. apply reach_repr in Hr.
  destruct (step_repr s c OPop) as (s' & r & Hs & _ & n & -> & Hf); [done..|].
  simpl in Hs. destruct (ol_pop s) as [[s1 n1]|] eqn:E; [|done]. simplify_eq/=. eauto.
Qed.

(** empty and mem answer according to the contents. *)
Theorem C04_empty_mem_exact s c :
  reach s c →
  (ol_empty s = true ↔ c = ∅) ∧ ∀ n, ol_mem s n = true ↔ is_Some (c !! n).
Proof.
  intros (Hinv & Hfill & Hc)%reach_repr. split.
  - unfold ol_empty. rewrite bool_decide_eq_true, Hfill.
    rewrite <-map_size_empty_iff. lia.
  - intros n. unfold ol_mem. rewrite bool_decide_eq_true, Hc.
    destruct (inv_ind _ n Hinv) as [Hi|Hi]; rewrite Hi || idtac.
    + rewrite decide_True by done. split; [lia|by intros [??]].
    + rewrite decide_False by lia. split; [by eexists|done].
Qed.

(** Popping until empty() yields every contained node exactly once. *)
Fixpoint drain (k : nat) (s : ol) : option (list nat) :=
  match k with
  | 0 => None
  | S k => if ol_empty s then Some [] else
           '(s', n) ← ol_pop s; ns ← drain k s'; Some (n :: ns)
  end.

Theorem C04_drain_returns_everything s c :
  reach s c →
  ∃ ns, drain (S (size c)) s = Some ns ∧ NoDup ns ∧ ∀ n, n ∈ ns ↔ is_Some (c !! n).
Proof.
  intros Hr. remember (S (size c)) as k eqn:Hk. revert s c Hr Hk.
  induction k as [|k IH]; intros s c Hr Hk; [done|]. injection Hk as ->. simpl.
  destruct (C04_empty_mem_exact _ _ Hr) as [He _].
  destruct (ol_empty s).
  - destruct He as [He _]. rewrite He by done. exists []. split_and!; [done|constructor|].
    intros n. rewrite lookup_empty. split; [by intros ?%elem_of_nil|by intros [??]].
  - assert (c ≠ ∅) as Hne by naive_solver.
    destruct (C04_pop_returns_first _ _ Hr Hne) as (s' & n & Hp & p & t & Hn & _).
    rewrite Hp. simpl.
    assert (reach s' (delete n c)) as Hr'.
    { eapply (reach_step s c OPop s' (Some n)); [done..|]. simpl. by rewrite Hp. }
    assert (size c = S (size (delete n c))) as Hsz.
    { rewrite map_size_delete_Some by (by eexists).
      assert (size c ≠ 0) by (by apply map_size_non_empty_iff). lia. }
    destruct (IH s' (delete n c)) as (ns & -> & Hnd & Hin); [done..|].
    simpl. eexists. split; [done|].
    split.
    + apply NoDup_cons. split; [|done]. rewrite Hin, lookup_delete. by intros [??].
    + intros m. rewrite elem_of_cons, Hin. destruct (decide (m = n)) as [->|].
      * rewrite Hn. split; [by eexists|by left].
      * rewrite lookup_delete_ne by done. naive_solver.
Qed.

(** ** C03 for the integer list: clear does not reset the nodes' indices, so
    mem stays true and the next pre_update/post_update of such a node aborts. *)
Theorem C03_int_clear_leaves_stale_members s c n :
  reach s c → is_Some (c !! n) →
  ol_empty (ol_clear s) = true ∧ ol_mem (ol_clear s) n = true ∧
  ol_pre_update (ol_clear s) n = None ∧ ol_post_update (ol_clear s) n = None.
Proof.
  intros Hr Hn. pose proof (proj2 (C04_empty_mem_exact _ _ Hr) n) as Hm.
  destruct (reach_repr _ _ Hr) as (Hinv & _ & Hc).
  pose proof Hn as Hn'. rewrite Hc in Hn'. case_decide as Hi; [by destruct Hn'|].
  destruct (inv_ind _ n Hinv) as [|Hi']; [done|].
  split_and!; [done|by apply Hm| |].
  - unfold ol_pre_update. simpl. rewrite decide_False by lia.
    by case_decide.
  - unfold ol_post_update. simpl. by rewrite decide_False by lia.
Qed.

(** ** Non-vacuity: a legal history that fills buckets above the initial sizes,
    repositions nodes and pops. *)
Definition ex_ops : list op :=
  [OPush 1 5 0; OPush 2 150 3; OPush 3 5 120; OUpdate 2 4 1; OPop; OUpdate 2 5 7; OPush 4 5 7;
   OUpdate 1 0 0].

Definition ex_contents : list (nat * (Z * Z)) :=
  [(1, (0, 0)%Z); (2, (5, 7)%Z); (3, (5, 120)%Z); (4, (5, 7)%Z)].

Definition legalb (c : gmap nat (Z * Z)) (o : op) : bool :=
  match o with
  | OPush n p t => bool_decide (c !! n = None) && (0 <=? p)%Z && (0 <=? t)%Z
  | OPop => bool_decide (c ≠ ∅)
  | OUpdate n p t => (0 <=? p)%Z && (0 <=? t)%Z
  end.

Fixpoint steps (s : ol) (c : gmap nat (Z * Z)) (os : list op) : option (ol * gmap nat (Z * Z)) :=
  match os with
  | [] => Some (s, c)
  | o :: os =>
    if legalb c o then '(s', r) ← step s o; steps s' (contents_step c o r) os else None
  end.

Lemma steps_reach s c os s' c' : reach s c → steps s c os = Some (s', c') → reach s' c'.
Proof.
  revert s c. induction os as [|o os IH]; intros s c Hr Hs; simpl in Hs; [by simplify_eq|].
  destruct (legalb c o) eqn:Hl; [|done].
  assert (legal c o).
  { destruct o; simpl in *; rewrite ?andb_true_iff, ?bool_decide_eq_true, ?Z.leb_le in Hl; tauto. }
  destruct (step s o) as [[s1 r]|] eqn:Hst; [|done]. simpl in Hs.
  eapply IH; [|done]. by eapply reach_step.
Qed.

Example ex_reach :
  ∃ s c, reach s c ∧ map_to_list c ≡ₚ ex_contents ∧
         drain 5 s = Some [1; 3; 4; 2].
Proof.
  set (P := λ s : option (ol * gmap nat (Z * Z)), match s with
       | Some (h, c) => bool_decide (map_to_list c ≡ₚ ex_contents)
           && bool_decide (drain 5 h = Some [1; 3; 4; 2])
       | None => false end).
  assert (P (steps (ol_new (λ _, 0%Z) (λ _, 0%Z)) ∅ ex_ops) = true) as HP by (vm_compute; reflexivity).
  destruct (steps _ _ _) as [[s c]|] eqn:E; [|done]. cbv beta iota delta [P] in HP.
  apply andb_true_iff in HP as [H1 H2]. apply bool_decide_eq_true in H1, H2.
  exists s, c. split_and!; [|exact H1|exact H2].
  eapply steps_reach; [constructor|exact E].
Qed.

Print Assumptions C04_legal_operations_succeed.
Print Assumptions C04_pop_returns_first.
Print Assumptions C04_empty_mem_exact.
Print Assumptions C04_drain_returns_everything.
Print Assumptions C03_int_clear_leaves_stale_members.
