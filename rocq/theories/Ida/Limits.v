(** C91: IDA-star keeps to its limits, and gives up only because of them. *)
From stdpp Require Import prelude.
From Coq Require Import ZArith Lia.
From Verif.Search Require Import Domain Model Props.
From Verif.Ida Require Import Model Props.
Local Open Scope Z_scope.

Section limits.
Context {D : domain} (h : St D → Z) (lim : limits) (LM : lim_mono lim).

Definition within (st : istate) (e : nat) : Prop :=
  ((0 < l_expd lim)%nat → (i_expd st + e ≤ l_expd lim)%nat) ∧
  ((0 < l_gend lim)%nat → (i_gend st ≤ l_gend lim)%nat) ∧
  (∀ k, timeup lim k = true → (i_expd st + e ≤ k)%nat ∧ (i_gend st ≤ k)%nat) ∧
  (i_expd st + e ≤ i_calls st)%nat ∧ (i_gend st ≤ i_calls st)%nat.

Lemma within_weaken st : within st 1 → within st 0.
Proof.
  intros (H1 & H2 & H3 & H4 & H5). split; [intros H; specialize (H1 H); lia|]. split; [done|].
  split; [intros k Hk; destruct (H3 k Hk); lia|]. lia.
Qed.

Lemma within_called st e : within st e → within (called st) e.
Proof. intros (H1 & H2 & H3 & H4 & H5). unfold within, called. simpl. auto with lia. Qed.

Lemma not_reached st : reached lim st = false → within st 0 → within (called st) 1 ∧ within (add_gend (called st)) 1.
Proof using LM.
  unfold reached. rewrite !orb_false_iff, !andb_false_iff, !bool_decide_eq_false.
  intros [[Ht He] Hg] (H1 & H2 & H3 & H4 & H5).
  assert (Hk : ∀ k, timeup lim k = true → (i_calls st < k)%nat).
  { intros k Hk. destruct (decide (i_calls st < k)%nat) as [|Hn]; [done|].
    assert (timeup lim (i_calls st) = true) by (apply (LM k); [lia|done]). congruence. }
  unfold within, called, add_gend; simpl.
  split; (split; [lia|]; split; [lia|]; split; [intros k Hk'; specialize (Hk k Hk'); lia|]; lia).
Qed.

Lemma each_within rec s pop g os st st' res :
  (∀ st s pop g st' res, within st 1 → rec st s pop g = Some (st', res) → within st' 0) →
  within st 0 → each D lim rec s pop g os st = Some (st', res) → within st' 0.
Proof using LM.
  intros Hr. revert st. induction os as [|o os IH]; intros st Hw He; cbn [each] in He; [by simplify_eq|].
  destruct (reached lim st) eqn:Er; [simplify_eq; by apply within_called|].
  destruct (not_reached _ Er Hw) as [Hc Hg]. case_decide; [eapply IH; [|done]; by apply within_weaken|].
  destruct (edge s o) as [[t c] rv]. destruct (rec _ t rv (g + c)) as [[st1 res1]|] eqn:E; [|done].
  apply Hr in E; [|done]. simpl in He. destruct res1 as [[path os1]|]; [by simplify_eq|by eapply IH].
Qed.

Lemma dfs_within fuel bound st s pop g st' res :
  within st 1 → dfs D h lim fuel bound st s pop g = Some (st', res) → within st' 0.
Proof using LM.
  revert st s pop g st' res. induction fuel as [|fuel IH]; intros st s pop g st' res Hw He; [done|]. cbn [dfs] in He.
  destruct (_ && _); [simplify_eq; by apply within_weaken|].
  destruct (bool_decide _).
  - simplify_eq. apply within_weaken in Hw. unfold outofbound. by destruct (_ || _).
  - eapply each_within; [|shelve|exact He]. { intros. by eapply IH. }
    Unshelve. destruct Hw as (H1 & H2 & H3 & H4 & H5). unfold within, add_expd; simpl.
    split; [intros H; specialize (H1 H); lia|]. split; [done|].
    split; [intros k Hk; destruct (H3 k Hk); lia|]. lia.
Qed.

Lemma iterate_within fuel depth s0 bound st st' res :
  within st 0 → iterate D h lim fuel depth s0 bound st = Some (st', res) → within st' 0.
Proof using LM.
  revert bound st. induction fuel as [|fuel IH]; intros bound st Hw He; [done|]. cbn [iterate] in He.
  destruct (reached lim st) eqn:Er; [simplify_eq; by apply within_called|].
  destruct (not_reached _ Er Hw) as [Hc _].
  destruct (dfs D h lim depth _ _ _ _ _) as [[st1 res1]|] eqn:E; [|done].
  apply dfs_within in E; [|exact Hc]. simpl in He. destruct res1; [by simplify_eq|by eapply IH].
Qed.

Lemma iterate_gives_up fuel depth s0 bound st st' :
  iterate D h lim fuel depth s0 bound st = Some (st', None) → reached lim st' = true.
Proof using LM.
  revert bound st. induction fuel as [|fuel IH]; intros bound st He; [done|]. cbn [iterate] in He.
  destruct (reached lim st) eqn:Er.
  - simplify_eq. revert Er. unfold reached, called. simpl. rewrite !orb_true_iff.
    intros [[Ht|He]|Hg]; [left; left|left; by right|by right]. eapply LM; [|exact Ht]. lia.
  - destruct (dfs D h lim depth _ _ _ _ _) as [[st1 [r|]]|] eqn:E; simplify_eq/=. by eapply IH.
Qed.
End limits.

(** IDA-star makes no more expansions than its expansion limit, generates no more states than its generation limit, and
    after the time flag is up (here: from the [k]-th look at it on) it makes neither; when it ends without a solution,
    one of the limits is reached. *)
Theorem C91_limits D (h : St D → Z) lim : lim_mono lim →
  ∀ s0 fuel st res, idastar D h lim s0 fuel = Some (st, res) →
  ((0 < l_expd lim)%nat → (i_expd st ≤ l_expd lim)%nat) ∧
  ((0 < l_gend lim)%nat → (i_gend st ≤ l_gend lim)%nat) ∧
  (∀ k, timeup lim k = true → (i_expd st ≤ k)%nat ∧ (i_gend st ≤ k)%nat) ∧
  (res = None → (∃ k, timeup lim k = true) ∨ (0 < l_expd lim ∧ i_expd st = l_expd lim)%nat ∨ (0 < l_gend lim ∧ i_gend st = l_gend lim)%nat).
Proof.
  intros LM s0 fuel st res He.
  assert (Hw : within lim st 0).
  { eapply (iterate_within h lim LM); [|exact He]. unfold within; simpl. auto with lia. }
  destruct Hw as (H1 & H2 & H3 & _). rewrite Nat.add_0_r in *.
  split; [done|]. split; [done|]. split; [done|].
  intros ->. apply (iterate_gives_up h lim LM) in He. revert He. unfold reached.
  rewrite !orb_true_iff, !andb_true_iff, !bool_decide_eq_true.
  intros [[Ht|He]|Hg]; [left; eauto|right; left|right; right].
  - specialize (H1 (proj1 He)). lia.
  - specialize (H2 (proj1 Hg)). lia.
Qed.

(** Each kind of limit is what ends a search of the example of C35. *)
Example C91_nonvacuous :
  (∃ st, idastar ex_dom ex_dist (Limits 2 0 (λ _, false)) 0%nat 20 = Some (st, None) ∧ i_expd st = 2%nat) ∧
  (∃ st, idastar ex_dom ex_dist (Limits 0 2 (λ _, false)) 0%nat 20 = Some (st, None) ∧ i_gend st = 2%nat) ∧
  (∃ st, idastar ex_dom ex_dist (Limits 0 0 (λ k, bool_decide (2 ≤ k)%nat)) 0%nat 20 = Some (st, None)) ∧
  (∃ st r, idastar ex_dom ex_dist (Limits 50 50 (λ _, false)) 0%nat 20 = Some (st, Some r)).
Proof.
  split; [eexists; split; vm_compute; reflexivity|].
  split; [eexists; split; vm_compute; reflexivity|].
  split; [eexists; vm_compute; reflexivity|]. do 2 eexists; vm_compute; reflexivity.
Qed.

Print Assumptions C91_limits.
