(** C41, C42: IDA-star. *)
From stdpp Require Import prelude.
From Coq Require Import ZArith Lia.
From Verif.Common Require Import Fuel.
From Verif.Search Require Import Domain Model.
From Verif.Search Require Props.
From Verif.Ida Require Import Model.
Open Scope Z_scope.

(** ** Solutions as operator sequences *)
Inductive sol {D} : St D → list (Op D) → Z → Prop :=
  | sol_goal s : isgoal s = true → sol s [] 0
  | sol_step s o os k : o ∈ ops s → sol (dest s o) os k → sol s (o :: os) (cost s o + k).

Lemma solution_sol {D} (s : St D) ss os k : solution s ss os k → sol s os k.
Proof.
  intros (Hw & Hh & t & Hl & Ht). revert s Hh Hl.
  induction Hw as [s1|s1 o ss os k Ho Hw IH]; intros s Hh Hl; simpl in Hh; injection Hh as <-.
  - injection Hl as ->. by constructor.
  - constructor; [done|]. by apply IH.
Qed.

Lemma sol_solution {D} (s : St D) os k : sol s os k → ∃ ss, solution s ss os k.
Proof.
  induction 1 as [s Hg|s o os k Ho Hs (ss & Hw & Hh & Hl)].
  - exists [s]. split; [constructor|]. split; [done|]. by exists s.
  - destruct ss as [|x ss]; [done|]. injection Hh as ->. exists (s :: dest s o :: ss).
    split; [by constructor|]. split; [done|exact Hl].
Qed.

(** An operator sequence that never takes back its previous operator, after [pop] would be such. *)
Fixpoint forward {D} (pop : Op D) (s : St D) (os : list (Op D)) : Prop :=
  match os with
  | [] => True
  | o :: os => o ≠ pop ∧ forward (revop s o) (dest s o) os
  end.
Definition inner_forward {D} (s : St D) (os : list (Op D)) : Prop :=
  match os with [] => True | o :: os => forward (revop s o) (dest s o) os end.

(** Taking back an operator at once is never needed. *)
Lemma reduce {D} (OK : domain_ok D) (s : St D) os k :
  sol s os k → ∃ os' k', sol s os' k' ∧ k' ≤ k ∧ inner_forward s os'.
Proof.
  induction 1 as [s Hg|s o os k Ho Hs (os' & k' & Hs' & Hk & Hf)].
  - exists [], 0. split; [by constructor|]. split; [done|done].
  - destruct os' as [|o2 os2].
    { exists [o], (cost s o + k'). split; [by constructor|]. split; [lia|done]. }
    destruct (decide (o2 = revop s o)) as [->|Hne].
    + inversion Hs' as [|? ? ? k2 Ho2 Hs2]; subst. pose proof (ok_rev OK s o Ho Ho2) as Hd.
      pose proof (ok_cost OK _ _ Ho) as H1. pose proof (ok_cost OK _ _ Ho2) as H2.
      exists os2, k2. rewrite Hd in Hs2. split; [done|]. split; [lia|].
      simpl in Hf. rewrite Hd in Hf. destruct os2 as [|o3 os3]; [done|]. by destruct Hf.
    + exists (o :: o2 :: os2), (cost s o + k'). split; [by constructor|]. split; [lia|].
      split; [done|exact Hf].
Qed.

Lemma reduce_top {D} (OK : domain_ok D) (s : St D) os k :
  sol s os k → ∃ os' k', sol s os' k' ∧ k' ≤ k ∧ forward nop s os'.
Proof.
  intros H. destruct (reduce OK _ _ _ H) as (os' & k' & Hs & Hk & Hf). exists os', k'.
  split; [done|]. split; [done|]. destruct os' as [|o os']; [done|]. split; [|done].
  inversion Hs; subst. intros ->. by apply (ok_nop OK s).
Qed.

Lemma edge_eq {D} (s : St D) o : edge s o = (dest s o, cost s o, revop s o).
Proof. unfold dest, cost, revop. by destruct (edge s o) as [[??]?]. Qed.

(** The time flag is never lowered (it is set by a signal handler, search.hpp:60-65). *)
Definition lim_mono (lim : limits) : Prop :=
  ∀ n m, (n ≤ m)%nat → timeup lim n = true → timeup lim m = true.

(** ** One depth-first search *)
Section dfs.
Context {D : domain} (h : St D → Z) (lim : limits) (Hh : ∀ s, 0 ≤ h s).
Set Default Proof Using "All".

Definition rspec (rec : istate → St D → Op D → Z → option (istate * found D)) bound : Prop :=
  ∀ st s pop g st' path os, rec st s pop g = Some (st', Some (path, os)) →
    ∃ k, solution s (reverse path) (reverse os) k ∧ g + k ≤ bound.

Lemma each_found rec bound s pop g os st st' path os' :
  rspec rec bound → (∀ o, o ∈ os → o ∈ ops s) →
  each D lim rec s pop g os st = Some (st', Some (path, os')) →
  ∃ k, solution s (reverse path) (reverse os') k ∧ g + k ≤ bound.
Proof.
  intros Hr. revert st. induction os as [|o os IH]; intros st Hin He; [done|].
  cbn [each] in He. destruct (reached lim st); [done|].
  case_decide; [apply (IH _ (λ o' Ho', Hin o' (elem_of_list_further _ _ _ Ho')) He)|].
  rewrite edge_eq in He. destruct (rec _ _ _ _) as [[st1 [[p1 o1]|]]|] eqn:E; simplify_eq/=; [|by eauto using elem_of_list_further].
  apply Hr in E as (k & (Hw & Hhd & Hl) & Hk). exists (cost s o + k). split; [|lia].
  rewrite !reverse_app. simpl. destruct (reverse p1) as [|x ss]; [done|].
  injection Hhd as ->. split; [|split; [done|exact Hl]].
  constructor; [apply Hin; by left|done].
Qed.

Lemma dfs_found fuel bound : rspec (dfs D h lim fuel bound) bound.
Proof.
  induction fuel as [|fuel IH]; intros st s pop g st' path os He; [done|]. cbn [dfs] in He.
  destruct (bool_decide_reflect (g + h s ≤ bound)) as [Hf|Hf]; simpl in He.
  2: { destruct (bool_decide_reflect (bound < g + h s)); simplify_eq/=; lia. }
  destruct (isgoal s) eqn:Eg.
  - simplify_eq. exists 0. split; [|specialize (Hh s); lia].
    split; [constructor|]. split; [done|]. by exists s.
  - rewrite bool_decide_eq_false_2 in He by lia.
    by eapply each_found.
Qed.

Context (OK : domain_ok D) (LM : lim_mono lim) (Hadm : admissible h).

(** Counters only grow, and minoob only improves. *)
Definition later (bound : Z) (st st' : istate) : Prop :=
  (i_expd st ≤ i_expd st')%nat ∧ (i_gend st ≤ i_gend st')%nat ∧ (i_calls st ≤ i_calls st')%nat ∧
  (i_minoob st ≠ -1 → i_minoob st' ≠ -1 ∧ i_minoob st' ≤ i_minoob st) ∧
  (i_minoob st' = i_minoob st ∨ bound < i_minoob st').

Lemma later_refl bound st : later bound st st.
Proof. unfold later. auto 10 with lia. Qed.
Lemma later_trans bound a b c : later bound a b → later bound b c → later bound a c.
Proof.
  unfold later. intros (Ha1 & Ha2 & Ha3 & Ha4 & Ha5) (Hb1 & Hb2 & Hb3 & Hb4 & Hb5).
  split_and!; [lia..| |].
  - intros Ha. destruct (Ha4 Ha) as [Hb ?]. destruct (Hb4 Hb). split; [done|lia].
  - destruct Hb5 as [->|?]; [|by right]. done.
Qed.
Lemma reached_later bound st st' : later bound st st' → reached lim st = true → reached lim st' = true.
Proof.
  intros (H1 & H2 & H3 & _). unfold reached. rewrite !orb_true_iff, !andb_true_iff, !bool_decide_eq_true.
  intros [[Ht|Ht]|Ht].
  - left; left. by eapply LM.
  - left; right. lia.
  - right. lia.
Qed.

(** [st'] records that every solution in question costs more than the bound. *)
Definition beats (bound : Z) (st' : istate) (k : Z) : Prop :=
  bound < k ∧ i_minoob st' ≠ -1 ∧ i_minoob st' ≤ k.
Lemma beats_later bound st st' k : later bound st st' → beats bound st k → beats bound st' k.
Proof. intros (_ & _ & _ & H & _) (? & Hb & ?). destruct (H Hb). split_and!; [done|done|lia]. Qed.

Definition fspec (rec : istate → St D → Op D → Z → option (istate * found D)) bound : Prop :=
  ∀ st s pop g st', 0 ≤ g → rec st s pop g = Some (st', None) →
    later bound st st' ∧
    (reached lim st' = true ∨ ∀ os k, sol s os k → forward pop s os → beats bound st' (g + k)).

Lemma each_none rec bound s pop g os st st' :
  fspec rec bound → 0 ≤ g → (∀ o, o ∈ os → o ∈ ops s) →
  each D lim rec s pop g os st = Some (st', None) →
  later bound st st' ∧
  (reached lim st' = true ∨
   ∀ o os' k, o ∈ os → o ≠ pop → sol (dest s o) os' k → forward (revop s o) (dest s o) os' →
     beats bound st' (g + (cost s o + k))).
Proof.
  intros Hr Hg. revert st. induction os as [|o os IH]; intros st Hin He; cbn [each] in He.
  { simplify_eq. split; [apply later_refl|]. right. intros o os' k Ho. by apply elem_of_nil in Ho. }
  assert (Hin' : ∀ o', o' ∈ os → o' ∈ ops s) by (intros; apply Hin; by right).
  assert (Hc : later bound st (called st)) by (unfold later, called; simpl; auto 10 with lia).
  destruct (reached lim st) eqn:Er.
  { simplify_eq. split; [done|]. left. by eapply reached_later. }
  case_decide as Hop.
  { destruct (IH _ Hin' He) as [Hl Hrest]. split; [by eapply later_trans|].
    destruct Hrest as [?|Hrest]; [by left|right]. intros o' os' k Ho' Hne.
    apply elem_of_cons in Ho' as [->|Ho']; [done|]. by apply Hrest. }
  rewrite edge_eq in He. destruct (rec _ _ _ _) as [[st1 [[p1 o1]|]]|] eqn:E; simplify_eq/=.
  assert (Hca : later bound (called st) (add_gend (called st)))
    by (unfold later, called; simpl; auto 10 with lia).
  apply Hr in E as [Hl1 Hrest1]; [|pose proof (ok_cost OK s o (Hin o (elem_of_list_here _ _))); lia].
  destruct (IH _ Hin' He) as [Hl Hrest].
  split; [exact (later_trans _ _ _ _ Hc (later_trans _ _ _ _ Hca (later_trans _ _ _ _ Hl1 Hl)))|].
  destruct Hrest1 as [H1|H1]; [left; by eapply reached_later|].
  destruct Hrest as [?|Hrest]; [by left|right]. intros o' os' k Ho' Hne Hs Hf.
  apply elem_of_cons in Ho' as [->|Ho']; [|by eapply Hrest].
  rewrite Z.add_assoc. eapply beats_later; [done|]. by eapply H1.
Qed.

Lemma dfs_none fuel bound : fspec (dfs D h lim fuel bound) bound.
Proof.
  induction fuel as [|fuel IH]; intros st s pop g st' Hg He; [done|]. cbn [dfs] in He.
  destruct (bool_decide_reflect (g + h s ≤ bound)) as [Hf|Hf]; simpl in He.
  - destruct (isgoal s) eqn:Eg; [done|].
    rewrite bool_decide_eq_false_2 in He by lia.
    apply (each_none _ bound) in He as [Hl Hrest]; [|done|done|done].
    split; [eapply later_trans; [|done]; unfold later; simpl; auto 10 with lia|].
    destruct Hrest as [?|Hrest]; [by left|right]. intros os k Hs Hfw.
    inversion Hs as [? Hgl|? o os' k' Ho Hs']; subst; [congruence|]. destruct Hfw as [Hne Hfw].
    eauto.
  - rewrite bool_decide_eq_true_2 in He by lia. simplify_eq. pose proof (Hh s).
    assert (Hm : i_minoob (outofbound st (g + h s)) ≠ -1 ∧ i_minoob (outofbound st (g + h s)) ≤ g + h s
      ∧ later bound st (outofbound st (g + h s))).
    { unfold outofbound, later. destruct (bool_decide_reflect (i_minoob st = -1)) as [E|E]; simpl; [auto 10 with lia|].
      destruct (bool_decide_reflect (g + h s < i_minoob st)); simpl; auto 10 with lia. }
    destruct Hm as (Hm1 & Hm2 & Hm3). split; [done|]. right. intros os k Hs _.
    apply sol_solution in Hs as [ss Hs]. apply Hadm in Hs. split_and!; [lia|done|lia].
Qed.

(** ** The iterations *)
Lemma iterate_optimal fuel depth s0 bound st st' path os :
  (∀ os' k', sol s0 os' k' → bound ≤ k') →
  iterate D h lim fuel depth s0 bound st = Some (st', Some (path, os)) →
  ∃ k, solution s0 (reverse path) (reverse os) k ∧ ∀ os' k', sol s0 os' k' → k ≤ k'.
Proof.
  revert bound st. induction fuel as [|fuel IH]; intros bound st Hb He; [done|]. cbn [iterate] in He.
  destruct (reached lim st); [done|].
  destruct (dfs _ _ _ _ _ _ _ _ _) as [[st1 [[p1 o1]|]]|] eqn:E; simplify_eq/=.
  - apply dfs_found in E as (k & Hs & Hk). exists k. split; [done|]. intros os' k' Hs'.
    specialize (Hb _ _ Hs'). lia.
  - apply dfs_none in E as [_ [Hr|Hrest]]; [|  |done].
    { destruct fuel; simpl in He; [done|by rewrite Hr in He]. }
    eapply IH; [|done]. intros os' k' Hs'.
    destruct (reduce_top OK _ _ _ Hs') as (os2 & k2 & Hs2 & Hk2 & Hf2).
    destruct (Hrest _ _ Hs2 Hf2) as (_ & _ & ?). lia.
Qed.
End dfs.

(** ** Termination *)
Section ends.
Context {D : domain} (h : St D → Z) (lim : limits).

Lemma each_mono rec rec' s pop g os st r :
  (∀ st s pop g r, rec st s pop g = Some r → rec' st s pop g = Some r) →
  each D lim rec s pop g os st = Some r → each D lim rec' s pop g os st = Some r.
Proof.
  intros H. revert st. induction os as [|o os IH]; intros st He; [done|]. cbn [each] in *.
  destruct (reached lim st); [done|]. case_decide; [by apply IH|].
  destruct (edge s o) as [[t c] rv]. destruct (rec _ t rv (g + c)) as [[st1 res]|] eqn:E; [|done].
  rewrite (H _ _ _ _ _ E). simpl in *. destruct res as [[p1 o1]|]; [done|]. by apply IH.
Qed.
Lemma dfs_mono fuel fuel' bound st s pop g r : (fuel ≤ fuel')%nat →
  dfs D h lim fuel bound st s pop g = Some r → dfs D h lim fuel' bound st s pop g = Some r.
Proof.
  revert fuel' st s pop g r. induction fuel as [|fuel IH]; intros fuel' st s pop g r Hf He; [done|].
  destruct fuel' as [|fuel']; [lia|]. cbn [dfs] in *.
  destruct (_ && _); [done|]. destruct (bool_decide _); [done|].
  eapply each_mono; [|done]. intros. by apply IH; [lia|].
Qed.
Lemma iterate_mono fuel fuel' depth depth' s0 bound st r : (fuel ≤ fuel')%nat → (depth ≤ depth')%nat →
  iterate D h lim fuel depth s0 bound st = Some r → iterate D h lim fuel' depth' s0 bound st = Some r.
Proof.
  intros Hf Hd. revert fuel' bound st Hf.
  induction fuel as [|fuel IH]; intros fuel' bound st Hf He; [done|].
  destruct fuel' as [|fuel']; [lia|]. cbn [iterate] in *. destruct (reached lim st); [done|].
  destruct (dfs D h lim depth _ _ _ _ _) as [[st1 res]|] eqn:E; [|done].
  rewrite (dfs_mono _ _ _ _ _ _ _ _ Hd E). simpl in *. destruct res; [done|]. apply IH; [lia|done].
Qed.
Lemma idastar_ends s0 fuel r : idastar D h lim s0 fuel = Some r → ends (idastar D h lim s0) r.
Proof. intros He. exists fuel. intros n Hn. by eapply iterate_mono. Qed.

(** With costs of at least one, the depth-first search is no deeper than its bound. *)
Lemma each_total rec s pop g os st (P : Z → Prop) :
  (∀ o, o ∈ os → P (g + cost s o)) → (∀ st s pop g, P g → is_Some (rec st s pop g)) →
  is_Some (each D lim rec s pop g os st).
Proof.
  intros HP Hr. revert st. induction os as [|o os IH]; intros st; cbn [each]; [eauto|].
  assert (IH' : ∀ st, is_Some (each D lim rec s pop g os st)) by (apply IH; intros; apply HP; by right).
  destruct (reached lim st); [eauto|]. case_decide; [done|]. rewrite edge_eq.
  destruct (Hr (add_gend (called st)) (dest s o) (revop s o) (g + cost s o)) as [[st1 res] ->];
    [apply HP; by left|]. simpl. destruct res as [[p1 o1]|]; [eauto|done].
Qed.
Lemma dfs_total (Hh : ∀ s, 0 ≤ h s) (Hpos : ∀ s (o : Op D), o ∈ ops s → 1 ≤ cost s o) fuel bound st s pop g :
  bound - g + 1 < Z.of_nat fuel → 0 < Z.of_nat fuel → is_Some (dfs D h lim fuel bound st s pop g).
Proof.
  revert st s pop g. induction fuel as [|fuel IH]; intros st s pop g Hf Hf0; [lia|]. cbn [dfs].
  destruct (_ && _); [eauto|]. destruct (bool_decide_reflect (bound < g + h s)); [eauto|].
  specialize (Hh s).
  apply (each_total _ _ _ _ _ _ (λ g', bound - g' + 1 < Z.of_nat fuel ∧ 0 < Z.of_nat fuel)).
  - intros o Ho. specialize (Hpos _ _ Ho). lia.
  - intros ? ? ? ? [? ?]. by apply IH.
Qed.
End ends.

Lemma no_limits_reached st : reached no_limits st = false.
Proof. done. Qed.
Lemma no_limits_mono : lim_mono no_limits.
Proof. by intros ? ?. Qed.

(** ** C41 *)

(** Whatever IDA-star reports is a solution, and no solution is cheaper, if the
    heuristic is admissible. *)
Theorem C41_idastar_optimal D (h : St D → Z) lim :
  domain_ok D → lim_mono lim → (∀ s, 0 ≤ h s) → admissible h →
  ∀ s0 fuel path os st, idastar D h lim s0 fuel = Some (st, Some (path, os)) →
  ∃ k, solution s0 (reverse path) (reverse os) k ∧
    ∀ ss' os' k', solution s0 ss' os' k' → k ≤ k'.
Proof.
  intros OK LM Hh Hadm s0 fuel path os st He.
  apply (iterate_optimal h lim Hh OK LM Hadm) in He as (k & Hs & Hmin).
  - exists k. split; [done|]. intros ss' os' k' Hs'. eapply Hmin. by eapply solution_sol.
  - intros os' k' Hs'. apply sol_solution in Hs' as [ss' Hs']. by apply Hadm in Hs'.
Qed.

(** The solution is real whatever the heuristic is, as long as it is not negative. *)
Theorem C41_idastar_solution_real D (h : St D → Z) lim :
  (∀ s, 0 ≤ h s) →
  ∀ s0 fuel path os st, idastar D h lim s0 fuel = Some (st, Some (path, os)) →
  ∃ k, solution s0 (reverse path) (reverse os) k.
Proof.
  intros Hh s0 fuel path os st. unfold idastar. generalize (h s0) at 1. generalize (IState 0 0 0 (-1)).
  generalize fuel at 2 as depth. induction fuel as [|fuel IH]; intros depth st0 b He; [done|].
  cbn [iterate] in He. destruct (reached lim st0); [done|].
  destruct (dfs _ _ _ _ _ _ _ _ _) as [[st1 [[p1 o1]|]]|] eqn:E; simplify_eq/=; [|by eapply IH].
  apply (dfs_found h lim) in E as (k & Hs & _); eauto.
Qed.

(** When a solution exists and every operator costs something, IDA-star without
    limits ends and reports one. *)
Theorem C41_idastar_finds D (h : St D → Z) :
  domain_ok D → (∀ s, 0 ≤ h s) → admissible h → (∀ s (o : Op D), o ∈ ops s → 1 ≤ cost s o) →
  ∀ s0 ss os k, solution s0 ss os k →
  ∃ st path os', ends (idastar D h no_limits s0) (st, Some (path, os')).
Proof.
  intros OK Hh Hadm Hpos s0 ss os k Hsol.
  assert (Hk : ∀ os' k', sol s0 os' k' → h s0 ≤ k').
  { intros os' k' Hs'. apply sol_solution in Hs' as [ss' Hs']. by apply Hadm in Hs'. }
  apply solution_sol in Hsol.
  assert (Hend : ∀ fuel depth b st, b ≤ k → k - b < Z.of_nat fuel → 0 < Z.of_nat fuel → k + 2 < Z.of_nat depth →
    ∃ st' r, iterate D h no_limits fuel depth s0 b st = Some (st', Some r)).
  { induction fuel as [|fuel IH]; intros depth b st Hb Hf Hf0 Hd; [lia|]. cbn [iterate].
    rewrite no_limits_reached.
    assert (0 ≤ k) by (apply sol_solution in Hsol as (ss' & Hw & _); by apply (walk_nonneg D) in Hw).
    destruct (dfs_total h no_limits Hh Hpos depth b (set_minoob (called st) (-1)) s0 nop 0) as [[st1 res] E];
      [lia|lia|]. rewrite E. simpl. destruct res as [r|]; [eauto|].
    apply (dfs_none h no_limits Hh OK no_limits_mono Hadm) in E as [Hl [Hr|Hrest]]; [done| |done].
    destruct (reduce_top OK _ _ _ Hsol) as (os2 & k2 & Hs2 & Hk2 & Hf2).
    destruct (Hrest _ _ Hs2 Hf2) as (Hb1 & Hne & Hb2).
    destruct Hl as (_ & _ & _ & _ & [Hl|Hl]); [done|].
    apply IH; lia. }
  destruct (Hend (Z.to_nat (k + 3)) (Z.to_nat (k + 3)) (h s0) (IState 0 0 0 (-1))) as (st' & [path os'] & E).
  all: pose proof (Hk _ _ Hsol); pose proof (Hh s0); try lia.
  exists st', path, os'. by apply idastar_ends in E.
Qed.

(** ** C42 *)

(** Without limits and without a solution, IDA-star does not end, not even on
    finite state spaces: no number of iterations is enough. *)
Theorem C42_idastar_never_ends D (h : St D → Z) s0 :
  (∀ s, 0 ≤ h s) → (∀ ss os k, ¬ solution s0 ss os k) →
  ∀ fuel, idastar D h no_limits s0 fuel = None.
Proof.
  intros Hh Hno fuel. destruct (idastar D h no_limits s0 fuel) as [[st [[path os]|]]|] eqn:E; [| |done].
  - apply C41_idastar_solution_real in E as [k Hs]; [|done]. by apply Hno in Hs.
  - exfalso. revert E. unfold idastar. generalize (h s0) at 1. generalize (IState 0 0 0 (-1)).
    generalize fuel at 2 as depth. induction fuel as [|fuel IH]; intros depth st0 b He; [done|].
    cbn [iterate] in He. rewrite no_limits_reached in He.
    destruct (dfs _ _ _ _ _ _ _ _ _) as [[st1 [[p1 o1]|]]|] eqn:E; simplify_eq/=. by eapply IH.
Qed.

(** [next s0 b b']: an iteration with bound [b] finds no goal and leaves the bound [b'] for the next one. *)
Definition next {D} (h : St D → Z) (s0 : St D) (b b' : Z) : Prop :=
  ∃ depth st st', i_minoob st = -1 ∧ dfs D h no_limits depth b st s0 nop 0 = Some (st', None) ∧
    i_minoob st' = b'.

Lemma next_iterate {D} (h : St D → Z) s0 b depth st st' :
  dfs D h no_limits depth b (set_minoob (called st) (-1)) s0 nop 0 = Some (st', None) →
  next h s0 b (i_minoob st').
Proof. intros E. by exists depth, (set_minoob (called st) (-1)), st'. Qed.

(** The counters do not matter without limits. *)
Lemma each_indep {D} (rec : istate → St D → Op D → Z → option (istate * found D)) s pop g os st1 st2 r1 r2 :
  (∀ st1 st2 s pop g r1 r2, i_minoob st1 = i_minoob st2 → rec st1 s pop g = Some r1 →
    rec st2 s pop g = Some r2 → i_minoob r1.1 = i_minoob r2.1 ∧ r1.2 = r2.2) →
  i_minoob st1 = i_minoob st2 →
  each D no_limits rec s pop g os st1 = Some r1 → each D no_limits rec s pop g os st2 = Some r2 →
  i_minoob r1.1 = i_minoob r2.1 ∧ r1.2 = r2.2.
Proof.
  intros Hr. revert st1 st2. induction os as [|o os IH]; intros st1 st2 Hm H1 H2; cbn [each] in *.
  { by simplify_eq. }
  rewrite no_limits_reached in *. case_decide; [by eapply IH; [|exact H1|exact H2]|].
  destruct (edge s o) as [[t c] rv].
  destruct (rec (add_gend (called st1)) t rv (g + c)) as [[s1 res1]|] eqn:E1; [|done].
  destruct (rec (add_gend (called st2)) t rv (g + c)) as [[s2 res2]|] eqn:E2; [|done].
  destruct (Hr (add_gend (called st1)) (add_gend (called st2)) _ _ _ _ _ Hm E1 E2) as [Hm' Hres]. simpl in *. subst res2.
  destruct res1 as [[p1 o1]|]; [|by eapply IH; [|exact H1|exact H2]]. by simplify_eq.
Qed.
Lemma dfs_indep {D} (h : St D → Z) fuel b st1 st2 s pop g r1 r2 :
  i_minoob st1 = i_minoob st2 →
  dfs D h no_limits fuel b st1 s pop g = Some r1 → dfs D h no_limits fuel b st2 s pop g = Some r2 →
  i_minoob r1.1 = i_minoob r2.1 ∧ r1.2 = r2.2.
Proof.
  revert st1 st2 s pop g r1 r2. induction fuel as [|fuel IH]; intros st1 st2 s pop g r1 r2 Hm H1 H2; [done|].
  cbn [dfs] in *. destruct (_ && _); [by simplify_eq|].
  destruct (bool_decide (b < _)).
  - simplify_eq. unfold outofbound. simpl. rewrite Hm. by destruct (_ || _).
  - eapply (each_indep (dfs D h no_limits fuel b)); [| |exact H1|exact H2]; [|done].
    intros. by eapply IH.
Qed.

(** Each bound determines the next. *)
Theorem C42_next_functional D (h : St D → Z) s0 b b1 b2 :
  next h s0 b b1 → next h s0 b b2 → b1 = b2.
Proof.
  intros (d1 & st1 & st1' & Hm1 & E1 & <-) (d2 & st2 & st2' & Hm2 & E2 & <-).
  apply (dfs_mono _ _ _ (d1 + d2)) in E1; [|lia]. apply (dfs_mono _ _ _ (d1 + d2)) in E2; [|lia].
  by destruct (dfs_indep _ _ _ _ _ _ _ _ _ _ (eq_trans Hm1 (eq_sym Hm2)) E1 E2).
Qed.

(** After an iteration that cut nothing off, the bound is -1, and from there the
    search starts over with the bound it started with. *)
Theorem C42_bound_restarts D (h : St D → Z) s0 :
  0 ≤ h s0 → next h s0 (-1) (h s0).
Proof.
  intros H0. exists 1%nat, (IState 0 0 0 (-1)), (IState 0 0 0 (h s0)). split; [done|]. cbn [dfs].
  rewrite bool_decide_eq_false_2 by lia. simpl. rewrite bool_decide_eq_true_2 by lia. done.
Qed.

(** Sequences of applicable operators. *)
Inductive applicable {D} : St D → list (Op D) → Prop :=
  | app_nil s : applicable s []
  | app_cons s o os : o ∈ ops s → applicable (dest s o) os → applicable s (o :: os).

(** An upper bound of the f values within [n] steps. *)
Fixpoint maxf {D} (h : St D → Z) (n : nat) (s : St D) (g : Z) : Z :=
  Z.max (g + h s)
    match n with
    | 0%nat => 0
    | S n => foldr Z.max 0 ((λ o, maxf h n (dest s o) (g + cost s o)) <$> ops s)
    end.

Lemma foldr_max_in (l : list Z) x : x ∈ l → x ≤ foldr Z.max 0 l.
Proof. induction 1; simpl; lia. Qed.

Section tree.
Context {D : domain} (h : St D → Z).

Lemma dfs_tree b fuel n st s pop g :
  (∀ os, applicable s os → forward pop s os → length os ≤ n)%nat → (n < fuel)%nat →
  ∃ st' res, dfs D h no_limits fuel b st s pop g = Some (st', res) ∧
    i_minoob st' ≤ Z.max (i_minoob st) (maxf h n s g) ∧
    (i_minoob st' = i_minoob st ∨ b < i_minoob st').
Proof.
  revert n st s pop g. induction fuel as [|fuel IH]; intros n st s pop g Hn Hf; [lia|]. cbn [dfs].
  destruct (_ && _); [eexists _, _; split; [done|lia]|].
  destruct (bool_decide _) eqn:Eb.
  { apply bool_decide_eq_true in Eb. eexists _, _; split; [done|]. unfold outofbound.
    assert (g + h s ≤ maxf h n s g) by (destruct n; simpl; lia).
    destruct (_ || _); simpl; lia. }
  assert (Hall : ∀ o, o ∈ ops s → o ∈ ops s) by done. revert Hall.
  generalize (ops s) at 1 3 as l. intros l.
  cut (∀ st1, (∀ o, o ∈ l → o ∈ ops s) → ∃ st' res,
    each D no_limits (dfs D h no_limits fuel b) s pop g l st1 = Some (st', res) ∧
    i_minoob st' ≤ Z.max (i_minoob st1) (maxf h n s g) ∧
    (i_minoob st' = i_minoob st1 ∨ b < i_minoob st')).
  { intros Hcut Hall. destruct (Hcut (add_expd st) Hall) as (st' & res & E & Hm). by exists st', res. }
  clear Eb. induction l as [|o l IHl]; intros st1 Hall; cbn [each].
  { eexists _, _; split; [done|lia]. }
  rewrite no_limits_reached.
  assert (Hall' : ∀ o, o ∈ l → o ∈ ops s) by (intros; apply Hall; by right).
  case_decide as Hop; [apply (IHl (called st1) Hall')|]. rewrite edge_eq.
  assert (Ho : o ∈ ops s) by (apply Hall; by left).
  destruct n as [|n].
  { specialize (Hn [o]). feed specialize Hn; [repeat constructor; done|repeat split; done|]. simpl in Hn. lia. }
  destruct (IH n (add_gend (called st1)) (dest s o) (revop s o) (g + cost s o)) as (st2 & res & E & Hm); [|lia|].
  { intros os Ha Hfw. specialize (Hn (o :: os)). feed specialize Hn; [by constructor|by split|].
    simpl in Hn. lia. }
  rewrite E. simpl in *.
  assert (maxf h n (dest s o) (g + cost s o) ≤ maxf h (S n) s g).
  { simpl. assert (maxf h n (dest s o) (g + cost s o) ∈ (λ o, maxf h n (dest s o) (g + cost s o)) <$> ops s).
    { apply elem_of_list_fmap. eauto. }
    apply foldr_max_in in H. lia. }
  destruct res as [[p1 o1]|].
  - eexists _, _; split; [done|]. simpl in *. lia.
  - destruct (IHl st2 Hall') as (st3 & res & E3 & Hm3). rewrite E3. eexists _, _; split; [done|].
    simpl in *. lia.
Qed.
End tree.

(** If the state space is a finite tree without a goal, that is the operator
    sequences that do not take back their previous operator are of bounded
    length, then after finitely many iterations the bound is -1. *)
Theorem C42_tree_exhausted D (h : St D → Z) s0 N :
  (∀ s, 0 ≤ h s) → (∀ ss os k, ¬ solution s0 ss os k) →
  (∀ os, applicable s0 os → forward nop s0 os → length os ≤ N)%nat →
  ∃ n, nsteps (next h s0) n (h s0) (-1).
Proof.
  intros Hh Hno HN.
  assert (Hstep : ∀ b, ∃ b', next h s0 b b' ∧ (b' = -1 ∨ b < b' ≤ maxf h N s0 0)).
  { intros b. destruct (dfs_tree h b (S N) N (IState 0 0 0 (-1)) s0 nop 0 HN ltac:(lia))
      as (st' & res & E & Hm). destruct res as [[path os]|].
    { apply (dfs_found h no_limits Hh) in E as (k & Hs & _). by apply Hno in Hs. }
    exists (i_minoob st'). split; [by exists (S N), (IState 0 0 0 (-1)), st'|].
    simpl in Hm. assert (0 ≤ maxf h N s0 0) by (specialize (Hh s0); destruct N; simpl; lia). lia. }
  assert (Hgo : ∀ (m : nat) b, maxf h N s0 0 - b < Z.of_nat m → ∃ n, nsteps (next h s0) n b (-1)).
  { induction m as [|m IH]; intros b Hm.
    - destruct (Hstep b) as (b' & Hb & [->|?]); [|lia]. exists 1%nat. by apply nsteps_once.
    - destruct (Hstep b) as (b' & Hb & [->|Hlt]); [exists 1%nat; by apply nsteps_once|].
      destruct (IH b') as [n Hn]; [lia|]. exists (S n). by econstructor. }
  apply (Hgo (Z.to_nat (maxf h N s0 0 - h s0 + 1))). lia.
Qed.

(** ** Examples *)
Import Props.

Definition ida_dom : domain := table_domain
  [(0%nat, 2%nat, 5); (0%nat, 1%nat, 1); (1%nat, 0%nat, 1); (1%nat, 2%nat, 2); (2%nat, 1%nat, 2);
   (2%nat, 0%nat, 5); (2%nat, 3%nat, 1); (3%nat, 2%nat, 1)] 3.

Example ida_dom_ok : domain_ok ida_dom.
Proof. by apply table_ok. Qed.
Example ida_costs (s : St ida_dom) (o : Op ida_dom) : o ∈ ops s → 1 ≤ cost s o.
Proof.
  intros Ht. apply elem_of_list_fmap in Ht as (e & -> & He).
  apply elem_of_list_filter in He as [<- He].
  repeat (apply elem_of_cons in He as [->|He]; [vm_compute; done|]). by apply elem_of_nil in He.
Qed.
Example ida_run : ∃ st, idastar ida_dom (λ _, 0) no_limits 0%nat 10 =
  Some (st, Some ([3; 2; 1; 0]%nat, [3; 2; 1]%nat)).
Proof. eexists. vm_compute. done. Qed.

Example ida_applies : ∃ st path os, ends (idastar ida_dom (λ _, 0) no_limits 0%nat) (st, Some (path, os)).
Proof.
  apply (C41_idastar_finds ida_dom (λ _, 0) ida_dom_ok) with (ss := [0; 2; 3]%nat) (os := [2; 3]%nat) (k := 6).
  - done.
  - intros s ss os k (Hw & _). by apply (walk_nonneg ida_dom _ _ _ ida_dom_ok) in Hw.
  - exact ida_costs.
  - split; [|split; [done|by exists 3%nat]].
    apply (walk_step ida_dom 0%nat 2%nat [3]%nat [3]%nat 1); [vm_compute; set_solver|].
    apply (walk_step ida_dom 2%nat 3%nat [] [] 0); [vm_compute; set_solver|]. constructor.
Qed.

(** A line of three states, no goal: the bounds are 0, 1, 3, -1, 0, 1, 3, -1, ... *)
Definition line_dom : domain := table_domain
  [(0%nat, 1%nat, 1); (1%nat, 0%nat, 1); (1%nat, 2%nat, 2); (2%nat, 1%nat, 2)] 9.
Example line_unsolvable ss os k : ¬ solution (D:=line_dom) 0%nat ss os k.
Proof.
  intros (Hw & Hh & t & Hl & Ht). apply bool_decide_eq_true in Ht as ->.
  assert (Hr : reachable (D:=line_dom) 0%nat 9%nat) by (exists ss, os, k; done).
  apply (reachable_inv (λ s : St line_dom, s ≠ 9%nat)) in Hr; [done|done|].
  intros s o _ Ho. apply elem_of_list_fmap in Ho as (e & -> & He).
  apply elem_of_list_filter in He as [<- He]. unfold dest. simpl.
  repeat (apply elem_of_cons in He as [->|He]; [done|]). by apply elem_of_nil in He.
Qed.
Example line_never_ends fuel : idastar line_dom (λ _, 0) no_limits 0%nat fuel = None.
Proof. apply C42_idastar_never_ends; [done|apply line_unsolvable]. Qed.
Example line_bounds : nsteps (next (D:=line_dom) (λ _, 0) 0%nat) 3 0 (-1).
Proof.
  apply (nsteps_l _ _ 0 1); [|apply (nsteps_l _ _ 1 3); [|apply (nsteps_l _ _ 3 (-1)); [|constructor]]].
  all: eexists 5%nat, (IState 0 0 0 (-1)), _; split; [done|]; split; [vm_compute; reflexivity|done].
Qed.

Print Assumptions C41_idastar_optimal.
Print Assumptions C41_idastar_solution_real.
Print Assumptions C41_idastar_finds.
Print Assumptions C42_idastar_never_ends.
Print Assumptions C42_next_functional.
Print Assumptions C42_bound_restarts.
Print Assumptions C42_tree_exhausted.
