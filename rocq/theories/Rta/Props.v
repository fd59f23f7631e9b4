(** Properties of RTA-star (search/rtastar.hpp). *)
From stdpp Require Import prelude.
From Coq Require Import ZArith Lia ZifyBool ZifyNat.
From Verif.Search Require Import Domain Model Props.
From Verif.Rta Require Import Model.
Open Scope Z_scope.

(** ** Values with -1 for "none" *)

(** [a] is no worse than [b]. *)
Definition le_inf (a b : Z) : Prop := b = -1 ∨ (a ≠ -1 ∧ a ≤ b).

Definition mn (a b : Z) : Z := if better b a then b else a.

Lemma better_true a b : better a b = true ↔ b = -1 ∨ (a ≠ -1 ∧ a < b).
Proof. unfold better. repeat case_bool_decide; simpl; split; intros; try done; try lia. Qed.
Lemma better_false a b : better a b = false ↔ b ≠ -1 ∧ (a = -1 ∨ b ≤ a).
Proof. unfold better. repeat case_bool_decide; simpl; split; intros; try done; try lia. Qed.
Lemma mn_spec a b : (a = -1 ∧ mn a b = b) ∨ (a ≠ -1 ∧ b = -1 ∧ mn a b = a) ∨ (a ≠ -1 ∧ b ≠ -1 ∧ mn a b = Z.min a b).
Proof.
  unfold mn. destruct (better b a) eqn:E; [apply better_true in E|apply better_false in E]; lia.
Qed.
Lemma mn_assoc a b c : mn a (mn b c) = mn (mn a b) c.
Proof.
  destruct (mn_spec a b) as [|[|]], (mn_spec b c) as [|[|]], (mn_spec a (mn b c)) as [|[|]], (mn_spec (mn a b) c) as [|[|]]; lia.
Qed.
Lemma mn_comm a b : mn a b = mn b a.
Proof. destruct (mn_spec a b) as [|[|]], (mn_spec b a) as [|[|]]; lia. Qed.
Lemma mn_none_l a : mn (-1) a = a.
Proof. destruct (mn_spec (-1) a) as [|[|]]; lia. Qed.
Lemma mn_none_r a : mn a (-1) = a.
Proof. rewrite mn_comm. apply mn_none_l. Qed.

(** ** What is looked for *)
Section spec.
Context (D : domain) (h : St D → Z).

(** [frontier n s pop v]: from [s], without undoing the step that led there ([pop]) nor any later step at
    once, a path costing [g] ends after [n] steps, or at a goal before, in a state [t], and [v] is [g + h t]. *)
Inductive frontier : nat → St D → Op D → Z → Prop :=
| fr_end s pop : frontier 0 s pop (h s)
| fr_goal n s pop : isgoal s = true → frontier (S n) s pop (h s)
| fr_step n s pop o v :
    isgoal s = false → o ∈ ops s → o ≠ pop → frontier n (dest s o) (revop s o) v →
    frontier (S n) s pop (cost s o + v).

(** The smallest of them, -1 if there is none. *)
Definition least (n : nat) (s : St D) (pop : Op D) (w : Z) : Prop :=
  (w = -1 ∧ ∀ v, ¬ frontier n s pop v) ∨ (frontier n s pop w ∧ ∀ v, frontier n s pop v → w ≤ v).

(** A path to a goal that never undoes a step at once. *)
Inductive forward : St D → Op D → Z → Prop :=
| fw_goal s pop : isgoal s = true → forward s pop 0
| fw_step s pop o k :
    o ∈ ops s → o ≠ pop → forward (dest s o) (revop s o) k → forward s pop (cost s o + k).
End spec.

(** ** The lookahead *)
Section look.
Context (D : domain) (h : St D → Z) (lim : limits).

Definition plus_inf (c v : Z) : Z := if decide (v = -1) then -1 else v + c.

Fixpoint fmin (n : nat) (s : St D) (pop : Op D) : Z :=
  match n with
  | 0%nat => h s
  | S n =>
    if isgoal s then h s
    else foldr (λ o acc, if decide (o = pop) then acc else mn (plus_inf (cost s o) (fmin n (dest s o) (revop s o))) acc)
      (-1) (ops s)
  end.

Hypothesis OK : domain_ok D.
Hypothesis Hh : ∀ s, 0 ≤ h s.

Lemma fmin_ge n s pop : -1 ≤ fmin n s pop.
Proof.
  revert s pop. induction n as [|n IH]; intros s pop; cbn [fmin]; [specialize (Hh s); lia|].
  destruct (isgoal s); [specialize (Hh s); lia|].
  assert (∀ os, (∀ o, o ∈ os → o ∈ ops s) → -1 ≤ foldr (λ o acc, if decide (o = pop) then acc
    else mn (plus_inf (cost s o) (fmin n (dest s o) (revop s o))) acc) (-1) os) as Hf; [|by apply Hf].
  induction os as [|o os IHos]; intros Hos; cbn [foldr]; [lia|].
  specialize (IHos ltac:(set_solver)). case_decide; [done|].
  pose proof (ok_cost OK s o ltac:(set_solver)). specialize (IH (dest s o) (revop s o)).
  set (a := foldr _ _ os) in *. unfold plus_inf. case_decide.
  - by rewrite mn_none_l.
  - destruct (mn_spec (fmin n (dest s o) (revop s o) + cost s o) a) as [|[|]]; lia.
Qed.

Lemma frontier_pos n s pop v : frontier D h n s pop v → 0 ≤ v.
Proof.
  induction 1 as [| |n s pop o v _ Ho _ _ IH]; [done..|]. pose proof (ok_cost OK s o Ho). lia.
Qed.

Lemma fmin_least n s pop : least D h n s pop (fmin n s pop).
Proof.
  revert s pop. induction n as [|n IH]; intros s pop; cbn [fmin].
  { right. split; [constructor|]. intros v Hv. inversion Hv; subst. lia. }
  destruct (isgoal s) eqn:Eg.
  { right. split; [by constructor|]. intros v Hv. inversion Hv; subst; [lia|congruence]. }
  assert (∀ os, (∀ o, o ∈ os → o ∈ ops s) →
    let w := foldr (λ o acc, if decide (o = pop) then acc
      else mn (plus_inf (cost s o) (fmin n (dest s o) (revop s o))) acc) (-1) os in
    (w = -1 ∧ ∀ o v, o ∈ os → o ≠ pop → ¬ frontier D h n (dest s o) (revop s o) v) ∨
    ((∃ o v, o ∈ os ∧ o ≠ pop ∧ frontier D h n (dest s o) (revop s o) v ∧ w = cost s o + v) ∧ 0 ≤ w ∧
     ∀ o v, o ∈ os → o ≠ pop → frontier D h n (dest s o) (revop s o) v → w ≤ cost s o + v)) as Hf.
  { induction os as [|o os IHos]; intros Hos; cbn zeta; cbn [foldr].
    - left. split; [done|]. intros o v Ho. by apply elem_of_nil in Ho.
    - specialize (IHos ltac:(set_solver)). cbn zeta in IHos.
      case_decide as Hpop.
      + destruct IHos as [[Hw Hno]|[(o' & v' & Ho' & Hp' & Hv' & Hw) [Hw0 Hmin]]].
        * left. split; [done|]. intros o1 v1 [->|Ho1]%elem_of_cons; [done|by apply Hno].
        * right. split_and!; [exists o', v'; split_and!; [by right|done..]|done|].
          intros o1 v1 [->|Ho1]%elem_of_cons; [done|by apply Hmin].
      + set (a := foldr _ _ os) in *. pose proof (ok_cost OK s o ltac:(set_solver)) as Hc.
        pose proof (fmin_ge n (dest s o) (revop s o)) as Hge.
        specialize (IH (dest s o) (revop s o)). unfold plus_inf. case_decide as Em.
        * rewrite mn_none_l. assert (∀ v, ¬ frontier D h n (dest s o) (revop s o) v) as Hnone.
          { destruct IH as [[_ IH]|[Hfr Hle]]; [done|]. rewrite Em in Hfr. exfalso.
            apply frontier_pos in Hfr. lia. }
          destruct IHos as [[Hw Hno]|[(o' & v' & Ho' & Hp' & Hv' & Hw) [Hw0 Hmin]]].
          -- left. split; [done|]. intros o1 v1 [->|Ho1]%elem_of_cons Hp1; [apply Hnone|by apply Hno].
          -- right. split_and!; [exists o', v'; split_and!; [by right|done..]|done|].
             intros o1 v1 [->|Ho1]%elem_of_cons Hp1 Hv1; [by apply Hnone in Hv1|by apply Hmin].
        * right. destruct IH as [[IH _]|[Hfr Hle]]; [done|].
          destruct IHos as [[Hw Hno]|[(o' & v' & Ho' & Hp' & Hv' & Hw) [Hw0 Hmin]]].
          -- rewrite Hw, mn_none_r. split_and!; [|lia|].
             ++ exists o, (fmin n (dest s o) (revop s o)). split_and!; [by left|done|done|lia].
             ++ intros o1 v1 [->|Ho1]%elem_of_cons Hp1 Hv1; [apply Hle in Hv1; lia|by apply Hno in Hv1].
          -- destruct (mn_spec (fmin n (dest s o) (revop s o) + cost s o) a) as [|[|(_ & _ & ->)]]; [lia..|].
             split_and!; [|lia|].
             ++ destruct (decide (fmin n (dest s o) (revop s o) + cost s o ≤ a)).
                ** exists o, (fmin n (dest s o) (revop s o)). split_and!; [by left|done|done|lia].
                ** exists o', v'. split_and!; [by right|done|done|lia].
             ++ intros o1 v1 [->|Ho1]%elem_of_cons Hp1 Hv1; [apply Hle in Hv1; lia|].
                apply Hmin in Hv1; [lia|done..]. }
  specialize (Hf (ops s) ltac:(done)). cbn zeta in Hf.
  destruct Hf as [[Hw Hno]|[(o & v & Ho & Hp & Hv & Hw) [_ Hmin]]].
  - left. split; [done|]. intros v Hv. inversion Hv; subst; [congruence|]. by eapply Hno.
  - right. split; [rewrite Hw; by constructor|].
    intros v' Hv'. inversion Hv'; subst; [congruence|]. by apply Hmin.
Qed.

Hypothesis Hcons : ∀ s o, o ∈ ops s → h s ≤ cost s o + h (dest s o).

Lemma frontier_ge n s pop v : frontier D h n s pop v → h s ≤ v.
Proof.
  induction 1 as [| |n s pop o v _ Ho _ _ IH]; [lia..|]. specialize (Hcons _ _ Ho). lia.
Qed.

(** Without limits: the value, or what was there before if that is smaller. *)
Lemma look_spec n : ∀ st alpha s pop g, 0 ≤ g → -1 ≤ alpha →
  let '(_, a, v) := look D h no_limits n st alpha s pop g in
  a = mn alpha (plus_inf g (fmin n s pop)) ∧ mn alpha v = a.
Proof.
  induction n as [|n IH]; intros st alpha s pop g Hg Ha; cbn [look].
  - cbn [fmin]. unfold plus_inf. pose proof (Hh s). rewrite decide_False by lia. unfold mn. done.
  - assert (h s ≠ -1 ∧ 0 ≤ h s) as [Hne Hs] by (specialize (Hh s); lia).
    assert (rreached no_limits st = false) as -> by done. cbn [orb].
    destruct (better (h s + g) alpha) eqn:Eb; cbn [negb orb].
    2: { apply better_false in Eb. split; [|unfold mn; by rewrite (proj2 (better_false _ _) Eb)].
      destruct (fmin_least (S n) s pop) as [[-> _]|[Hfr _]]; [unfold plus_inf; by rewrite mn_none_r|].
      apply frontier_ge in Hfr. unfold plus_inf. rewrite decide_False by lia.
      destruct (mn_spec alpha (fmin (S n) s pop + g)) as [|[|(_ & _ & ->)]]; lia. }
    destruct (isgoal s) eqn:Eg.
    { cbn [fmin]. rewrite Eg. unfold plus_inf. rewrite decide_False by lia. unfold mn. rewrite Eb. done. }
    cbn [fmin]. rewrite Eg.
    set (F := λ os, foldr (λ o acc, if decide (o = pop) then acc else mn (plus_inf (cost s o) (fmin n (dest s o) (revop s o))) acc)
      (-1) os).
    change (let '(_, a, v) := leach D (look D h no_limits n) s pop g (ops s) (radd_expd (rcalled st)) alpha (-1) in
      a = mn alpha (plus_inf g (F (ops s))) ∧ mn alpha v = a).
    assert (∀ os st alpha1 b, (∀ o, o ∈ os → o ∈ ops s) → -1 ≤ alpha1 → mn alpha b = alpha1 →
      let '(_, a, v) := leach D (look D h no_limits n) s pop g os st alpha1 b in
      a = mn alpha1 (plus_inf g (F os)) ∧ mn alpha v = a) as Hl; [|apply Hl; [done|done|apply mn_none_r]].
    induction os as [|o os IHos]; intros st1 alpha1 b Hos Ha1 Hb; cbn [leach].
    { cbn. unfold plus_inf. cbn. by rewrite mn_none_r. }
    unfold F. cbn [foldr]. fold (F os). case_decide as Hpop; [apply IHos; [set_solver|done..]|].
    pose proof (ok_cost OK s o ltac:(set_solver)) as Hc.
    unfold cost, dest, revop in *. destruct (edge s o) as [[t c] r] eqn:Ee. cbn [fst snd] in *.
    specialize (IH (radd_gend st1) alpha1 t r (g + c) ltac:(lia) Ha1).
    destruct (look D h no_limits n (radd_gend st1) alpha1 t r (g + c)) as [[st2 a2] v2].
    destruct IH as [IHa IHv].
    assert (-1 ≤ plus_inf c (fmin n t r)) as Hge.
    { pose proof (fmin_ge n t r). unfold plus_inf. case_decide; lia. }
    assert (-1 ≤ plus_inf (g + c) (fmin n t r)) as Hge'.
    { pose proof (fmin_ge n t r). unfold plus_inf. case_decide; lia. }
    assert (-1 ≤ a2) as Ha2.
    { rewrite IHa. destruct (mn_spec alpha1 (plus_inf (g + c) (fmin n t r))) as [|[|]]; lia. }
    specialize (IHos st2 a2 (if better v2 b then v2 else b) ltac:(set_solver) Ha2).
    destruct (leach D (look D h no_limits n) s pop g os st2 a2 (if better v2 b then v2 else b)) as [[st3 a3] v3].
    destruct IHos as [IHa3 IHv3].
    { change (if better v2 b then v2 else b) with (mn b v2). rewrite mn_assoc, Hb. done. }
    split; [|done]. rewrite IHa3, IHa, <- mn_assoc. f_equal.
    assert (-1 ≤ F os) as HF.
    { clear -OK Hh Hos. revert Hos. induction os as [|o1 os IHo]; intros Hos; cbn; [lia|].
      case_decide; [apply IHo; set_solver|].
      specialize (IHo ltac:(set_solver)). pose proof (ok_cost OK s o1 ltac:(set_solver)).
      pose proof (fmin_ge n (dest s o1) (revop s o1)). fold (F os). fold (cost s o1) (dest s o1) (revop s o1).
      assert (-1 ≤ plus_inf (cost s o1) (fmin n (dest s o1) (revop s o1))) by (unfold plus_inf; case_decide; lia).
      destruct (mn_spec (plus_inf (cost s o1) (fmin n (dest s o1) (revop s o1))) (F os)) as [|[|]]; lia. }
    pose proof (fmin_ge n t r) as Hft. clear IHa IHv IHa3 IHv3 Hge Hge' Ha2.
    unfold plus_inf. repeat case_decide;
      repeat match goal with |- context [mn ?a ?b] => destruct (mn_spec a b) as [(?&->)|[(?&?&->)|(?&?&->)]] end; try lia;
      repeat match goal with H : context [mn ?a ?b] |- _ => destruct (mn_spec a b) as [(?&E)|[(?&?&E)|(?&?&E)]]; rewrite ?E in *; clear E end; lia.
Qed.

(** Under any limits. *)
Lemma leach_inv (P : Z → Prop) rec s pop g os st alpha b :
  P b → (∀ st a o, o ∈ os → o ≠ pop → P (rec st a (dest s o) (revop s o) (g + cost s o)).2) →
  P (leach D rec s pop g os st alpha b).2.
Proof.
  revert st alpha b. induction os as [|o os IH]; intros st alpha b Hb Hrec; cbn [leach]; [done|].
  case_decide as Hpop; [apply IH; [done|set_solver]|].
  pose proof (Hrec (radd_gend st) alpha o ltac:(set_solver) Hpop) as Hr. unfold cost, dest, revop in Hr.
  destruct (edge s o) as [[t c] r]. cbn [fst snd] in Hr.
  destruct (rec (radd_gend st) alpha t r (g + c)) as [[st2 a2] v2]. cbn [fst snd] in Hr.
  apply IH; [by destruct (better v2 b)|set_solver].
Qed.

Lemma look_ge n st alpha s pop g :
  0 ≤ g → let v := (look D h lim n st alpha s pop g).2 in v = -1 ∨ g + h s ≤ v.
Proof.
  revert st alpha s pop g. induction n as [|n IH]; intros st alpha s pop g Hg; cbn [look]; cbn zeta.
  - right. cbn. lia.
  - destruct (_ || _ || _); [right; cbn; lia|].
    apply (leach_inv (λ v, v = -1 ∨ g + h s ≤ v)); [by left|]. intros st1 a1 o Ho _.
    pose proof (ok_cost OK s o Ho). pose proof (Hcons s o Ho).
    destruct (IH st1 a1 (dest s o) (revop s o) (g + cost s o)) as [->|]; [lia|by left|right; lia].
Qed.
End look.

(** The value looked up never exceeds the cost of a path to a goal that undoes no step at once. *)
Section lower.
Context (D : domain) (h : St D → Z) (lim : limits).
Hypothesis OK : domain_ok D.
Hypothesis Hh : ∀ s, 0 ≤ h s.

Lemma leach_le rec s pop g os st alpha b o u :
  o ∈ os → o ≠ pop → u ≠ -1 → (∀ st a, le_inf (rec st a (dest s o) (revop s o) (g + cost s o)).2 u) →
  le_inf (leach D rec s pop g os st alpha b).2 u.
Proof.
  intros Ho Hp Hu Hrec.
  assert (∀ os st alpha b, le_inf b u → le_inf (leach D rec s pop g os st alpha b).2 u) as Hkeep.
  { clear -Hu. induction os as [|o1 os IH]; intros st alpha b Hb; cbn [leach]; [done|].
    case_decide; [by apply IH|]. destruct (edge s o1) as [[t c] r].
    destruct (rec _ _ _ _ _) as [[st2 a2] v2]. apply IH. destruct (better v2 b) eqn:E; [|done].
    apply better_true in E. unfold le_inf in *. lia. }
  revert st alpha b. induction os as [|o1 os IH]; intros st alpha b; [by apply elem_of_nil in Ho|]. cbn [leach].
  apply elem_of_cons in Ho as [<-|Ho].
  - rewrite decide_False by done. pose proof (Hrec (radd_gend st) alpha) as Hr. unfold cost, dest, revop in Hr.
    destruct (edge s o) as [[t c] r]. cbn [fst snd] in Hr.
    destruct (rec (radd_gend st) alpha t r (g + c)) as [[st2 a2] v2]. cbn [fst snd] in Hr.
    apply Hkeep. destruct (better v2 b) eqn:E; [done|]. apply better_false in E. unfold le_inf in *. lia.
  - case_decide; [by apply IH|]. destruct (edge s o1) as [[t c] r].
    destruct (rec _ _ _ _ _) as [[st2 a2] v2]. by apply IH.
Qed.

Hypothesis Hadm : admissible h.

Lemma forward_solution s pop k : forward D s pop k → ∃ ss os, solution s ss os k.
Proof.
  induction 1 as [s pop Hg|s pop o k Ho _ _ (ss & os & Hw & Hs & t & Hl & Ht)].
  - exists [s], []. split; [constructor|]. split; [done|]. by exists s.
  - destruct ss as [|s1 ss]; [done|]. injection Hs as ->.
    exists (s :: dest s o :: ss), (o :: os). split; [by constructor|]. split; [done|]. by exists t.
Qed.

Lemma look_le n : ∀ st alpha s pop g k,
  0 ≤ g → forward D s pop k → le_inf (look D h lim n st alpha s pop g).2 (g + k).
Proof.
  induction n as [|n IH]; intros st alpha s pop g k Hg Hk.
  - destruct (forward_solution _ _ _ Hk) as (ss & os & Hsol). apply Hadm in Hsol. specialize (Hh s).
    right. cbn. lia.
  - cbn [look]. destruct (_ || _ || _) eqn:E.
    { destruct (forward_solution _ _ _ Hk) as (ss & os & Hsol). apply Hadm in Hsol. specialize (Hh s).
      right. cbn. lia. }
    inversion Hk as [? ? Hgoal|? ? o k' Ho Hp Hk']; subst; [rewrite Hgoal, orb_true_r in E; done|].
    pose proof (ok_cost OK s o Ho) as Hc.
    apply leach_le with o; [done|done| |].
    + destruct (forward_solution _ _ _ Hk') as (ss & os & Hw & _). pose proof (walk_nonneg _ _ _ _ OK Hw). lia.
    + intros st1 a1. rewrite Z.add_assoc. apply IH; [lia|done].
Qed.
End lower.

(** ** The table *)
Section table.
Context (D : domain).

Lemma assign_same seen (s : St D) v w : lookup_seen D seen s = Some w → lookup_seen D (assign D seen s v) s = Some v.
Proof.
  induction seen as [|[t u] seen IH]; simpl; [done|]. case_decide as E; simpl.
  - by rewrite decide_True.
  - rewrite decide_False by done. done.
Qed.
Lemma assign_other seen (s t : St D) v : t ≠ s → lookup_seen D (assign D seen s v) t = lookup_seen D seen t.
Proof.
  intros Hne. induction seen as [|[x u] seen IH]; simpl; [done|]. case_decide as E; simpl.
  - subst x. by rewrite !decide_False by done.
  - case_decide; [done|]. done.
Qed.
Lemma storenode_same seen (s : St D) v : lookup_seen D (storenode D seen s v) s = Some v.
Proof.
  unfold storenode. destruct (lookup_seen D seen s) eqn:E; [by eapply assign_same|]. simpl. by rewrite decide_True.
Qed.
Lemma storenode_other seen (s t : St D) v : t ≠ s → lookup_seen D (storenode D seen s v) t = lookup_seen D seen t.
Proof.
  intros Hne. unfold storenode. destruct (lookup_seen D seen s) eqn:E; [by apply assign_other|].
  simpl. by rewrite decide_False.
Qed.
End table.

(** ** Choosing among the kids *)
Section step.
Context (D : domain) (h : St D → Z) (lim : limits) (nlook : nat).

(** The value of a kid. *)
Definition worth (st : rcount) (seen : list (St D * Z)) (cur : St D) (o : Op D) : Z :=
  plus_inf (cost cur o) (heuristic D h lim nlook seen st (dest cur o) (revop cur o)).2.

Definition is_kid (seen : list (St D * Z)) (cur : St D) (o : Op D) (k : current D) : Prop :=
  c_op D k = o ∧ c_state D k = dest cur o ∧ c_cost D k = cost cur o ∧ ∃ st, c_f D k = worth st seen cur o.

(** The best of [ks] and the value of the second best, [v]. *)
Definition chosen (ks bests : list (current D)) (v : Z) : Prop :=
  ∃ m, bests ≠ [] ∧ (∀ b, b ∈ bests → b ∈ ks ∧ c_f D b = m) ∧ (∀ k, k ∈ ks → le_inf m (c_f D k)) ∧
    (m = -1 → v = -1) ∧ (m ≠ -1 → bests = filter (λ k, c_f D k = m) ks) ∧
    (v = -1 ∨ (m < v ∧ ∃ k, k ∈ ks ∧ c_f D k = v)) ∧ (∀ k, k ∈ ks → c_f D k = m ∨ le_inf v (c_f D k)).

Lemma filter_none {A} (P : A → Prop) `{∀ x, Decision (P x)} l : (∀ x, x ∈ l → ¬ P x) → filter P l = [].
Proof.
  induction l as [|x l IH]; intros Hn; [done|]. rewrite filter_cons_False by (apply Hn; by left).
  apply IH. intros y Hy. apply Hn. by right.
Qed.

Lemma heuristic_same seen seen' st s pop :
  lookup_seen D seen s = lookup_seen D seen' s →
  heuristic D h lim nlook seen st s pop = heuristic D h lim nlook seen' st s pop.
Proof. intros E. unfold heuristic. by rewrite E. Qed.

Lemma kids_spec s0 cur seen0 : ∀ os st seen ks bests st' seen' bests',
  (∀ o, o ∈ os → dest cur o ≠ s0) → (∀ t, t ≠ s0 → lookup_seen D seen t = lookup_seen D seen0 t) →
  (ks = [] ∧ bests = [] ∧ lookup_seen D seen s0 = Some (-1) ∨
   ∃ v, lookup_seen D seen s0 = Some v ∧ chosen ks bests v) →
  kids D h lim nlook s0 cur os st seen bests = (st', seen', bests') →
  ∃ ks', Forall2 (is_kid seen0 cur) os ks' ∧ (∀ t, t ≠ s0 → lookup_seen D seen' t = lookup_seen D seen0 t) ∧
    (ks ++ ks' = [] ∧ bests' = [] ∧ lookup_seen D seen' s0 = Some (-1) ∨
     ∃ v, lookup_seen D seen' s0 = Some v ∧ chosen (ks ++ ks') bests' v).
Proof.
  induction os as [|o os IH]; intros st seen ks bests st' seen' bests' Hne Hsame Hinv Hk.
  { cbn [kids] in Hk. injection Hk as <- <- <-. exists []. rewrite app_nil_r. done. }
  cbn [kids] in Hk. destruct (edge cur o) as [[t c] r] eqn:Ee.
  assert (dest cur o = t ∧ cost cur o = c ∧ revop cur o = r) as (Ed & Ec & Er) by (unfold dest, cost, revop; by rewrite Ee).
  destruct (heuristic D h lim nlook seen (radd_gend st) t r) as [st1 v1] eqn:Eh.
  assert (t ≠ s0) as Ht by (rewrite <- Ed; apply Hne; by left).
  set (f := if decide (v1 = -1) then v1 else v1 + c) in *.
  set (k := Current D t o r c f) in *.
  assert (is_kid seen0 cur o k) as Hkid.
  { split_and!; [done..|]. exists (radd_gend st). unfold worth. rewrite Ed, Ec, Er.
    rewrite <- (heuristic_same seen seen0) by by apply Hsame. rewrite Eh. cbn. unfold plus_inf, f. by case_decide. }
  assert (∀ o, o ∈ os → dest cur o ≠ s0) as Hne' by set_solver.
  assert (∀ seen2 bests2, (∀ x, x ≠ s0 → lookup_seen D seen2 x = lookup_seen D seen0 x) →
    (∃ v, lookup_seen D seen2 s0 = Some v ∧ chosen (ks ++ [k]) bests2 v) →
    kids D h lim nlook s0 cur os st1 seen2 bests2 = (st', seen', bests') →
    ∃ ks', Forall2 (is_kid seen0 cur) (o :: os) ks' ∧ (∀ t, t ≠ s0 → lookup_seen D seen' t = lookup_seen D seen0 t) ∧
    (ks ++ ks' = [] ∧ bests' = [] ∧ lookup_seen D seen' s0 = Some (-1) ∨
     ∃ v, lookup_seen D seen' s0 = Some v ∧ chosen (ks ++ ks') bests' v)) as Hgo.
  { intros seen2 bests2 Hs2 Hc2 Hk2.
    destruct (IH st1 seen2 (ks ++ [k]) bests2 st' seen' bests' Hne' Hs2 (or_intror Hc2) Hk2) as (ks' & HF & Hs' & Hfin).
    exists (k :: ks'). split; [by constructor|]. split; [done|]. rewrite <- app_assoc in Hfin. done. }
  destruct Hinv as [(-> & -> & H0)|(v & H0 & m & Hb & Hbm & Hmin & Hm1 & Hfil & Hv & Hsnd)].
  - apply (Hgo seen [k] Hsame); [|done]. exists (-1). split; [done|]. exists f. split_and!; [done| | |done| |by left|].
    + intros b ->%elem_of_list_singleton. split; [set_solver|done].
    + intros x Hx. apply elem_of_list_singleton in Hx as ->. unfold le_inf. cbn. lia.
    + intros Hf. cbn. by rewrite decide_True.
    + intros x Hx. apply elem_of_list_singleton in Hx as ->. by left.
  - destruct bests as [|b bests]; [done|]. destruct (Hbm b) as [Hbin Hbf]; [by left|].
    rewrite Hbf, H0 in Hk. change (default (-1) (Some v)) with v in Hk.
    destruct (better f m) eqn:E1.
    + apply better_true in E1. apply (Hgo _ _) in Hk; [done| |].
      * intros x Hx. rewrite assign_other by done. by apply Hsame.
      * exists m. split; [by eapply assign_same|]. exists f. split_and!; [done| | | | | |].
        -- intros x ->%elem_of_list_singleton. split; [set_solver|done].
        -- intros x Hx. apply elem_of_app in Hx as [Hx|Hx].
           ++ specialize (Hmin x Hx). unfold le_inf in *. lia.
           ++ apply elem_of_list_singleton in Hx as ->. unfold le_inf. cbn. lia.
        -- lia.
        -- intros Hf. rewrite filter_app, filter_cons_True by done. rewrite filter_nil.
           replace (filter (λ x, c_f D x = f) ks) with (@nil (current D)); [done|].
           symmetry. apply filter_none. intros x Hx Hxf. specialize (Hmin x Hx). unfold le_inf in Hmin. lia.
        -- destruct (decide (m = -1)); [by left|]. right. split; [lia|]. exists b. split; [set_solver|done].
        -- intros x Hx. apply elem_of_app in Hx as [Hx|Hx]; [right; by apply Hmin|].
           apply elem_of_list_singleton in Hx as ->. by left.
    + apply better_false in E1. destruct E1 as [Hm E1]. specialize (Hfil Hm).
      destruct (decide (m = f)) as [Emf|Emf].
      * try rewrite decide_True in Hk by done. apply (Hgo _ _) in Hk; [done|done|].
        exists v. split; [done|]. exists m. split_and!; [done| | |done| | |].
        -- intros x Hx. apply elem_of_app in Hx as [Hx|Hx].
           ++ destruct (Hbm x Hx). split; [set_solver|done].
           ++ apply elem_of_list_singleton in Hx as ->. split; [set_solver|done].
        -- intros x Hx. apply elem_of_app in Hx as [Hx|Hx]; [by apply Hmin|].
           apply elem_of_list_singleton in Hx as ->. unfold le_inf. cbn. lia.
        -- intros _. rewrite filter_app, filter_cons_True by done. rewrite filter_nil, <- Hfil. done.
        -- destruct Hv as [?|(? & x & ? & ?)]; [by left|]. right. split; [done|]. exists x. split; [set_solver|done].
        -- intros x Hx. apply elem_of_app in Hx as [Hx|Hx]; [by apply Hsnd|].
           apply elem_of_list_singleton in Hx as ->. by left.
      * try rewrite decide_False in Hk by done.
        assert (∀ v2, (v2 = -1 ∨ (v2 = f ∧ f ≠ -1) ∨ v2 = v) → le_inf v2 f → le_inf v2 v →
          chosen (ks ++ [k]) (b :: bests) v2) as Hch.
        { intros v2 Hv2 Hle1 Hle2. exists m. split_and!; [done| | |done| | |].
          - intros x Hx. destruct (Hbm x Hx). split; [set_solver|done].
          - intros x Hx. apply elem_of_app in Hx as [Hx|Hx]; [by apply Hmin|].
            apply elem_of_list_singleton in Hx as ->. unfold le_inf. cbn. lia.
          - intros _. rewrite filter_app, filter_cons_False by (cbn; congruence). rewrite filter_nil, app_nil_r. done.
          - destruct Hv2 as [->|[[-> Hf1]| ->]]; [by left| |].
            + right. split; [lia|]. exists k. split; [set_solver|done].
            + destruct Hv as [?|(? & x & ? & ?)]; [by left|]. right. split; [done|]. exists x. split; [set_solver|done].
          - intros x Hx. apply elem_of_app in Hx as [Hx|Hx].
            + destruct (Hsnd x Hx) as [?|Hle]; [by left|]. right. unfold le_inf in *. lia.
            + apply elem_of_list_singleton in Hx as ->. by right. }
        destruct (better f v) eqn:E2.
        -- apply better_true in E2. apply (Hgo _ _) in Hk; [done| |].
           ++ intros x Hx. rewrite assign_other by done. by apply Hsame.
           ++ destruct (decide (f = -1)) as [Ef|Ef].
              ** assert (v = -1) as Ev by lia. exists f. split; [by eapply assign_same|].
                 rewrite Ef, <- Ev. apply Hch; unfold le_inf; lia.
              ** exists f. split; [by eapply assign_same|]. apply Hch; unfold le_inf; [right; by left|lia|lia].
        -- apply better_false in E2. apply (Hgo _ _) in Hk; [done|done|].
           exists v. split; [done|]. apply Hch; unfold le_inf; [right; by right|lia|lia].
Qed.
End step.

(** ** C45 *)
Section theorems.
Context (D : domain) (h : St D → Z) (lim : limits) (nlook : nat).

(** [ws]: the operators of a state, each with its value (-1: none).  [best] are the operators with the smallest
    value (one of them, if no operator has a value); [v] is the smallest of the other values. *)
Definition picked (ws : list (Op D * Z)) (best : list (Op D)) (v : Z) : Prop :=
  ∃ m, best ≠ [] ∧ (∀ o, o ∈ best → (o, m) ∈ ws) ∧ (∀ o w, (o, w) ∈ ws → le_inf m w) ∧
    (m = -1 → v = -1) ∧ (m ≠ -1 → best = (filter (λ p, p.2 = m) ws).*1) ∧
    (v = -1 ∨ (m < v ∧ ∃ o, (o, v) ∈ ws)) ∧ (∀ o w, (o, w) ∈ ws → w = m ∨ le_inf v w).

Lemma chosen_picked ks bests v :
  chosen D ks bests v → picked ((λ k, (c_op D k, c_f D k)) <$> ks) (c_op D <$> bests) v.
Proof.
  intros (m & Hb & Hbm & Hmin & Hm1 & Hfil & Hv & Hsnd). exists m. split_and!.
  - by destruct bests.
  - intros o (b & -> & Hbb)%elem_of_list_fmap. apply elem_of_list_fmap. destruct (Hbm b Hbb) as [Hbk Hf].
    exists b. by rewrite Hf.
  - intros o w (k & [= -> ->] & Hk)%elem_of_list_fmap. by apply Hmin.
  - done.
  - intros Hm. rewrite (Hfil Hm). clear. induction ks as [|k ks IH]; [done|].
    rewrite fmap_cons, !filter_cons. cbn [snd]. destruct (decide (c_f D k = m)); cbn; by rewrite IH.
  - destruct Hv as [?|(? & k & ? & <-)]; [by left|]. right. split; [done|]. exists (c_op D k).
    apply elem_of_list_fmap. by exists k.
  - intros o w (k & [= -> ->] & Hk)%elem_of_list_fmap. by apply Hsnd.
Qed.

Lemma kids_s0 s0 cur os : ∀ st seen bests st' seen' bests' u,
  lookup_seen D seen s0 = Some u → kids D h lim nlook s0 cur os st seen bests = (st', seen', bests') →
  ∃ u', lookup_seen D seen' s0 = Some u'.
Proof.
  induction os as [|o os IH]; intros st seen bests st' seen' bests' u Hu Hk; cbn [kids] in Hk.
  { injection Hk as <- <- <-. eauto. }
  destruct (edge cur o) as [[t c] r]. destruct (heuristic _ _ _ _ _ _ _ _) as [st1 v1].
  destruct bests as [|b bests]; [by eapply IH in Hk|].
  destruct (better _ _); [eapply IH in Hk; [done|by eapply assign_same]|].
  destruct (decide _); [by eapply IH in Hk|].
  destruct (better _ _); [eapply IH in Hk; [done|by eapply assign_same]|by eapply IH in Hk].
Qed.

Lemma kids_nonempty s0 cur os : ∀ st seen bests st' seen' bests',
  kids D h lim nlook s0 cur os st seen bests = (st', seen', bests') → bests' = [] → os = [] ∧ bests = [].
Proof.
  induction os as [|o os IH]; intros st seen bests st' seen' bests' Hk He; cbn [kids] in Hk.
  { by injection Hk as <- <- <-. }
  exfalso. destruct (edge cur o) as [[t c] r]. destruct (heuristic _ _ _ _ _ _ _ _) as [st1 v1].
  destruct bests as [|b bests]; [by eapply IH in Hk as [_ ?]|].
  destruct (better _ _); [by eapply IH in Hk as [_ ?]|].
  destruct (decide _); [by eapply IH in Hk as [_ ?]|].
  destruct (better _ _); by eapply IH in Hk as [_ ?].
Qed.

(** The defect: the variable for the second best value is the one that stores the value of the start state, in
    every step: after a step at any state, the start state has the value of that state. *)
Theorem C45_start_value_overwritten s0 cur st seen st' seen' bests :
  visit D h lim nlook s0 cur st seen = (st', seen', bests) →
  ops cur ≠ [] → is_Some (lookup_seen D seen s0) →
  ∃ v, lookup_seen D seen' cur = Some v ∧ lookup_seen D seen' s0 = Some v.
Proof.
  intros Hv Hops [u Hu]. unfold visit in Hv.
  destruct (bestkids D h lim nlook s0 cur st seen) as [[st1 seen1] bests1] eqn:Eb. unfold bestkids in Eb.
  destruct (kids_s0 s0 cur (ops cur) (radd_expd st) (assign D seen s0 (-1)) [] st1 seen1 bests1 (-1)) as [v Hv1];
    [by eapply assign_same|done|].
  destruct bests1 as [|b bests1].
  { by apply kids_nonempty in Eb as [? _]. }
  injection Hv as <- <- <-. rewrite Hv1. exists v. change (default (-1) (Some v)) with v.
  split; [apply storenode_same|]. destruct (decide (s0 = cur)) as [->|Hne]; [apply storenode_same|].
  by rewrite storenode_other.
Qed.

Lemma visit_spec s0 cur st seen st' seen' bests :
  visit D h lim nlook s0 cur st seen = (st', seen', bests) →
  is_Some (lookup_seen D seen s0) → (∀ o, o ∈ ops cur → dest cur o ≠ s0) → ops cur ≠ [] →
  ∃ ks v, Forall2 (is_kid D h lim nlook seen cur) (ops cur) ks ∧ chosen D ks bests v ∧
    lookup_seen D seen' cur = Some v ∧ lookup_seen D seen' s0 = Some v ∧
    ∀ t, t ≠ cur → t ≠ s0 → lookup_seen D seen' t = lookup_seen D seen t.
Proof.
  intros Hv [u Hu] Hne Hops. unfold visit in Hv.
  destruct (bestkids D h lim nlook s0 cur st seen) as [[st1 seen1] bests1] eqn:Eb. unfold bestkids in Eb.
  destruct (kids_spec D h lim nlook s0 cur seen (ops cur) (radd_expd st) (assign D seen s0 (-1)) [] [] st1 seen1 bests1)
    as (ks & HF & Hsame & Hfin); [done| | |done|].
  { intros t Ht. by apply assign_other. }
  { left. split_and!; [done..|]. by eapply assign_same. }
  cbn [app] in Hfin. destruct Hfin as [(-> & -> & _)|(v & Hv1 & Hch)].
  { by apply Forall2_nil_inv_r in HF. }
  destruct bests1 as [|b bests1]; [by destruct Hch as (m & ? & _)|].
  injection Hv as <- <- <-. rewrite Hv1. change (default (-1) (Some v)) with v. exists ks, v. split_and!; [done..| | |].
  - apply storenode_same.
  - destruct (decide (s0 = cur)) as [->|Hn]; [apply storenode_same|]. by rewrite storenode_other.
  - intros t Ht Ht0. rewrite storenode_other by done. by apply Hsame.
Qed.

(** What is known of the value of a kid [t] reached by an edge undone by [r], under any limits. *)
Definition value_bounds (seen : list (St D * Z)) (t : St D) (r : Op D) (u : Z) : Prop :=
  lookup_seen D seen t = Some u ∨
  (lookup_seen D seen t = None ∧ (consistent h → u = -1 ∨ h t ≤ u) ∧ (admissible h → ∀ k, forward D t r k → le_inf u k)).

(** A step at a state none of whose kids is the start state: the candidates are the kids with the smallest sum
    of edge cost and value; at the state, the smallest of the other sums is stored.  No other state but the start
    state has its value changed. *)
Theorem C45_step s0 cur st seen st' seen' bests :
  domain_ok D → (∀ s, 0 ≤ h s) →
  visit D h lim nlook s0 cur st seen = (st', seen', bests) →
  is_Some (lookup_seen D seen s0) → (∀ o, o ∈ ops cur → dest cur o ≠ s0) → ops cur ≠ [] →
  ∃ ws v, ws.*1 = ops cur ∧
    (∀ o w, (o, w) ∈ ws → ∃ u, value_bounds seen (dest cur o) (revop cur o) u ∧ w = plus_inf (cost cur o) u) ∧
    picked ws (c_op D <$> bests) v ∧ (∀ b, b ∈ bests → c_state D b = dest cur (c_op D b)) ∧
    lookup_seen D seen' cur = Some v ∧
    ∀ t, t ≠ cur → t ≠ s0 → lookup_seen D seen' t = lookup_seen D seen t.
Proof.
  intros OK Hh Hv Hs0 Hne Hops.
  destruct (visit_spec _ _ _ _ _ _ _ Hv Hs0 Hne Hops) as (ks & v & HF & Hch & Hcur & _ & Hoth).
  exists ((λ k, (c_op D k, c_f D k)) <$> ks), v. split_and!; [| |by apply chosen_picked| |done|done].
  - clear -HF. induction HF as [|o k os ks (Ho & _) HF IH]; [done|]. rewrite !fmap_cons. cbn. by rewrite Ho, IH.
  - intros o w (k & [= -> ->] & Hk)%elem_of_list_fmap.
    apply elem_of_list_lookup in Hk as [i Hi]. destruct (Forall2_lookup_r _ _ _ _ _ HF Hi) as (o & Hio & <- & _ & _ & st1 & ->).
    unfold worth. eexists. split; [|done]. unfold value_bounds, heuristic.
    destruct (lookup_seen D seen (dest cur (c_op D k))) as [u|]; [by left|]. right. split; [done|].
    pose proof (look_ge D h lim OK Hh) as Hge.
    pose proof (look_le D h lim OK Hh) as Hle.
    destruct (look D h lim nlook st1 (-1) (dest cur (c_op D k)) (revop cur (c_op D k)) 0) as [[st2 a2] v2] eqn:El. cbn [snd]. split.
    + intros [_ Hc]. specialize (Hge Hc nlook st1 (-1) (dest cur (c_op D k)) (revop cur (c_op D k)) 0 ltac:(lia)).
      cbn zeta in Hge. rewrite El in Hge. cbn [snd] in Hge. lia.
    + intros Hadm kk Hkk. specialize (Hle Hadm nlook st1 (-1) _ _ 0 kk ltac:(lia) Hkk). rewrite El in Hle. done.
  - intros b Hb. destruct Hch as (m & _ & Hbm & _). destruct (Hbm b Hb) as [Hbk _].
    apply elem_of_list_lookup in Hbk as [i Hi]. by destruct (Forall2_lookup_r _ _ _ _ _ HF Hi) as (o & Hio & <- & -> & _).
Qed.

(** The value stored is never below the heuristic, if the values of the kids are not and it is consistent. *)
Theorem C45_never_below_h s0 cur st seen st' seen' bests v :
  domain_ok D → (∀ s, 0 ≤ h s) → consistent h →
  visit D h lim nlook s0 cur st seen = (st', seen', bests) →
  is_Some (lookup_seen D seen s0) → (∀ o, o ∈ ops cur → dest cur o ≠ s0) → ops cur ≠ [] →
  (∀ o u, o ∈ ops cur → lookup_seen D seen (dest cur o) = Some u → u = -1 ∨ h (dest cur o) ≤ u) →
  lookup_seen D seen' cur = Some v → v = -1 ∨ h cur ≤ v.
Proof.
  intros OK Hh Hc Hv Hs0 Hne Hops Hseen Hl.
  destruct (C45_step _ _ _ _ _ _ _ OK Hh Hv Hs0 Hne Hops) as (ws & v' & Hws & Hval & (m & _ & _ & _ & _ & _ & Hvv & _) & _ & Hl' & _).
  rewrite Hl in Hl'. injection Hl' as <-. destruct (decide (v = -1)) as [|Hv1]; [by left|]. right.
  destruct Hvv as [?|(_ & o & Ho)]; [done|].
  destruct (Hval _ _ Ho) as (u & Hu & Hw).
  assert (o ∈ ops cur) as Hoin. { rewrite <- Hws. apply elem_of_list_fmap. by exists (o, v). }
  pose proof (proj2 Hc cur o Hoin) as Hco.
  assert (u = -1 ∨ h (dest cur o) ≤ u) as Hge.
  { destruct Hu as [Hu|(_ & Hu & _)]; [by eapply Hseen|by apply Hu]. }
  unfold plus_inf in Hw. case_decide; lia.
Qed.
End theorems.

(** Without limits and with a consistent heuristic, the value of a kid that was not visited before is the least
    [g + h] over the ends of the paths of [nlook] steps, or less to a goal, that undo no step at once. *)
Theorem C45_lookahead D (h : St D → Z) nlook st s pop :
  domain_ok D → (∀ s, 0 ≤ h s) → consistent h →
  least D h nlook s pop (look D h no_limits nlook st (-1) s pop 0).2.
Proof.
  intros OK Hh [_ Hc]. pose proof (look_spec D h OK Hh Hc nlook st (-1) s pop 0 ltac:(lia) ltac:(lia)) as Hl.
  destruct (look D h no_limits nlook st (-1) s pop 0) as [[st2 a2] v2]. destruct Hl as [Ha Hv].
  rewrite mn_none_l in Ha, Hv. cbn [snd].
  assert (v2 = fmin D h nlook s pop) as ->.
  { rewrite Hv, Ha. unfold plus_inf. case_decide; lia. }
  by apply fmin_least.
Qed.

(** Under any limits and with any admissible heuristic it is a lower bound on the cost of the paths to a goal that
    undo no step at once. *)
Theorem C45_lookahead_admissible D (h : St D → Z) lim nlook st s pop k :
  domain_ok D → (∀ s, 0 ≤ h s) → admissible h → forward D s pop k →
  (look D h lim nlook st (-1) s pop 0).2 ≠ -1 ∧ (look D h lim nlook st (-1) s pop 0).2 ≤ k.
Proof.
  intros OK Hh Hadm Hk. destruct (look_le D h lim OK Hh Hadm nlook st (-1) s pop 0 k ltac:(lia) Hk) as [E|]; [|lia].
  destruct (forward_solution D s pop k Hk) as (ss & os & Hw & _). pose proof (walk_nonneg D ss os k OK Hw). lia.
Qed.

(** ** Whole runs *)
Section run.
Context (D : domain) (h : St D → Z) (lim : limits) (nlook : nat) (rnd : nat → nat → nat).

Lemma kids_mem s0 cur os : ∀ st seen bests st' seen' bests' b,
  kids D h lim nlook s0 cur os st seen bests = (st', seen', bests') → b ∈ bests' →
  b ∈ bests ∨ (c_op D b ∈ os ∧ c_state D b = dest cur (c_op D b)).
Proof.
  induction os as [|o os IH]; intros st seen bests st' seen' bests' b Hk Hb; cbn [kids] in Hk.
  { injection Hk as <- <- <-. by left. }
  destruct (edge cur o) as [[t c] r] eqn:Ee. destruct (heuristic _ _ _ _ _ _ _ _) as [st1 v1].
  assert (∀ f, b = Current D t o r c f → c_op D b ∈ o :: os ∧ c_state D b = dest cur (c_op D b)) as Hnew.
  { intros f ->. cbn. split; [by left|]. unfold dest. by rewrite Ee. }
  destruct bests as [|b0 bests].
  { destruct (IH _ _ _ _ _ _ _ Hk Hb) as [->%elem_of_list_singleton|[? ?]]; right; [by eapply Hnew|split; [by right|done]]. }
  destruct (better _ _).
  { destruct (IH _ _ _ _ _ _ _ Hk Hb) as [->%elem_of_list_singleton|[? ?]]; right; [by eapply Hnew|split; [by right|done]]. }
  destruct (decide _).
  { destruct (IH _ _ _ _ _ _ _ Hk Hb) as [Hin|[? ?]]; [|right; split; [by right|done]].
    apply elem_of_app in Hin as [Hin|Hin]; [by left|]. apply elem_of_list_singleton in Hin. right. by eapply Hnew. }
  destruct (better _ _); (destruct (IH _ _ _ _ _ _ _ Hk Hb) as [Hin|[? ?]]; [by left|right; split; [by right|done]]).
Qed.

Lemma visit_mem s0 cur st seen st' seen' bests b :
  visit D h lim nlook s0 cur st seen = (st', seen', bests) → b ∈ bests →
  c_op D b ∈ ops cur ∧ c_state D b = dest cur (c_op D b).
Proof.
  unfold visit. destruct (bestkids D h lim nlook s0 cur st seen) as [[st1 seen1] bests1] eqn:Eb. unfold bestkids in Eb.
  destruct bests1 as [|b1 bests1]; intros [= <- <- <-] Hb; [by apply elem_of_nil in Hb|].
  destruct (kids_mem _ _ _ _ _ _ _ _ _ _ Eb Hb) as [Hin|]; [by apply elem_of_nil in Hin|done].
Qed.

Lemma rebuild_walk s os ss k : walk ss os k → head ss = Some s → rebuild D s os = ss.
Proof.
  intros Hw. revert s. induction Hw as [s1|s1 o ss os k Ho Hw IH]; intros s [= ->]; [done|].
  cbn [rebuild]. f_equal. by apply IH.
Qed.

Lemma rloop_walk fuel : ∀ k s0 cur os st seen ss c st' cur' os',
  walk ss os c → head ss = Some s0 → last ss = Some cur →
  rloop D h lim nlook rnd fuel k s0 cur os st seen = Some (st', cur', os') →
  (∃ ss' c', walk ss' os' c' ∧ head ss' = Some s0 ∧ last ss' = Some cur') ∨ (os' = [] ∧ isgoal cur' = false ∧ ops cur' = []).
Proof.
  induction fuel as [|fuel IH]; intros k s0 cur os st seen ss c st' cur' os' Hw Hh Hl Hr; [done|]. cbn [rloop] in Hr.
  destruct (isgoal cur) eqn:Eg.
  { apply (inj Some) in Hr. injection Hr as <- <- <-. left. eauto. }
  destruct (rreached lim st).
  { apply (inj Some) in Hr. injection Hr as <- <- <-. left. eauto. }
  destruct (visit D h lim nlook s0 cur (rcalled st) seen) as [[st1 seen1] bests] eqn:Ev.
  destruct bests as [|b0 bests].
  { apply (inj Some) in Hr. injection Hr as <- <- <-. right. split_and!; [done|done|].
    unfold visit in Ev. destruct (bestkids D h lim nlook s0 cur (rcalled st) seen) as [[st2 seen2] bests2] eqn:Eb.
    destruct bests2; [|done]. by apply kids_nonempty in Eb as [? _]. }
  destruct ((b0 :: bests) !! rnd k (length (b0 :: bests))) as [b|] eqn:Eb; [|done]. cbn [mbind option_bind] in Hr.
  apply elem_of_list_lookup_2 in Eb. destruct (visit_mem _ _ _ _ _ _ _ _ Ev Eb) as [Ho Hs].
  eapply IH; [| | |exact Hr].
  - by apply walk_snoc.
  - by destruct ss.
  - rewrite last_snoc. by rewrite Hs.
Qed.

(** What is returned is a way from the start to a goal. *)
Theorem C45_result_valid s0 fuel st path os :
  rtastar D h lim nlook rnd s0 fuel = Some (st, (path, os)) → path ≠ [] →
  ∃ c, solution s0 (reverse path) (reverse os) c.
Proof.
  intros Hr Hp. unfold rtastar in Hr.
  destruct (rloop _ _ _ _ _ _ _ _ _ _ _ _) as [[[st1 cur] os1]|] eqn:El; [|done]. cbn [mbind option_bind] in Hr.
  apply (inj Some) in Hr. unfold answer in Hr. destruct (isgoal cur) eqn:Eg; [|by injection Hr as _ <- _].
  injection Hr as _ <- <-. rewrite !reverse_involutive.
  apply (rloop_walk fuel 0 s0 s0 [] _ _ [s0] 0) in El; [|constructor|done|done].
  destruct El as [(ss & c & Hw & Hs & Hl)|(_ & ? & _)]; [|congruence].
  exists c. rewrite (rebuild_walk _ _ _ _ Hw Hs). split_and!; [done..|]. by exists cur.
Qed.

End run.

(** Without limits, where every state has an operator, it does not return without a solution. *)
Theorem C45_no_false_negative D (h : St D → Z) nlook rnd s0 fuel st path os :
  (∀ s : St D, ops s ≠ []) → rtastar D h no_limits nlook rnd s0 fuel = Some (st, (path, os)) → path ≠ [].
Proof.
  intros Hops Hr. unfold rtastar in Hr.
  assert (∀ fuel k cur os st seen st' cur' os', rloop D h no_limits nlook rnd fuel k s0 cur os st seen = Some (st', cur', os') →
    isgoal cur' = true) as Hgoal.
  { clear -Hops. induction fuel as [|fuel IH]; intros k cur os st seen st' cur' os' Hr; [done|]. cbn [rloop] in Hr.
    destruct (isgoal cur) eqn:Eg; [apply (inj Some) in Hr; by injection Hr as <- <- <-|].
    assert (rreached no_limits st = false) as E by done. rewrite E in Hr.
    destruct (visit D h no_limits nlook s0 cur (rcalled st) seen) as [[st1 seen1] bests] eqn:Ev.
    destruct bests as [|b0 bests].
    { unfold visit in Ev. destruct (bestkids D h no_limits nlook s0 cur (rcalled st) seen) as [[st2 seen2] bests2] eqn:Eb.
      destruct bests2; [|done]. apply kids_nonempty in Eb as [E' _]; [|done]. by apply Hops in E'. }
    destruct (_ !! _) as [b|]; [|done]. cbn [mbind option_bind] in Hr. by eapply IH. }
  destruct (rloop _ _ _ _ _ _ _ _ _ _ _ _) as [[[st1 cur] os1]|] eqn:El; [|done]. cbn [mbind option_bind] in Hr.
  apply Hgoal in El. apply (inj Some) in Hr. unfold answer in Hr. rewrite El in Hr. injection Hr as _ <- _.
  intros E. apply (f_equal length) in E. rewrite reverse_length in E. destruct os1; cbn in E; lia.
Qed.

(** ** Instances *)

Definition rshow {D} (r : option (rcount * (list (St D) * list (Op D)))) : option (list (St D) * list (Op D)) := snd <$> r.
Definition vshow {D} (r : rcount * list (St D * Z) * list (current D)) : list (St D * Z) * list (Op D) :=
  (r.1.2, c_op D <$> r.2).

(** An undirected graph with a dead end, 3, off the way 0, 1, 2, 4. *)
Definition rta_dom : domain := table_domain
  [(0%nat, 1%nat, 1); (1%nat, 0%nat, 1); (1%nat, 2%nat, 1); (2%nat, 1%nat, 1); (1%nat, 3%nat, 5); (3%nat, 1%nat, 5);
   (2%nat, 4%nat, 6); (4%nat, 2%nat, 6)] 4.

(** It works with one kind of draws ... *)
Example rta_run : rshow (rtastar rta_dom (λ _, 0) no_limits 0 (λ _ n, n - 1)%nat 0%nat 10) = Some ([4; 2; 1; 0], [4; 2; 1])%nat.
Proof. vm_compute. reflexivity. Qed.
(** ... or with some lookahead. *)
Example rta_run_look : rshow (rtastar rta_dom (λ _, 0) no_limits 3 (λ _ _, 0)%nat 0%nat 10) = Some ([4; 2; 1; 0], [4; 2; 1])%nat.
Proof. vm_compute. reflexivity. Qed.

Lemma rta_dom_ok : domain_ok rta_dom.
Proof. by apply table_ok. Qed.

(** The hypotheses of [C45_step] and [C45_never_below_h] hold at state 2 after the first two steps. *)
Example rta_step_hyps :
  vshow (visit rta_dom (λ _, 0) no_limits 0 0%nat 2%nat (RCount 0 0 0) [(1%nat, 5); (0%nat, 5)]) =
    ([(2%nat, -1); (1%nat, 5); (0%nat, -1)], [1; 4]%nat) ∧
  (∀ o, o ∈ ops (d:=rta_dom) 2%nat → dest (D:=rta_dom) 2%nat o ≠ 0%nat).
Proof.
  split; [vm_compute; reflexivity|]. intros o Ho. vm_compute in Ho |- *.
  apply elem_of_cons in Ho as [->|Ho]; [done|]. apply elem_of_list_singleton in Ho as ->. done.
Qed.

(** Two kids with the same value: neither counts as second best.  At state 2 of [rta_dom], the third of the run,
    both kids have the value 6, and -1, "never come back", is stored.  Then the search can run for ever, in a finite
    undirected graph with positive costs, a goal reachable from everywhere, and a consistent heuristic. *)
Definition rta_seen : list (St rta_dom * Z) := [(3%nat, -1); (2%nat, -1); (1%nat, -1); (0%nat, -1)].

Lemma rta_forever fuel : ∀ k os st,
  rloop rta_dom (λ _, 0) no_limits 0 (λ _ _, 0)%nat fuel k 0%nat 1%nat os st rta_seen = None ∧
  rloop rta_dom (λ _, 0) no_limits 0 (λ _ _, 0)%nat fuel k 0%nat 3%nat os st rta_seen = None.
Proof.
  induction fuel as [|fuel IH]; intros k os st; [done|]. split.
  - transitivity (rloop rta_dom (λ _, 0) no_limits 0 (λ _ _, 0)%nat fuel (S k) 0%nat 3%nat (os ++ [3%nat])
      (radd_gend (radd_gend (radd_gend (radd_expd (rcalled st))))) rta_seen); [|apply IH].
    reflexivity.
  - transitivity (rloop rta_dom (λ _, 0) no_limits 0 (λ _ _, 0)%nat fuel (S k) 0%nat 1%nat (os ++ [1%nat])
      (radd_gend (radd_expd (rcalled st))) rta_seen); [|apply IH].
    reflexivity.
Qed.

Theorem C45_completeness_refuted :
  domain_ok rta_dom ∧ consistent (D:=rta_dom) (λ _, 0) ∧
  (∀ s o, o ∈ ops (d:=rta_dom) s → 0 < cost s o ∧ revop s o ∈ ops (dest s o)) ∧
  (∀ s, s ∈ [0; 1; 2; 3; 4]%nat → ∃ ss os k, solution (D:=rta_dom) s ss os k) ∧
  (∀ s, reachable (D:=rta_dom) 0%nat s → s ∈ [0; 1; 2; 3; 4]%nat) ∧
  ∀ fuel, rtastar rta_dom (λ _, 0) no_limits 0 (λ _ _, 0)%nat 0%nat fuel = None.
Proof.
  assert (∀ s o, o ∈ ops (d:=rta_dom) s → (s, o) ∈ [(0, 1); (1, 0); (1, 2); (2, 1); (1, 3); (3, 1); (2, 4); (4, 2)]%nat) as Hedges.
  { intros s o Ho. apply elem_of_list_fmap in Ho as (e & -> & He).
    apply elem_of_list_filter in He as [<- He].
    repeat (apply elem_of_cons in He as [->|He]; [cbn; set_solver|]). by apply elem_of_nil in He. }
  split_and!.
  - apply rta_dom_ok.
  - split; [done|]. intros s o Ho. pose proof (ok_cost rta_dom_ok s o Ho). lia.
  - intros s o Ho. apply Hedges in Ho.
    repeat (apply elem_of_cons in Ho as [[= -> ->]|Ho]; [split; [done|]; vm_compute; set_solver|]). by apply elem_of_nil in Ho.
  - assert (solution (D:=rta_dom) 4%nat [4]%nat [] 0) as S4.
    { split; [constructor|]. split; [done|]. by exists 4%nat. }
    assert (∀ s t ss os k, t ∈ ops (d:=rta_dom) s → solution (D:=rta_dom) t (t :: ss) os k →
      solution (D:=rta_dom) s (s :: t :: ss) (t :: os) (cost (D:=rta_dom) s t + k)) as Hstep.
    { intros s t ss os k Ht (Hw & _ & Hl). split; [by apply (walk_step rta_dom s t)|]. done. }
    assert (solution (D:=rta_dom) 2%nat [2; 4]%nat [4]%nat 6) as S2 by (apply (Hstep 2%nat 4%nat [] [] 0 ltac:(vm_compute; set_solver) S4)).
    assert (solution (D:=rta_dom) 1%nat [1; 2; 4]%nat [2; 4]%nat 7) as S1 by (apply (Hstep 1%nat 2%nat [4]%nat [4]%nat 6 ltac:(vm_compute; set_solver) S2)).
    assert (solution (D:=rta_dom) 0%nat [0; 1; 2; 4]%nat [1; 2; 4]%nat 8) as S0 by (apply (Hstep 0%nat 1%nat _ _ _ ltac:(vm_compute; set_solver) S1)).
    assert (solution (D:=rta_dom) 3%nat [3; 1; 2; 4]%nat [1; 2; 4]%nat 12) as S3 by (apply (Hstep 3%nat 1%nat _ _ _ ltac:(vm_compute; set_solver) S1)).
    intros s Hs. repeat (apply elem_of_cons in Hs as [->|Hs]; [eauto|]). by apply elem_of_nil in Hs.
  - intros s. apply (reachable_inv (D:=rta_dom) (λ s, s ∈ [0; 1; 2; 3; 4]%nat)); [set_solver|].
    intros t o _ Ho. apply Hedges in Ho.
    repeat (apply elem_of_cons in Ho as [[= -> ->]|Ho]; [vm_compute; set_solver|]). by apply elem_of_nil in Ho.
  - intros fuel. destruct fuel as [|fuel]; [done|]. destruct fuel as [|fuel]; [done|].
    destruct fuel as [|fuel]; [done|]. destruct fuel as [|fuel]; [done|]. destruct fuel as [|fuel]; [done|].
    pose proof (proj1 (rta_forever fuel 5%nat [1; 2; 1; 3; 1]%nat (RCount 5 10 10))) as E.
    unfold rtastar.
    assert (rloop rta_dom (λ _, 0) no_limits 0 (λ _ _, 0)%nat (S (S (S (S (S fuel))))) 0 0%nat 0%nat [] (RCount 0 0 0)
      (storenode rta_dom [] 0%nat 0) = None) as ->; [|done].
    etransitivity; [|exact E]. reflexivity.
Qed.

(** The start state as a kid: its value is hidden while the step is made.  From state 1, going back to the start
    costs 1 and the value of the start is 3 after the first step, going to state 3 costs 10; the step goes to 3. *)
Definition back_dom : domain := table_domain
  [(0%nat, 1%nat, 1); (0%nat, 2%nat, 3); (1%nat, 0%nat, 1); (1%nat, 3%nat, 10); (2%nat, 3%nat, 1)] 3.

Theorem C45_start_as_kid_refuted :
  let r0 := visit back_dom (λ _, 0) no_limits 0 0%nat 0%nat (RCount 0 0 0) [(0%nat, 0)] in
  let r1 := visit back_dom (λ _, 0) no_limits 0 0%nat 1%nat (RCount 1 2 1) r0.1.2 in
  vshow r0 = ([(0%nat, 3)], [1%nat]) ∧ (c_op back_dom <$> r1.2) = [3%nat] ∧
  cost (D:=back_dom) 1%nat 0%nat + 3 < cost (D:=back_dom) 1%nat 3%nat + 0.
Proof. split_and!; vm_compute; reflexivity. Qed.

(** The start state loses its value: 10 by a consistent heuristic, it has the value 2 after the second step. *)
Definition loss_dom : domain := table_domain
  [(0%nat, 1%nat, 10); (1%nat, 2%nat, 1); (1%nat, 3%nat, 2)] 2.
Definition loss_h (s : St loss_dom) : Z := if decide (s = 0%nat) then 10 else 0.

Theorem C45_start_below_h_refuted :
  domain_ok loss_dom ∧ consistent loss_h ∧
  let r0 := visit loss_dom loss_h no_limits 0 0%nat 0%nat (RCount 0 0 0) [(0%nat, 10)] in
  let r1 := visit loss_dom loss_h no_limits 0 0%nat 1%nat (RCount 1 1 1) r0.1.2 in
  (c_op loss_dom <$> r0.2) = [1%nat] ∧ lookup_seen loss_dom r1.1.2 0%nat = Some 2.
Proof.
  split_and!.
  - by apply table_ok.
  - split.
    + intros s Hs. apply bool_decide_eq_true in Hs as ->. done.
    + intros s o Ho. apply elem_of_list_fmap in Ho as (e & -> & He).
      apply elem_of_list_filter in He as [<- He].
      repeat (apply elem_of_cons in He as [->|He]; [vm_compute; done|]). by apply elem_of_nil in He.
  - vm_compute. split; reflexivity.
Qed.

Print Assumptions C45_start_value_overwritten.
Print Assumptions C45_step.
Print Assumptions C45_never_below_h.
Print Assumptions C45_lookahead.
Print Assumptions C45_lookahead_admissible.
Print Assumptions C45_result_valid.
Print Assumptions C45_no_false_negative.
Print Assumptions C45_completeness_refuted.
Print Assumptions C45_start_as_kid_refuted.
Print Assumptions C45_start_below_h_refuted.
