(** The stopping policy of the anytime monitor is optimal (C69). *)
From stdpp Require Import prelude.
From Coq Require Import QArith Qround Lqa Lia.
From Verif Require Import Anyprof.Model.

(** ** Specification *)
Fixpoint Qsum {A} (f : A → Q) (l : list A) : Q := match l with [] => 0 | x :: l => f x + Qsum f l end.

(** The expected utility of a stopping policy.  There are [n] steps left at time [t]; the incumbent is in cost bin [q];
    [h] are the earlier bins.  The policy may look at all bins seen so far.  [P q2 q1] is the probability of going from
    [q1] to [q2] in one step, [U q t] the utility of stopping. *)
Section spec.
Context (nc : nat) (P : nat → nat → Q) (U : nat → nat → Q).
Fixpoint gain (π : list nat → nat → bool) (n t : nat) (h : list nat) (q : nat) : Q :=
  match n with
  | 0%nat => U q t
  | S n => if π (q :: h) t then U q t else Qsum (λ q2, P q2 q * gain π n (S t) (q :: h) q2) (seq 0 nc)
  end.
(** Costs only improve, and the probabilities add up to one. *)
Definition stochastic : Prop := ∀ q1, (q1 < nc)%nat →
  (∀ q2, (q2 < nc)%nat → 0 <= P q2 q1) ∧ (∀ q2, (q1 < q2 < nc)%nat → P q2 q1 == 0) ∧ Qsum (λ q2, P q2 q1) (seq 0 nc) == 1.
End spec.

(** One step of a profile. *)
Definition onestep (p : profile) (q2 q1 : nat) : Q := default 0 (binprob p q2 q1 1).
Definition good_profile (p : profile) : Prop :=
  length (probs p) = (ncost p * ncost p * ntime p)%nat ∧ stochastic (ncost p) (onestep p).
(** The utility of a bin: minus the weighted cost and time in the middle of the bin. *)
Definition utility (p : profile) (wf wt : Q) (q t : nat) : Q :=
  let e := ext p in
  - (wf * (mincost e + (qn q + (1 # 2)) * ((maxcost e - mincost e) / qn (ncost p))) +
     wt * (mintime e + (qn t + (1 # 2)) * ((maxtime e - mintime e) / qn (ntime p)))).
(** The stored decision. *)
Definition decision (p : profile) (c : list (option (Q * bool))) (q t : nat) : bool :=
  match c !! (q * ntime p + t)%nat with Some (Some (_, b)) => b | _ => true end.

(** ** Loops *)
Lemma foldm_seq {A} (f : nat → A → option A) (I : nat → A → Prop) start n a :
  I start a → (∀ i a, (start ≤ i < start + n)%nat → I i a → ∃ a', f i a = Some a' ∧ I (S i) a') →
  ∃ a', foldm f (seq start n) a = Some a' ∧ I (start + n)%nat a'.
Proof.
  revert start a. induction n as [|n IH]; intros start a H0 Hs; cbn [seq foldm].
  - exists a. rewrite Nat.add_0_r. done.
  - destruct (Hs start a) as (a1 & -> & H1); [lia|done|]. destruct (IH (S start) a1 H1) as (a2 & -> & H2).
    + intros i a' Hi. apply Hs. lia.
    + exists a2. split; [done|]. by rewrite Nat.add_succ_r.
Qed.
Lemma foldm_app {A B} (f : B → A → option A) l l' a : foldm f (l ++ l') a = match foldm f l a with Some a => foldm f l' a | None => None end.
Proof. revert a. induction l as [|x l IH]; intros a; [done|]. cbn [app foldm]. destruct (f x a); [apply IH|done]. Qed.
Lemma foldm_rev_seq {A} (f : nat → A → option A) (I : nat → A → Prop) n a :
  I n a → (∀ i a, (i < n)%nat → I (S i) a → ∃ a', f i a = Some a' ∧ I i a') → ∃ a', foldm f (rev (seq 0 n)) a = Some a' ∧ I 0%nat a'.
Proof.
  revert a. induction n as [|n IH]; intros a H0 Hs; [by exists a|].
  rewrite seq_S, rev_app_distr, Nat.add_0_l. cbn [rev app foldm]. destruct (Hs n a) as (a1 & -> & H1); [lia|done|]. apply IH; [done|]. intros i a' Hi. apply Hs. lia.
Qed.

Lemma ltb_true a b : ltb a b = true ↔ a < b.
Proof. unfold ltb. destruct (Qle_bool b a) eqn:E; [apply Qle_bool_iff in E|]; split; try done; [intros; lra|]. intros _. apply Qnot_le_lt. intros H. apply Qle_bool_iff in H. congruence. Qed.
Lemma ltb_false a b : ltb a b = false ↔ b <= a.
Proof. unfold ltb. rewrite negb_false_iff. apply Qle_bool_iff. Qed.

Lemma Qsum_app {A} (f : A → Q) l l' : Qsum f (l ++ l') == Qsum f l + Qsum f l'.
Proof. induction l as [|x l IH]; cbn [app Qsum]; [lra|]. rewrite IH. lra. Qed.
Lemma Qsum_rev {A} (f : A → Q) l : Qsum f (rev l) == Qsum f l.
Proof. induction l as [|x l IH]; cbn [rev Qsum]; [lra|]. rewrite Qsum_app, IH. cbn [Qsum]. lra. Qed.
Lemma Qsum_ext {A} (f g : A → Q) l : (∀ x, x ∈ l → f x == g x) → Qsum f l == Qsum g l.
Proof. induction l as [|x l IH]; intros H; cbn [Qsum]; [lra|]. rewrite (H x) by left. rewrite IH; [lra|]. intros y Hy. apply H. by right. Qed.
Lemma Qsum_le {A} (f g : A → Q) l : (∀ x, x ∈ l → f x <= g x) → Qsum f l <= Qsum g l.
Proof.
  induction l as [|x l IH]; intros H; cbn [Qsum]; [lra|]. assert (f x <= g x) by (apply H; left).
  assert (Qsum f l <= Qsum g l) by (apply IH; intros y Hy; apply H; by right). lra.
Qed.
Lemma Qsum_zero {A} (f : A → Q) l : (∀ x, x ∈ l → f x == 0) → Qsum f l == 0.
Proof. induction l as [|x l IH]; intros H; cbn [Qsum]; [lra|]. rewrite (H x) by left. rewrite IH; [lra|]. intros y Hy. apply H. by right. Qed.
Definition accsum {A} (f : A → Q) (l : list A) (a : Q) : Q := foldl (λ s x, s + f x) a l.
Lemma accsum_sum {A} (f : A → Q) l a : accsum f l a == a + Qsum f l.
Proof. unfold accsum. revert a. induction l as [|x l IH]; intros a; cbn [foldl Qsum]; [lra|]. rewrite IH. lra. Qed.

Section sums.
Context (nc : nat) (P : nat → nat → Q) (HP : stochastic nc P).
Lemma Qsum_below f q : (q < nc)%nat → Qsum (λ q2, P q2 q * f q2) (seq 0 nc) == Qsum (λ q2, P q2 q * f q2) (seq 0 (S q)).
Proof using HP.
  intros Hq. replace nc with (S q + (nc - S q))%nat at 1 by lia. rewrite seq_app, Qsum_app.
  rewrite (Qsum_zero _ (seq (0 + S q) (nc - S q))); [lra|]. intros q2 Hq2%elem_of_seq. destruct (HP q Hq) as (_ & H0 & _). rewrite H0 by lia. lra.
Qed.
Lemma psum_one q : (q < nc)%nat → accsum (λ q2, P q2 q) (rev (seq 0 (S q))) 0 == 1.
Proof using HP.
  intros Hq. rewrite accsum_sum, Qsum_rev. destruct (HP q Hq) as (_ & _ & H1).
  rewrite <-H1. rewrite (Qsum_ext (λ q2, P q2 q) (λ q2, P q2 q * 1) (seq 0 nc)) by (intros; lra). rewrite Qsum_below by done.
  rewrite (Qsum_ext (λ q2, P q2 q * 1) (λ q2, P q2 q)) by (intros; lra). lra.
Qed.
End sums.

(** ** The table that is computed *)
Section best.
Context (nc : nat) (P : nat → nat → Q) (U : nat → nat → Q).
Fixpoint best (n t q : nat) : Q * bool :=
  match n with
  | 0%nat => (U q t, true)
  | S n =>
      if decide (q = 0%nat) then (U q t, true) else
      let vgo := accsum (λ q2, P q2 q * (best n (S t) q2).1) (rev (seq 0 (S q))) 0 in
      if ltb (U q t) vgo then (vgo, false) else (U q t, true)
  end.

Context (HP : stochastic nc P) (HU : ∀ t, U 0%nat (S t) <= U 0%nat t).
Lemma best_zero n t : best n t 0 = (U 0%nat t, true).
Proof. by destruct n. Qed.
Lemma gain_le_best π n t h q : (q < nc)%nat → gain nc P U π n t h q <= (best n t q).1.
Proof using HP HU.
  revert t h q. induction n as [|n IH]; intros t h q Hq; cbn [gain best]; [cbn; lra|].
  assert (Qsum (λ q2, P q2 q * gain nc P U π n (S t) (q :: h) q2) (seq 0 nc) <= Qsum (λ q2, P q2 q * (best n (S t) q2).1) (seq 0 nc)) as Hmono.
  { apply Qsum_le. intros q2 Hq2%elem_of_seq. specialize (IH (S t) (q :: h) q2 ltac:(lia)). destruct (HP q Hq) as (Hpos & _).
    specialize (Hpos q2 ltac:(lia)). nra. }
  rewrite (Qsum_below nc P HP (λ q2, (best n (S t) q2).1)) in Hmono by done. destruct (decide (q = 0%nat)) as [->|Hne].
  - cbn [fst]. destruct (π _ _); [lra|]. cbn [seq] in Hmono. cbn [Qsum] in Hmono. rewrite best_zero in Hmono. cbn [fst] in Hmono.
    assert (P 0%nat 0%nat == 1) as H1. { pose proof (psum_one nc P HP 0 Hq) as H. cbn in H. lra. }
    rewrite H1 in Hmono. specialize (HU t). lra.
  - cbn zeta. set (vgo := accsum _ _ _).
    assert (Qsum (λ q2, P q2 q * (best n (S t) q2).1) (seq 0 (S q)) == vgo) as E. { unfold vgo. rewrite accsum_sum, Qsum_rev. lra. }
    destruct (ltb (U q t) vgo) eqn:El; [apply ltb_true in El|apply ltb_false in El]; cbn [fst]; destruct (π _ _); lra.
Qed.
Lemma gain_best n t h q (d : nat → nat → bool) : (q < nc)%nat →
  (∀ t' q', (t ≤ t')%nat → (t' < t + n)%nat → (q' < nc)%nat → d q' t' = (best (t + n - t') t' q').2) →
  gain nc P U (λ h t, match h with q :: _ => d q t | [] => true end) n t h q == (best n t q).1.
Proof using HP HU.
  revert t h q. induction n as [|n IH]; intros t h q Hq Hd; cbn [gain]; [cbn; lra|].
  rewrite (Hd t q) by lia. replace (t + S n - t)%nat with (S n) by lia. cbn [best].
  assert (Qsum (λ q2, P q2 q * gain nc P U (λ h t, match h with q :: _ => d q t | [] => true end) n (S t) (q :: h) q2) (seq 0 nc) ==
    Qsum (λ q2, P q2 q * (best n (S t) q2).1) (seq 0 nc)) as Heq.
  { apply Qsum_ext. intros q2 Hq2%elem_of_seq. rewrite IH; [lra|lia|]. intros t' q' H1 H2 H3. rewrite Hd by lia. do 2 f_equal. lia. }
  destruct (decide (q = 0%nat)) as [->|Hne]; [cbn; lra|]. cbn zeta. set (vgo := accsum _ _ _).
  assert (Qsum (λ q2, P q2 q * (best n (S t) q2).1) (seq 0 (S q)) == vgo) as E. { unfold vgo. rewrite accsum_sum, Qsum_rev. lra. }
  destruct (ltb (U q t) vgo) eqn:El; cbn [fst snd]; [|lra]. rewrite Heq. rewrite (Qsum_below nc P HP) by done. done.
Qed.
End best.

(** ** The monitor *)
Section monitor.
Context (p : profile) (wf wt : Q) (Hp : good_profile p).
Local Notation nc := (ncost p).
Local Notation nt := (ntime p).
Local Notation P := (onestep p).
Local Notation U := (binutil p wf wt).
Local Notation B := (best P U).

Lemma index_ok q t : (q < nc)%nat → (t < nt)%nat → index p q t = Some (q * nt + t)%nat ∧ (q * nt + t < nc * nt)%nat.
Proof.
  intros H1 H2. unfold index. rewrite bool_decide_true by done. split; [done|]. nia.
Qed.
Lemma put_ok (c : list (option (Q * bool))) q t x : length c = (nc * nt)%nat → (q < nc)%nat → (t < nt)%nat →
  put p q t x c = Some (<[(q * nt + t)%nat := Some x]> c).
Proof. intros Hl Hq Ht. unfold put. destruct (index_ok q t) as [-> H]; [done..|]. unfold set. by rewrite decide_True by lia. Qed.
Lemma idx_inj q t q' t' : (t < nt)%nat → (t' < nt)%nat → (q * nt + t = q' * nt + t')%nat → q = q' ∧ t = t'.
Proof. intros H1 H2 E. assert (q = q') by nia. subst. split; [done|]. lia. Qed.
Lemma insert_cell (c : list (option (Q * bool))) q t q' t' x : length c = (nc * nt)%nat → (q < nc)%nat → (t < nt)%nat → (q' < nc)%nat → (t' < nt)%nat →
  <[(q * nt + t)%nat := Some x]> c !! (q' * nt + t')%nat = if decide (q' = q ∧ t' = t) then Some (Some x) else c !! (q' * nt + t')%nat.
Proof.
  intros Hl H1 H2 H3 H4. destruct (decide (q' = q ∧ t' = t)) as [[-> ->]|Hne].
  - rewrite list_lookup_insert; [done|]. destruct (index_ok q t); [done..|]. lia.
  - rewrite list_lookup_insert_ne; [done|]. intros E. apply Hne. apply idx_inj in E as [-> ->]; done.
Qed.

Lemma onestep_some q2 q1 : (q2 < nc)%nat → (q1 < nc)%nat → (1 < nt)%nat → binprob p q2 q1 1 = Some (P q2 q1).
Proof using Hp.
  intros H1 H2 H3. unfold onestep, binprob. rewrite bool_decide_true by done. destruct (probs p !! _) eqn:E; [done|].
  apply lookup_ge_None in E. destruct Hp as [Hl _]. rewrite Hl in E. unfold qqtindex in E. exfalso.
  assert (S q2 * (nc * nt) ≤ nc * (nc * nt))%nat by (apply Nat.mul_le_mono_r; lia). assert (S q1 * nt ≤ nc * nt)%nat by (apply Nat.mul_le_mono_r; lia). lia.
Qed.

(** The cells for which [D] holds are computed. *)
Definition filled (c : list (option (Q * bool))) (D : nat → nat → Prop) : Prop :=
  length c = (nc * nt)%nat ∧ ∀ q t, (q < nc)%nat → (t < nt)%nat → D q t → c !! (q * nt + t)%nat = Some (Some (B (nt - 1 - t) t q)).
Lemma filled_put c D q t : filled c D → (q < nc)%nat → (t < nt)%nat → ∃ c', put p q t (B (nt - 1 - t) t q) c = Some c' ∧ filled c' (λ q' t', D q' t' ∨ (q' = q ∧ t' = t)).
Proof.
  intros [Hl Hc] Hq Ht. eexists. split; [by apply put_ok|]. split; [by rewrite insert_length|]. intros q' t' Hq' Ht' HD.
  rewrite insert_cell by done. destruct (decide (q' = q ∧ t' = t)) as [[-> ->]|Hne]; [done|]. apply Hc; [done..|]. by destruct HD.
Qed.
Lemma filled_weaken c (D D' : nat → nat → Prop) : filled c D → (∀ q t, (q < nc)%nat → (t < nt)%nat → D' q t → D q t) → filled c D'.
Proof. intros [Hl Hc] H. split; [done|]. intros q t Hq Ht HD. apply Hc; auto. Qed.

Lemma lookahead_ok c D q1 t : filled c D → (q1 < nc)%nat → (t + 1 < nt)%nat → (∀ q2, (q2 ≤ q1)%nat → D q2 (t + 1)%nat) →
  lookahead p c q1 t = Some (accsum (λ q2, P q2 q1 * (B (nt - 1 - (t + 1)) (t + 1) q2).1) (rev (seq 0 (S q1))) 0, accsum (λ q2, P q2 q1) (rev (seq 0 (S q1))) 0).
Proof using Hp.
  intros [Hl Hc] Hq Ht HD. unfold lookahead.
  assert (∀ l a b, (∀ x, x ∈ l → (x ≤ q1)%nat) → foldm (λ q2 acc, let '(vgo, psum) := acc in
    match binprob p q2 q1 1, index p q2 (t + 1) with
    | Some prob, Some i => match c !! i with Some (Some (val, _)) => Some (vgo + prob * val, psum + prob) | _ => None end
    | _, _ => None end) l (a, b) = Some (accsum (λ q2, P q2 q1 * (B (nt - 1 - (t + 1)) (t + 1) q2).1) l a, accsum (λ q2, P q2 q1) l b)) as H.
  2:{ apply H. intros x Hx. rewrite <-elem_of_list_In, <-in_rev, elem_of_list_In in Hx || (rewrite elem_of_list_In, <-in_rev, <-elem_of_list_In in Hx). apply elem_of_seq in Hx. lia. }
  induction l as [|x l IH]; intros a b Hx; [done|]. cbn [foldm]. assert (x ≤ q1)%nat by (apply Hx; left).
  rewrite onestep_some by lia. destruct (index_ok x (t + 1)) as [-> _]; [lia..|]. rewrite Hc; [|lia..|by apply HD].
  rewrite (surjective_pairing (B (nt - 1 - (t + 1)) (t + 1) x)). rewrite IH by (intros; apply Hx; by right). cbn [fst]. done.
Qed.

Lemma monitor_filled : (1 ≤ nc)%nat → (2 ≤ nt)%nat → ∃ c, mkmonitor p wf wt = Some c ∧ filled c (λ _ _, True).
Proof using Hp.
  intros Hnc Hnt. unfold mkmonitor.
  destruct (foldm_seq (λ q, put p q (nt - 1) (U q (nt - 1)%nat, true)) (λ q c, filled c (λ q' t', (q' < q)%nat ∧ t' = (nt - 1)%nat)) 0 nc (replicate (nc * nt) None)) as (c1 & -> & H1).
  { split; [by rewrite replicate_length|]. intros ??? ? [? _]. lia. }
  { intros q c Hq Hf. destruct (filled_put _ _ q (nt - 1) Hf) as (c' & Hput & Hf'); [lia..|]. rewrite Nat.sub_diag in Hput. cbn [best] in Hput.
    exists c'. split; [done|]. eapply filled_weaken; [exact Hf'|]. cbn beta. intros q' t' _ _ [Hle ->]. destruct (decide (q' = q)); [by right|left]. split; [lia|done]. }
  destruct (foldm_seq (λ t, put p 0 t (U 0%nat t, true)) (λ t c, filled c (λ q' t', t' = (nt - 1)%nat ∨ (q' = 0%nat ∧ (t' < t)%nat))) 0 nt c1) as (c2 & -> & H2).
  { eapply filled_weaken; [exact H1|]. cbn beta. intros q' t' ?? [->|[_ ?]]; [done|lia]. }
  { intros t c Ht Hf. destruct (filled_put _ _ 0%nat t Hf) as (c' & Hput & Hf'); [lia..|]. rewrite best_zero in Hput. exists c'. split; [done|].
    eapply filled_weaken; [exact Hf'|]. cbn beta. intros q' t' _ _ [->|[-> Hle]]; [by left; left|]. destruct (decide (t' = t)); [by right|left; right]. split; [done|lia]. }
  rewrite bool_decide_false by lia.
  destruct (foldm_seq (λ q1, foldm (decidecell p wf wt q1) (rev (seq 0 (nt - 1)))) (λ q1 c, filled c (λ q' t', (q' < q1)%nat ∨ t' = (nt - 1)%nat)) 1 (nc - 1) c2) as (c3 & -> & H3).
  { eapply filled_weaken; [exact H2|]. cbn beta. intros q' t' ?? [?| ->]; [right|by left]. split; lia. }
  { intros q1 c Hq Hf.
    destruct (foldm_rev_seq (decidecell p wf wt q1) (λ t c, filled c (λ q' t', (q' < q1)%nat ∨ t' = (nt - 1)%nat ∨ (q' = q1 ∧ (t ≤ t')%nat))) (nt - 1) c) as (c' & -> & Hf').
    - eapply filled_weaken; [exact Hf|]. cbn beta. intros q' t' ?? [?|[->|[-> ?]]]; [by left|by right|right; lia].
    - intros t c' Ht Hf'. unfold decidecell.
      rewrite (lookahead_ok c' _ q1 t Hf') by lia.
      pose proof (psum_one nc P (proj2 Hp) q1 ltac:(lia)) as Hps.
      replace (ltb (1 - (1 # 100000000)) _) with true by (symmetry; apply ltb_true; rewrite Hps; reflexivity).
      replace (ltb _ (1 + (1 # 100000000))) with true by (symmetry; apply ltb_true; rewrite Hps; reflexivity).
      cbn [andb negb]. cbn zeta.
      destruct (filled_put _ _ q1 t Hf') as (c'' & Hput & Hf''); [lia..|]. exists c''. split.
      + rewrite <-Hput. f_equal. replace (nt - 1 - t)%nat with (S (nt - 1 - (t + 1))) by lia. cbn [best]. rewrite decide_False by lia. cbn zeta.
        rewrite Nat.add_1_r. done.
      + eapply filled_weaken; [exact Hf''|]. cbn beta. intros q' t' ?? [?|[->|[-> ?]]]; [by left; left|by left; right; left|].
        destruct (decide (t' = t)); [by right|left; right; right]. split; [done|lia].
    - exists c'. split; [done|]. eapply filled_weaken; [exact Hf'|]. cbn beta. intros q' t' ?? [?| ->]; [|by right; left].
      destruct (decide (q' = q1)); [right; right; split; [done|lia]|left; lia]. }
  exists c3. split; [done|]. eapply filled_weaken; [exact H3|]. cbn beta. intros; left; lia.
Qed.
End monitor.

Lemma binutil_utility p wf wt q t : binutil p wf wt q t == utility p wf wt q t.
Proof. unfold binutil, utility, bincost, bintime, qwidth, twidth. cbn zeta. set (a := (_ / qn (ncost p))). set (b := (_ / qn (ntime p))). set (x := qn q). set (y := qn t). field. Qed.
Lemma gain_ext nc P U U' π n t h q : (∀ q t, U q t == U' q t) → gain nc P U π n t h q == gain nc P U' π n t h q.
Proof.
  intros E. revert t h q. induction n as [|n IH]; intros t h q; cbn [gain]; [apply E|]. destruct (π _ _); [apply E|].
  apply Qsum_ext. intros q2 _. rewrite IH. lra.
Qed.
Lemma qn_S n : qn (S n) == qn n + 1.
Proof. unfold qn. rewrite Nat2Z.inj_succ. unfold Z.succ. rewrite inject_Z_plus. done. Qed.
Lemma qn_pos n : (0 < n)%nat → 0 < qn n.
Proof. intros H. unfold qn. change 0 with (inject_Z 0). rewrite <-Zlt_Qlt. lia. Qed.
Lemma qn_nonneg n : 0 <= qn n.
Proof. unfold qn. change 0 with (inject_Z 0). rewrite <-Zle_Qle. lia. Qed.

Lemma utility_later p wf wt q t : (0 < ntime p)%nat → 0 <= wt → mintime (ext p) <= maxtime (ext p) → utility p wf wt q (S t) <= utility p wf wt q t.
Proof.
  intros Hn Hwt He. unfold utility. cbn zeta. rewrite qn_S. set (a := wf * _).
  assert (0 <= (maxtime (ext p) - mintime (ext p)) / qn (ntime p)) as Hw.
  { apply Qle_shift_div_l; [by apply qn_pos|]. lra. }
  set (w := (_ / qn (ntime p))) in *. set (x := qn t). assert (0 <= wt * w) by nra. nra.
Qed.

(** ** C69: the policy is optimal *)

(** For every profile whose one-step probabilities are a probability distribution over costs that are no worse, and
    every weight of time that is not negative: the table is made, and from every bin of cost and time no stopping
    policy, however it uses the history, expects more than the value in the table, and the stored policy expects
    exactly that much. *)
Theorem C69_policy_optimal p wf wt : good_profile p → (1 ≤ ncost p)%nat → (2 ≤ ntime p)%nat → 0 <= wt → mintime (ext p) <= maxtime (ext p) →
  ∃ c, mkmonitor p wf wt = Some c ∧ ∀ q t, (q < ncost p)%nat → (t < ntime p)%nat →
    ∃ v, c !! (q * ntime p + t)%nat = Some (Some (v, decision p c q t)) ∧ ∀ h,
      (∀ π, gain (ncost p) (onestep p) (utility p wf wt) π (ntime p - 1 - t) t h q <= v) ∧
      gain (ncost p) (onestep p) (utility p wf wt) (λ h t, match h with q :: _ => decision p c q t | [] => true end) (ntime p - 1 - t) t h q == v.
Proof.
  intros Hp Hnc Hnt Hwt He. destruct (monitor_filled p wf wt Hp Hnc Hnt) as (c & Hc & Hlen & Hf). exists c. split; [done|]. intros q t Hq Ht.
  assert (∀ q' t', (q' < ncost p)%nat → (t' < ntime p)%nat → decision p c q' t' = (best (onestep p) (binutil p wf wt) (ntime p - 1 - t') t' q').2) as Hd.
  { intros q' t' Hq' Ht'. unfold decision. rewrite (Hf q' t' Hq' Ht' I). by destruct (best _ _ _ _ _). }
  assert (∀ t, binutil p wf wt 0 (S t) <= binutil p wf wt 0 t) as HU.
  { intros t'. rewrite !binutil_utility. apply utility_later; [lia|done..]. }
  exists (best (onestep p) (binutil p wf wt) (ntime p - 1 - t) t q).1. split.
  - rewrite (Hf q t Hq Ht I), Hd by done. by destruct (best _ _ _ _ _).
  - intros h. split.
    + intros π. rewrite <-(gain_ext _ _ (binutil p wf wt)) by apply binutil_utility. apply gain_le_best; [apply Hp|done|done].
    + rewrite <-(gain_ext _ _ (binutil p wf wt)) by apply binutil_utility. apply gain_best; [apply Hp|done|done|]. intros t' q' H1 H2 H3.
      rewrite Hd by lia. do 2 f_equal. lia.
Qed.
