(** Lemmas about the bucketed open list. *)
From stdpp Require Import prelude fin_maps gmap.
From Coq Require Import ZArith Lia.
From Verif.IntOpen Require Import Model.

(** ** Totals *)
Fixpoint total (bs : list (list nat)) : nat :=
  match bs with [] => 0 | b :: bs => length b + total bs end.

Lemma total_insert bs t b b' :
  bs !! t = Some b → total (<[t := b']> bs) + length b = total bs + length b'.
Proof.
  revert t. induction bs as [|x bs IH]; intros t Ht; [done|].
  destruct t as [|t]; simpl in *.
  - injection Ht as ->. lia.
  - specialize (IH t Ht). lia.
Qed.

Lemma total_app a b : total (a ++ b) = total a + total b.
Proof. induction a; simpl in *; lia. Qed.
Lemma total_replicate n : total (replicate n []) = 0.
Proof. induction n; [done|]. simpl. done. Qed.

Lemma total_resize bs n : length bs ≤ n → total (resize n [] bs) = total bs.
Proof.
  intros H. rewrite resize_ge by done. rewrite total_app, total_replicate. lia.
Qed.

Lemma total_0 bs : total bs = 0 ↔ ∀ t b, bs !! t = Some b → b = [].
Proof.
  split.
  - induction bs as [|x bs IH]; intros H t b Ht; [done|].
    change (length x + total bs = 0) in H.
    destruct t; simpl in Ht.
    + injection Ht as <-. destruct x; simpl in *; [done|lia].
    + eapply IH; [lia|done].
  - induction bs as [|x bs IH]; intros H; [done|].
    change (length x + total bs = 0).
    rewrite (H 0 x eq_refl). simpl. apply IH. intros t b. apply (H (S t)).
Qed.

Lemma resize_lookup {A} (l : list A) m x i y :
  length l ≤ m → resize m x l !! i = Some y →
  l !! i = Some y ∨ (length l ≤ i ∧ y = x).
Proof.
  intros Hl. rewrite resize_ge by done. rewrite lookup_app_Some, lookup_replicate.
  naive_solver.
Qed.

(** ** One bucket queue *)
Section mq.
  Context (ind : nat → Z).
  Context (prio tie : nat → Z).

  Definition in_mq (q : maxq) (n : nat) : Prop :=
    ∃ t b i, bkts q !! t = Some b ∧ b !! i = Some n.

  Record mq_ok (p : nat) (q : maxq) : Prop := {
    mo_max : mmax q < length (bkts q);
    mo_above : ∀ t b, bkts q !! t = Some b → mmax q < t → b = [];
    mo_fill : mfill q = Z.of_nat (total (bkts q));
    mo_loc : ∀ t b i n, bkts q !! t = Some b → b !! i = Some n →
             prio n = Z.of_nat p ∧ tie n = Z.of_nat t ∧ ind n = Z.of_nat i }.
End mq.

Lemma mq_ok_frame ind prio tie ind' prio' tie' p q :
  mq_ok ind prio tie p q →
  (∀ n, in_mq q n → ind' n = ind n ∧ prio' n = prio n ∧ tie' n = tie n) →
  mq_ok ind' prio' tie' p q.
Proof.
  intros [H1 H2 H3 H4] Hf. split; [done..|].
  intros t b i n Hb Hi. destruct (Hf n) as (-> & -> & ->); [by exists t, b, i|]. by eapply H4.
Qed.

Lemma mq_new_ok ind prio tie p : mq_ok ind prio tie p mq_new.
Proof.
  split; unfold mq_new; cbn [mmax bkts mfill].
  - rewrite replicate_length. lia.
  - intros t b Hb _. by apply lookup_replicate in Hb as [-> _].
  - by rewrite total_replicate.
  - intros t b i n Hb Hi. by apply lookup_replicate in Hb as [-> _].
Qed.

Lemma in_mq_new n : ¬ in_mq mq_new n.
Proof.
  intros (t & b & i & Hb & Hi). unfold mq_new in Hb. cbn [bkts] in Hb.
  by apply lookup_replicate in Hb as [-> _].
Qed.

Lemma mq_push_spec ind prio tie p q n t :
  mq_ok ind prio tie p q → prio n = Z.of_nat p → tie n = Z.of_nat t → ¬ in_mq q n →
  ∃ q' i, mq_push ind q n t = Some (q', setind ind n (Z.of_nat i)) ∧
    mq_ok (setind ind n (Z.of_nat i)) prio tie p q' ∧
    (∃ b, bkts q' !! t = Some b ∧ b !! i = Some n) ∧
    (∀ t b i m, bkts q !! t = Some b → b !! i = Some m →
       ∃ b', bkts q' !! t = Some b' ∧ b' !! i = Some m).
Proof.
  intros [Hmax Habove Hfill Hloc] Hp Ht Hn. unfold mq_push.
  set (bs := if decide (length (bkts q) ≤ t) then _ else _).
  assert (t < length bs) as Hlt.
  { subst bs. case_decide; [rewrite resize_length|]; lia. }
  assert (total bs = total (bkts q)) as Htot.
  { subst bs. case_decide; [|done]. apply total_resize. lia. }
  assert (length (bkts q) ≤ length bs) as Hlen.
  { subst bs. case_decide; [rewrite resize_length|]; lia. }
  assert (∀ u b, bs !! u = Some b → bkts q !! u = Some b ∨ (length (bkts q) ≤ u ∧ b = [])) as Hbs.
  { subst bs. intros u b Hb. case_decide; [|by left].
    apply resize_lookup in Hb; [done|lia]. }
  assert (∀ u b, bkts q !! u = Some b → bs !! u = Some b) as Hbs'.
  { subst bs. intros u b Hb. case_decide; [|done].
    rewrite resize_ge by lia. by apply lookup_app_l_Some. }
  clearbody bs.
  destruct (lookup_lt_is_Some_2 _ _ Hlt) as [b Hb]. rewrite Hb. simpl.
  eexists _, (length b). split; [done|].
  assert (∀ u b0 i m, bs !! u = Some b0 → b0 !! i = Some m → m ≠ n) as Hne.
  { intros u b0 i m Hu Hi ->. apply Hbs in Hu as [Hu|[_ ->]]; [|done].
    apply Hn. by exists u, b0, i. }
  split; [split|split]; cbn [mmax bkts mfill].
  - rewrite insert_length. case_decide; lia.
  - intros u b0 Hu Hgt. assert (t < u ∧ mmax q < u) as [Htu Hmu] by (case_decide; lia).
    rewrite list_lookup_insert_ne in Hu by lia.
    apply Hbs in Hu as [Hu|[_ ->]]; [|done]. by eapply Habove.
  - pose proof (total_insert bs t b (b ++ [n]) Hb) as Hti.
    rewrite app_length in Hti. simpl in Hti. lia.
  - intros u b0 i m Hu Hi. destruct (decide (u = t)) as [->|Hut].
    + rewrite list_lookup_insert in Hu by done. injection Hu as <-.
      apply lookup_app_Some in Hi as [Hi|[Hge Hi]].
      * pose proof (Hne _ _ _ _ Hb Hi). unfold setind. rewrite decide_False by done.
        apply Hbs in Hb as [Hb|[_ ->]]; [|done]. by eapply Hloc.
      * apply list_lookup_singleton_Some in Hi as [Hi <-].
        unfold setind. rewrite decide_True by done. split_and!; [done..|lia].
    + rewrite list_lookup_insert_ne in Hu by done.
      pose proof (Hne _ _ _ _ Hu Hi). unfold setind. rewrite decide_False by done.
      apply Hbs in Hu as [Hu|[_ ->]]; [|done]. by eapply Hloc.
  - exists (b ++ [n]). rewrite list_lookup_insert by done. split; [done|].
    by apply list_lookup_middle.
  - intros u b0 i m Hu Hi. apply Hbs' in Hu. destruct (decide (u = t)) as [->|Hut].
    + rewrite list_lookup_insert by done. simplify_eq. eexists. split; [done|].
      by apply lookup_app_l_Some.
    + rewrite list_lookup_insert_ne by done. eauto.
Qed.

Lemma mq_scan_spec bs m :
  m < length bs → (∀ t b, bs !! t = Some b → m < t → b = []) → total bs ≠ 0 →
  ∃ m' b, mq_scan bs m = Some m' ∧ bs !! m' = Some b ∧ b ≠ [] ∧ m' ≤ m ∧
    (∀ t b, bs !! t = Some b → m' < t → b = []).
Proof.
  induction m as [|m IH]; intros Hm Habove Htot; simpl;
    destruct (lookup_lt_is_Some_2 _ _ Hm) as [b Hb]; rewrite Hb; simpl.
  - exists 0, b. split_and!; [by destruct b|done| |done|done].
    intros ->. apply Htot, total_0. intros [|t] b0 Ht; [by simplify_eq|].
    eapply Habove; [done|lia].
  - destruct b as [|x b].
    + destruct IH as (m' & b & ? & ? & ? & ? & ?); [lia| |done|].
      * intros t b Ht Hlt. destruct (decide (t = S m)) as [->|]; [by simplify_eq|].
        eapply Habove; [done|lia].
      * exists m', b. split_and!; [done..|lia|done].
    + exists (S m), (x :: b). split_and!; done.
Qed.

Lemma mq_pop_spec ind prio tie p q :
  mq_ok ind prio tie p q → mfill q ≠ 0%Z →
  ∃ q' n, mq_pop ind q = Some (q', setind ind n (-1), n) ∧
    mq_ok (setind ind n (-1)) prio tie p q' ∧
    in_mq q n ∧
    (∀ m, in_mq q m → (tie m ≤ tie n)%Z) ∧
    (∀ t b i m, bkts q !! t = Some b → b !! i = Some m → m ≠ n →
       ∃ b', bkts q' !! t = Some b' ∧ b' !! i = Some m).
Proof.
  intros [Hmax Habove Hfill Hloc] Hne. unfold mq_pop.
  destruct (mq_scan_spec (bkts q) (mmax q)) as (m' & b & -> & Hb & Hbne & Hle & Habove');
    [done..|lia|].
  simpl. rewrite Hb. simpl.
  destruct b as [|x b _] using rev_ind; [done|].
  rewrite last_snoc. simpl. rewrite removelast_last.
  pose proof (lookup_lt_Some _ _ _ Hb) as Hm'.
  assert ((b ++ [x]) !! length b = Some x) as Hx by by apply list_lookup_middle.
  eexists _, x. split; [done|].
  assert (∀ t b0 i, bkts q !! t = Some b0 → b0 !! i = Some x → t = m' ∧ i = length b) as Huniq.
  { intros t b0 i Ht Hi. pose proof (Hloc _ _ _ _ Ht Hi). pose proof (Hloc _ _ _ _ Hb Hx). lia. }
  split; [split|split_and!]; cbn [mmax bkts mfill].
  - by rewrite insert_length.
  - intros t b0 Ht Hlt. rewrite list_lookup_insert_ne in Ht by lia. by eapply Habove'.
  - pose proof (total_insert (bkts q) m' (b ++ [x]) b Hb) as Hti.
    rewrite app_length in Hti. simpl in Hti. lia.
  - intros t b0 i n Ht Hi. destruct (decide (t = m')) as [->|Htm].
    + rewrite list_lookup_insert in Ht by done. injection Ht as <-.
      assert ((b ++ [x]) !! i = Some n) as Hi' by by apply lookup_app_l_Some.
      unfold setind. rewrite decide_False; [by eapply Hloc|].
      intros ->. destruct (Huniq _ _ _ Hb Hi') as [_ ->].
      apply lookup_lt_Some in Hi. lia.
    + rewrite list_lookup_insert_ne in Ht by done.
      unfold setind. rewrite decide_False; [by eapply Hloc|].
      intros ->. by destruct (Huniq _ _ _ Ht Hi).
  - by exists m', (b ++ [x]), (length b).
  - intros n (t & b0 & i & Ht & Hi).
    pose proof (Hloc _ _ _ _ Ht Hi) as (_ & -> & _).
    pose proof (Hloc _ _ _ _ Hb Hx) as (_ & -> & _).
    destruct (decide (m' < t)) as [Hlt|]; [|lia].
    by rewrite (Habove' _ _ Ht Hlt) in Hi.
  - intros t b0 i n Ht Hi Hnx. destruct (decide (t = m')) as [->|Htm].
    + simplify_eq. exists b. rewrite list_lookup_insert by done. split; [done|].
      apply lookup_app_Some in Hi as [Hi|[_ Hi]]; [done|].
      by apply list_lookup_singleton_Some in Hi as [_ ->].
    + rewrite list_lookup_insert_ne by done. eauto.
Qed.

Lemma mq_rm_spec ind prio tie p q n t b i :
  mq_ok ind prio tie p q → bkts q !! t = Some b → b !! i = Some n →
  ∃ q' ind', mq_rm ind q n t = Some (q', ind') ∧
    mq_ok ind' prio tie p q' ∧ ind' n = (-1)%Z ∧
    (∀ m, ¬ in_mq q m → ind' m = ind m) ∧
    (∀ m, in_mq q m → m ≠ n → in_mq q' m) ∧ (∀ m, in_mq q' m → in_mq q m).
Proof.
  intros [Hmax Habove Hfill Hloc] Hb Hn. unfold mq_rm. rewrite Hb. simpl.
  pose proof (Hloc _ _ _ _ Hb Hn) as (Hpn & Htn & Hin).
  pose proof (lookup_lt_Some _ _ _ Hn) as Hi. pose proof (lookup_lt_Some _ _ _ Hb) as Ht.
  rewrite decide_False by lia. rewrite Hin, Nat2Z.id. unfold mq_hole.
  destruct b as [|x b _] using rev_ind; [done|].
  rewrite app_length in *. simpl in Hi |- *.
  assert ((b ++ [x]) !! length b = Some x) as Hx by by apply list_lookup_middle.
  assert (∀ u b0 j m, bkts q !! u = Some b0 → b0 !! j = Some m →
           m = n → u = t ∧ j = i) as Huniq.
  { intros u b0 j m Hu Hj ->. pose proof (Hloc _ _ _ _ Hu Hj). lia. }
  assert (∀ u b0 j m, bkts q !! u = Some b0 → b0 !! j = Some m →
           m = x → u = t ∧ j = length b) as Huniqx.
  { intros u b0 j m Hu Hj ->. pose proof (Hloc _ _ _ _ Hu Hj).
    pose proof (Hloc _ _ _ _ Hb Hx). lia. }
  pose proof (λ b', total_insert (bkts q) t (b ++ [x]) b' Hb) as Hti.
  rewrite app_length in Hti. simpl in Hti.
  case_decide as Hlen.
  - replace (length b + 1 - 1) with (length b) by lia. rewrite Hx. simpl.
    set (b' := removelast _).
    assert (b' = if decide (i = length b) then b else <[i := x]> b) as Hb'.
    { subst b'. case_decide.
      - subst i. rewrite list_insert_id by done. apply removelast_last.
      - rewrite insert_app_l by lia. apply removelast_last. }
    clearbody b'.
    assert (length b' = length b) as Hb'len.
    { subst b'. case_decide; [done|]. by rewrite insert_length. }
    assert (∀ j m, b' !! j = Some m →
              (m = x ∧ j = i ∧ i ≠ length b) ∨
              (j ≠ i ∧ j < length b ∧ (b ++ [x]) !! j = Some m)) as Hlook.
    { intros j m Hj. pose proof (lookup_lt_Some _ _ _ Hj) as Hjl.
      rewrite Hb' in Hj. case_decide as He.
      - right. split; [lia|]. split; [lia|]. by apply lookup_app_l_Some.
      - apply list_lookup_insert_Some in Hj as [(<- & -> & _)|(Hne & Hj)]; [by left|].
        right. split; [done|]. split; [lia|]. by apply lookup_app_l_Some. }
    assert (∀ j m, (b ++ [x]) !! j = Some m → m ≠ n → ∃ j', b' !! j' = Some m) as Hlook'.
    { intros j m Hj Hmn. rewrite Hb'. case_decide as He.
      - subst i. apply lookup_app_Some in Hj as [Hj|[_ Hj]]; [eauto|].
        apply list_lookup_singleton_Some in Hj as [_ <-]. congruence.
      - apply lookup_app_Some in Hj as [Hj|[_ Hj]].
        + exists j. rewrite list_lookup_insert_ne; [done|].
          intros <-. rewrite lookup_app_l in Hn by (by eapply lookup_lt_Some). congruence.
        + apply list_lookup_singleton_Some in Hj as [_ <-].
          exists i. rewrite list_lookup_insert; [done|]. lia. }
    clear Hb'.
    eexists _, _. split; [done|].
    split_and!; cbn [bkts].
    + split; cbn [mmax bkts mfill].
      * by rewrite insert_length.
      * intros u b0 Hu Hlt. destruct (decide (u = t)) as [->|Hut].
        -- rewrite (Habove _ _ Hb Hlt) in Hn. done.
        -- rewrite list_lookup_insert_ne in Hu by done. by eapply Habove.
      * specialize (Hti b'). lia.
      * intros u b0 j m Hu Hj. unfold setind.
        destruct (decide (u = t)) as [->|Hut].
        -- rewrite list_lookup_insert in Hu by done. injection Hu as <-.
           apply Hlook in Hj as [(-> & -> & Hne)|(Hji & Hjl & Hj)].
           ++ rewrite (decide_False (P := x = n)).
              2:{ intros ->. by destruct (Huniq _ _ _ _ Hb Hx). }
              rewrite decide_True by done.
              pose proof (Hloc _ _ _ _ Hb Hx) as (-> & -> & _). done.
           ++ rewrite (decide_False (P := m = n)).
              2:{ intros ->. by destruct (Huniq _ _ _ _ Hb Hj). }
              rewrite decide_False; [by eapply Hloc|].
              intros ->. destruct (Huniqx _ _ _ _ Hb Hj) as [_ ->]; [done|]. lia.
        -- rewrite list_lookup_insert_ne in Hu by done.
           rewrite (decide_False (P := m = n)).
           2:{ intros ->. by destruct (Huniq _ _ _ _ Hu Hj). }
           rewrite decide_False; [by eapply Hloc|].
           intros ->. by destruct (Huniqx _ _ _ _ Hu Hj).
    + unfold setind. by rewrite decide_True.
    + intros m Hm. unfold setind. rewrite !decide_False; [done| |].
      * intros ->. apply Hm. by exists t, (b ++ [x]), (length b).
      * intros ->. apply Hm. by exists t, (b ++ [x]), i.
    + intros m (u & b0 & j & Hu & Hj) Hmn. destruct (decide (u = t)) as [->|Hut].
      * simplify_eq. destruct (Hlook' _ _ Hj Hmn) as [j' Hj'].
        exists t, b', j'. cbn [bkts]. by rewrite list_lookup_insert.
      * exists u, b0, j. cbn [bkts]. by rewrite list_lookup_insert_ne.
    + intros m (u & b0 & j & Hu & Hj). cbn [bkts] in Hu. destruct (decide (u = t)) as [->|Hut].
      * rewrite list_lookup_insert in Hu by done. injection Hu as <-.
        apply Hlook in Hj as [(-> & -> & Hne)|(Hji & Hjl & Hj)].
        -- by exists t, (b ++ [x]), (length b).
        -- by exists t, (b ++ [x]), j.
      * rewrite list_lookup_insert_ne in Hu by done. by exists u, b0, j.
  - assert (b = []) as -> by (destruct b; simpl in *; [done|lia]). simpl in *.
    assert (i = 0) as -> by lia. simpl in Hn. injection Hn as ->.
    eexists _, _. split; [done|].
    split_and!; cbn [bkts].
    + split; cbn [mmax bkts mfill].
      * by rewrite insert_length.
      * intros u b0 Hu Hlt. destruct (decide (u = t)) as [->|Hut].
        -- by pose proof (Habove _ _ Hb Hlt).
        -- rewrite list_lookup_insert_ne in Hu by done. by eapply Habove.
      * specialize (Hti []). simpl in Hti. lia.
      * intros u b0 j m Hu Hj. unfold setind. destruct (decide (u = t)) as [->|Hut].
        -- rewrite list_lookup_insert in Hu by done. injection Hu as <-. done.
        -- rewrite list_lookup_insert_ne in Hu by done.
           rewrite decide_False; [by eapply Hloc|].
           intros ->. by destruct (Huniq _ _ _ _ Hu Hj).
    + unfold setind. by rewrite decide_True.
    + intros m Hm. unfold setind. rewrite decide_False; [done|].
      intros ->. apply Hm. by exists t, [n], 0.
    + intros m (u & b0 & j & Hu & Hj) Hmn. destruct (decide (u = t)) as [->|Hut].
      * simplify_eq. destruct j; simpl in Hj; [congruence|done].
      * exists u, b0, j. cbn [bkts]. by rewrite list_lookup_insert_ne.
    + intros m (u & b0 & j & Hu & Hj). cbn [bkts] in Hu. destruct (decide (u = t)) as [->|Hut].
      * rewrite list_lookup_insert in Hu by done. by injection Hu as <-.
      * rewrite list_lookup_insert_ne in Hu by done. by exists u, b0, j.
Qed.

(** ** The whole list *)
Definition located (s : ol) (n : nat) : Prop :=
  ∃ q, (0 ≤ prio s n)%Z ∧ qs s !! Z.to_nat (prio s n) = Some q ∧ in_mq q n.

Record inv (s : ol) : Prop := {
  inv_q : ∀ p q, qs s !! p = Some q → mq_ok (ind s) (prio s) (tie s) p q;
  inv_min : ∀ p q, qs s !! p = Some q → p < min s → mfill q = 0%Z;
  inv_loc : ∀ n, ind s n = (-1)%Z ∨ located s n }.

Lemma inv_in s p q n :
  inv s → qs s !! p = Some q → in_mq q n →
  prio s n = Z.of_nat p ∧ (0 ≤ ind s n)%Z ∧ (0 ≤ tie s n)%Z.
Proof.
  intros Hinv Hq (t & b & i & Hb & Hi).
  pose proof (mo_loc _ _ _ _ _ (inv_q _ Hinv _ _ Hq) _ _ _ _ Hb Hi). lia.
Qed.

Lemma inv_ind s n : inv s → ind s n = (-1)%Z ∨ (0 ≤ ind s n)%Z.
Proof.
  intros Hinv. destruct (inv_loc _ Hinv n) as [|(q & _ & Hq & Hn)]; [by left|right].
  by eapply inv_in.
Qed.

Lemma inv_write s n p t : inv s → ind s n = (-1)%Z → inv (ol_write s n p t).
Proof.
  intros Hinv Hn. pose proof Hinv as [Hq Hmin Hloc].
  assert (∀ p q m, qs s !! p = Some q → in_mq q m → m ≠ n) as Hne.
  { intros p0 q m Hp0 Hm ->. pose proof (inv_in _ _ _ _ Hinv Hp0 Hm). lia. }
  split; simpl.
  - intros p0 q Hp0. eapply mq_ok_frame; [by apply Hq|].
    intros m Hm. pose proof (Hne _ _ _ Hp0 Hm). unfold setind. by rewrite !decide_False.
  - done.
  - intros m. destruct (Hloc m) as [|(q & Hp & Hq' & Hm)]; [by left|right].
    pose proof (Hne _ _ _ Hq' Hm).
    exists q. simpl. unfold setind. by rewrite decide_False.
Qed.

Lemma push_spec s n :
  inv s → ind s n = (-1)%Z → (0 ≤ prio s n)%Z → (0 ≤ tie s n)%Z →
  ∃ s', ol_push s n = Some s' ∧ inv s' ∧ prio s' = prio s ∧ tie s' = tie s ∧
        fill s' = (fill s + 1)%Z ∧ (0 ≤ ind s' n)%Z ∧
        (∀ m, m ≠ n → ind s' m = ind s m).
Proof.
  intros Hinv Hn Hp Ht. unfold ol_push. rewrite decide_False by lia.
  set (p0 := Z.to_nat (prio s n)).
  set (qs' := if decide (length (qs s) ≤ p0) then _ else _).
  pose proof Hinv as [Hq Hmin Hloc].
  assert (p0 < length qs') as Hlt.
  { subst qs'. case_decide; [rewrite resize_length|]; lia. }
  assert (∀ p q, qs' !! p = Some q → qs s !! p = Some q ∨ q = mq_new) as Hqs.
  { subst qs'. intros p q Hpq. case_decide; [|by left].
    apply resize_lookup in Hpq; [naive_solver|lia]. }
  assert (∀ p q, qs s !! p = Some q → qs' !! p = Some q) as Hqs'.
  { subst qs'. intros p q Hpq. case_decide; [|done].
    rewrite resize_ge by lia. by apply lookup_app_l_Some. }
  assert (∀ p q, qs' !! p = Some q → mq_ok (ind s) (prio s) (tie s) p q) as Hok.
  { intros p q [?| ->]%Hqs; [by apply Hq|apply mq_new_ok]. }
  assert (∀ p q m, qs' !! p = Some q → in_mq q m → m ≠ n) as Hne.
  { intros p q m [Hpq | ->]%Hqs Hm ->.
    - pose proof (inv_in _ _ _ _ Hinv Hpq Hm). lia.
    - by apply in_mq_new in Hm. }
  clearbody qs'.
  destruct (lookup_lt_is_Some_2 _ _ Hlt) as [q Hq0]. rewrite Hq0. simpl.
  destruct (mq_push_spec (ind s) (prio s) (tie s) p0 q n (Z.to_nat (tie s n)))
    as (q' & i & Hpush & Hok' & (b & Hb & Hbi) & Hkeep).
  { by apply Hok. }
  { lia. }
  { lia. }
  { intros Hm. by apply (Hne _ _ _ Hq0 Hm). }
  rewrite Hpush. simpl. eexists. split; [done|].
  split_and!; [|done|done|done| |]; simpl.
  - split; simpl.
    + intros p q1 Hq1. destruct (decide (p = p0)) as [->|Hpp].
      * rewrite list_lookup_insert in Hq1 by done. by injection Hq1 as <-.
      * rewrite list_lookup_insert_ne in Hq1 by done.
        eapply mq_ok_frame; [by apply Hok|].
        intros m Hm. pose proof (Hne _ _ _ Hq1 Hm).
        unfold setind. by rewrite decide_False.
    + intros p q1 Hq1 Hpm. assert (p ≠ p0 ∧ p < min s) as [??] by (case_decide; lia).
      rewrite list_lookup_insert_ne in Hq1 by done.
      apply Hqs in Hq1 as [?| ->]; [by eapply Hmin|done].
    + intros m. destruct (decide (m = n)) as [->|Hmn].
      * right. exists q'. simpl. split; [done|]. fold p0.
        rewrite list_lookup_insert by done. split; [done|].
        by exists (Z.to_nat (tie s n)), b, i.
      * unfold setind. rewrite decide_False by done.
        destruct (Hloc m) as [|(q1 & Hp1 & Hq1 & Hm)]; [by left|right].
        apply Hqs' in Hq1. simpl.
        destruct (decide (Z.to_nat (prio s m) = p0)) as [He|Hpp].
        -- exists q'. simpl. rewrite He in Hq1 |- *.
           rewrite list_lookup_insert by done. split_and!; [done..|].
           simplify_eq. destruct Hm as (t & b1 & j & Hb1 & Hj).
           destruct (Hkeep _ _ _ _ Hb1 Hj) as (b2 & Hb2 & Hj2). by exists t, b2, j.
        -- exists q1. simpl. by rewrite list_lookup_insert_ne.
  - unfold setind. rewrite decide_True by done. lia.
  - intros m Hm. unfold setind. by rewrite decide_False.
Qed.

Lemma skip_spec l :
  (∀ i q, l !! i = Some q → i < ol_skip l → mfill q = 0%Z) ∧
  (∀ q, l !! ol_skip l = Some q → mfill q ≠ 0%Z) ∧ ol_skip l ≤ length l.
Proof.
  induction l as [|x l (IH1 & IH2 & IH3)]; simpl; [split_and!; [done|done|lia]|].
  unfold mq_empty. case_bool_decide as Hx.
  - split_and!; [|done|lia].
    intros [|i] q Hi Hlt; simpl in Hi; [by simplify_eq|]. eapply IH1; [done|lia].
  - split_and!; [|by intros q [= <-]|lia]. intros i q Hi Hlt. lia.
Qed.

Lemma in_mq_fill ind prio tie p q n :
  mq_ok ind prio tie p q → in_mq q n → mfill q ≠ 0%Z.
Proof.
  intros Hok (t & b & i & Hb & Hi). rewrite (mo_fill _ _ _ _ _ Hok).
  intros He. assert (total (bkts q) = 0) as Ht by lia.
  rewrite total_0 in Ht. by rewrite (Ht _ _ Hb) in Hi.
Qed.

Lemma pop_spec s :
  inv s → (∃ n, ind s n ≠ (-1)%Z) →
  ∃ s' n, ol_pop s = Some (s', n) ∧ inv s' ∧ prio s' = prio s ∧ tie s' = tie s ∧
    fill s' = (fill s - 1)%Z ∧ ind s n ≠ (-1)%Z ∧ ind s' n = (-1)%Z ∧
    (∀ m, m ≠ n → ind s' m = ind s m) ∧
    (∀ m, ind s m ≠ (-1)%Z →
       (prio s n < prio s m ∨ prio s n = prio s m ∧ tie s m ≤ tie s n)%Z).
Proof.
  intros Hinv [n0 Hn0]. unfold ol_pop.
  pose proof Hinv as [Hq Hmin Hloc].
  destruct (skip_spec (drop (min s) (qs s))) as (Hsk1 & Hsk2 & Hsk3).
  set (k := ol_skip (drop (min s) (qs s))) in *.
  assert (∀ m, ind s m ≠ (-1)%Z → min s + k ≤ Z.to_nat (prio s m) ∧
              (0 ≤ prio s m)%Z ∧ Z.to_nat (prio s m) < length (qs s)) as Hge.
  { intros m Hm. destruct (Hloc m) as [|(q & Hp & Hqm & Hin)]; [done|].
    pose proof (in_mq_fill _ _ _ _ _ _ (Hq _ _ Hqm) Hin) as Hf.
    split_and!; [|done|by eapply lookup_lt_Some].
    destruct (decide (min s + k ≤ Z.to_nat (prio s m))); [done|].
    exfalso. apply Hf.
    destruct (decide (Z.to_nat (prio s m) < min s)); [by eapply Hmin|].
    apply (Hsk1 (Z.to_nat (prio s m) - min s)); [|lia].
    rewrite lookup_drop. rewrite <-Hqm. f_equal. lia. }
  destruct (lookup_lt_is_Some_2 (qs s) (min s + k)) as [q Hqk].
  { specialize (Hge _ Hn0). lia. }
  rewrite Hqk. simpl.
  destruct (mq_pop_spec (ind s) (prio s) (tie s) (min s + k) q)
    as (q' & n & Hpop & Hok' & Hin & Hmax & Hkeep).
  { by apply Hq. }
  { apply Hsk2. by rewrite lookup_drop. }
  rewrite Hpop. simpl.
  destruct (inv_in _ _ _ _ Hinv Hqk Hin) as (Hpn & Hin0 & Htn).
  rewrite decide_True by done.
  eexists _, n. split; [done|].
  split_and!; [|done|done|done|lia| | |]; simpl.
  - split; simpl.
    + intros p q1 Hq1. destruct (decide (p = min s + k)) as [->|Hpp].
      * rewrite list_lookup_insert in Hq1 by (by eapply lookup_lt_Some). by injection Hq1 as <-.
      * rewrite list_lookup_insert_ne in Hq1 by done.
        eapply mq_ok_frame; [by apply Hq|].
        intros m Hm. unfold setind. rewrite decide_False; [done|].
        intros ->. pose proof (inv_in _ _ _ _ Hinv Hq1 Hm). lia.
    + intros p q1 Hq1 Hlt. rewrite list_lookup_insert_ne in Hq1 by lia.
      destruct (decide (p < min s)); [by eapply Hmin|].
      apply (Hsk1 (p - min s)); [|lia]. rewrite lookup_drop, <-Hq1. f_equal. lia.
    + intros m. unfold setind. case_decide as Hmn; [by left|].
      destruct (Hloc m) as [|(q1 & Hp1 & Hq1 & Hm)]; [by left|right].
      destruct (decide (Z.to_nat (prio s m) = min s + k)) as [He|Hpp].
      * exists q'. simpl. rewrite He in Hq1 |- *.
        rewrite list_lookup_insert by (by eapply lookup_lt_Some).
        split_and!; [done..|].
        simplify_eq. destruct Hm as (t & b1 & j & Hb1 & Hj).
        destruct (Hkeep _ _ _ _ Hb1 Hj) as (b2 & Hb2 & Hj2); [done|]. by exists t, b2, j.
      * exists q1. simpl. by rewrite list_lookup_insert_ne.
  - unfold setind. by rewrite decide_True.
  - intros m Hm. unfold setind. by rewrite decide_False.
  - intros m Hm. destruct (Hge _ Hm) as (Hle & Hp0 & _).
    destruct (decide (Z.to_nat (prio s m) = min s + k)) as [He|]; [right|left; lia].
    split; [lia|]. apply Hmax.
    destruct (Hloc m) as [|(q1 & Hp1 & Hq1 & Hm1)]; [done|]. congruence.
Qed.

Lemma pre_update_spec s n :
  inv s →
  ∃ s', ol_pre_update s n = Some s' ∧ inv s' ∧ prio s' = prio s ∧ tie s' = tie s ∧
        fill s' = (if decide (ind s n = -1)%Z then fill s else fill s - 1)%Z ∧
        ind s' n = (-1)%Z ∧ (∀ m, m ≠ n → (ind s' m = (-1)%Z ↔ ind s m = (-1)%Z)).
Proof.
  intros Hinv. pose proof Hinv as [Hq Hmin Hloc]. unfold ol_pre_update.
  destruct (inv_ind _ n Hinv) as [Hi|Hi].
  { rewrite decide_True by lia. eexists. split; [done|]. rewrite decide_True by done. done. }
  rewrite decide_False by lia. rewrite (decide_False (P := ind s n = _)) by lia.
  destruct (Hloc n) as [|(q & Hp & Hqn & Hin)]; [lia|].
  destruct (inv_in _ _ _ _ Hinv Hqn Hin) as (Hpn & _ & Htn).
  rewrite decide_False by lia. rewrite Hqn. simpl.
  pose proof Hin as (t & b & i & Hb & Hbi).
  pose proof (mo_loc _ _ _ _ _ (Hq _ _ Hqn) _ _ _ _ Hb Hbi) as (_ & Ht & _).
  replace (Z.to_nat (tie s n)) with t by lia.
  destruct (mq_rm_spec (ind s) (prio s) (tie s) _ _ n t b i (Hq _ _ Hqn) Hb Hbi)
    as (q' & ind' & Hrm & Hok' & Hin' & Hout & Hkeep & Hkeep').
  rewrite Hrm. simpl. eexists. split; [done|].
  assert (∀ m, m ≠ n → ind' m = ind s m ∨ in_mq q m ∧ in_mq q' m) as Hcase.
  { intros m Hmn.
    destruct (Hloc m) as [Hm|(q1 & Hp1 & Hq1 & Hm)].
    - left. apply Hout. intros Hmm. pose proof (inv_in _ _ _ _ Hinv Hqn Hmm). lia.
    - destruct (decide (Z.to_nat (prio s m) = Z.to_nat (prio s n))) as [He|Hne].
      + rewrite He in Hq1. simplify_eq. right. auto.
      + left. apply Hout. intros Hmm. pose proof (inv_in _ _ _ _ Hinv Hqn Hmm). lia. }
  assert (∀ m, m ≠ n → in_mq q m → in_mq q' m ∧ (0 ≤ ind' m)%Z) as Hstay.
  { intros m Hmn Hm. pose proof (Hkeep _ Hm Hmn) as Hm'. split; [done|].
    destruct Hm' as (t' & b' & i' & Hb' & Hi').
    pose proof (mo_loc _ _ _ _ _ Hok' _ _ _ _ Hb' Hi'). lia. }
  split_and!; [|done|done|done|done|]; simpl.
  - split; simpl.
    + intros p q1 Hq1. destruct (decide (p = Z.to_nat (prio s n))) as [->|Hpp].
      * rewrite list_lookup_insert in Hq1 by (by eapply lookup_lt_Some). by injection Hq1 as <-.
      * rewrite list_lookup_insert_ne in Hq1 by done.
        eapply mq_ok_frame; [by apply Hq|].
        intros m Hm. rewrite Hout; [done|]. intros Hmm.
        pose proof (inv_in _ _ _ _ Hinv Hq1 Hm). pose proof (inv_in _ _ _ _ Hinv Hqn Hmm). lia.
    + intros p q1 Hq1 Hlt. destruct (decide (p = Z.to_nat (prio s n))) as [->|Hpp].
      * exfalso. eapply in_mq_fill; [by apply Hq|exact Hin|]. by eapply Hmin.
      * rewrite list_lookup_insert_ne in Hq1 by done. by eapply Hmin.
    + intros m. destruct (decide (m = n)) as [->|Hmn]; [by left|].
      destruct (Hloc m) as [Hm|(q1 & Hp1 & Hq1 & Hm)].
      * left. destruct (Hcase m Hmn) as [->|[Hmm _]]; [done|].
        pose proof (inv_in _ _ _ _ Hinv Hqn Hmm). lia.
      * right. destruct (decide (Z.to_nat (prio s m) = Z.to_nat (prio s n))) as [He|Hne].
        -- exists q'. simpl. rewrite He in Hq1 |- *. simplify_eq.
           rewrite list_lookup_insert by (by eapply lookup_lt_Some).
           split_and!; [done..|]. by apply Hkeep.
        -- exists q1. simpl. by rewrite list_lookup_insert_ne.
  - intros m Hmn. destruct (Hcase m Hmn) as [->|[Hm _]]; [done|].
    pose proof (Hstay _ Hmn Hm). pose proof (inv_in _ _ _ _ Hinv Hqn Hm). lia.
Qed.
