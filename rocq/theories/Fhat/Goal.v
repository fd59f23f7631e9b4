(** Which goal f-hat LRTA* heads for when its lookahead has seen some. *)
From stdpp Require Import prelude.
From Coq Require Import ZArith Lia QArith.
From Verif Require Import BinHeap.Model.
From Verif Require Import Search.Domain Search.Model Search.Props Rta.Model Lss.Model Lss.Learn Lss.Look Lss.Run Lss.Props.
From Verif Require Import Fhat.Model Fhat.Proofs Fhat.Learn.
Local Open Scope Z_scope.

Section goal.
Context (D : domain) (lim : limits) (stop : nat → nat → bool) (junk : Q) (er : errs) (dm : dist D).
Implicit Types (L : fss D) (m : mem D).

(** The goal [goal] is the nearest one in the tree, and there is none if it is None. *)
Definition ginv L (goal : option nat) : Prop :=
  (∀ a n, f_nodes L !! a = Some n → is_Some (l_g D n)) ∧
  match goal with
  | None => ∀ a n, f_nodes L !! a = Some n → isgoal (l_st D n) = false
  | Some b => ∃ bn bg, f_nodes L !! b = Some bn ∧ isgoal (l_st D bn) = true ∧ l_g D bn = Some bg ∧
      ∀ a n g, f_nodes L !! a = Some n → isgoal (l_st D n) = true → l_g D n = Some g → bg ≤ g
  end.

Definition stay (ns ns' : list (lnode D)) : Prop := ∀ a n, ns !! a = Some n → ∃ n', ns' !! a = Some n' ∧ l_st D n' = l_st D n ∧ l_cl D n' = l_cl D n.

Lemma frelax_goal m i o k c L goal best L' goal' best' :
  ginv L goal → frelax D er dm m i o k c L goal best = Some (L', goal', best') → ginv L' goal' ∧ stay (f_nodes L) (f_nodes L').
Proof.
  intros [Hall HG] Hr. unfold frelax in Hr. destruct (f_nodes L !! i) as [sn|] eqn:Hsn; [|done]. cbn [mbind option_bind] in Hr.
  case_decide as Hp. { injection Hr as <- <- <-. split; [done|]. intros a n Ha. by exists n. }
  destruct (match find_l D (f_nodes L) k with Some j => (f_nodes L, j) | None => (f_nodes L ++ [LNode D k None None nop false false], length (f_nodes L)) end)
    as [ns j] eqn:Ens.
  assert (∃ kn, ns !! j = Some kn ∧ l_st D kn = k ∧ (∀ a n, f_nodes L !! a = Some n → ns !! a = Some n) ∧ (∀ a n, a ≠ j → ns !! a = Some n → f_nodes L !! a = Some n) ∧
    (f_nodes L !! j = Some kn ∨ f_nodes L !! j = None ∧ l_g D kn = None)) as (kn & Hj & Hjk & Hfwd & Hback & Hjd).
  { destruct (find_l D (f_nodes L) k) as [j'|] eqn:Hf; injection Ens as <- <-.
    - apply find_l_Some in Hf as (kn & ? & ?). exists kn. split_and!; auto.
    - eexists. split_and!; [by apply list_lookup_middle|done| | |].
      + intros a n Ha. rewrite lookup_app_l; [done|]. by eapply lookup_lt_Some.
      + intros a n Hne [Ha|[Hge Ha]]%lookup_app_Some; [done|]. apply list_lookup_singleton_Some in Ha as [? _]. lia.
      + right. split; [|done]. apply lookup_ge_None. lia. }
  clear Ens. rewrite Hj in Hr. cbn [mbind option_bind] in Hr. destruct (l_g D sn) as [sg|]; [|done]. cbn [mbind option_bind] in Hr.
  destruct (if match l_g D kn with None => true | Some kg => _ end then _ else _) as [L1|] eqn:E; [|done]. cbn [mbind option_bind] in Hr.
  assert (∃ kn1 kg1, f_nodes L1 !! j = Some kn1 ∧ l_st D kn1 = k ∧ l_g D kn1 = Some kg1 ∧
    (∀ n g, f_nodes L !! j = Some n → l_g D n = Some g → kg1 ≤ g) ∧
    (∀ a, a ≠ j → f_nodes L1 !! a = f_nodes L !! a) ∧ l_cl D kn1 = l_cl D kn) as (kn1 & kg1 & Hj1 & Hs1 & Hg1 & Hle & Hoth & Hcl).
  { assert (Hns : ∀ a, a ≠ j → ns !! a = f_nodes L !! a).
    { intros a Hne. destruct (f_nodes L !! a) as [n|] eqn:Ha; [by apply Hfwd|]. destruct (ns !! a) as [n|] eqn:Ha'; [|done]. apply Hback in Ha'; [congruence|done]. }
    destruct (match l_g D kn with None => true | Some kg => bool_decide (sg + c < kg) end) eqn:Eu.
    - destruct (pushupdate _ _ _ _) as [q|]; [|done]. cbn [mbind option_bind] in E. apply (inj Some) in E. subst L1. cbn [f_nodes].
      eexists _, _. split; [apply list_lookup_insert; by eapply lookup_lt_Some|]. split; [done|]. split; [done|]. split.
      + intros n g Hn Hg. destruct Hjd as [Hjd|[Hjd _]]; [|congruence]. rewrite Hjd in Hn. injection Hn as <-. rewrite Hg in Eu. case_bool_decide; [lia|done].
      + split; [|done]. intros a Hne. rewrite list_lookup_insert_ne by done. by apply Hns.
    - apply (inj Some) in E. subst L1. cbn [f_nodes]. destruct (l_g D kn) as [kg|] eqn:Hkg; [|done]. exists kn, kg. split; [done|]. split; [done|]. split; [done|]. split; [|split; [exact Hns|done]].
      intros n g Hn Hg. destruct Hjd as [Hjd|[Hjd _]]; [|congruence]. assert (g = kg) by congruence. lia. }
  clear E. rewrite Hj1 in Hr. cbn [mbind option_bind] in Hr.
  assert (Hall1 : ∀ a n, f_nodes L1 !! a = Some n → is_Some (l_g D n)).
  { intros a n Ha. destruct (decide (a = j)) as [->|Hne]; [rewrite Hj1 in Ha; injection Ha as <-; by eexists|]. rewrite Hoth in Ha by done. by eapply Hall. }
  assert (Hstay : stay (f_nodes L) (f_nodes L1)).
  { intros a n Ha. destruct (decide (a = j)) as [->|Hne]; [|exists n; by rewrite Hoth]. exists kn1. destruct Hjd as [Hjd|[Hjd _]]; [|congruence].
    split_and!; [done|congruence|congruence]. }
  enough (ginv L' goal' ∧ L' = L1) as [? ->] by done.
  destruct (isgoal k) eqn:Eg.
  - destruct goal as [b|].
    + destruct HG as (bn & bg & Hb & Hbg & Hbgg & Hmin).
      destruct (f_nodes L1 !! b) as [bn1|] eqn:Hb1; [|done]. cbn [mbind option_bind] in Hr. rewrite Hg1 in Hr. cbn [mbind option_bind] in Hr.
      destruct (l_g D bn1) as [bg1|] eqn:Hbg1; [|done]. cbn [mbind option_bind] in Hr.
      assert (Hrest : ∀ a n g, a ≠ j → f_nodes L1 !! a = Some n → isgoal (l_st D n) = true → l_g D n = Some g → bg1 ≤ g ∧ (b ≠ j → bg1 = bg)).
      { intros a n g Hne Ha Hgo Hg. rewrite Hoth in Ha by done. specialize (Hmin a n g Ha Hgo Hg). destruct (decide (b = j)) as [->|Hbj].
        - rewrite Hj1 in Hb1. injection Hb1 as <-. specialize (Hle bn bg Hb Hbgg). split; [|done]. assert (kg1 = bg1) by congruence. lia.
        - rewrite Hoth in Hb1 by done. assert (bg1 = bg) by congruence. lia. }
      case_bool_decide as Hlt; injection Hr as <- <- _; (split; [|done]); (split; [done|]).
      * exists kn1, kg1. rewrite Hs1. split_and!; [done|done|done|]. intros a n g Ha Hgo Hg. destruct (decide (a = j)) as [->|Hne].
        -- assert (g = kg1) by congruence. lia.
        -- destruct (Hrest a n g Hne Ha Hgo Hg). lia.
      * exists bn1, bg1. split_and!; [done| |done|].
        -- destruct (decide (b = j)) as [->|Hbj]; [congruence|]. rewrite Hoth in Hb1 by done. congruence.
        -- intros a n g Ha Hgo Hg. destruct (decide (a = j)) as [->|Hne]; [assert (g = kg1) by congruence; lia|]. by apply (Hrest a n g Hne Ha Hgo Hg).
    + cbn [mbind option_bind] in Hr. injection Hr as <- <- _. split; [|done]. split; [done|]. exists kn1, kg1. rewrite Hs1. split_and!; [done|done|done|].
      intros a n g Ha Hgo Hg. destruct (decide (a = j)) as [->|Hne]; [assert (g = kg1) by congruence; lia|]. rewrite Hoth in Ha by done. specialize (HG a n Ha). congruence.
  - cbn [mbind option_bind] in Hr. injection Hr as <- <- _. split; [|done]. split; [done|]. destruct goal as [b|].
    + destruct HG as (bn & bg & Hb & Hbg & Hbgg & Hmin). assert (b ≠ j) as Hbj.
      { intros ->. destruct Hjd as [Hjd|[Hjd _]]; congruence. }
      exists bn, bg. rewrite Hoth by done. split_and!; [done|done|done|]. intros a n g Ha Hgo Hg.
      destruct (decide (a = j)) as [->|Hne]; [congruence|]. rewrite Hoth in Ha by done. by eapply Hmin.
    + intros a n Ha. destruct (decide (a = j)) as [->|Hne]; [congruence|]. rewrite Hoth in Ha by done. by eapply HG.
Qed.

Lemma frelaxes_goal m i x os : ∀ L goal best L' goal' best',
  ginv L goal → frelaxes D er dm m i x os L goal best = Some (L', goal', best') → ginv L' goal' ∧ stay (f_nodes L) (f_nodes L').
Proof.
  induction os as [|o os IH]; intros L goal best L' goal' best' HG Hr; cbn [frelaxes] in Hr; [injection Hr as <- <- _; split; [done|]; intros a n Ha; by exists n|].
  destruct (edge x o) as [[k c] r]. destruct (frelax D er dm m i o k c L goal best) as [[[L1 goal1] best1]|] eqn:E; [|done]. cbn [mbind option_bind] in Hr.
  apply frelax_goal in E as [HG1 Hs1]; [|done]. destruct (IH _ _ _ _ _ _ HG1 Hr) as [HG2 Hs2]. split; [done|].
  intros a n Ha. destruct (Hs1 a n Ha) as (n1 & H1 & H2 & H3). destruct (Hs2 a n1 H1) as (n2 & H4 & H5 & H6). exists n2. split_and!; congruence.
Qed.

Lemma floop_goal fuel k : ∀ n m L st goal nx m' L' st' goal' nx',
  ginv L goal → floop D lim stop er dm fuel k n m L st goal nx = Some (m', L', st', goal', nx') →
  ginv L' goal' ∨ ∃ b bn, (∀ a n, f_nodes L' !! a = Some n → is_Some (l_g D n)) ∧ goal' = Some b ∧ f_nodes L' !! b = Some bn ∧ isgoal (l_st D bn) = true ∧ l_cl D bn = true.
Proof.
  induction fuel as [|fuel IH]; intros n m L st goal nx m' L' st' goal' nx' HG Hr; [done|]. cbn [floop] in Hr.
  destruct (empty (f_open L)). { apply (inj Some) in Hr. injection Hr as _ <- _ <- _. by left. }
  destruct (stop k n). { apply (inj Some) in Hr. injection Hr as _ <- _ <- _. by left. }
  destruct (rreached lim st). { apply (inj Some) in Hr. injection Hr as _ <- _ <- _. by left. }
  destruct (pop fhatsort (f_open L)) as [[q [i|]]|]; [|done..]. cbn [mbind option_bind] in Hr.
  destruct (f_nodes L !! i) as [sn|] eqn:Hsn; [|done]. cbn [mbind option_bind] in Hr.
  destruct (expand D (l_st D sn) m (rcalled st)) as [m1 st1].
  destruct (frelaxes D er dm m1 i (l_st D sn) _ _ goal None) as [[[L1 goal1] best1]|] eqn:Ef; [|done]. cbn [mbind option_bind] in Hr.
  destruct (observe D dm L1 i (l_st D sn) best1 (S n) nx) as [nx1|]; [|done]. cbn [mbind option_bind] in Hr.
  set (ns := <[i := _]> (f_nodes L)) in Ef. set (L0 := Fss ns q _) in Ef.
  assert (HG0 : ginv L0 goal).
  { assert (Hback : ∀ a n, ns !! a = Some n → ∃ n0, f_nodes L !! a = Some n0 ∧ l_st D n0 = l_st D n ∧ l_g D n0 = l_g D n).
    { intros a n0 [(-> & <- & _)|[_ Ha]]%list_lookup_insert_Some; [by exists sn|by exists n0]. }
    destruct HG as [Hall HG]. split.
    - intros a n0 Ha. destruct (Hback a n0 Ha) as (n1 & H1 & _ & <-). by eapply Hall.
    - destruct goal as [b|].
      + destruct HG as (bn & bg & Hb & Hbg & Hbgg & Hmin).
        assert (∃ bn', ns !! b = Some bn' ∧ l_st D bn' = l_st D bn ∧ l_g D bn' = Some bg) as (bn' & H1 & H2 & H3).
        { destruct (decide (b = i)) as [->|Hne].
          - eexists. split; [apply list_lookup_insert; by eapply lookup_lt_Some|]. cbn. assert (sn = bn) as -> by congruence. done.
          - exists bn. unfold ns. by rewrite list_lookup_insert_ne. }
        exists bn', bg. rewrite H2. split_and!; [done|done|done|]. intros a n0 g Ha Hgo Hg. destruct (Hback a n0 Ha) as (n1 & H4 & H5 & H6).
        apply (Hmin a n1 g); congruence.
      + intros a n0 Ha. destruct (Hback a n0 Ha) as (n1 & H1 & <- & _). by eapply HG. }
  pose proof (frelaxes_goal _ _ _ _ _ _ _ _ _ _ HG0 Ef) as [HG1 Hst].
  destruct (isgoal (l_st D sn)) eqn:Eg.
  - destruct (push fhatsort (f_open L1) i) as [q1|]; [|done]. cbn [mbind option_bind] in Hr. apply (inj Some) in Hr. injection Hr as _ <- _ <- _. cbn [f_nodes].
    right. destruct (Hst i (LNode D (l_st D sn) (l_par D sn) (l_g D sn) (l_op D sn) (l_upd D sn) true)) as (bn & H1 & H2 & H3).
    { apply list_lookup_insert. by eapply lookup_lt_Some. }
    exists i, bn. cbn [l_st l_cl] in H2, H3. split_and!; [apply HG1|done|done|congruence|done].
  - by eapply IH.
Qed.
End goal.

(** C121: when the lookahead has seen goals, the one that is headed for is the nearest of those in the tree, unless the
    lookahead ended because it expanded a goal; then it is that one.  It is where the agent ends when it makes all the moves. *)
Theorem C121_goal D lim stop junk fuel k er dm m st cur m' L st' b er' :
  isgoal cur = false → expandFss D lim stop junk fuel k er dm m st cur = Some (m', L, st', Some b, er') →
  ∃ n g, f_nodes L !! b = Some n ∧ isgoal (l_st D n) = true ∧ l_g D n = Some g ∧
    (l_cl D n = true ∨ ∀ t n' g', f_nodes L !! t = Some n' → isgoal (l_st D n') = true → l_g D n' = Some g' → g ≤ g') ∧
    ∀ os s', fmove D false L cur (Some b) = Some (os, s') → s' = l_st D n.
Proof.
  intros Hg Hr. unfold expandFss in Hr. destruct (finit D junk m cur) as [L0|] eqn:E0; [|done]. cbn [mbind option_bind] in Hr.
  assert (ginv D L0 None) as H0.
  { unfold finit in E0. destruct (push _ _ _); [|done]. cbn [mbind option_bind] in E0. apply (inj Some) in E0. subst L0. split; cbn [f_nodes].
    - intros a n [-> <-]%list_lookup_singleton_Some. by eexists.
    - intros a n [-> <-]%list_lookup_singleton_Some. done. }
  assert (Hmv : ∀ n, f_nodes L !! b = Some n → ∀ os s', fmove D false L cur (Some b) = Some (os, s') → s' = l_st D n).
  { intros n Hn os s' Hm. unfold fmove in Hm. cbn [mbind option_bind] in Hm. rewrite Hn in Hm. cbn [mbind option_bind] in Hm. case_decide; [done|].
    destruct (upward _ _ _ _ _ _) as [[us r]|]; [|done]. cbn [mbind option_bind] in Hm. apply (inj Some) in Hm. by injection Hm as _ <-. }
  destruct (floop_goal D lim stop er dm fuel k 0 m L0 st None (Errs 0 0) m' L st' (Some b) er' H0 Hr) as [[Hall (n & g & H1 & H2 & H3 & H4)]|(b' & n & Hall & [= <-] & H1 & H2 & H3)].
  - exists n, g. split_and!; [done|done|done|by right|by apply Hmv].
  - destruct (Hall b n H1) as [g Hg']. exists n, g. split_and!; [done|done|done|by left|by apply Hmv].
Qed.
Print Assumptions C121_goal.

(** A lookahead of three expansions on the graph of Lss/Props.v sees the goal 3 at the cost 4 and moves to it. *)
Definition look3_seen : option (option nat * option nat * option (list nat * nat)) :=
  match expandFss lss_dom no_limits (nodes 3) 5%Q 10 0 (Errs 0 0) (Dist (D:=lss_dom) (λ _, 1%Q) (λ _, 1%Q)) (mem0 lss_dom (λ _, 0)) (RCount 0 0 0) 0%nat with
  | Some (_, L, _, Some b, _) => Some (Some b, l_st lss_dom <$> f_nodes L !! b, fmove lss_dom false L 0%nat (Some b))
  | Some (_, L, _, None, _) => Some (None, None, None)
  | None => None
  end.
Example fhat_goal : look3_seen = Some (Some 3, Some 3, Some ([2; 3], 3))%nat.
Proof. vm_compute. reflexivity. Qed.
