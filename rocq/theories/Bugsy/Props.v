(** BUGSY: C96-C100. *)
From stdpp Require Import prelude gmap.
From Coq Require Import ZArith Lia ZifyBool ZifyNat QArith Lqa.
From Verif Require Import Common.Orders Common.Fuel BinHeap.Model BinHeap.Proofs.
From Verif Require Import Search.Model Search.Proofs Search.Props Bugsy.Model Bugsy.Proofs Bugsy.Order.
Local Open Scope Z_scope.

(** ** C96: a search that may be told anything about utilities *)
Section any.
Context (D : domain) (hh dd : St D → Z).
Context {E K : Type} (lt : K → K → bool) (k0 : K) (est0 : E).
Context (util : nat → E → Z → fields → E * K).
Context (on_expand : nat → E → fields → E).
Context (on_kids : E → fields → list kidinfo → E).
Context (refresh : nat → E → option E).
Context (dropdups : bool) (lim : limits).
Context (s0 : St D).
Set Default Proof Using "Type".

Notation oc := (choice_ol (pops D hh dd lt k0 est0 util on_expand on_kids refresh dropdups lim s0)).
Notation pnew := (λ (_ : Z) (_ : St D), tt).
Notation pupd := (λ (_ : unit) (_ _ : Z), tt).
Notation search := (bsearch D hh dd lt k0 est0 util on_expand on_kids refresh dropdups lim s0).
Notation running := (brunning D hh dd lt k0 est0 util on_expand on_kids refresh dropdups lim s0).
Notation step := (bstep D hh dd lt util on_expand on_kids refresh dropdups lim).

(** A reported path is a solution; without limits, reporting none means that there is none. *)
Theorem C96_sound_complete :
  domain_ok D → ∀ fuel out b, search fuel = Some (out, b) →
  match out with
  | Some (path, os) => ∃ k, solution s0 (reverse path) (reverse os) k
  | None => lim = no_limits → ∀ ss os k, ¬ solution s0 ss os k
  end.
Proof.
  intros OK fuel out b Hs.
  pose proof (search_sim D hh dd lt k0 est0 util on_expand on_kids refresh dropdups lim s0 fuel) as Hsim.
  rewrite Hs in Hsim. destruct Hsim as (j & s' & _ & _ & Hs').
  destruct (search_end D pnew pupd dropdups oc lim nolt (λ _, True) OK (choice_ok _)
    (λ _ _ _, I) (λ _ _ _, eq_refl) s0 _ _ _ Hs') as (c & Hgood & Hround).
  inversion Hround as [[->|Hlim]|n pn path os k ? ? ? ? ? Hsol ? ?|]; simplify_eq.
  - intros Hlim ss os k. apply (exhausted_unsolvable D pnew pupd dropdups oc lim nolt (λ _, True) OK (choice_ok _)
      (λ _ _ _, I) (λ _ _ _, eq_refl) s0 _ _ _ _ Hgood).
  - intros ->. done.
  - eauto.
Qed.

(** Where finitely many states can be reached, the search ends. *)
Theorem C96_terminates : domain_ok D → finite_space s0 → ∃ r, ends search r.
Proof.
  intros OK Hf.
  destruct (search_ends D pnew pupd dropdups oc lim nolt (λ _, True) OK (choice_ok _)
    (λ _ _ _, I) (λ _ _ _, eq_refl) s0 Hf) as [[out s'] [n Hn]].
  pose proof (search_sim D hh dd lt k0 est0 util on_expand on_kids refresh dropdups lim s0 n) as Hsim.
  rewrite (Hn n (le_n _)) in Hsim. destruct (search n) as [[out' b']|] eqn:Eb; [|done].
  exists (out', b'). exists n. intros m Hm. rewrite <-Eb. clear Hn Hsim.
  unfold bsearch in *. destruct (binit _ _ _ _ _ _ _ _) as [b|]; [|done]. cbn [mbind option_bind] in *.
  revert m b Eb Hm. induction n as [|n IH]; intros m b Eb Hm; [done|]. destruct m as [|m]; [lia|].
  cbn [bloop] in *. destruct (step b) as [[b2|out2]|]; [|done..]. cbn [mbind option_bind] in *.
  apply IH; [done|lia].
Qed.

(** At no point of a search does the program fail. *)
Theorem C96_survives : domain_ok D → ∀ b, running b → ∃ r, step b = Some r.
Proof.
  intros OK b Hb. destruct (brunning_iter _ _ _ _ _ _ _ _ _ _ _ _ _ _ Hb) as [i Hi].
  destruct (iter_sim _ _ _ _ _ _ _ _ _ _ _ _ _ _ _ Hi) as (s & Hrun & Hr).
  destruct (running_good D pnew pupd dropdups oc lim nolt (λ _, True) OK (choice_ok _)
    (λ _ _ _, I) (λ _ _ _, eq_refl) s0 _ Hrun) as [c Hg].
  destruct (step_round D pnew pupd dropdups oc lim nolt (λ _, True) OK (choice_ok _)
    (λ _ _ _, I) (λ _ _ _, eq_refl) s0 _ _ Hg) as (r & Hs & _).
  pose proof (step_sim D hh dd lt k0 est0 util on_expand on_kids refresh dropdups lim s0 _ i b s Hr
    (λ x l Hx, pops_agree _ _ _ _ _ _ _ _ _ _ _ _ _ i b x l Hi Hx)) as Hsim.
  destruct (step b) as [r'|]; [by eauto|]. congruence.
Qed.

(** The limits given are respected. *)
Theorem C96_limits_respected :
  domain_ok D → ∀ m fuel out b, (∀ t, reachable s0 t → length (ops t) ≤ m)%nat →
  search fuel = Some (out, b) →
  ((0 < l_expd lim)%nat → (b_expd D b ≤ l_expd lim)%nat) ∧
  (∀ e, timeup lim e = true → (b_expd D b ≤ e)%nat) ∧
  ((0 < l_gend lim)%nat → (b_gend D b < l_gend lim + m)%nat).
Proof.
  intros OK m fuel out b Hm Hs.
  pose proof (search_sim D hh dd lt k0 est0 util on_expand on_kids refresh dropdups lim s0 fuel) as Hsim.
  rewrite Hs in Hsim. destruct Hsim as (j & s' & _ & Hrel & Hs').
  pose proof (C37_limits_respected D pnew pupd dropdups oc lim nolt (λ _, True) OK (choice_ok _)
    (λ _ _ _, I) (λ _ _ _, eq_refl) s0 m _ _ _ Hm Hs') as H.
  destruct (r_cnt _ _ _ _ _ Hrel) as (E1 & E2 & _). rewrite <-E1, <-E2. done.
Qed.

(** A run that ends is at a running state. *)
Lemma search_brunning fuel out b :
  search fuel = Some (out, b) → running b ∧ step b = Some (inr out).
Proof.
  unfold bsearch. destruct (binit _ _ _ _ _ _ _ _) as [b1|] eqn:Hb; [|done]. cbn [mbind option_bind].
  assert (running b1) as Hr by by constructor. clear Hb. revert b1 Hr.
  induction fuel as [|fuel IH]; intros b1 Hr; [done|]. cbn [bloop].
  destruct (step b1) as [[b2|out2]|] eqn:Hs; [|..|done]; cbn [mbind option_bind].
  - apply IH. by eapply brunning_step.
  - intros [= <- <-]. done.
Qed.

(** The path reported comes from the node popped last. *)
Lemma popped_solution b i q n path os :
  domain_ok D → running b → pop lt (b_open D b) = Some (q, Some i) → b_nodes D b !! i = Some n →
  step b = Some (inr (Some (path, os))) →
  isgoal (n_state D n) = true ∧ ∃ k, solution s0 (reverse path) (reverse os) k ∧ k ≤ n_g D n.
Proof.
  intros OK Hb Hpop Hn Hs. destruct (brunning_sim _ _ _ _ _ _ _ _ _ _ _ _ _ _ Hb) as (x & s & Hrun & Hr).
  destruct (running_good D pnew pupd dropdups oc lim nolt (λ _, True) OK (choice_ok _)
    (λ _ _ _, I) (λ _ _ _, eq_refl) s0 _ Hrun) as [c (_ & Hinv & _)].
  unfold bstep in Hs. destruct (_ || _); [done|]. rewrite Hpop in Hs.
  cbn [mbind option_bind Bugsy.Model.set_open b_nodes] in Hs. rewrite Hn in Hs. cbn [mbind option_bind] in Hs.
  destruct (isgoal (n_state D n)) eqn:Hg.
  2: { destruct (Bugsy.Model.expand _ _ _ _ _ _ _ _ _ _); [|done]. cbn [mbind option_bind] in Hs.
       by destruct (updateopen _ _ _ _ _). }
  split; [done|].
  rewrite (r_nodes _ _ _ _ _ Hr) in Hinv.
  assert ((erase D <$> b_nodes D b) !! i = Some (erase D n)) as Hn' by by rewrite list_lookup_fmap, Hn.
  destruct (i_chain _ _ _ _ _ Hinv _ _ Hn') as [l Hl]. pose proof (chain_length _ _ _ Hl) as Hll.
  rewrite fmap_length in Hll.
  destruct (chain_solpath D pnew pupd dropdups oc lim nolt (λ _, True) OK (choice_ok _)
    (λ _ _ _, I) (λ _ _ _, eq_refl) s0 _ _ _ _ (S (length (b_nodes D b))) _ Hinv Hl Hn')
    as (path' & os' & k & Hp & Hw & Hh & Hla & Hk); [lia|].
  rewrite (erase_solpath D hh dd lt k0 est0 util on_expand on_kids refresh dropdups lim s0) in Hp. rewrite Hp in Hs. cbn [mbind option_bind] in Hs. injection Hs as <- <-.
  exists k. split; [|done]. split; [done|]. split; [done|]. eauto.
Qed.
End any.

(** The same for the two programs, whatever the clock says. *)
Corollary C96_slim_sound_complete wf wt clock D hh dd lim s0 :
  domain_ok D → ∀ fuel out b, slim_search wf wt clock D hh dd lim s0 fuel = Some (out, b) →
  match out with
  | Some (path, os) => ∃ k, solution s0 (reverse path) (reverse os) k
  | None => lim = no_limits → ∀ ss os k, ¬ solution s0 ss os k
  end.
Proof. apply C96_sound_complete. Qed.

Corollary C96_slim_terminates wf wt clock D hh dd lim s0 :
  domain_ok D → finite_space s0 → ∃ r, ends (slim_search wf wt clock D hh dd lim s0) r.
Proof. apply C96_terminates. Qed.

Corollary C96_full_sound_complete wf wt o clock D hh dd dropdups lim s0 :
  domain_ok D → ∀ fuel out b, full_search wf wt o clock D hh dd dropdups lim s0 fuel = Some (out, b) →
  match out with
  | Some (path, os) => ∃ k, solution s0 (reverse path) (reverse os) k
  | None => lim = no_limits → ∀ ss os k, ¬ solution s0 ss os k
  end.
Proof. apply C96_sound_complete. Qed.

Corollary C96_full_terminates wf wt o clock D hh dd dropdups lim s0 :
  domain_ok D → finite_space s0 → ∃ r, ends (full_search wf wt o clock D hh dd dropdups lim s0) r.
Proof. apply C96_terminates. Qed.

(** ** The order of the open list *)

Lemma lex_sw {A B} (lt1 : A → A → bool) (lt2 : B → B → bool) :
  strict_weak lt1 → strict_weak lt2 →
  strict_weak (λ x y : A * B, lt1 x.1 y.1 || (negb (lt1 y.1 x.1) && lt2 x.2 y.2)).
Proof.
  intros S1 S2. split.
  - intros [a b]. cbn [fst snd]. by rewrite (sw_irrefl _ S1), (sw_irrefl _ S2).
  - intros [a b] [a' b'] [a'' b'']. cbn [fst snd].
    rewrite !orb_true_iff, !andb_true_iff, !negb_true_iff. intros [H1|[H1 H2]] [H3|[H3 H4]].
    + left. by eapply (sw_trans _ S1).
    + left. destruct (lt1 a a'') eqn:E; [done|].
      by rewrite (sw_neg_trans _ S1 a' a'' a H3 E) in H1.
    + left. destruct (lt1 a a'') eqn:E; [done|].
      by rewrite (sw_neg_trans _ S1 a'' a a' E H1) in H3.
    + right. split; [|by eapply (sw_trans _ S2)]. exact (sw_neg_trans _ S1 a a' a'' H1 H3).
  - intros [a b] [a' b'] [a'' b'']. cbn [fst snd].
    rewrite !orb_false_iff, !andb_false_iff, !negb_false_iff.
    intros [H1 H2] [H3 H4] [H5 H6] [H7 H8].
    destruct H2 as [?|H2]; [congruence|]. destruct H4 as [?|H4]; [congruence|].
    destruct H6 as [?|H6]; [congruence|]. destruct H8 as [?|H8]; [congruence|].
    destruct (sw_incomp _ S1 a a' a'') as [-> ->]; [done..|].
    destruct (sw_incomp _ S2 b b' b'') as [-> ->]; [done..|]. by split; split; [|right|..|right].
Qed.

Lemma Qlt_sw : strict_weak (λ a b : Q, negb (Qle_bool b a)).
Proof.
  assert (∀ a b : Q, negb (Qle_bool b a) = true ↔ (a < b)%Q) as Ht.
  { intros a b. rewrite negb_true_iff, <-not_true_iff_false, Qle_bool_iff. split; lra. }
  assert (∀ a b : Q, negb (Qle_bool b a) = false ↔ (b <= a)%Q) as Hf.
  { intros a b. rewrite negb_false_iff. apply Qle_bool_iff. }
  split.
  - intros a. apply Hf. lra.
  - intros a b c. rewrite !Ht. lra.
  - intros a b c. rewrite !Hf. lra.
Qed.

Lemma Zgt_sw : strict_weak (λ a b : Z, b <? a).
Proof. split; intros; lia. Qed.

Lemma flip_sw {A} (lt : A → A → bool) : strict_weak lt → strict_weak (λ a b, lt b a).
Proof.
  intros S. split.
  - intros a. apply (sw_irrefl _ S).
  - intros a b c H1 H2. by eapply (sw_trans _ S).
  - intros a b c H1 H2 H3 H4. destruct (sw_incomp _ S a b c); auto.
Qed.

Lemma Qeq_le a b : Qeq_bool a b = Qle_bool a b && Qle_bool b a.
Proof.
  apply eq_true_iff_eq. rewrite andb_true_iff, !Qle_bool_iff. split.
  - intros H%Qeq_bool_eq. lra.
  - intros [H1 H2]. apply Qeq_eq_bool. lra.
Qed.

Lemma Qle_total a b : Qle_bool a b = false → Qle_bool b a = true.
Proof. rewrite <-not_true_iff_false, !Qle_bool_iff. lra. Qed.

Lemma sw_ext {A} (lt lt' : A → A → bool) :
  (∀ a b, lt' a b = lt a b) → strict_weak lt → strict_weak lt'.
Proof.
  intros H [S1 S2 S3]. split.
  - intros a. rewrite H. apply S1.
  - intros a b c. rewrite !H. apply S2.
  - intros a b c. rewrite !H. apply S3.
Qed.

(** The comparison of open nodes is a strict weak order. *)
Lemma bugsy_lt_sw : strict_weak bugsy_lt.
Proof.
  eapply sw_ext; [|exact (lex_sw _ _ (lex_sw _ _ (lex_sw _ _ (flip_sw _ Qlt_sw) Qlt_sw) ltb_strict_weak) Zgt_sw)].
  intros [[[ua ta] fa] ga] [[[ub tb] fb] gb]. unfold bugsy_lt. cbn [fst snd].
  rewrite !Qeq_le.
  destruct (Qle_bool ua ub) eqn:E1, (Qle_bool ub ua) eqn:E2; cbn [negb andb orb]; try done.
  destruct (Qle_bool ta tb) eqn:E3, (Qle_bool tb ta) eqn:E4; cbn [negb andb orb]; try done;
    try (apply Qle_total in E3; congruence).
  destruct (fa =? fb) eqn:E5; cbn [negb]; lia.
Qed.

Lemma bugsy_lt_u ua ta fa ga ub tb fb gb :
  bugsy_lt (ua, ta, fa, ga) (ub, tb, fb, gb) = false → (ua <= ub)%Q.
Proof.
  unfold bugsy_lt. rewrite Qeq_le. destruct (Qle_bool ua ub) eqn:E1.
  - intros _. by apply Qle_bool_iff.
  - done.
Qed.

(** ** C97: nodes are expanded in the order of their utility *)

(** The utility of a solution of cost [c] found after time [t]: what the weights
    wf and wt mean to the user. *)
Definition utility (wf wt c t : Q) : Q := (- (wf * c + wt * t))%Q.

(** bugsy-slim: the expected cost of a solution through a node is g + h; the
    expected time to it is d expansions, each taking as long as an expansion took
    lately and waiting as long as nodes waited lately. *)
Definition slim_value {D} wf wt (e : sest) (n : node D (P:=fields)) : Q :=
  let wait := if Qle_bool (s_avgdelay e) 0 then 1%Q else s_avgdelay e in
  utility wf wt (inject_Z (n_g D n + p_h (n_p D n))) (s_timeper e * wait * inject_Z (p_d (n_p D n)))%Q.

Theorem C97_slim_expands_best wf wt clock D hh dd lim s0 b :
  slim_running wf wt clock D hh dd lim s0 b → arr (b_open D b) ≠ [] →
  ∃ i n q, pop bugsy_lt (b_open D b) = Some (q, Some i) ∧ b_nodes D b !! i = Some n ∧ i ∈ arr (b_open D b) ∧
  ∀ j m, j ∈ arr (b_open D b) → b_nodes D b !! j = Some m →
  (slim_value wf wt (b_est D b) m <= slim_value wf wt (b_est D b) n)%Q.
Proof.
  intros Hr Hne. destruct (arr (b_open D b)) as [|i l] eqn:Ha; [done|]. rewrite <-Ha.
  assert (front (b_open D b) = Some i) as Hf by (unfold front; by rewrite Ha).
  destruct (running_best D hh dd bugsy_lt bugsy_lt_sw (0%Q, 0%Q, 0, 0) (slim0 clock) (slim_util wf wt) slim_expand
    slim_kids (slim_refresh clock) true lim s0
    (λ e g p, (slim_util wf wt 0 e g p).2) (λ _ _ _ _, eq_refl) (λ _ _ _ _ _, eq_refl) (λ _ _ _ _ _, eq_refl) b i Hr Hf)
    as (n & Hn & Hin & (q & Hq) & Hbest).
  exists i, n, q. split; [done|]. split; [done|]. split; [done|]. intros j m Hj Hm.
  specialize (Hbest j m Hj Hm). unfold slim_util in Hbest. cbn [snd] in Hbest. apply bugsy_lt_u in Hbest.
  unfold slim_value, utility. unfold slim_t in Hbest.
  rewrite (Z.add_comm (n_g D m)), (Z.add_comm (n_g D n)). exact Hbest.
Qed.

(** The open list is sorted anew after expansion 128, 256, 512 and so on, and at
    no other time do the estimates change. *)
Definition sched (x n next : nat) : Prop :=
  next = (128 * 2 ^ n)%nat ∧ (x < next)%nat ∧ ((0 < n)%nat → 128 * 2 ^ (n - 1) ≤ x)%nat.
Definition sched' (x n next : nat) : Prop :=
  next = (128 * 2 ^ n)%nat ∧ (x ≤ next)%nat ∧ ((0 < n)%nat → 128 * 2 ^ (n - 1) ≤ x)%nat.

Lemma sched_step x n next : sched x n next → sched' (S x) n next.
Proof. intros (H1 & H2 & H3). split; [done|]. split; [lia|]. intros Hn. specialize (H3 Hn). lia. Qed.

Lemma sched_wait x n next : sched' x n next → (x < next)%nat → sched x n next.
Proof. intros (H1 & H2 & H3) Hx. done. Qed.

Lemma sched_resort x n next : sched' x n next → ¬ (x < next)%nat → sched x (S n) (next * 2).
Proof.
  intros (H1 & H2 & H3) Hx. assert (x = next) as -> by lia. subst next. unfold sched.
  rewrite Nat.pow_succ_r'. split; [lia|]. split.
  - pose proof (Nat.pow_nonzero 2 n). lia.
  - intros _. replace (S n - 1)%nat with n by lia. lia.
Qed.

Theorem C97_slim_resorts wf wt clock D hh dd lim s0 b :
  slim_running wf wt clock D hh dd lim s0 b →
  let n := s_nresort (b_est D b) in
  (b_expd D b < 128 * 2 ^ n)%nat ∧ ((0 < n)%nat → 128 * 2 ^ (n - 1) ≤ b_expd D b)%nat.
Proof.
  intros Hr n.
  destruct (running_est D hh dd bugsy_lt (0%Q, 0%Q, 0, 0) (slim0 clock) (slim_util wf wt) slim_expand slim_kids
    (slim_refresh clock) true lim s0 (λ x e, sched x (s_nresort e) (s_nextresort e))
    (λ x e, sched' x (s_nresort e) (s_nextresort e))) with (b:=b) as (H1 & H2 & H3).
  - intros x e g p H. exact H.
  - intros x e g p H. exact H.
  - intros x e p ks H. exact H.
  - intros x e H. unfold slim_refresh. case_decide.
    + by apply sched_wait.
    + cbn [s_nresort s_nextresort]. by apply sched_resort.
  - intros x e p H. by apply sched_step.
  - split; [done|]. split; [cbn; lia|]. cbn. lia.
  - exact Hr.
  - fold n in H1, H3. rewrite H1 in H2. done.
Qed.

Theorem C97_slim_estimates_kept wf wt clock D hh dd lim s0 b b' :
  slim_running wf wt clock D hh dd lim s0 b →
  slim_step wf wt clock D hh dd lim b = Some (inl b') → s_nresort (b_est D b') = s_nresort (b_est D b) →
  s_timeper (b_est D b') = s_timeper (b_est D b) ∧ s_avgdelay (b_est D b') = s_avgdelay (b_est D b).
Proof.
  intros _ Hs. set (J := λ (x : nat) (e : sest), (s_nresort (b_est D b) ≤ s_nresort e)%nat ∧
    (s_nresort e = s_nresort (b_est D b) →
     s_timeper e = s_timeper (b_est D b) ∧ s_avgdelay e = s_avgdelay (b_est D b))).
  destruct (step_est D hh dd bugsy_lt (0%Q, 0%Q, 0, 0) (slim0 clock) (slim_util wf wt) slim_expand slim_kids
    (slim_refresh clock) true lim s0) with (J:=J) (J':=J) (b:=b) (b':=b') as (_ & _ & H).
  all: try done.
  intros x e [H1 H2]. unfold slim_refresh. case_decide; [done|]. split; cbn [s_nresort]; lia.
Qed.

(** How long the nodes expanded so far, oldest first, had waited: from the
    expansion that generated them to their own. *)
Inductive slim_waits wf wt clock D hh dd lim s0 : list Z → bstate D → Prop :=
  | slim_waits_init b :
      binit D hh dd bugsy_lt (0%Q, 0%Q, 0, 0) (slim0 clock) (slim_util wf wt) s0 = Some b →
      slim_waits wf wt clock D hh dd lim s0 [] b
  | slim_waits_step ws b b' i n q :
      slim_waits wf wt clock D hh dd lim s0 ws b →
      pop bugsy_lt (b_open D b) = Some (q, Some i) → b_nodes D b !! i = Some n →
      slim_step wf wt clock D hh dd lim b = Some (inl b') →
      slim_waits wf wt clock D hh dd lim s0
        (ws ++ [Z.of_nat (S (b_expd D b)) - Z.of_nat (p_expct (n_p D n))]) b'.

Definition sum (l : list Z) : Z := foldr Z.add 0 l.

(** The number of expansions at the time of resort number [n]. *)
Definition resort_at (n : nat) : nat := match n with O => O | S n => (128 * 2 ^ n)%nat end.

(** The estimates in use after [n] resorts are the averages over the expansions
    between the last two: of the time taken, and of the waits. *)
Definition slim_track clock (ws : list Z) (x : nat) (e : sest) : Prop :=
  let n := s_nresort e in
  length ws = x ∧ sched x n (s_nextresort e) ∧ s_lastexpd e = resort_at n ∧ s_ticks e = S n ∧
  s_lasttime e = clock n ∧ s_delaysum e = sum (drop (resort_at n) ws) ∧
  match n with
  | O => s_timeper e = 0%Q ∧ s_avgdelay e = 0%Q
  | S m =>
    let len := (resort_at n - resort_at m)%nat in
    s_timeper e = ((clock n - clock m) / inject_Z (Z.of_nat len))%Q ∧
    s_avgdelay e = (inject_Z (sum (take len (drop (resort_at m) ws))) / inject_Z (Z.of_nat len))%Q
  end.

Lemma sum_app l1 l2 : sum (l1 ++ l2) = sum l1 + sum l2.
Proof. induction l1 as [|a l1 IH]; [done|]. simpl. unfold sum in *. simpl. lia. Qed.

Lemma resort_at_le x n next : sched x n next → (resort_at n ≤ x)%nat.
Proof.
  intros (_ & _ & H). destruct n as [|n]; [simpl; lia|]. specialize (H ltac:(lia)).
  replace (S n - 1)%nat with n in H by lia. exact H.
Qed.

Lemma resort_at_mono n : (resort_at n < resort_at (S n))%nat.
Proof.
  destruct n as [|n]; cbn [resort_at]; [cbn; lia|]. rewrite Nat.pow_succ_r'.
  pose proof (Nat.pow_nonzero 2 n). lia.
Qed.

Lemma slim_track_step wf wt clock D hh dd lim (s0 : St D) ws b b' i n q :
  slim_track clock ws (b_expd D b) (b_est D b) →
  pop bugsy_lt (b_open D b) = Some (q, Some i) → b_nodes D b !! i = Some n →
  slim_step wf wt clock D hh dd lim b = Some (inl b') →
  slim_track clock (ws ++ [Z.of_nat (S (b_expd D b)) - Z.of_nat (p_expct (n_p D n))]) (b_expd D b') (b_est D b').
Proof.
  intros (H1 & H2 & H3 & H4 & H5 & H6 & H7) Hq Hn Hs.
  set (w := Z.of_nat (S (b_expd D b)) - Z.of_nat (p_expct (n_p D n))).
  set (e1 := slim_expand (S (b_expd D b)) (b_est D b) (n_p D n)).
  set (x1 := S (b_expd D b)).
  destruct (step_est_at D hh dd bugsy_lt (0%Q, 0%Q, 0, 0) (slim0 clock) (slim_util wf wt) slim_expand slim_kids
    (slim_refresh clock) true lim s0
    (λ x e, slim_track clock (ws ++ [w]) x e) (λ x e, x = x1 ∧ e = e1)) with (b:=b) (b':=b') (i:=i) (q:=q) (pn:=n)
    as [_ HJ]; try done.
  intros x e [-> ->]. unfold slim_refresh.
  set (r := s_nresort (b_est D b)) in *.
  pose proof (resort_at_le _ _ _ H2) as Hle.
  assert (sum (drop (resort_at r) (ws ++ [w])) = sum (drop (resort_at r) ws) + w) as Hsum.
  { rewrite drop_app_le by lia. rewrite sum_app. unfold sum at 2. simpl. lia. }
  assert (length (ws ++ [w]) = x1) as Hlen by (rewrite app_length; simpl; unfold x1; lia).
  destruct (decide (x1 < s_nextresort e1)%nat) as [Hlt|Hge].
  - unfold slim_track. unfold e1. cbn [slim_expand s_nresort s_nextresort s_lastexpd s_ticks s_lasttime s_delaysum s_timeper s_avgdelay].
    fold r. split; [done|]. split; [by apply sched_wait; [apply sched_step|]|].
    split; [done|]. split; [done|]. split; [done|]. split; [rewrite H6, Hsum; done|].
    destruct r as [|m] eqn:Er; [done|]. destruct H7 as [H7 H8]. split; [done|].
    rewrite H8. do 3 f_equal. pose proof (resort_at_mono m).
    rewrite drop_app_le by lia. rewrite take_app_le; [done|]. rewrite drop_length. lia.
  - pose proof (sched_resort _ _ _ (sched_step _ _ _ H2) Hge) as Hsch. fold r x1 in Hsch.
    assert (x1 = resort_at (S r)) as Hx1.
    { destruct Hsch as (_ & _ & Hs1). specialize (Hs1 ltac:(lia)). replace (S r - 1)%nat with r in Hs1 by lia.
      destruct H2 as (Hn1 & Hn2 & _). fold r in Hn1. unfold x1 in *. cbn [resort_at]. lia. }
    unfold slim_track.
    cbn [s_nresort s_nextresort s_lastexpd s_ticks s_lasttime s_delaysum s_timeper s_avgdelay].
    change (s_nresort e1) with r. change (s_nextresort e1) with (s_nextresort (b_est D b)).
    change (s_ticks e1) with (s_ticks (b_est D b)). change (s_lasttime e1) with (s_lasttime (b_est D b)).
    change (s_lastexpd e1) with (s_lastexpd (b_est D b)). change (s_delaysum e1) with (s_delaysum (b_est D b) + w).
    split; [done|]. split; [exact Hsch|]. split; [done|]. split; [by rewrite H4|].
    split; [by rewrite H4|]. split; [rewrite <-Hx1, <-Hlen, drop_all; done|].
    assert (Z.of_nat x1 - Z.of_nat (resort_at r) = Z.of_nat (resort_at (S r) - resort_at r)) as Hd by lia.
    rewrite H3, H4, H5, H6, Hd. split; [done|]. do 2 f_equal. rewrite <-Hsum. f_equal.
    rewrite take_ge; [done|]. rewrite drop_length, Hlen. lia.
Qed.

Theorem C97_slim_averages wf wt clock D hh dd lim s0 ws b :
  slim_waits wf wt clock D hh dd lim s0 ws b →
  let e := b_est D b in
  length ws = b_expd D b ∧
  match s_nresort e with
  | O => s_timeper e = 0%Q ∧ s_avgdelay e = 0%Q
  | S m =>
    let len := (resort_at (S m) - resort_at m)%nat in
    s_timeper e = ((clock (S m) - clock m) / inject_Z (Z.of_nat len))%Q ∧
    s_avgdelay e = (inject_Z (sum (take len (drop (resort_at m) ws))) / inject_Z (Z.of_nat len))%Q
  end.
Proof.
  intros Hw. assert (slim_track clock ws (b_expd D b) (b_est D b)) as (H1 & _ & _ & _ & _ & _ & H2);
    [|split; [exact H1|]; by destruct (s_nresort (b_est D b))].
  induction Hw as [b Hb|ws b b' i n q Hw IH Hq Hn Hs].
  - unfold binit in Hb. destruct (computeutil _ _ _ _) as [b1|] eqn:Hc; [|done].
    cbn [mbind option_bind] in Hb. destruct (push bugsy_lt (b_open D b1) 0%nat) as [h|]; [|done].
    cbn [mbind option_bind] in Hb. injection Hb as <-. injection Hc as <-. unfold slim_track, sched.
    cbn [Bugsy.Model.set_open set_est b_expd b_est s_nresort s_nextresort s_lastexpd s_ticks s_lasttime s_delaysum s_timeper s_avgdelay slim0].
    split; [done|]. split; [split; [done|split; [lia|lia]]|]. done.
  - by eapply slim_track_step.
Qed.

(** Every running search has such a history. *)
Lemma slim_waits_running wf wt clock D hh dd lim s0 b :
  slim_running wf wt clock D hh dd lim s0 b → ∃ ws, slim_waits wf wt clock D hh dd lim s0 ws b.
Proof.
  induction 1 as [b Hb|b b' Hr [ws IH] Hs]; [eexists; by constructor|].
  pose proof Hs as Hs'. unfold bstep in Hs'. destruct (_ || _); [done|].
  destruct (pop _ _) as [[q r]|] eqn:Hpop; [|done]. cbn [mbind option_bind] in Hs'.
  destruct r as [i|]; [|done]. cbn [mbind option_bind Bugsy.Model.set_open b_nodes] in Hs'.
  destruct (b_nodes D b !! i) as [pn|] eqn:Hn; [|done].
  eexists. eapply slim_waits_step; [done|exact Hpop|exact Hn|exact Hs].
Qed.

(** The expansion count kept in a node is that of the expansion that generated it. *)
Theorem C97_generation_stamp {E K} D hh dd (lt : K → K → bool) util on_expand on_kids (refresh : nat → E → option E) dropdups lim
    (b b' : bstate D) :
  bstep D hh dd lt util on_expand on_kids refresh dropdups lim b = Some (inl b') →
  ∀ i n', b_nodes D b' !! i = Some n' →
  match b_nodes D b !! i with
  | Some n => p_expct (n_p D n') = p_expct (n_p D n)
  | None => p_expct (n_p D n') = S (b_expd D b)
  end.
Proof. intros Hs. apply (step_stamped D hh dd lt util on_expand on_kids refresh dropdups lim b b' Hs). Qed.

(** bugsy: the same, the estimates of h and d being the heuristics, linear
    functions of the node (-hlms, -dlms), or corrected by the average error of
    one step (-hhat, -dhat), as the options say. *)
Section full_spec.
Context {D : domain} (wf wt : Q) (o : bopts) (e : best) (n : node D (P:=fields)).
Let g := inject_Z (n_g D n).
Let h := inject_Z (p_h (n_p D n)).
Let d := inject_Z (p_d (n_p D n)).
Let depth := inject_Z (Z.of_nat (p_depth (n_p D n))).

Definition linear (c : Q * Q * Q * Q) : Q :=
  (h * c.1.1.1 + g * c.1.1.2 + d * c.1.2 + depth * c.2)%Q.

Definition steps_to_go : Q :=
  let d := from_option linear d (o_dlms o) in
  if o_dhat o then (d / (1 - e_derrlast e))%Q else d.

Definition cost_to_go : Q :=
  let h1 := from_option linear h (o_hlms o) in
  if o_hhat o then
    let h2 := (h1 + steps_to_go * e_herrlast e)%Q in
    if o_interph o then (h * (wf / (wf + wt)) + h2 * (1 - wf / (wf + wt)))%Q else h2
  else h1.

Definition time_to_go : Q :=
  let wait := if o_expdelay o && negb (Qle_bool (e_delaylast e) 0) then e_delaylast e else 1%Q in
  (e_timeper e * (steps_to_go * wait))%Q.

Definition full_value : Q := utility wf wt (cost_to_go + g) time_to_go.
End full_spec.

Lemma evallms_linear {D} (n : node D (P:=fields)) c : evallms (n_g D n) (n_p D n) c = linear n c.
Proof. destruct c as [[[c0 c1] c2] c3]. done. Qed.

Lemma full_d_spec {D} o e (n : node D (P:=fields)) : full_d o e (n_g D n) (n_p D n) = steps_to_go o e n.
Proof.
  unfold full_d, steps_to_go. destruct (o_dlms o) as [c|]; cbn [from_option]; [|done].
  by rewrite evallms_linear.
Qed.

Lemma full_h_spec {D} wf wt o e (n : node D (P:=fields)) :
  full_h wf wt o e (n_g D n) (n_p D n) = cost_to_go wf wt o e n.
Proof.
  unfold full_h, cost_to_go. rewrite full_d_spec. destruct (o_hlms o) as [c|]; cbn [from_option]; [|done].
  by rewrite evallms_linear.
Qed.

Lemma full_t_spec {D} o e (n : node D (P:=fields)) : (full_t o e (n_g D n) (n_p D n) == time_to_go o e n)%Q.
Proof.
  unfold full_t, time_to_go. rewrite full_d_spec. destruct (_ && _); [done|]. by rewrite Qmult_1_r.
Qed.

Lemma full_util_spec {D} wf wt o x e (n : node D (P:=fields)) : o_resort o = true →
  ∃ u t f, (full_util wf wt o (λ _, 0%Q) x e (n_g D n) (n_p D n)).2 = (u, t, f, n_g D n) ∧ (u == full_value wf wt o e n)%Q.
Proof.
  intros Ho. unfold full_util, full_track. rewrite Ho. cbn [snd]. eexists _, _, _. split; [done|].
  unfold full_value, utility. by rewrite full_h_spec, full_t_spec.
Qed.

Theorem C97_full_expands_best wf wt o clock D hh dd dropdups lim s0 b :
  o_resort o = true →
  full_running wf wt o clock D hh dd dropdups lim s0 b → arr (b_open D b) ≠ [] →
  ∃ i n q, pop bugsy_lt (b_open D b) = Some (q, Some i) ∧ b_nodes D b !! i = Some n ∧ i ∈ arr (b_open D b) ∧
  ∀ j m, j ∈ arr (b_open D b) → b_nodes D b !! j = Some m →
  (full_value wf wt o (b_est D b) m <= full_value wf wt o (b_est D b) n)%Q.
Proof.
  intros Ho Hr Hne. destruct (arr (b_open D b)) as [|i l] eqn:Ha; [done|]. rewrite <-Ha.
  assert (front (b_open D b) = Some i) as Hf by (unfold front; by rewrite Ha).
  destruct (running_best D hh dd bugsy_lt bugsy_lt_sw (0%Q, 0%Q, 0, 0) (full0 clock) (full_util wf wt o clock)
    (full_expand o) (full_kids o) (full_refresh o clock) dropdups lim s0
    (λ e g p, (full_util wf wt o (λ _, 0%Q) 0 e g p).2)) with (b := b) (i := i) as (n & Hn & Hin & (q & Hq) & Hbest).
  - intros x e g p. unfold full_util, full_track. by rewrite Ho.
  - intros x e p g p'. unfold full_util, full_track, full_expand. rewrite Ho. by destruct (o_expdelay o).
  - intros e p ks g p'. unfold full_util, full_track, full_kids. rewrite Ho. by destruct (_ <? _).
  - done.
  - done.
  - exists i, n, q. split; [done|]. split; [done|]. split; [done|]. intros j m Hj Hm.
    specialize (Hbest j m Hj Hm). cbn beta in Hbest.
    destruct (full_util_spec wf wt o 0 (b_est D b) m Ho) as (u & t & f & Eu & Hu).
    destruct (full_util_spec wf wt o 0 (b_est D b) n Ho) as (u' & t' & f' & Eu' & Hu').
    rewrite Eu, Eu' in Hbest. apply bugsy_lt_u in Hbest. by rewrite <-Hu, <-Hu'.
Qed.

(** bugsy, resorting: the waits of the nodes expanded, as for the slim variant. *)
Inductive full_waits wf wt o clock D hh dd dropdups lim s0 : list Z → bstate D → Prop :=
  | full_waits_init b :
      binit D hh dd bugsy_lt (0%Q, 0%Q, 0, 0) (full0 clock) (full_util wf wt o clock) s0 = Some b →
      full_waits wf wt o clock D hh dd dropdups lim s0 [] b
  | full_waits_step ws b b' i n q :
      full_waits wf wt o clock D hh dd dropdups lim s0 ws b →
      pop bugsy_lt (b_open D b) = Some (q, Some i) → b_nodes D b !! i = Some n →
      full_step wf wt o clock D hh dd dropdups lim b = Some (inl b') →
      full_waits wf wt o clock D hh dd dropdups lim s0
        (ws ++ [Z.of_nat (S (b_expd D b)) - Z.of_nat (p_expct (n_p D n))]) b'.

Definition average (l : list Z) : Q := (inject_Z (sum l) / inject_Z (Z.of_nat (length l)))%Q.

Definition timing (e : best) := (e_avgdelay e, e_delaylast e, e_lasttime e, e_timeper e, e_lastnodes e,
  e_nextresort e, e_nresort e, e_ticks e).

Definition full_hist o clock (ws : list Z) (x : nat) (e : best) : Prop :=
  let n := e_nresort e in
  length ws = x ∧ sched x n (e_nextresort e) ∧ e_lastnodes e = resort_at n ∧ e_ticks e = S n ∧
  e_lasttime e = clock n ∧
  (if o_expdelay o then
     (e_avgdelay e == average ws)%Q ∧ (e_delaylast e == average (take (resort_at n) ws))%Q
   else e_avgdelay e = 0%Q ∧ e_delaylast e = 0%Q) ∧
  match n with
  | O => e_timeper e = 0%Q
  | S m => e_timeper e = ((clock n - clock m) / inject_Z (Z.of_nat (resort_at n) - Z.of_nat (resort_at m)))%Q
  end.

Lemma full_hist_timing o clock ws x e e' : timing e = timing e' → full_hist o clock ws x e → full_hist o clock ws x e'.
Proof. unfold timing, full_hist. intros [= -> -> -> -> -> -> -> ->]. done. Qed.

Lemma average_snoc ws w x : length ws = x →
  (average ws + (inject_Z w - average ws) / inject_Z (Z.of_nat (S x)) == average (ws ++ [w]))%Q.
Proof.
  intros Hl. unfold average. rewrite app_length, sum_app, Hl. cbn [length]. unfold sum at 4. cbn [foldr].
  rewrite Z.add_0_r. replace (x + 1)%nat with (S x) by lia. rewrite inject_Z_plus.
  assert (¬ (inject_Z (Z.of_nat (S x)) == 0)%Q) as Hne.
  { unfold Qeq. cbn [inject_Z Qnum Qden]. lia. }
  destruct (decide (x = 0%nat)) as [->|Hx].
  - apply nil_length_inv in Hl as ->. change (sum []) with 0. change (inject_Z 0 / inject_Z (Z.of_nat 0))%Q with 0%Q.
    change (inject_Z (Z.of_nat 1)) with 1%Q. change (inject_Z 0) with 0%Q. field.
  - assert (¬ (inject_Z (Z.of_nat x) == 0)%Q) as Hne'.
    { unfold Qeq. cbn [inject_Z Qnum Qden]. lia. }
    rewrite Nat2Z.inj_succ in *. unfold Z.succ in *. rewrite inject_Z_plus in *. field. done.
Qed.

Lemma full_hist_step wf wt o clock D hh dd dropdups lim (s0 : St D) ws b b' i n q :
  o_resort o = true →
  full_hist o clock ws (b_expd D b) (b_est D b) →
  pop bugsy_lt (b_open D b) = Some (q, Some i) → b_nodes D b !! i = Some n →
  full_step wf wt o clock D hh dd dropdups lim b = Some (inl b') →
  full_hist o clock (ws ++ [Z.of_nat (S (b_expd D b)) - Z.of_nat (p_expct (n_p D n))]) (b_expd D b') (b_est D b').
Proof.
  intros Ho (H1 & H2 & H3 & H4 & H5 & H6 & H7) Hq Hn Hs.
  set (w := Z.of_nat (S (b_expd D b)) - Z.of_nat (p_expct (n_p D n))).
  set (e1 := full_expand o (S (b_expd D b)) (b_est D b) (n_p D n)).
  set (x1 := S (b_expd D b)).
  destruct (step_est_at D hh dd bugsy_lt (0%Q, 0%Q, 0, 0) (full0 clock) (full_util wf wt o clock) (full_expand o) (full_kids o)
    (full_refresh o clock) dropdups lim s0
    (λ x e, full_hist o clock (ws ++ [w]) x e) (λ x e, x = x1 ∧ timing e = timing e1)) with (b:=b) (b':=b') (i:=i) (q:=q) (pn:=n)
    as [_ HJ]; try done.
  - intros x e g p. unfold full_util, full_track. by rewrite Ho.
  - intros x e g p. unfold full_util, full_track. by rewrite Ho.
  - intros x e p ks [-> Ht]. split; [done|]. rewrite <-Ht. unfold full_kids. by destruct (_ <? _).
  - intros x e [-> Ht].
    set (r := e_nresort (b_est D b)) in *.
    pose proof (resort_at_le _ _ _ H2) as Hle.
    assert (length (ws ++ [w]) = x1) as Hlen by (rewrite app_length; simpl; unfold x1; lia).
    assert (timing e1 = (e_avgdelay e1, e_delaylast (b_est D b), e_lasttime (b_est D b), e_timeper (b_est D b),
      e_lastnodes (b_est D b), e_nextresort (b_est D b), r, e_ticks (b_est D b))) as Ht1.
    { unfold e1, full_expand. by destruct (o_expdelay o). }
    assert (if o_expdelay o then (e_avgdelay e1 == average (ws ++ [w]))%Q else e_avgdelay e1 = 0%Q) as Ha.
    { unfold e1, full_expand. destruct (o_expdelay o); [|by destruct H6]. destruct H6 as [H6 _]. cbn [e_avgdelay].
      rewrite <-(average_snoc ws w (b_expd D b)) by done. rewrite H6. done. }
    rewrite Ht1 in Ht. unfold timing in Ht. injection Ht as E1 E2 E3 E4 E5 E6 E7 E8.
    unfold full_refresh. rewrite Ho. cbn [negb orb].
    destruct (bool_decide (x1 < e_nextresort e)%nat) eqn:E.
    + apply bool_decide_eq_true in E. rewrite E6 in E. unfold full_hist. rewrite E1, E2, E3, E4, E5, E6, E7, E8.
      split; [done|]. split; [by apply sched_wait; [apply sched_step|]|].
      split; [done|]. split; [done|]. split; [done|]. split; [|done].
      destruct (o_expdelay o); [|by destruct H6]. destruct H6 as [H6 H6']. split; [done|].
      rewrite take_app_le by lia. done.
    + apply bool_decide_eq_false in E. rewrite E6 in E.
      pose proof (sched_resort _ _ _ (sched_step _ _ _ H2) E) as Hsch. fold r x1 in Hsch.
      assert (x1 = resort_at (S r)) as Hx1.
      { destruct Hsch as (_ & _ & Hs1). specialize (Hs1 ltac:(lia)). replace (S r - 1)%nat with r in Hs1 by lia.
        destruct H2 as (Hn1 & Hn2 & _). fold r in Hn1. unfold x1 in *. cbn [resort_at]. lia. }
      unfold full_hist.
      cbn [e_avgdelay e_delaylast e_lasttime e_timeper e_lastnodes e_nextresort e_nresort e_ticks].
      rewrite E1, E3, E5, E6, E7, E8.
      split; [done|]. split; [exact Hsch|]. split; [done|]. split; [by rewrite H4|].
      split; [by rewrite H4|]. split.
      * rewrite take_ge by lia. by destruct (o_expdelay o).
      * rewrite H3, H4, H5, Hx1. done.
Qed.

(** With resorting, the estimates in use are as of the last resort: the time of one
    expansion is the average over the expansions between the last two resorts, and
    with -expdelay the wait is the average over all expansions up to the last one. *)
Theorem C97_full_averages wf wt o clock D hh dd dropdups lim s0 ws b :
  o_resort o = true →
  full_waits wf wt o clock D hh dd dropdups lim s0 ws b →
  let e := b_est D b in
  length ws = b_expd D b ∧
  (e_delaylast e == if o_expdelay o then average (take (resort_at (e_nresort e)) ws) else 0)%Q ∧
  match e_nresort e with
  | O => e_timeper e = 0%Q
  | S m => e_timeper e = ((clock (S m) - clock m) / inject_Z (Z.of_nat (resort_at (S m)) - Z.of_nat (resort_at m)))%Q
  end.
Proof.
  intros Ho Hw. assert (full_hist o clock ws (b_expd D b) (b_est D b)) as (H1 & _ & _ & _ & _ & H2 & H3).
  { induction Hw as [b Hb|ws b b' i n q Hw IH Hq Hn Hs].
    - unfold binit in Hb. destruct (computeutil _ _ _ _) as [b1|] eqn:Hc; [|done].
      cbn [mbind option_bind] in Hb. destruct (push bugsy_lt (b_open D b1) 0%nat) as [h|]; [|done].
      cbn [mbind option_bind] in Hb. injection Hb as <-. injection Hc as <-. unfold full_hist, sched.
      cbn [Bugsy.Model.set_open set_est b_expd b_est].
      assert (full_track o clock 0 (full0 clock) = full0 clock) as -> by (unfold full_track; by rewrite Ho).
      cbn [e_nresort e_nextresort e_lastnodes e_ticks e_lasttime e_avgdelay e_delaylast e_timeper full0].
      split; [done|]. split; [split; [done|split; [lia|lia]]|].
      split; [done|]. split; [done|]. split; [done|]. split; [|done]. by destruct (o_expdelay o).
    - by eapply full_hist_step. }
  split; [exact H1|]. split; [|by destruct (e_nresort (b_est D b))].
  destruct (o_expdelay o); [apply H2|]. destruct H2 as [_ ->]. done.
Qed.

(** Every running search has such a history. *)
Lemma full_waits_running wf wt o clock D hh dd dropdups lim s0 b :
  full_running wf wt o clock D hh dd dropdups lim s0 b → ∃ ws, full_waits wf wt o clock D hh dd dropdups lim s0 ws b.
Proof.
  induction 1 as [b Hb|b b' Hr [ws IH] Hs]; [eexists; by constructor|].
  pose proof Hs as Hs'. unfold bstep in Hs'. destruct (_ || _); [done|].
  destruct (pop _ _) as [[q r]|] eqn:Hpop; [|done]. cbn [mbind option_bind] in Hs'.
  destruct r as [i|]; [|done]. cbn [mbind option_bind Bugsy.Model.set_open b_nodes] in Hs'.
  destruct (b_nodes D b !! i) as [pn|] eqn:Hn; [|done].
  eexists. eapply full_waits_step; [done|exact Hpop|exact Hn|exact Hs].
Qed.

Theorem C97_full_resorts wf wt o clock D hh dd dropdups lim s0 b :
  full_running wf wt o clock D hh dd dropdups lim s0 b →
  let n := e_nresort (b_est D b) in
  if o_resort o then
    (b_expd D b < 128 * 2 ^ n)%nat ∧ ((0 < n)%nat → 128 * 2 ^ (n - 1) ≤ b_expd D b)%nat
  else n = 0%nat.
Proof.
  intros Hr n. destruct (o_resort o) eqn:Ho.
  - destruct (running_est D hh dd bugsy_lt (0%Q, 0%Q, 0, 0) (full0 clock) (full_util wf wt o clock) (full_expand o) (full_kids o)
      (full_refresh o clock) dropdups lim s0 (λ x e, sched x (e_nresort e) (e_nextresort e))
      (λ x e, sched' x (e_nresort e) (e_nextresort e))) with (b:=b) as (H1 & H2 & H3).
    + intros x e g p H. unfold full_util, full_track. by rewrite Ho.
    + intros x e g p H. unfold full_util, full_track. by rewrite Ho.
    + intros x e p ks H. unfold full_kids. by destruct (_ <? _).
    + intros x e H. unfold full_refresh. rewrite Ho. cbn [negb orb].
      destruct (bool_decide (x < e_nextresort e)%nat) eqn:E.
      * apply bool_decide_eq_true in E. by apply sched_wait.
      * apply bool_decide_eq_false in E. cbn [e_nresort e_nextresort]. by apply sched_resort.
    + intros x e p H. apply sched_step. unfold full_expand. by destruct (o_expdelay o).
    + split; [done|]. split; [cbn; lia|]. cbn. lia.
    + exact Hr.
    + fold n in H1, H3. rewrite H1 in H2. done.
  - apply (running_est D hh dd bugsy_lt (0%Q, 0%Q, 0, 0) (full0 clock) (full_util wf wt o clock) (full_expand o) (full_kids o)
      (full_refresh o clock) dropdups lim s0 (λ x e, e_nresort e = 0%nat) (λ x e, e_nresort e = 0%nat)) with (b:=b).
    + intros x e g p H. unfold full_util, full_track. rewrite Ho. by destruct (decide _).
    + intros x e g p H. unfold full_util, full_track. rewrite Ho. by destruct (decide _).
    + intros x e p ks H. unfold full_kids. by destruct (_ <? _).
    + intros x e H. unfold full_refresh. rewrite Ho. done.
    + intros x e p H. unfold full_expand. by destruct (o_expdelay o).
    + done.
    + exact Hr.
Qed.

(** ** C98: what the stored estimates are worth *)

(** [dd] never exceeds the number of operators in a solution. *)
Definition length_bound {D} (dd : St D → Z) : Prop :=
  ∀ s ss os k, solution s ss os k → dd s ≤ Z.of_nat (length os).

Section pathmax.
Context (D : domain) (hh dd : St D → Z).
Context {E K : Type} (lt : K → K → bool) (k0 : K) (est0 : E).
Context (util : nat → E → Z → fields → E * K).
Context (on_expand : nat → E → fields → E).
Context (on_kids : E → fields → list kidinfo → E).
Context (refresh : nat → E → option E).
Context (lim : limits).
Context (s0 : St D).
Set Default Proof Using "Type".

Lemma solution_cons (s : St D) op ss os k :
  op ∈ ops s → solution (dest s op) ss os k → solution s (s :: ss) (op :: os) (cost s op + k).
Proof.
  intros Hop (Hw & Hh & t & Hl & Ht). destruct ss as [|s1 ss]; [done|]. injection Hh as ->.
  split; [by constructor|]. split; [done|]. exists t. done.
Qed.

(** f = g + h; h and d are at least what the domain says of the state; and if
    that never overestimates, neither do they. *)
Theorem C98_pathmax dropdups b i n :
  brunning D hh dd lt k0 est0 util on_expand on_kids refresh dropdups lim s0 b → b_nodes D b !! i = Some n →
  let s := n_state D n in
  let p := n_p D n in
  p_f p = n_g D n + p_h p ∧ hh s ≤ p_h p ∧ dd s ≤ p_d p ∧
  (admissible hh → ∀ ss os k, solution s ss os k → p_h p ≤ k) ∧
  (length_bound dd → ∀ ss os k, solution s ss os k → p_d p ≤ Z.of_nat (length os)).
Proof.
  intros Hr Hn.
  refine (running_all D hh dd lt k0 est0 util on_expand on_kids refresh dropdups lim s0
    (λ s g p, p_f p = g + p_h p ∧ hh s ≤ p_h p ∧ dd s ≤ p_d p ∧
      (admissible hh → ∀ ss os k, solution s ss os k → p_h p ≤ k) ∧
      (length_bound dd → ∀ ss os k, solution s ss os k → p_d p ≤ Z.of_nat (length os))) _ _ _ b Hr i n Hn);
    cbn [p_f p_h p_d].
  - split; [lia|]. split; [lia|]. split; [lia|]. split.
    + intros Ha ss os k Hs. by eapply Ha.
    + intros Ha ss os k Hs. by eapply Ha.
  - intros s g p op x (H1 & H2 & H3 & H4 & H5) Hop. split; [lia|]. split; [lia|]. split; [lia|]. split.
    + intros Ha ss os k Hs. pose proof (Ha _ _ _ _ Hs).
      specialize (H4 Ha _ _ _ (solution_cons _ _ _ _ _ Hop Hs)). lia.
    + intros Ha ss os k Hs. pose proof (Ha _ _ _ _ Hs).
      specialize (H5 Ha _ _ _ (solution_cons _ _ _ _ _ Hop Hs)). cbn [length] in H5. lia.
  - intros _ s g p g' (H1 & H2 & H3 & H4 & H5). split; [lia|]. done.
Qed.

(** Where duplicates are dropped, no node has a smaller f than the root. *)
Theorem C98_dropdups_f_bound b i n :
  brunning D hh dd lt k0 est0 util on_expand on_kids refresh true lim s0 b → b_nodes D b !! i = Some n →
  hh s0 ≤ n_g D n + p_h (n_p D n).
Proof.
  intros Hr Hn.
  refine (running_all D hh dd lt k0 est0 util on_expand on_kids refresh true lim s0
    (λ s g p, hh s0 ≤ g + p_h p) _ _ _ b Hr i n Hn); cbn [p_h].
  - lia.
  - intros s g p op x H Hop. lia.
  - done.
Qed.
End pathmax.

(** ** C99: if time is worth nothing, BUGSY finds a cheapest solution *)
Theorem C99_free_time_optimal wf o clock D hh dd lim :
  domain_ok D → admissible hh → (∀ s, 0 ≤ hh s) → (0 < wf)%Q →
  o_resort o = true → o_hlms o = None → o_hhat o = false →
  ∀ s0 fuel path os b, full_search wf 0 o clock D hh dd false lim s0 fuel = Some (Some (path, os), b) →
  ∃ k, solution s0 (reverse path) (reverse os) k ∧ ∀ ss' os' k', solution s0 ss' os' k' → k ≤ k'.
Proof.
  intros OK Hadm Hh Hwf Ho Hlms Hhat s0 fuel path os b Hs.
  destruct (search_brunning _ _ _ _ _ _ _ _ _ _ _ _ _ _ _ _ Hs) as [Hr Hstep].
  assert (arr (b_open D b) ≠ []) as Hne.
  { intros Ha. unfold bstep, empty in Hstep. rewrite Ha in Hstep. done. }
  destruct (C97_full_expands_best wf 0 o clock D hh dd false lim s0 b Ho Hr Hne) as (i & n & q & Hq & Hn & Hin & Hbest).
  destruct (popped_solution _ _ _ _ _ _ _ _ _ _ _ _ _ _ _ _ _ _ _ OK Hr Hq Hn Hstep) as (Hg & k & Hsol & Hk).
  exists k. split; [done|]. intros ss' os' k' Hsol'.
  destruct (brunning_sim _ _ _ _ _ _ _ _ _ _ _ _ _ _ Hr) as (x & s & Hrun & Hrel).
  match type of Hrun with running ?D ?pn ?pu ?dd ?oo ?ll ?s0 ?s =>
    destruct (running_good D pn pu dd oo ll nolt (λ _, True) OK (choice_ok _) (λ _ _ _, I) (λ _ _ _, eq_refl) s0 s Hrun) as [c Hgood];
    destruct (frontier_solution D pn pu dd oo ll nolt (λ _, True) OK (choice_ok _) (λ _ _ _, I) (λ _ _ _, eq_refl) s0
      _ _ _ _ _ Hgood Hsol') as (j & m' & k1 & ss2 & os2 & k2 & Hj & Hm' & _ & _ & Hs2 & -> & Hk1)
  end.
  specialize (Hk1 eq_refl). pose proof Hgood as (HR & _ & _).
  assert (j ∈ arr (b_open D b)) as Hjo.
  { apply (r_set _ _ _ _ _ Hrel). pose proof (olR_mem (choice_ok _) _ c j HR) as Hmem.
    cbn [choice_ol ol_mem] in Hmem. rewrite Hj in Hmem.
    apply (bool_decide_eq_true_1 (j ∈ _)). rewrite Hmem. apply bool_decide_eq_true_2. eauto. }
  rewrite (r_nodes _ _ _ _ _ Hrel), list_lookup_fmap in Hm'.
  destruct (b_nodes D b !! j) as [m|] eqn:Hm; [|done]. injection Hm' as <-.
  cbn [erase n_state n_g] in Hs2, Hk1. specialize (Hbest j m Hjo Hm).
  destruct (C98_pathmax _ _ _ _ _ _ _ _ _ _ _ _ _ _ _ _ Hr Hm) as (_ & _ & _ & Hmh & _).
  specialize (Hmh Hadm _ _ _ Hs2).
  destruct (C98_pathmax _ _ _ _ _ _ _ _ _ _ _ _ _ _ _ _ Hr Hn) as (_ & Hnh & _).
  specialize (Hh (n_state D n)).
  assert (n_g D n + p_h (n_p D n) ≤ n_g D m + p_h (n_p D m)) as Hle; [|lia].
  unfold full_value, utility, cost_to_go in Hbest. rewrite Hlms, Hhat in Hbest. cbn [from_option] in Hbest.
  rewrite Zle_Qle, !inject_Z_plus. generalize dependent (inject_Z (p_h (n_p D m))).
  generalize dependent (inject_Z (p_h (n_p D n))).
  generalize (time_to_go o (b_est D b) m) (time_to_go o (b_est D b) n) (inject_Z (n_g D m)) (inject_Z (n_g D n)).
  intros tm tn gm gn hn hm Hle. apply (Qmult_le_l _ _ wf Hwf). lra.
Qed.

(** ** C100: -expdelay does nothing when the open list is not resorted *)
Definition set_expdelay (o : bopts) (x : bool) : bopts :=
  BOpts (o_resort o) (o_hlms o) (o_dlms o) (o_hhat o) (o_dhat o) (o_interph o) x.

(** Equal but for the average delay, and the delay in use is zero. *)
Definition nodelay (a b : best) : Prop :=
  e_navg a = e_navg b ∧ e_herror a = e_herror b ∧ e_derror a = e_derror b ∧ e_herrlast a = e_herrlast b ∧
  e_derrlast a = e_derrlast b ∧ e_delaylast a = 0%Q ∧ e_delaylast b = 0%Q ∧ e_lasttime a = e_lasttime b ∧
  e_timeper a = e_timeper b ∧ e_lastnodes a = e_lastnodes b ∧ e_nextresort a = e_nextresort b ∧
  e_nresort a = e_nresort b ∧ e_ticks a = e_ticks b.

Theorem C100_noresort_ignores_expdelay wf wt o x clock D hh dd dropdups lim s0 fuel :
  o_resort o = false →
  match full_search wf wt o clock D hh dd dropdups lim s0 fuel,
    full_search wf wt (set_expdelay o x) clock D hh dd dropdups lim s0 fuel with
  | Some (out, a), Some (out', b) =>
      out = out' ∧ b_nodes D a = b_nodes D b ∧ b_open D a = b_open D b ∧ b_expd D a = b_expd D b ∧
      b_gend D a = b_gend D b ∧ b_reopnd D a = b_reopnd D b ∧ b_dups D a = b_dups D b
  | None, None => True
  | _, _ => False
  end.
Proof.
  intros Ho.
  assert (∀ y e1 e2, nodelay e1 e2 → nodelay (full_track o clock y e1) (full_track (set_expdelay o x) clock y e2)) as Htrack.
  { intros y e1 e2 (H1 & H2 & H3 & H4 & H5 & H6 & H7 & H8 & H9 & H10 & H11 & H12 & H13).
    unfold full_track, set_expdelay. cbn [o_resort]. rewrite Ho. unfold nodelay.
    rewrite H1, H2, H3, H6, H7, H8, H9, H10, H11, H12, H13. destruct (decide (0 < y)%nat); done. }
  assert (∀ e1 e2 g p, nodelay e1 e2 → full_d o e1 g p = full_d (set_expdelay o x) e2 g p) as Hd.
  { intros e1 e2 g p (H1 & H2 & H3 & H4 & H5 & _). unfold full_d. cbn [set_expdelay o_dlms o_dhat]. by rewrite H5. }
  assert (∀ e1 e2 g p, nodelay e1 e2 → full_h wf wt o e1 g p = full_h wf wt (set_expdelay o x) e2 g p) as Hh.
  { intros e1 e2 g p He. unfold full_h. rewrite <-(Hd _ _ _ _ He). destruct He as (H1 & H2 & H3 & H4 & _).
    cbn [set_expdelay o_hlms o_hhat o_interph]. by rewrite H4. }
  assert (∀ e1 e2 g p, nodelay e1 e2 → full_t o e1 g p = full_t (set_expdelay o x) e2 g p) as Ht.
  { intros e1 e2 g p He. unfold full_t. rewrite <-(Hd _ _ _ _ He).
    destruct He as (H1 & H2 & H3 & H4 & H5 & H6 & H7 & H8 & H9 & _). rewrite H6, H7, H9.
    by rewrite !andb_false_r. }
  pose proof (search_eqv D hh dd bugsy_lt (0%Q, 0%Q, 0, 0) nodelay (full0 clock) (full0 clock)) as Heqv.
  specialize (Heqv ltac:(repeat split)).
  specialize (Heqv (full_util wf wt o clock) (full_util wf wt (set_expdelay o x) clock)
    (full_expand o) (full_expand (set_expdelay o x)) (full_kids o) (full_kids (set_expdelay o x))
    (full_refresh o clock) (full_refresh (set_expdelay o x) clock)).
  unfold full_search.
  unshelve epose proof (Heqv _ _ _ _ dropdups lim s0 fuel) as H.
  - intros y e1 e2 g p He. apply (Htrack y) in He. unfold full_util. cbn [fst snd].
    split; [done|]. by rewrite (Hh _ _ _ _ He), (Ht _ _ _ _ He).
  - intros y e1 e2 p He. unfold full_expand. cbn [set_expdelay o_expdelay].
    destruct (o_expdelay o), x; exact He.
  - intros e1 e2 p ks (H1 & H2 & H3 & H4 & H5 & H6). unfold full_kids. cbn [set_expdelay o_hhat o_dhat].
    destruct (_ <? _); [done|]. unfold nodelay.
    cbn [e_navg e_herror e_derror e_herrlast e_derrlast e_delaylast e_lasttime e_timeper e_lastnodes e_nextresort e_nresort e_ticks].
    rewrite H1, H2, H3. done.
  - intros y e1 e2 He. unfold full_refresh. cbn [set_expdelay o_resort]. rewrite Ho. done.
  - revert H.
    destruct (bsearch _ _ _ _ _ _ (full_util wf wt o clock) _ _ _ _ _ _ _) as [[out a]|],
      (bsearch _ _ _ _ _ _ (full_util wf wt (set_expdelay o x) clock) _ _ _ _ _ _ _) as [[out' b]|]; try done.
    intros (-> & H1 & H2 & _ & H4 & H5 & H6 & H7). done.
Qed.

(** ** Examples *)
Definition bsummary {D E K} (r : option (outcome D * bstate D (E:=E) (K:=K))) :=
  '(out, b) ← r; Some (out, b_expd D b, b_gend D b, b_reopnd D b, b_dups D b).

Definition ex_opts : bopts := BOpts true None None false false false true.
Definition ex_clock (i : nat) : Q := inject_Z (Z.of_nat (i * i)).

(** The problem of C35: with time worth nothing the cheapest solution (7) is found. *)
Example ex_bugsy_optimal :
  bsummary (full_search 1 0 ex_opts ex_clock ex_dom ex_h ex_dist false no_limits 0%nat 20) =
    Some (Some ([3; 1; 2; 0]%nat, [3; 1; 2]%nat), 6%nat, 7%nat, 2%nat, 3%nat).
Proof. vm_compute. reflexivity. Qed.

Example ex_bugsy_applies :
  ∃ path os b k, full_search 1 0 ex_opts ex_clock ex_dom ex_h ex_dist false no_limits 0%nat 20 = Some (Some (path, os), b) ∧
    solution (D:=ex_dom) 0%nat (reverse path) (reverse os) k ∧
    ∀ ss' os' k', solution (D:=ex_dom) 0%nat ss' os' k' → k ≤ k'.
Proof.
  destruct (full_search 1 0 ex_opts ex_clock ex_dom ex_h ex_dist false no_limits 0%nat 20) as [[[[path os]|] b]|] eqn:E.
  - destruct (C99_free_time_optimal 1 ex_opts ex_clock ex_dom ex_h ex_dist no_limits ex_dom_ok ex_admissible ex_h_nonneg
      eq_refl eq_refl eq_refl eq_refl _ _ _ _ _ E) as (k & H1 & H2). eauto 10.
  - pose proof ex_bugsy_optimal as X. rewrite E in X. discriminate X.
  - pose proof ex_bugsy_optimal as X. rewrite E in X. discriminate X.
Qed.

(** bugsy-slim drops duplicates and settles for the solution of cost 8. *)
Example ex_slim :
  bsummary (slim_search 1 1 ex_clock ex_dom ex_h ex_dist no_limits 0%nat 20) =
    Some (Some ([3; 1; 0]%nat, [3; 1]%nat), 4%nat, 5%nat, 0%nat, 1%nat).
Proof. vm_compute. reflexivity. Qed.

(** A path of 300 states to walk along: two resorts. *)
Definition ex_path : domain := table_domain ((λ i, (i, S i, 1)) <$> seq 0 300) 300.

Example ex_slim_resorts :
  match slim_search 1 1 ex_clock ex_path (λ _, 0) (λ s, 300 - Z.of_nat s) no_limits 0%nat 400 with
  | Some (Some (path, _), b) => length path = 301%nat ∧ b_expd _ b = 300%nat ∧ s_nresort (b_est _ b) = 2%nat ∧
      (s_timeper (b_est _ b) == 3 # 128)%Q ∧ (s_avgdelay (b_est _ b) == 1)%Q
  | _ => False
  end.
Proof. vm_compute. split; [reflexivity|]. split; [reflexivity|]. split; [reflexivity|]. split; reflexivity. Qed.

(** There, -expdelay has no effect without resorting: C100. *)
Example ex_noresort :
  bsummary (full_search 1 1 (BOpts false None None true true false true) ex_clock ex_dom ex_h ex_dist false no_limits 0%nat 20) =
  bsummary (full_search 1 1 (BOpts false None None true true false false) ex_clock ex_dom ex_h ex_dist false no_limits 0%nat 20).
Proof. vm_compute. reflexivity. Qed.

Print Assumptions C96_sound_complete.
Print Assumptions C96_terminates.
Print Assumptions C96_survives.
Print Assumptions C96_limits_respected.
Print Assumptions C96_slim_sound_complete.
Print Assumptions C96_full_sound_complete.
Print Assumptions C97_slim_expands_best.
Print Assumptions C97_slim_resorts.
Print Assumptions C97_slim_estimates_kept.
Print Assumptions C97_slim_averages.
Print Assumptions C97_generation_stamp.
Print Assumptions C97_full_expands_best.
Print Assumptions C97_full_averages.
Print Assumptions C97_full_resorts.
Print Assumptions C98_pathmax.
Print Assumptions C98_dropdups_f_bound.
Print Assumptions C99_free_time_optimal.
Print Assumptions C100_noresort_ignores_expdelay.
