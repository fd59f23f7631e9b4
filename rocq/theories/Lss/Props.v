(** C46, C80: LSS-LRTA-star learns the values it should and reaches a goal. *)
From stdpp Require Import prelude.
From Coq Require Import ZArith Lia ZifyBool ZifyNat.
From Verif Require Import Common.Orders Common.Fuel BinHeap.Model BinHeap.Proofs.
From Verif Require Import Search.Domain Search.Model Search.Props Rta.Model Lss.Model Lss.Learn Lss.Look Lss.Run.
Local Open Scope Z_scope.

(** ** More fuel changes nothing *)
Section mono.
Context (D : domain) (h : St D → Z) (wt : Z).

Lemma lloop_mono n : ∀ n' m ns q ncl upd r, lloop D wt n m ns q ncl upd = Some r → (n ≤ n')%nat → lloop D wt n' m ns q ncl upd = Some r.
Proof.
  induction n as [|n IH]; intros n' m ns q ncl upd r Hr Hle; [done|]. destruct n' as [|n']; [lia|].
  cbn [lloop] in *. case_decide; [done|]. destruct (empty q); [done|].
  destruct (pop hsort q) as [[q' [i|]]|]; [|done..]. cbn [mbind option_bind] in *.
  destruct (ns !! i) as [sn|]; [|done]. cbn [mbind option_bind] in *.
  destruct (backups _ _ _ _ _ _ _ _) as [[[[m1 ns1] q1] upd1]|]; [|done]. cbn [mbind option_bind] in *.
  apply IH; [done|lia].
Qed.

Lemma learn_mono n n' m L r : hCostLearning D h wt n m L = Some r → (n ≤ n')%nat → hCostLearning D h wt n' m L = Some r.
Proof.
  unfold hCostLearning. intros Hr Hle. destruct (append _ _ _) as [q|]; [|done]. cbn [mbind option_bind] in *.
  destruct (lloop D wt n _ _ _ _ _) as [[m1 u1]|] eqn:E; [|done]. by rewrite (lloop_mono _ n' _ _ _ _ _ _ E Hle).
Qed.

Context (onestep : bool) (lim : limits) (stop : nat → nat → bool).

Lemma eloop_mono n : ∀ n' k j m L st goal r, eloop D lim stop n k j m L st goal = Some r → (n ≤ n')%nat → eloop D lim stop n' k j m L st goal = Some r.
Proof.
  induction n as [|n IH]; intros n' k j m L st goal r Hr Hle; [done|]. destruct n' as [|n']; [lia|].
  cbn [eloop] in *. destruct (empty _); [done|]. destruct (stop k j); [done|]. destruct (rreached lim st); [done|].
  destruct (pop astar_lt _) as [[q' [i|]]|]; [|done..]. cbn [mbind option_bind] in *.
  destruct (s_nodes D L !! i) as [sn|]; [|done]. cbn [mbind option_bind] in *.
  destruct (expand D _ _ _) as [m1 st1]. destruct (relaxes _ _ _ _ _ _ _) as [[L1 goal1]|]; [|done]. cbn [mbind option_bind] in *.
  destruct (isgoal (l_st D sn)); [done|]. apply IH; [done|lia].
Qed.

Lemma expandLss_mono n n' k m st cur r : expandLss D lim stop n k m st cur = Some r → (n ≤ n')%nat → expandLss D lim stop n' k m st cur = Some r.
Proof. unfold expandLss. intros Hr Hle. destruct (einit D m cur) as [L|]; [|done]. cbn [mbind option_bind] in *. by eapply eloop_mono. Qed.

Lemma sloop_mono n : ∀ n' e e' k cur os m st r, sloop D h wt onestep lim stop n e k cur os m st = Some r →
  (n ≤ n')%nat → (e ≤ e')%nat → sloop D h wt onestep lim stop n' e' k cur os m st = Some r.
Proof.
  induction n as [|n IH]; intros n' e e' k cur os m st r Hr Hn He; [done|]. destruct n' as [|n']; [lia|].
  cbn [sloop] in *. destruct (isgoal cur); [done|]. destruct (rreached lim st); [done|].
  destruct (expandLss D lim stop e k m (rcalled st) cur) as [[[[m1 L] st1] goal]|] eqn:Ee; [|done].
  rewrite (expandLss_mono _ _ _ _ _ _ _ Ee He). cbn [mbind option_bind] in *. destruct (rreached lim st1); [done|].
  assert (∀ m2, (match goal with Some _ => Some m1 | None => hCostLearning D h wt e m1 L end) = Some m2 →
    (match goal with Some _ => Some m1 | None => hCostLearning D h wt e' m1 L end) = Some m2) as Hl.
  { intros m2. destruct goal; [done|]. intros. by eapply learn_mono. }
  destruct (match goal with Some _ => Some m1 | None => hCostLearning D h wt e m1 L end) as [m2|]; [|done].
  rewrite (Hl _ eq_refl). cbn [mbind option_bind] in *.
  destruct (move D onestep L cur goal) as [[os1 cur1]|]; [|done]. cbn [mbind option_bind] in *. eapply IH; [done|lia|done].
Qed.
End mono.

(** ** The lookahead, whatever the fuel *)
Lemma eloop_looked D (OK : domain_ok D) lim stop v root rc (Hv : cons_h D v) fuel k : ∀ j m L st goal m' L' st' goal',
  einv D v root rc m L goal None [] → eloop D lim stop fuel k j m L st goal = Some (m', L', st', goal') →
  looked D v root rc m' L' goal'.
Proof.
  induction fuel as [|fuel IH]; intros j m L st goal m' L' st' goal' He Hr; [done|]. cbn [eloop] in Hr.
  destruct (empty (s_open D L)) eqn:Hem. { apply (inj Some) in Hr. injection Hr as <- <- <- <-. by apply looked_here. }
  destruct (stop k j). { apply (inj Some) in Hr. injection Hr as <- <- <- <-. by apply looked_here. }
  destruct (rreached lim st). { apply (inj Some) in Hr. injection Hr as <- <- <- <-. by apply looked_here. }
  destruct (estep D OK lim stop v Hv root rc m L goal (rcalled st) He)
    as (q & i & sn & m1 & st1 & L1 & goal1 & Hq & Hsn & Hx & Hrx & He1 & Hn & _ & n & Hn1 & Hn2 & Hn3).
  { intros Hnil. apply empty_true in Hnil. congruence. }
  rewrite Hq in Hr. cbn [mbind option_bind] in Hr. rewrite Hsn in Hr. cbn [mbind option_bind] in Hr. rewrite Hx, Hrx in Hr. cbn [mbind option_bind] in Hr.
  destruct (isgoal (l_st D sn)) eqn:Hg; [|by eapply IH].
  destruct (push astar_lt (s_open D L1) i) as [q'|]; [|done]. cbn [mbind option_bind] in Hr.
  apply (inj Some) in Hr. injection Hr as <- <- <- <-. exists L1, goal1. split_and!; [done|done|done|].
  intros b [= <-]. exists n. split; [done|]. congruence.
Qed.

Lemma expandLss_looked D (OK : domain_ok D) lim stop v root fuel k m st m' L' st' goal' :
  cons_h D v → mem_ok m → (∀ s, m_h D m s = v s) → isgoal root = false →
  expandLss D lim stop fuel k m st root = Some (m', L', st', goal') → looked D v root False m' L' goal'.
Proof.
  intros Hv Hm Hh Hg Hr. unfold expandLss in Hr. destruct (einit_spec D v root m Hm Hh Hg) as (L & HL & He & _).
  rewrite HL in Hr. cbn [mbind option_bind] in Hr. by eapply eloop_looked.
Qed.

Lemma reach_trans D (a b c : St D) : reachable a b → reachable b c → reachable a c.
Proof.
  intros (ss1 & os1 & c1 & Hw1 & Hh1 & Hl1) (ss2 & os2 & c2 & Hw2 & Hh2 & Hl2).
  destruct ss2 as [|b' ss2]; [done|]. injection Hh2 as ->. pose proof (walk_app _ _ _ _ _ _ _ _ Hw1 Hl1 Hw2) as Hw.
  exists (ss1 ++ ss2), (os1 ++ os2), (c1 + c2). split_and!; [done| |].
  - destruct ss1; [done|]. exact Hh1.
  - rewrite last_app. destruct ss2 as [|x ss2]; [simpl in Hl2 |- *; congruence|].
    change (last (b :: x :: ss2)) with (last (x :: ss2)) in Hl2. by rewrite Hl2.
Qed.

Lemma leaves_ext D wt (C O : St D → Prop) v v' s k : (∀ s, v s = v' s) → leaves D wt C O v s k → leaves D wt C O v' s k.
Proof. intros Hv. induction 1 as [x Hx|s o k Hc Ho _ IH]; [rewrite Hv; by constructor|by constructor]. Qed.

Lemma expandLss_mem D (OK : domain_ok D) lim stop fuel k m st root m' L' st' goal' :
  mem_ok m → expandLss D lim stop fuel k m st root = Some (m', L', st', goal') → mem_ok m'.
Proof.
  intros Hm Hr. unfold expandLss in Hr. destruct (einit D m root) as [L|]; [|done]. cbn [mbind option_bind] in Hr.
  revert Hr. generalize 0%nat at 1. generalize (None (A:=nat)). intros goal j. revert j m L st goal Hm.
  induction fuel as [|fuel IH]; intros j m L st goal Hm Hr; [done|]. cbn [eloop] in Hr.
  destruct (empty (s_open D L)). { apply (inj Some) in Hr. by injection Hr as <- <- <- <-. }
  destruct (stop k j). { apply (inj Some) in Hr. by injection Hr as <- <- <- <-. }
  destruct (rreached lim st). { apply (inj Some) in Hr. by injection Hr as <- <- <- <-. }
  destruct (pop astar_lt (s_open D L)) as [[q [i|]]|]; [|done..]. cbn [mbind option_bind] in Hr.
  destruct (s_nodes D L !! i) as [sn|]; [|done]. cbn [mbind option_bind] in Hr.
  destruct (expand_spec D OK lim stop (l_st D sn) m (rcalled st) Hm) as (m1 & st1 & Hx & Hm1 & _). rewrite Hx in Hr.
  destruct (relaxes _ _ _ _ _ _ _) as [[L1 goal1]|]; [|done]. cbn [mbind option_bind] in Hr.
  destruct (isgoal (l_st D sn)); [|by eapply IH].
  destruct (push astar_lt (s_open D L1) i); [|done]. cbn [mbind option_bind] in Hr. apply (inj Some) in Hr. by injection Hr as <- <- <- <-.
Qed.

(** ** Learning after one lookahead *)

(** What the lookahead looked at: [C] the closed states, [O] the states left on the open list. Together they are
    [cur] and what can be reached from it, every successor of a closed state is one of them, the costs noted for closed
    states are those of cheapest ways from [cur], and no cost noted for an open state is larger than that of the
    step into it from any closed state. *)
Theorem C46_lookahead D (OK : domain_ok D) lim stop cur fuel k m st m' L st' :
  mem_ok m → cons_h D (m_h D m) → isgoal cur = false →
  expandLss D lim stop fuel k m st cur = Some (m', L, st', None) →
  (∀ s, m_h D m' s = m_h D m s) ∧
  (∀ s, closed_st (s_nodes D L) s → isgoal s = false ∧ reachable cur s ∧
     ∀ o, o ∈ ops s → closed_st (s_nodes D L) (dest s o) ∨ frontier (s_nodes D L) (dest s o)) ∧
  (∀ s, frontier (s_nodes D L) s → isgoal s = false ∧ reachable cur s ∧ ¬ closed_st (s_nodes D L) s) ∧
  (∀ i n, s_nodes D L !! i = Some n → ∃ g, l_g D n = Some g ∧
     (∃ ss os, walk ss os g ∧ head ss = Some cur ∧ last ss = Some (l_st D n)) ∧
     (closed_st (s_nodes D L) (l_st D n) →
        ∀ ss os c, walk ss os c → head ss = Some cur → last ss = Some (l_st D n) → g ≤ c) ∧
     (∀ j p gp o, s_nodes D L !! j = Some p → closed_st (s_nodes D L) (l_st D p) → l_g D p = Some gp →
        o ∈ ops (l_st D p) → dest (l_st D p) o = l_st D n → g ≤ gp + cost (l_st D p) o)).
Proof.
  intros Hm Hv Hg Hr.
  destruct (expandLss_looked D OK lim stop (m_h D m) cur fuel k m st m' L st' None Hv Hm (λ _, eq_refl) Hg Hr)
    as (L0 & goal0 & He & _ & Hn & _). destruct (Hn eq_refl) as [-> ->].
  pose proof (ei_nodup _ _ _ _ _ _ _ _ _ He) as Hnd.
  assert (∀ i n, s_nodes D L !! i = Some n → closed_st (s_nodes D L) (l_st D n) → l_cl D n = true) as Hcl.
  { intros i n Hi (j & a & Ha & Hc & Hs). assert (j = i) as -> by (eapply nodup_st; [exact Hnd|done..]). congruence. }
  split_and!.
  - apply (ei_h _ _ _ _ _ _ _ _ _ He).
  - intros s (i & n & Hi & Hc & <-). split_and!.
    + by eapply (ei_nogoal _ _ _ _ _ _ _ _ _ He eq_refl).
    + by eapply einv_reach.
    + intros o Ho. apply (lo_succ _ _ (einv_lss_ok D OK lim stop _ Hv _ _ _ _ _ He)); [by exists i, n|done].
  - intros s (i & n & Hi & Hc & <-). split_and!.
    + by eapply (ei_nogoal _ _ _ _ _ _ _ _ _ He eq_refl).
    + by eapply einv_reach.
    + intros Hc'. pose proof (Hcl _ _ Hi Hc'). congruence.
  - intros i n Hi. destruct (ei_line _ _ _ _ _ _ _ _ _ He i n Hi) as (os & Hl & _).
    destruct (line_walk D OK lim stop _ Hv _ _ _ _ _ _ _ _ _ _ He Hl Hi) as (ss & g & Hw & Hh & Hla & Hng).
    exists g. split_and!; [done|by eauto|..].
    + intros Hc%(Hcl i); [|done].
      assert (∀ ss os c, walk ss os c → ∀ j x gx, s_nodes D L !! j = Some x → l_cl D x = true → l_g D x = Some gx →
        head ss = Some (l_st D x) → last ss = Some (l_st D n) → g ≤ gx + c ∧ m_h D m (l_st D x) ≤ c + m_h D m (l_st D n)) as Hopt.
      { clear ss os Hw Hh Hla Hl. induction 1 as [s1|s1 o ss os c Ho Hw IH]; intros j x gx Hj Hx Hgx Hh Hla.
        - injection Hh as ->. injection Hla as Hla. assert (j = i) as -> by (eapply nodup_st; [exact Hnd|done..]).
          assert (x = n) as -> by congruence. assert (gx = g) as -> by congruence. lia.
        - injection Hh as ->. destruct (ei_succ _ _ _ _ _ _ _ _ _ He j x o Hj Hx Ho) as (j' & y & g1 & g2 & Hy & Hys & Hg1 & Hg2 & Hle); [by left|].
          assert (g1 = gx) as -> by congruence. pose proof (Hv _ _ Ho) as Hvo. rewrite <- Hys in *.
          assert (m_h D m (l_st D y) ≤ c + m_h D m (l_st D n)) as Hvy.
          { clear -Hw Hla Hv. change (last (l_st D x :: l_st D y :: ss)) with (last (l_st D y :: ss)) in Hla.
            remember (l_st D y :: ss) as l eqn:El. assert (head l = Some (l_st D y)) as Hh by (by subst). clear El. revert Hh Hla. generalize (l_st D y). 
            induction Hw as [s1|s1 o ss' os c Ho Hw IH]; intros t Hh Hla.
            - injection Hh as ->. injection Hla as ->. lia.
            - injection Hh as ->. pose proof (Hv _ _ Ho). specialize (IH _ eq_refl Hla). lia. }
          split; [|lia]. destruct (l_cl D y) eqn:Hcy.
          + destruct (IH j' y g2 Hy Hcy Hg2 eq_refl Hla). lia.
          + pose proof (ei_mono _ _ _ _ _ _ _ _ _ He i n g j' y g2 Hi Hc Hng Hy Hcy Hg2). lia. }
      intros ss' os' c Hw' Hh' Hla'. destruct (ei_root _ _ _ _ _ _ _ _ _ He) as (r & Hr0 & Hrs & Hrg & _).
      assert (l_cl D r = true) as Hrc.
      { revert Hi Hc. clear -Hl Hr0. revert n. induction Hl as [a|i a p pn g' os Ha Hs Hp Hpn Hcp Ho Hd Hgp Hga Hl IH]; intros n Hi Hc; [congruence|by eapply IH]. }
      rewrite <- Hrs in Hh'. pose proof (Hopt _ _ _ Hw' 0%nat r 0 Hr0 Hrc Hrg Hh' Hla'). lia.
    + intros j p gp o Hj Hcp Hgp Ho Hd. apply (Hcl j) in Hcp; [|done].
      destruct (ei_succ _ _ _ _ _ _ _ _ _ He j p o Hj Hcp Ho) as (j' & y & g1 & g2 & Hy & Hys & Hg1 & Hg2 & Hle); [by left|].
      rewrite Hd in Hys. assert (j' = i) as -> by (eapply nodup_st; [exact Hnd|done..]).
      assert (y = n) as -> by congruence. assert (g1 = gp) as -> by congruence. assert (g2 = g) as -> by congruence. lia.
Qed.

(** What is learned: the value of a closed state with a way out of the closed states becomes the least, over all ways
    out through closed states, of the (weighted) cost of the way plus the value of the open state it ends in - or the
    heuristic estimate if that is larger. No other value changes. *)
Theorem C46_learned_values D (OK : domain_ok D) h wt lim stop cur fuel fuel' k m st m' L st' m'' :
  0 ≤ wt → mem_ok m → cons_h D (m_h D m) → isgoal cur = false →
  expandLss D lim stop fuel k m st cur = Some (m', L, st', None) →
  hCostLearning D h wt fuel' m' L = Some m'' →
  let out := leaves D wt (closed_st (s_nodes D L)) (frontier (s_nodes D L)) (m_h D m) in
  ∀ s, (closed_st (s_nodes D L) s → (∃ w, out s w) →
          ∃ w, out s w ∧ (∀ w', out s w' → w ≤ w') ∧ m_h D m'' s = Z.max w (h s)) ∧
       (¬ closed_st (s_nodes D L) s ∨ ¬ (∃ w, out s w) → m_h D m'' s = m_h D m s).
Proof.
  intros Hwt Hm Hv Hg Hr Hl out s.
  destruct (expandLss_looked D OK lim stop (m_h D m) cur fuel k m st m' L st' None Hv Hm (λ _, eq_refl) Hg Hr)
    as (L0 & goal0 & He & _ & Hn & _). destruct (Hn eq_refl) as [-> ->].
  pose proof (ei_h _ _ _ _ _ _ _ _ _ He) as Hh.
  destruct (learn_spec D h wt OK Hwt m' L (S (length (s_nodes D L)) + fuel')%nat (ei_mem _ _ _ _ _ _ _ _ _ He)
    (einv_lss_ok D OK lim stop _ Hv _ _ _ _ _ He)) as (m1 & H1 & _ & _ & Hs); [lia|].
  apply (learn_mono _ _ _ _ (S (length (s_nodes D L)) + fuel')%nat) in Hl; [|lia]. assert (m1 = m'') as -> by congruence.
  assert (∀ k, out s k ↔ leaves D wt (closed_st (s_nodes D L)) (frontier (s_nodes D L)) (m_h D m') s k) as Hout.
  { intros w. split; apply leaves_ext; intros; by rewrite Hh. }
  destruct (Hs s) as [Ha Hb]. split.
  - intros Hc (w & Hw). destruct Ha as (w' & Hw' & Hmin & Heq); [done|exists w; by apply Hout|].
    exists w'. split_and!; [by apply Hout|intros; by apply Hmin, Hout|done].
  - intros Hn'. rewrite <- Hh. apply Hb. destruct Hn' as [?|Hno]; [by left|right]. intros (w & Hw). apply Hno. exists w. by apply Hout.
Qed.

(** Values that do not exceed a step's cost plus the value at its end are never lowered (any weight from 1 up). *)
Theorem C46_never_lowers D (OK : domain_ok D) h wt lim stop cur fuel fuel' k m st m' L st' m'' :
  1 ≤ wt → mem_ok m → cons_h D (m_h D m) → isgoal cur = false →
  expandLss D lim stop fuel k m st cur = Some (m', L, st', None) →
  hCostLearning D h wt fuel' m' L = Some m'' → ∀ s, m_h D m s ≤ m_h D m'' s.
Proof.
  intros Hwt Hm Hv Hg Hr Hl s.
  destruct (C46_learned_values D OK h wt lim stop cur fuel fuel' k m st m' L st' m'' ltac:(lia) Hm Hv Hg Hr Hl s) as [Ha Hb].
  destruct (Z_le_gt_dec (m_h D m s) (m_h D m'' s)) as [?|Hgt]; [done|exfalso].
  assert (¬ closed_st (s_nodes D L) s ∨ ¬ (∃ w, leaves D wt (closed_st (s_nodes D L)) (frontier (s_nodes D L)) (m_h D m) s w) → False) as Hno.
  { intros Hn. specialize (Hb Hn). lia. }
  apply Hno. right. intros Hw. apply Hno. left. intros Hc. destruct (Ha Hc Hw) as (w & Hw' & _ & Heq).
  pose proof (leaves_above D OK h _ Hv _ _ _ _ _ Hwt Hw'). lia.
Qed.

Section round.
Context (D : domain) (OK : domain_ok D) (h : St D → Z).

(** One lookahead with the weight 1, as the search relies on it. *)
Lemma learn_round (lim : limits) (stop : nat → nat → bool) v root rc m L fuel m'' :
  cons_h D v → (∀ s, h s ≤ v s) → einv D v root rc m L None None [] →
  (∀ s, reachable root s → ∃ ss os c, solution s ss os c) →
  hCostLearning D h 1 fuel m L = Some m'' →
  mem_ok m'' ∧ cons_h D (m_h D m'') ∧ (∀ s, v s ≤ m_h D m'' s) ∧ (∀ s, isgoal s = true → m_h D m'' s = v s) ∧
  (∀ s, closed_st (s_nodes D L) s → ∃ w, leaves D 1 (closed_st (s_nodes D L)) (frontier (s_nodes D L)) v s w ∧ w ≤ m_h D m'' s).
Proof.
  intros Hv Hle He Hsol Hl. pose proof (ei_h _ _ _ _ _ _ _ _ _ He) as Hh.
  assert (0 ≤ 1) as H01 by lia.
  destruct (learn_spec D h 1 OK H01 m L (S (length (s_nodes D L)) + fuel)%nat (ei_mem _ _ _ _ _ _ _ _ _ He)
    (einv_lss_ok D OK lim stop _ Hv _ _ _ _ _ He)) as (m1 & H1 & Hp & Hx & Hs); [lia|].
  apply (learn_mono _ _ _ _ (S (length (s_nodes D L)) + fuel)%nat) in Hl; [|lia]. assert (m1 = m'') as -> by congruence.
  set (C := closed_st (s_nodes D L)) in *. set (O := frontier (s_nodes D L)) in *.
  assert (∀ s w, leaves D 1 C O v s w ↔ leaves D 1 C O (m_h D m) s w) as Hout.
  { intros s w. split; apply leaves_ext; intros; by rewrite Hh. }
  assert (∀ s, C s → ∃ w, leaves D 1 C O v s w ∧ (∀ w', leaves D 1 C O v s w' → w ≤ w') ∧ m_h D m'' s = w) as Hcl.
  { intros s Hc. assert (reachable root s) as Hre. { destruct Hc as (i & n & Hn & _ & <-). by eapply (einv_reach D OK lim stop). }
    destruct (Hsol s Hre) as (ss & os & c & Hso).
    destruct (leaves_exists D OK lim stop v root rc Hv m L s ss os c He Hc Hso) as (w0 & Hw0).
    destruct (proj1 (Hs s) Hc) as (w & Hw & Hmin & Heq); [exists w0; by apply Hout|].
    apply Hout in Hw. exists w. split_and!; [done|intros; by apply Hmin, Hout|].
    pose proof (leaves_above D OK h v Hv 1 C O s w ltac:(lia) Hw). specialize (Hle s). lia. }
  assert (∀ s, ¬ C s → m_h D m'' s = v s) as Hno. { intros s Hn. rewrite <- Hh. apply Hs. by left. }
  assert (∀ s, C s ∨ ¬ C s) as Hdec.
  { intros s. destruct (decide (Exists (λ n, l_cl D n = true ∧ l_st D n = s) (s_nodes D L))) as [He'|Hn'].
    - left. apply Exists_exists in He' as (n & Hin & Hc & <-). apply elem_of_list_lookup in Hin as (i & Hi). by exists i, n.
    - right. intros (i & n & Hi & Hc & Hst). apply Hn', Exists_exists. exists n. split; [by eapply elem_of_list_lookup_2|done]. }
  assert (∀ s, v s ≤ m_h D m'' s) as Hup.
  { intros s. destruct (Hdec s) as [Hc|Hn]; [|rewrite Hno; [lia|done]].
    destruct (Hcl s Hc) as (w & Hw & _ & ->). by apply (leaves_above D OK h v Hv 1 C O s w). }
  split_and!.
  - split; [intros p c x; rewrite Hp; by apply (mo_sound _ (ei_mem _ _ _ _ _ _ _ _ _ He))|].
    intros s o. rewrite Hp, Hx. by apply (mo_complete _ (ei_mem _ _ _ _ _ _ _ _ _ He)).
  - intros s o Ho. destruct (Hdec s) as [Hc|Hn].
    + destruct (Hcl s Hc) as (w & Hw & Hmin & ->).
      destruct (lo_succ _ _ (einv_lss_ok D OK lim stop _ Hv _ _ _ _ _ He) _ _ Hc Ho) as [Hc'|Hf'].
      * destruct (Hcl _ Hc') as (w' & Hw' & _ & ->).
        pose proof (Hmin _ (leaves_step _ _ _ _ _ s o w' Hc Ho Hw')). lia.
      * pose proof (Hmin _ (leaves_step _ _ _ _ _ s o _ Hc Ho (leaves_here _ _ _ _ _ _ Hf'))).
        specialize (Hup (dest s o)). lia.
    + rewrite (Hno s Hn). pose proof (Hv s o Ho). specialize (Hup (dest s o)). lia.
  - done.
  - intros s Hg. apply Hno. intros (i & n & Hi & _ & <-). by rewrite (ei_nogoal _ _ _ _ _ _ _ _ _ He eq_refl i n Hi) in Hg.
  - intros s Hc. destruct (Hcl s Hc) as (w & Hw & _ & ->). exists w. split; [done|lia].
Qed.

(** What holds of the memory throughout a search. *)
Definition minv (m : mem D) : Prop :=
  mem_ok m ∧ cons_h D (m_h D m) ∧ (∀ s, h s ≤ m_h D m s) ∧ (∀ s, isgoal s = true → m_h D m s = h s).

Lemma sloop_minv onestep lim stop s0 fuel efuel : (∀ s, reachable s0 s → ∃ ss os c, solution s ss os c) →
  ∀ k cur os m st m' st' cur' os', reachable s0 cur → minv m →
  sloop D h 1 onestep lim stop fuel efuel k cur os m st = Some (m', st', cur', os') → minv m'.
Proof.
  intros Hsol. induction fuel as [|fuel IH]; intros k cur os m st m' st' cur' os' Hre (Hm & Hv & Hle & Hgo) Hr; [done|].
  cbn [sloop] in Hr.
  destruct (isgoal cur) eqn:Hg. { apply (inj Some) in Hr. by injection Hr as <- <- <- <-. }
  destruct (rreached lim st). { apply (inj Some) in Hr. by injection Hr as <- <- <- <-. }
  destruct (expandLss D lim stop efuel k m (rcalled st) cur) as [[[[m1 L] st1] goal]|] eqn:Ee; [|done]. cbn [mbind option_bind] in Hr.
  pose proof (expandLss_looked D OK lim stop (m_h D m) cur efuel k m _ m1 L st1 goal Hv Hm (λ _, eq_refl) Hg Ee)
    as (L0 & goal0 & He & Hns & Hn & _).
  pose proof (ei_h _ _ _ _ _ _ _ _ _ He) as Hh. pose proof (ei_mem _ _ _ _ _ _ _ _ _ He) as Hm1.
  assert (minv m1) as H1.
  { split_and!; [done|intros s o Ho; rewrite !Hh; by apply Hv|intros s; by rewrite Hh|intros s Hs; rewrite Hh; by apply Hgo]. }
  destruct (rreached lim st1). { apply (inj Some) in Hr. by injection Hr as <- <- <- <-. }
  destruct (match goal with Some _ => Some m1 | None => hCostLearning D h 1 efuel m1 L end) as [m2|] eqn:El; [|done].
  cbn [mbind option_bind] in Hr.
  assert (∀ s, reachable cur s → reachable s0 s) as Htr by (intros s; by apply reach_trans).
  assert (minv m2) as H2.
  { destruct goal as [b|]; [by injection El as <-|]. destruct (Hn eq_refl) as [-> ->].
    destruct (learn_round lim stop (m_h D m) cur False m1 L efuel m2 Hv Hle He) as (Ha & Hb & Hc & Hd & _); [by auto|done|].
    split_and!; [done|done|intros s; specialize (Hle s); specialize (Hc s); lia|intros s Hs; rewrite (Hd s Hs); by apply Hgo]. }
  destruct (move D onestep L cur goal) as [[os1 cur1]|] eqn:Em; [|done]. cbn [mbind option_bind] in Hr.
  eapply IH; [|exact H2|exact Hr]. apply Htr.
  destruct (expandLss_sound D lim stop _ _ _ _ _ _ _ _ _ Ee) as [Hp Hgk].
  destruct (move_sound D onestep L cur goal os1 cur1 Hp Hgk Em) as (ss & c & Hw & Hhd & Hla & _). by exists ss, os1, c.
Qed.

Lemma mem0_ok : mem_ok (mem0 D h).
Proof. split; [by intros p c x ?%elem_of_nil|by intros s o ?%elem_of_nil]. Qed.
End round.

(** Throughout a search from [s0] - ended by whatever limit - the stored values are never below the heuristic, stay
    consistent, and so never overestimate; provided a goal can be reached from every state in reach of [s0]. *)
Theorem C46_stays_consistent D (OK : domain_ok D) h onestep lim stop s0 fuel efuel st m st' cur os :
  consistent h → (∀ s, reachable s0 s → ∃ ss os c, solution s ss os c) →
  sloop D h 1 onestep lim stop fuel efuel 0 s0 [] (mem0 D h) st = Some (m, st', cur, os) →
  consistent (m_h D m) ∧ admissible (m_h D m) ∧ ∀ s, h s ≤ m_h D m s.
Proof.
  intros [Hg Hc] Hsol Hr.
  apply (sloop_minv D OK h onestep lim stop s0 fuel efuel Hsol) in Hr.
  - destruct Hr as (_ & Hv & Hle & Hgo).
    assert (consistent (m_h D m)) as Hcm. { split; [|exact Hv]. intros s Hs. rewrite (Hgo s Hs). by apply Hg. }
    split_and!; [done| |done]. eapply consistent_admissible; [exact Hcm|done].
  - exists [s0], [], 0. split_and!; [constructor|done..].
  - split_and!; [apply mem0_ok|exact Hc|done|done].
Qed.

(** What is returned is a way from the start to a goal: for any heuristic, weight, lookahead and limits. *)
Theorem C46_result_valid D h wt onestep lim stop s0 fuel st path os :
  lsslrta D h wt onestep lim stop s0 fuel = Some (st, (path, os)) → path ≠ [] →
  ∃ c, solution s0 (reverse path) (reverse os) c.
Proof.
  intros Hr Hp. unfold lsslrta in Hr.
  destruct (sloop _ _ _ _ _ _ _ _ _ _ _ _ _) as [[[[m1 st1] cur] os1]|] eqn:El; [|done]. cbn [mbind option_bind] in Hr.
  apply (inj Some) in Hr. unfold answer in Hr. destruct (isgoal cur) eqn:Eg; [|by injection Hr as _ <- _].
  injection Hr as _ <- <-. rewrite !reverse_involutive.
  apply (sloop_sound D h wt onestep lim stop s0 fuel fuel 0 s0 [] _ _ [s0] 0) in El; [|constructor|done|done].
  destruct El as (ss & c & Hw & Hs & Hl).
  exists c. rewrite (rebuild_walk _ _ _ _ _ Hw Hs). split_and!; [done..|]. by exists cur.
Qed.

(** ** The search reaches a goal *)
Section complete.
Context (D : domain) (OK : domain_ok D) (h : St D → Z) (stop : nat → nat → bool).
Context (U : list (St D)) (B : Z).

(** How much the values of the states in [U] can still rise. *)
Definition room (v : St D → Z) : nat := sum_list_with (λ s, Z.to_nat (B - v s)) U.

Lemma room_le v v' : (∀ s, v s ≤ v' s) → (room v' ≤ room v)%nat.
Proof.
  intros Hle. unfold room. induction U as [|s l IH]; simpl; [lia|]. specialize (Hle s). lia.
Qed.
Lemma room_lt v v' s : (∀ s, v s ≤ v' s) → s ∈ U → v s < v' s → v' s ≤ B → (room v' < room v)%nat.
Proof.
  intros Hle Hin Hlt HB. unfold room. induction U as [|t l IH]; [by apply elem_of_nil in Hin|].
  assert (sum_list_with (λ s, Z.to_nat (B - v' s)) l ≤ sum_list_with (λ s, Z.to_nat (B - v s)) l)%nat.
  { clear -Hle. induction l as [|s l IH]; simpl; [lia|]. specialize (Hle s). lia. }
  simpl. apply elem_of_cons in Hin as [->|Hin]; [lia|]. specialize (IH Hin). pose proof (Hle t). lia.
Qed.

(** The lookahead found a goal: without -onestep the search moves there. *)
Lemma move_goal v root rc m L b :
  cons_h D v → isgoal root = false → looked D v root rc m L (Some b) →
  ∃ os s', move D false L root (Some b) = Some (os, s') ∧ isgoal s' = true.
Proof.
  intros Hv Hg (L0 & goal0 & He & Hns & _ & Hgo). destruct (Hgo b eq_refl) as (n & Hn & Hng).
  unfold move. cbn [mbind option_bind]. rewrite Hn. cbn [mbind option_bind].
  rewrite decide_False by congruence. rewrite <- Hns in *.
  destruct (ei_line _ _ _ _ _ _ _ _ _ He b n Hn) as (os & Hl & Hlen).
  destruct (ei_g _ _ _ _ _ _ _ _ _ He b n Hn) as (g & Hgn & _).
  destruct (upward_line D stop v root (s_nodes D L0) b os Hv (ei_nodup _ _ _ _ _ _ _ _ _ He) Hl (S (length (s_nodes D L0))) None n g)
    as (r & Hu & _); [|done|done|].
  - rewrite (ei_ncl _ _ _ _ _ _ _ _ _ He) in Hlen. pose proof (filter_length (λ n, l_cl D n = true) (s_nodes D L0)). lia.
  - rewrite Hu. cbn [mbind option_bind]. by eexists _, _.
Qed.

Context (HU : ∀ s o, s ∈ U → o ∈ ops s → dest s o ∈ U).
Context (Hsol : ∀ s, s ∈ U → ∃ ss os c, solution s ss os c ∧ c ≤ B).
Context (Hpos : ∀ (s : St D) o, o ∈ ops s → 0 < cost s o).
Context (Hstop : ∀ k, stop k 0%nat = false).
Context (Hh0 : ∀ s, 0 ≤ h s) (Hhg : ∀ s, isgoal s = true → h s ≤ 0).

Lemma reach_U s t : s ∈ U → reachable s t → t ∈ U.
Proof. intros Hs. by apply (reachable_inv (λ s, s ∈ U)). Qed.

Lemma sloop_goal efuel : (length U < efuel)%nat → ∀ a b k cur os m st,
  cur ∈ U → minv D h m → (room (m_h D m) ≤ a)%nat → (Z.to_nat (m_h D m cur) ≤ b)%nat →
  ∃ fuel m' st' cur' os', sloop D h 1 false no_limits stop fuel efuel k cur os m st = Some (m', st', cur', os') ∧ isgoal cur' = true.
Proof.
  intros Hef a. induction (lt_wf a) as [a _ IHa]. intros b. induction (lt_wf b) as [b _ IHb].
  intros k cur os m st Hcur Hmi Ha Hb. pose proof Hmi as (Hm & Hv & Hle & Hgo).
  destruct (isgoal cur) eqn:Hg. { exists 1%nat, m, st, cur, os. cbn [sloop]. by rewrite Hg. }
  destruct (expandLss_spec D OK no_limits stop (m_h D m) cur U efuel k m (rcalled st) Hv Hm (λ _, eq_refl) Hg) as (m1 & L & st1 & goal & Hx & Hlk);
    [intros s; by apply reach_U|done|].
  destruct goal as [gb|].
  - destruct (move_goal _ _ _ _ _ _ Hv Hg Hlk) as (os1 & s1 & Hmv & Hg1).
    exists 2%nat, m1, (rcalled st1), s1, (os ++ os1). cbn [sloop]. rewrite Hg. change (rreached no_limits st) with false. cbn iota.
    rewrite Hx. cbn [mbind option_bind]. change (rreached no_limits st1) with false. cbn iota. cbn [mbind option_bind].
    rewrite Hmv. cbn [mbind option_bind]. by rewrite Hg1.
  - pose proof Hlk as (L0 & goal0 & He & _ & Hn & _). destruct (Hn eq_refl) as [-> ->].
    assert (einv D (m_h D m) cur True m1 L None None []) as He'.
    { eapply einv_rc; [exact He|]. intros _. apply (ei_rc _ _ _ _ _ _ _ _ _ He). split; [apply Hstop|done]. }
    clear He Hn Hlk. pose proof (ei_h _ _ _ _ _ _ _ _ _ He') as Hh.
    assert (0 ≤ 1) as H01 by lia.
    destruct (einv_length D OK no_limits stop _ Hv cur True U m1 L None None [] ltac:(intros s; by apply reach_U) He') as [HlU _].
    destruct (learn_spec D h 1 OK H01 m1 L efuel (ei_mem _ _ _ _ _ _ _ _ _ He')
      (einv_lss_ok D OK no_limits stop _ Hv _ _ _ _ _ He')) as (m2 & Hl & _ & _ & _); [lia|].
    destruct (learn_round D OK h no_limits stop (m_h D m) cur True m1 L efuel m2 Hv Hle He') as (Hm2 & Hv2 & Hup & Hgo2 & Hcl).
    { intros s Hs. destruct (Hsol s (reach_U _ _ Hcur Hs)) as (ss & os1 & c & Hs1 & _). by exists ss, os1, c. }
    { done. }
    destruct (ei_root _ _ _ _ _ _ _ _ _ He') as (r & Hr0 & Hrs & Hrg & _).
    destruct (ei_rc _ _ _ _ _ _ _ _ _ He' I) as (r' & Hr0' & Hrc). assert (r' = r) as -> by congruence.
    destruct (Hcl cur) as (w & Hw & Hwle); [by exists 0%nat, r|].
    destruct (leaves_open D stop h (m_h D m) cur True m1 L None cur w 0%nat r 0 He' Hw Hr0 Hrs Hrg) as (j & y & gy & Hy & Hcy & Hgy & Hfy).
    destruct (move_spec D OK no_limits stop (m_h D m) cur false m1 L Hv He') as (os1 & s1 & g & Hmv & Hre & Hmin & Hg0).
    { assert (j ∈ arr (s_open D L)) as Hin by (apply (ei_open _ _ _ _ _ _ _ _ _ He'); by exists y). intros Hnil. rewrite Hnil in Hin. by apply elem_of_nil in Hin. }
    specialize (Hg0 Hpos). specialize (Hmin j y gy Hy Hcy Hgy).
    assert (s1 ∈ U) as Hs1 by by eapply reach_U.
    assert (minv D h m2) as Hmi2.
    { split_and!; [done|done|intros s; specialize (Hle s); specialize (Hup s); lia|intros s Hs; rewrite (Hgo2 s Hs); by apply Hgo]. }
    assert (∀ s, s ∈ U → m_h D m2 s ≤ B) as HB.
    { intros s Hs. destruct (Hsol s Hs) as (ss & os2 & c & Hso & Hc).
      assert (consistent (m_h D m2)) as Hc2. { split; [|done]. intros t Ht. destruct Hmi2 as (_ & _ & _ & ->); [|done]. by apply Hhg. }
      pose proof (consistent_admissible D (m_h D m2) (m_h D m2) Hc2 ltac:(done) s ss os2 c Hso). lia. }
    assert (∃ fuel m' st' cur' os', sloop D h 1 false no_limits stop fuel efuel (S k) s1 (os ++ os1) m2 (rcalled st1) = Some (m', st', cur', os') ∧ isgoal cur' = true)
      as (fuel & m' & st' & cur' & os' & Hrun & Hgc).
    { destruct (decide (Forall (λ s, m_h D m2 s = m_h D m s) U)) as [Hsame|Hdiff].
      - rewrite Forall_forall in Hsame. pose proof (Hsame _ Hcur) as Hsc. pose proof (Hsame _ Hs1) as Hss.
        apply (IHb (Z.to_nat (m_h D m2 s1))); [|done|done| |lia].
        + pose proof (Hle s1). pose proof (Hh0 s1). lia.
        + pose proof (room_le _ _ Hup). lia.
      - apply not_Forall_Exists in Hdiff; [|intros s; apply _]. apply Exists_exists in Hdiff as (s & Hs & Hne).
        apply (IHa (room (m_h D m2))) with (b := Z.to_nat (m_h D m2 s1)); [|done|done|lia|lia].
        pose proof (Hup s). assert (room (m_h D m2) < room (m_h D m))%nat; [|lia].
        apply (room_lt _ _ s); [done|done| |by apply HB]. simpl in Hne. lia. }
    exists (S fuel), m', st', cur', os'. split; [|done]. cbn [sloop]. rewrite Hg. change (rreached no_limits st) with false. cbn iota.
    rewrite Hx. cbn [mbind option_bind]. change (rreached no_limits st1) with false. cbn iota. rewrite Hl. cbn [mbind option_bind].
    rewrite Hmv. cbn [mbind option_bind]. done.
Qed.
End complete.

(** Where there are finitely many states, in each of which a goal can be reached, every step costs something, and the
    heuristic is consistent, the search finds a way to a goal - however little it looks ahead, as long as it expands
    something each time. *)
Theorem C80_lss_complete D (OK : domain_ok D) h stop (U : list (St D)) s0 :
  consistent h → (∀ s, 0 ≤ h s) → (∀ (s : St D) o, o ∈ ops s → 0 < cost s o) →
  s0 ∈ U → (∀ s o, s ∈ U → o ∈ ops s → dest s o ∈ U) → (∀ s, s ∈ U → ∃ ss os c, solution s ss os c) →
  (∀ k, stop k 0%nat = false) →
  ∃ st path os c, ends (lsslrta D h 1 false no_limits stop s0) (st, (path, os)) ∧ solution s0 (reverse path) (reverse os) c.
Proof.
  intros [Hhg Hc] Hh0 Hpos H0 HU Hsol Hstop.
  assert (∃ B, ∀ s, s ∈ U → ∃ ss os c, solution s ss os c ∧ c ≤ B) as (B & HB).
  { clear -Hsol. induction U as [|s l IH]; [exists 0; by intros s ?%elem_of_nil|].
    destruct IH as (B & HB); [intros t Ht; apply Hsol; by right|]. destruct (Hsol s ltac:(left)) as (ss & os & c & Hs).
    exists (Z.max B c). intros t [->|Ht]%elem_of_cons; [exists ss, os, c; split; [done|lia]|].
    destruct (HB t Ht) as (ss' & os' & c' & Hs' & Hc'). exists ss', os', c'. split; [done|lia]. }
  destruct (sloop_goal D OK h stop U B HU HB Hpos Hstop Hh0 Hhg (S (length U)) ltac:(lia)
    (room D U B h) (Z.to_nat (h s0)) 0 s0 [] (mem0 D h) (RCount 0 0 0)) as (fuel & m & st & cur & os & Hr & Hg); [done| |done|done|].
  { split_and!; [apply mem0_ok|exact Hc|done|done]. }
  set (n := (fuel + S (length U))%nat).
  assert (∀ n', (n ≤ n')%nat → lsslrta D h 1 false no_limits stop s0 n' = Some (st, (reverse (rebuild D s0 os), reverse os))) as Hn.
  { intros n' Hn'. unfold lsslrta. rewrite (sloop_mono D h 1 false no_limits stop fuel n' (S (length U)) n' _ _ _ _ _ _ Hr) by lia.
    cbn [mbind option_bind]. unfold answer. by rewrite Hg. }
  assert (reverse (rebuild D s0 os) ≠ []) as Hne. { intros He%(f_equal length). rewrite reverse_length in He. by destruct os. }
  destruct (C46_result_valid D h 1 false no_limits stop s0 n _ _ _ (Hn n ltac:(lia)) Hne) as (c & Hs).
  eexists _, _, _, c. split; [|exact Hs]. by exists n.
Qed.

(** ** Instances *)
Definition lshow {D} (r : option (rcount * (list (St D) * list (Op D)))) : option (list (St D) * list (Op D)) := snd <$> r.
(** Expand [n] nodes in each lookahead. *)
Definition nodes (n : nat) (k j : nat) : bool := (n <=? j)%nat.

(** The undirected graph with the edges 0 - 1, 0 - 2 and 2 - 3: the search first runs into the dead end 1. *)
Definition lss_dom : domain := table_domain
  [(0%nat, 1%nat, 1); (1%nat, 0%nat, 1); (0%nat, 2%nat, 3); (2%nat, 0%nat, 3); (2%nat, 3%nat, 4); (3%nat, 2%nat, 4)] 3.

Example lss_run1 : lshow (lsslrta lss_dom (λ _, 0) 1 false no_limits (nodes 1) 0%nat 30) = Some ([3; 2; 0; 1; 0], [3; 2; 0; 1])%nat.
Proof. vm_compute. reflexivity. Qed.
Example lss_run2 : lshow (lsslrta lss_dom (λ _, 0) 1 true no_limits (nodes 2) 0%nat 30) = Some ([3; 2; 0], [3; 2])%nat.
Proof. vm_compute. reflexivity. Qed.
(** The values learned by the first lookahead of two nodes, 0 and 1, with the open state 2: 3 and 4. *)
Example lss_learn :
  (m ← ('(m, L, _, _) ← expandLss lss_dom no_limits (nodes 2) 10 0 (mem0 lss_dom (λ _, 0)) (RCount 0 0 0) 0%nat;
         hCostLearning lss_dom (λ _, 0) 1 10 m L); Some (m_h lss_dom m <$> [0; 1; 2; 3]%nat)) = Some [3; 4; 0; 0].
Proof. vm_compute. reflexivity. Qed.

Lemma lss_edges s o : o ∈ ops (d:=lss_dom) s → (s, o) ∈ [(0, 1); (1, 0); (0, 2); (2, 0); (2, 3); (3, 2)]%nat.
Proof.
  intros Ho. apply elem_of_list_fmap in Ho as (e & -> & He). apply elem_of_list_filter in He as [<- He].
  repeat (apply elem_of_cons in He as [->|He]; [cbn; set_solver|]). by apply elem_of_nil in He.
Qed.

(** The hypotheses of [C80_lss_complete], and with them those of the theorems on C46. *)
Example lss_hyps :
  domain_ok lss_dom ∧ consistent (D:=lss_dom) (λ _, 0) ∧ (∀ s o, o ∈ ops (d:=lss_dom) s → 0 < cost s o) ∧
  (∀ s o, s ∈ [0; 1; 2; 3]%nat → o ∈ ops (d:=lss_dom) s → dest (D:=lss_dom) s o ∈ [0; 1; 2; 3]%nat) ∧
  (∀ s, s ∈ [0; 1; 2; 3]%nat → ∃ ss os k, solution (D:=lss_dom) s ss os k) ∧ ∀ k, nodes 1 k 0 = false.
Proof.
  assert (domain_ok lss_dom) as OK by by apply table_ok.
  split_and!; [done|..|done].
  - split; [done|]. intros s o Ho. pose proof (ok_cost OK s o Ho). lia.
  - intros s o Ho. apply lss_edges in Ho. repeat (apply elem_of_cons in Ho as [[= -> ->]|Ho]; [done|]). by apply elem_of_nil in Ho.
  - intros s o _ Ho. apply lss_edges in Ho. repeat (apply elem_of_cons in Ho as [[= -> ->]|Ho]; [vm_compute; set_solver|]). by apply elem_of_nil in Ho.
  - assert (solution (D:=lss_dom) 3%nat [3]%nat [] 0) as S3.
    { split; [constructor|]. split; [done|]. by exists 3%nat. }
    assert (∀ s t ss os k, t ∈ ops (d:=lss_dom) s → solution (D:=lss_dom) t (t :: ss) os k →
      solution (D:=lss_dom) s (s :: t :: ss) (t :: os) (cost (D:=lss_dom) s t + k)) as Hstep.
    { intros s t ss os k Ht (Hw & _ & Hl). split; [by apply (walk_step lss_dom s t)|]. done. }
    assert (solution (D:=lss_dom) 2%nat [2; 3]%nat [3]%nat 4) as S2 by (apply (Hstep 2%nat 3%nat [] [] 0 ltac:(vm_compute; set_solver) S3)).
    assert (solution (D:=lss_dom) 0%nat [0; 2; 3]%nat [2; 3]%nat 7) as S0 by (apply (Hstep 0%nat 2%nat _ _ _ ltac:(vm_compute; set_solver) S2)).
    assert (solution (D:=lss_dom) 1%nat [1; 0; 2; 3]%nat [0; 2; 3]%nat 8) as S1 by (apply (Hstep 1%nat 0%nat _ _ _ ltac:(vm_compute; set_solver) S0)).
    intros s Hs. repeat (apply elem_of_cons in Hs as [->|Hs]; [eauto|]). by apply elem_of_nil in Hs.
Qed.

(** *** Dead ends
    From state 0 one can step into the dead end 1 or go to the goal 3 by 2.  Looking one node ahead the search steps
    into 1, and there no node is left to go to: the assertion at lsslrtastar.hpp:449 fails. *)
Definition dead_dom : domain := table_domain [(0%nat, 1%nat, 1); (0%nat, 2%nat, 5); (2%nat, 3%nat, 5)] 3.

Theorem C80_dead_end_refuted :
  domain_ok dead_dom ∧ consistent (D:=dead_dom) (λ _, 0) ∧ (∃ ss os k, solution (D:=dead_dom) 0%nat ss os k) ∧
  ∀ fuel, lsslrta dead_dom (λ _, 0) 1 false no_limits (nodes 1) 0%nat fuel = None.
Proof.
  assert (domain_ok dead_dom) as OK by by apply table_ok. split_and!; [done|..].
  - split; [done|]. intros s o Ho. pose proof (ok_cost OK s o Ho). lia.
  - exists [0; 2; 3]%nat, [2; 3]%nat, 10. split; [|split; [done|by exists 3%nat]].
    apply (walk_step dead_dom 0%nat 2%nat [3%nat] [3%nat] 5); [vm_compute; set_solver|].
    apply (walk_step dead_dom 2%nat 3%nat [] [] 0); [vm_compute; set_solver|]. constructor.
  - intros fuel. do 5 (destruct fuel as [|fuel]; [vm_compute; reflexivity|]). vm_compute. reflexivity.
Qed.

(** Values next to a dead end: after expanding 0, 1 and 4, state 0 has the value 11, the dead end 1 keeps 0. *)
Definition dead_dom2 : domain := table_domain
  [(0%nat, 1%nat, 1); (0%nat, 4%nat, 1); (4%nat, 2%nat, 10); (2%nat, 3%nat, 5)] 3.

Theorem C46_dead_end_inconsistent :
  domain_ok dead_dom2 ∧ consistent (D:=dead_dom2) (λ _, 0) ∧
  ∃ m, ('(m, L, _, _) ← expandLss dead_dom2 no_limits (nodes 3) 10 0 (mem0 dead_dom2 (λ _, 0)) (RCount 0 0 0) 0%nat;
         hCostLearning dead_dom2 (λ _, 0) 1 10 m L) = Some m ∧ ¬ consistent (D:=dead_dom2) (m_h dead_dom2 m).
Proof.
  assert (domain_ok dead_dom2) as OK by by apply table_ok. split_and!; [done|..].
  - split; [done|]. intros s o Ho. pose proof (ok_cost OK s o Ho). lia.
  - assert (1%nat ∈ ops (d:=dead_dom2) 0%nat) as Hin by (vm_compute; set_solver).
    assert ((λ m, (m_h dead_dom2 m 0%nat, m_h dead_dom2 m 1%nat)) <$>
      ('(m, L, _, _) ← expandLss dead_dom2 no_limits (nodes 3) 10 0 (mem0 dead_dom2 (λ _, 0)) (RCount 0 0 0) 0%nat;
       hCostLearning dead_dom2 (λ _, 0) 1 10 m L) = Some (11, 0)) as Hm by (vm_compute; reflexivity).
    apply fmap_Some in Hm as (m & Hm & Hv). exists m. split; [exact Hm|]. intros [_ Hc].
    specialize (Hc 0%nat 1%nat Hin). injection Hv as H0 H1. rewrite <- H0 in Hc.
    change (dest (D:=dead_dom2) 0%nat 1%nat) with 1%nat in Hc. rewrite <- H1 in Hc. clear -Hc. vm_compute in Hc. done.
Qed.

(** *** A lookahead that expands nothing
    leaves only the current state to move to; the assertion fails. *)
Theorem C80_no_lookahead_refuted fuel : lsslrta lss_dom (λ _, 0) 1 false no_limits (nodes 0) 0%nat fuel = None.
Proof. do 3 (destruct fuel as [|fuel]; [vm_compute; reflexivity|]). vm_compute. reflexivity. Qed.

(** *** One step at a time
    If the lookahead found a goal nothing is learned.  When the lookaheads differ in size, as with a time limit for
    each, the search may then go back and forth: from 0 the goal is seen beyond 1 (expanding 2 nodes), from 1 a cheaper
    way to it is seen beyond 0 (expanding 3). *)
Definition step_dom : domain := table_domain
  [(0%nat, 1%nat, 1); (1%nat, 0%nat, 1); (0%nat, 2%nat, 2); (2%nat, 0%nat, 2); (1%nat, 3%nat, 10); (3%nat, 1%nat, 10);
   (2%nat, 3%nat, 1); (3%nat, 2%nat, 1)] 3.
Definition sizes (k j : nat) : bool := ((if Nat.even k then 2 else 3) <=? j)%nat.

Lemma look_stop D lim (stop stop' : nat → nat → bool) k k' fuel m st cur :
  (∀ j, stop k j = stop' k' j) → expandLss D lim stop fuel k m st cur = expandLss D lim stop' fuel k' m st cur.
Proof.
  intros Hs. unfold expandLss. destruct (einit D m cur) as [L|]; [|done]. cbn [mbind option_bind]. generalize 0%nat. generalize (@None nat).
  revert m L st. induction fuel as [|fuel IH]; intros m L st goal j; [done|]. cbn [eloop]. rewrite Hs.
  destruct (empty _); [done|]. destruct (stop' k' j); [done|]. destruct (rreached lim st); [done|].
  destruct (pop astar_lt _) as [[q' [i|]]|]; [|done..]. cbn [mbind option_bind].
  destruct (s_nodes D L !! i) as [sn|]; [|done]. cbn [mbind option_bind].
  destruct (expand D _ _ _) as [m1 st1]. destruct (relaxes _ _ _ _ _ _ _) as [[L1 goal1]|]; [|done]. cbn [mbind option_bind].
  destruct (isgoal (l_st D sn)); [done|]. apply IH.
Qed.

(** One round of the search when a goal is seen. *)
Definition hop (k : nat) (m : mem step_dom) (st : rcount) (cur : nat) : option (mem step_dom * bool * (list nat * nat)) :=
  '(m, L, _, g) ← expandLss step_dom no_limits sizes 10 k m st cur;
  r ← move step_dom true L cur g;
  Some (m, bool_decide (is_Some g), r).

Lemma hop_look k m st cur m' r : hop k m st cur = Some (m', true, r) →
  ∃ L st' g, expandLss step_dom no_limits sizes 10 k m st cur = Some (m', L, st', Some g) ∧ move step_dom true L cur (Some g) = Some r.
Proof.
  unfold hop. destruct (expandLss _ _ _ _ _ _ _ _) as [[[[m1 L] st1] [g|]]|]; [..|done]; cbn [mbind option_bind];
    (destruct (move _ _ _ _ _) as [r1|] eqn:E; [|done]); cbn [mbind option_bind]; intros Hr; apply (inj Some) in Hr; injection Hr; [|done].
  intros -> ->. exists L, st1, g. done.
Qed.

(** The memory once the first [n] states have been expanded. *)
Fixpoint step_mem (n : nat) : mem step_dom :=
  match n with
  | 0%nat => mem0 step_dom (λ _, 0)
  | S n => (expand step_dom n (step_mem n) (RCount 0 0 0)).1
  end.

Lemma step_look0 st : hop 0 (step_mem 3) st 0%nat = Some (step_mem 3, true, ([1], 1)%nat).
Proof. destruct st. vm_cast_no_check (eq_refl (Some (step_mem 3, true, ([1], 1)%nat))). Qed.
Lemma step_look1 st : hop 1 (step_mem 3) st 1%nat = Some (step_mem 3, true, ([0], 0)%nat).
Proof. destruct st. vm_cast_no_check (eq_refl (Some (step_mem 3, true, ([0], 0)%nat))). Qed.
Lemma step_init st : hop 0 (step_mem 0) st 0%nat = Some (step_mem 2, true, ([1], 1)%nat).
Proof. destruct st. vm_cast_no_check (eq_refl (Some (step_mem 2, true, ([1], 1)%nat))). Qed.
Lemma step_init1 st : hop 1 (step_mem 2) st 1%nat = Some (step_mem 3, true, ([0], 0)%nat).
Proof. destruct st. vm_cast_no_check (eq_refl (Some (step_mem 3, true, ([0], 0)%nat))). Qed.

Lemma step_forever fuel efuel : (10 ≤ efuel)%nat → ∀ i os st,
  sloop step_dom (λ _, 0) 1 true no_limits sizes fuel efuel (2 * i) 0%nat os (step_mem 3) st = None ∧
  sloop step_dom (λ _, 0) 1 true no_limits sizes fuel efuel (2 * i + 1) 1%nat os (step_mem 3) st = None.
Proof.
  intros Hef. induction fuel as [|fuel IH]; intros i os st; [done|]. split; cbn [sloop].
  - change (isgoal (d:=step_dom) 0%nat) with false. change (rreached no_limits st) with false. cbn iota.
    rewrite (look_stop _ _ _ sizes _ 0) by (intros j; unfold sizes; by rewrite Nat.even_mul).
    destruct (hop_look _ _ _ _ _ _ (step_look0 (rcalled st))) as (L & st' & g & Hx & Hm). rewrite (expandLss_mono _ _ _ _ _ _ _ _ _ _ Hx Hef).
    cbn [mbind option_bind]. change (rreached no_limits st') with false. cbn iota. cbn [mbind option_bind]. rewrite Hm. cbn [mbind option_bind].
    replace (S (2 * i)) with (2 * i + 1)%nat by lia. apply IH.
  - change (isgoal (d:=step_dom) 1%nat) with false. change (rreached no_limits st) with false. cbn iota.
    rewrite (look_stop _ _ _ sizes _ 1) by (intros j; unfold sizes; by rewrite Nat.even_add, Nat.even_mul).
    destruct (hop_look _ _ _ _ _ _ (step_look1 (rcalled st))) as (L & st' & g & Hx & Hm). rewrite (expandLss_mono _ _ _ _ _ _ _ _ _ _ Hx Hef).
    cbn [mbind option_bind]. change (rreached no_limits st') with false. cbn iota. cbn [mbind option_bind]. rewrite Hm. cbn [mbind option_bind].
    replace (S (2 * i + 1)) with (2 * S i)%nat by lia. apply IH.
Qed.

Theorem C80_onestep_refuted :
  domain_ok step_dom ∧ consistent (D:=step_dom) (λ _, 0) ∧
  (∀ s o, o ∈ ops (d:=step_dom) s → 0 < cost s o ∧ revop s o ∈ ops (dest s o) ∧ dest (D:=step_dom) s o ∈ [0; 1; 2; 3]%nat) ∧
  (∀ k, sizes k 0 = false) ∧ (∃ ss os k, solution (D:=step_dom) 0%nat ss os k) ∧
  ∀ fuel, lsslrta step_dom (λ _, 0) 1 true no_limits sizes 0%nat fuel = None.
Proof.
  assert (domain_ok step_dom) as OK by by apply table_ok. split_and!; [done|..].
  - split; [done|]. intros s o Ho. pose proof (ok_cost OK s o Ho). lia.
  - intros s o Ho. apply elem_of_list_fmap in Ho as (e & -> & He). apply elem_of_list_filter in He as [<- He].
    repeat (apply elem_of_cons in He as [->|He]; [split_and!; vm_compute; set_solver|]). by apply elem_of_nil in He.
  - intros k. unfold sizes. by destruct (Nat.even k).
  - exists [0; 2; 3]%nat, [2; 3]%nat, 3. split; [|split; [done|by exists 3%nat]].
    apply (walk_step step_dom 0%nat 2%nat [3%nat] [3%nat] 1); [vm_compute; set_solver|].
    apply (walk_step step_dom 2%nat 3%nat [] [] 0); [vm_compute; set_solver|]. constructor.
  - intros fuel. destruct (lsslrta step_dom (λ _, 0) 1 true no_limits sizes 0%nat fuel) as [r|] eqn:E; [exfalso|done].
    unfold lsslrta in E. destruct (sloop _ _ _ _ _ _ _ _ _ _ _ _ _) as [x|] eqn:Es; [|done].
    apply (sloop_mono _ _ _ _ _ _ _ (S (S fuel)) _ (10 + fuel)) in Es; [|lia..]. clear E r.
    destruct (hop_look _ _ _ _ _ _ (step_init (RCount 0 0 1))) as (L & st' & g & Hx & Hm).
    destruct (hop_look _ _ _ _ _ _ (step_init1 (rcalled (rcalled st')))) as (L2 & st2 & g2 & Hx2 & Hm2).
    change (mem0 step_dom (λ _, 0)) with (step_mem 0) in Es. cbn [sloop] in Es. change (isgoal (d:=step_dom) 0%nat) with false in Es. change (rreached no_limits _) with false in Es. cbn iota in Es.
    change (rcalled (RCount 0 0 0)) with (RCount 0 0 1) in Es. rewrite (expandLss_mono _ _ _ _ _ _ _ _ _ _ Hx) in Es by lia.
    cbn [mbind option_bind] in Es. change (rreached no_limits _) with false in Es. cbn iota in Es. cbn [mbind option_bind] in Es. rewrite Hm in Es. cbn [mbind option_bind] in Es.
    change (isgoal (d:=step_dom) 1%nat) with false in Es. cbn iota in Es. rewrite (expandLss_mono _ _ _ _ _ _ _ _ _ _ Hx2) in Es by lia.
    cbn [mbind option_bind] in Es. change (rreached no_limits _) with false in Es. cbn iota in Es. cbn [mbind option_bind] in Es.
    rewrite Hm2 in Es. cbn [mbind option_bind] in Es.
    rewrite (proj1 (step_forever fuel (10 + fuel) ltac:(lia) 1 _ _)) in Es. discriminate Es.
Qed.

Print Assumptions C46_lookahead.
Print Assumptions C46_learned_values.
Print Assumptions C46_never_lowers.
Print Assumptions C46_stays_consistent.
Print Assumptions C46_result_valid.
Print Assumptions C46_dead_end_inconsistent.
Print Assumptions C80_lss_complete.
Print Assumptions C80_dead_end_refuted.
Print Assumptions C80_no_lookahead_refuted.
Print Assumptions C80_onestep_refuted.
