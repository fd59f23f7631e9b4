(** C83: A-star and weighted A-star where the heuristic is a lower bound along one solution only, and where
    infinitely many states can be reached. *)
From stdpp Require Import prelude gmap.
From Coq Require Import ZArith Lia.
From Verif Require Import Common.Orders Common.Fuel Search.Model Search.Proofs Search.Props.
Local Open Scope Z_scope.

(** [h] does not overestimate the rest of this solution, from any state on it. *)
Definition lower {D} (h : St D → Z) (ss : list (St D)) (os : list (Op D)) : Prop :=
  ∀ t ss2 os2 k2, ss2 `suffix_of` ss → os2 `suffix_of` os → solution t ss2 os2 k2 → h t ≤ k2.

Lemma admissible_lower {D} (h : St D → Z) ss os : admissible h → lower h ss os.
Proof. intros Ha t ss2 os2 k2 _ _ Hs. by eapply Ha. Qed.

(** The states that at most [m] operators lead to. *)
Fixpoint ball (D : domain) (s0 : St D) (m : nat) : list (St D) :=
  match m with
  | 0%nat => [s0]
  | S m => ball D s0 m ++ mjoin ((λ s, dest s <$> ops s) <$> ball D s0 m)
  end.
Lemma ball_mono D (s0 s : St D) m m' : (m ≤ m')%nat → s ∈ ball D s0 m → s ∈ ball D s0 m'.
Proof. intros Hm Hs. induction Hm as [|m' Hm IH]; [done|]. cbn [ball]. apply elem_of_app. by left. Qed.
Lemma ball_step D (s0 s : St D) m o : s ∈ ball D s0 m → o ∈ ops s → dest s o ∈ ball D s0 (S m).
Proof.
  intros Hs Ho. cbn [ball]. apply elem_of_app. right. apply elem_of_list_join. exists (dest s <$> ops s).
  split; apply elem_of_list_fmap; eauto.
Qed.
Lemma ball_walk D (s0 : St D) ss os k t : walk ss os k → head ss = Some s0 → last ss = Some t → t ∈ ball D s0 (length os).
Proof.
  intros Hw. revert t. assert (∀ m s1, s1 ∈ ball D s0 m → head ss = Some s1 → ∀ t, last ss = Some t → t ∈ ball D s0 (m + length os)) as H.
  { induction Hw as [s|s o ss os k Ho Hw IH]; intros m s1 Hs1 Hh t Hl; injection Hh as <-.
    - injection Hl as <-. by rewrite Nat.add_0_r.
    - cbn [length]. rewrite Nat.add_succ_r. apply (IH (S m) (dest s o)); [by apply ball_step|done|done]. }
  intros t Hh Hl. apply (H 0%nat s0); [by apply elem_of_list_singleton|done|done].
Qed.
Lemma walk_ones D (ss : list (St D)) os k : (∀ s (o : Op D), o ∈ ops s → 1 ≤ cost s o) → walk ss os k → Z.of_nat (length os) ≤ k.
Proof. intros H1 Hw. induction Hw as [s|s o ss os k Ho Hw IH]; [done|]. cbn [length]. specialize (H1 s o Ho). lia. Qed.

Section along.
Context (D : domain) {P : Type}.
Context (pr_new : Z → St D → P) (pr_upd : P → Z → Z → P).
Context (o : openlist (P * Z)) (lim : limits) (lt : P * Z → P * Z → bool) (okk : P * Z → Prop).
Context (OK : domain_ok D) (OL : ol_ok lt okk o).
Context (okk_new : ∀ g s, 0 ≤ g → okk (pr_new g s, g)) (upd_new : ∀ g g' s, pr_upd (pr_new g s) g g' = pr_new g' s).
Context (s0 : St D).
Notation good := (good D pr_new false o lt okk OL s0).
Notation running := (running D pr_new pr_upd false o lim s0).

(** As [frontier], with the rest of the walk being a part of it. *)
Lemma frontier_suffix ns c ss os k i (a : node D (P:=P)) s :
  inv D pr_new s0 ns c → closedok D false ns c (λ _, False) →
  walk ss os k → head ss = Some s → (∃ t, last ss = Some t ∧ isgoal t = true) →
  ns !! i = Some a → n_state D a = s →
  ∃ j b k1 ss2 os2 k2, is_Some (c !! j) ∧ ns !! j = Some b ∧
    solution (n_state D b) ss2 os2 k2 ∧ k = k1 + k2 ∧ n_g D b ≤ n_g D a + k1 ∧
    ss2 `suffix_of` ss ∧ os2 `suffix_of` os.
Proof.
  intros Hinv Hcl Hw. revert i a s.
  induction Hw as [s1|s1 op ss os k Hop Hw IH]; intros i a s Hh Hg Ha Hs; simpl in Hh; injection Hh as <-.
  - exists i, a, 0, [s1], [], 0. split_and!; [|done| |done|lia|done|done].
    + destruct (c !! i) eqn:E; [eauto|]. destruct (Hcl _ _ Ha E) as [Hng _]; [tauto|].
      destruct Hg as (t & [= <-] & Ht). congruence.
    + split_and!; [constructor|by rewrite Hs|done].
  - destruct (c !! i) eqn:E.
    + exists i, a, 0, (s1 :: dest s1 op :: ss), (op :: os), (cost s1 op + k).
      split_and!; [eauto|done| |lia|lia|done|done]. split_and!; [by constructor|by rewrite Hs|done].
    + destruct (Hcl _ _ Ha E) as [_ Hcov]; [tauto|]. rewrite Hs in Hcov.
      destruct (Hcov op Hop) as (j & b & Hb & Hsb & Hgb).
      destruct (IH j b (dest s1 op)) as (j' & b' & k1 & ss2 & os2 & k2 & H1 & H2 & H3 & H4 & H5 & H6 & H7);
        [done|done|done|congruence|].
      exists j', b', (cost s1 op + k1), ss2, os2, k2. specialize (Hgb eq_refl). rewrite Hs in Hgb.
      split_and!; [done..|lia|lia| |]; by apply suffix_cons_r.
Qed.

Lemma frontier_solution_suffix s c ss os k :
  good s c → solution s0 ss os k →
  ∃ j b k1 ss2 os2 k2, c !! j = Some (n_key D b) ∧ nodes D o s !! j = Some b ∧
    n_p D b = pr_new (n_g D b) (n_state D b) ∧ 0 ≤ n_g D b ∧
    solution (n_state D b) ss2 os2 k2 ∧ k = k1 + k2 ∧ n_g D b ≤ k1 ∧
    ss2 `suffix_of` ss ∧ os2 `suffix_of` os.
Proof.
  intros (_ & Hinv & Hcl) (Hw & Hh & Hg).
  destruct (i_root _ _ _ _ _ Hinv) as (a & Ha & Hp).
  destruct (i_noroot _ _ _ _ _ Hinv _ _ Ha Hp) as (_ & Hs & Hg0 & _).
  destruct (frontier_suffix _ _ _ _ _ _ _ _ Hinv Hcl Hw Hh Hg Ha Hs)
    as (j & b & k1 & ss2 & os2 & k2 & [x Hx] & Hb & Hsol & Hk & Hgb & Hsuf & Hsuf').
  destruct (i_open _ _ _ _ _ Hinv _ _ Hx) as (b' & Hb' & ->). simplify_eq.
  destruct (i_pr _ _ _ _ _ Hinv _ _ Hb) as [Hpr Hg1].
  exists j, b, k1, ss2, os2, k2. split_and!; try done. lia.
Qed.

(** A node of cost g is at most g operators away if every operator costs at least 1. *)
Lemma node_ball ns c n (pn : node D (P:=P)) G :
  (∀ s (o : Op D), o ∈ ops s → 1 ≤ cost s o) → inv D pr_new s0 ns c → ns !! n = Some pn → n_g D pn ≤ G →
  n_state D pn ∈ ball D s0 (Z.to_nat G).
Proof.
  intros H1 Hinv Hn Hg. destruct (i_chain _ _ _ _ _ Hinv _ _ Hn) as [l Hl].
  destruct (chain_solpath D pr_new pr_upd false o lim lt okk OK OL okk_new upd_new s0 _ _ _ _ (length l) _ Hinv Hl Hn (le_n _)) as (path & os & k & _ & Hw & Hh & Hla & Hk).
  eapply ball_mono; [|by eapply ball_walk]. pose proof (walk_ones _ _ _ _ H1 Hw). lia.
Qed.

(** The search ends if what it expands has its kids in the list [U]. *)
Context (U : list (St D)).
Context (HU0 : s0 ∈ U).
Context (HU : ∀ s c n pn, good s c → nodes D o s !! n = Some pn → c !! n = Some (n_key D pn) →
  (∀ m k, c !! m = Some k → lt k (n_key D pn) = false) → ∀ op, op ∈ ops (n_state D pn) → dest (n_state D pn) op ∈ U).

Lemma kids_within n pn ns c ns' c' :
  kids D pr_new false n pn ns c ns' c' → (∀ op, op ∈ ops (n_state D pn) → dest (n_state D pn) op ∈ U) →
  (∀ a : node D (P:=P), a ∈ ns → n_state D a ∈ U) → ∀ a, a ∈ ns' → n_state D a ∈ U.
Proof.
  intros Hk Hd. induction Hk as [|ns c op ns1 c1 ns2 c2 Hop Hkid Hk IH]; intros Hns; [done|]. apply IH.
  destruct Hkid as [d dn Hdn Hs Hg|d dn g p Hdn Hs _ Hg Hlt Hp|g p Hfresh Hg Hp].
  - done.
  - intros a Ha. apply elem_of_list_lookup in Ha as [j Hj]. destruct (decide (j = d)) as [->|Hne].
    + rewrite list_lookup_insert in Hj by (by eapply lookup_lt_Some). injection Hj as <-. cbn [n_state].
      apply Hns. by eapply elem_of_list_lookup_2.
    + rewrite list_lookup_insert_ne in Hj by done. apply Hns. by eapply elem_of_list_lookup_2.
  - intros a [Ha|Ha%elem_of_list_singleton]%elem_of_app; [by apply Hns|]. subst a. cbn [n_state]. by apply Hd.
Qed.

Lemma nodes_within ns c : inv D pr_new s0 ns c → (∀ a : node D (P:=P), a ∈ ns → n_state D a ∈ U) → (length ns ≤ length U)%nat.
Proof.
  intros Hinv Hns. rewrite <-(fmap_length (n_state D)). apply submseteq_length.
  apply NoDup_submseteq.
  - apply NoDup_alt. intros i j t Hi Hj. rewrite list_lookup_fmap in Hi, Hj.
    apply fmap_Some in Hi as (a & Ha & ->). apply fmap_Some in Hj as (b & Hb & Hst).
    by eapply (i_inj _ _ _ _ _ Hinv).
  - intros t (a & -> & Ha)%elem_of_list_fmap. by apply Hns.
Qed.

Lemma loop_ends_within (n1 n2 n3 : nat) : ∀ s c, good s c → (∀ a, a ∈ nodes D o s → n_state D a ∈ U) →
    n1 = (length U - length (nodes D o s))%nat → n2 = Z.to_nat (sumg D (nodes D o s)) → n3 = size c →
  ∃ r, ends (λ n, loop D pr_new pr_upd false o lim n s) r.
Proof.
  revert n2 n3. induction n1 as [n1 IH1] using lt_wf_ind.
  induction n2 as [n2 IH2] using lt_wf_ind. induction n3 as [n3 IH3] using lt_wf_ind.
  intros s c Hgood Hin -> -> ->.
  destruct (step_round D pr_new pr_upd false o lim lt okk OK OL okk_new upd_new s0 _ _ Hgood) as (r & Hs & Hround).
  assert (∀ s', r = inl s' → (∃ r', ends (λ n, loop D pr_new pr_upd false o lim n s') r') →
    ∃ r', ends (λ n, loop D pr_new pr_upd false o lim n s) r') as Hgo.
  { intros s' -> [r' [k Hk]]. exists r', (S k). intros n Hn. destruct n as [|n]; [lia|].
    simpl. rewrite Hs. cbn [mbind option_bind]. apply Hk. lia. }
  assert (∀ out, r = inr out → ∃ r', ends (λ n, loop D pr_new pr_upd false o lim n s) r') as Hstop.
  { intros out ->. exists (out, s), 1%nat. intros n Hn. destruct n as [|n]; [lia|].
    simpl. rewrite Hs. done. }
  destruct Hround as [?|n pn path os k ? ? ? ? ? ? ? ?
    |n pn s' c' Hlim Hn Hc Hmin Hng Hgood' Hext Hprog He Hge _ _ _ Hkids]; [by eapply Hstop..|].
  eapply Hgo; [done|].
  assert (∀ a, a ∈ nodes D o s' → n_state D a ∈ U) as Hin'.
  { eapply kids_within; [exact Hkids| |done]. eapply HU; [exact Hgood|done|done|done]. }
  pose proof Hgood as (_ & Hinv & _). pose proof Hgood' as (_ & Hinv' & _).
  pose proof (nodes_within _ _ Hinv Hin) as Hb. pose proof (nodes_within _ _ Hinv' Hin') as Hb'.
  pose proof (sumg_nonneg D pr_new pr_upd false o lim lt okk OK OL okk_new upd_new s0 _ _ Hinv).
  pose proof (sumg_nonneg D pr_new pr_upd false o lim lt okk OK OL okk_new upd_new s0 _ _ Hinv').
  destruct Hprog as [[Hns ->]|[Hlen|[Hlen Hsum]]].
  - eapply (IH3 (size (delete n c))); [|exact Hgood'|done|by rewrite Hns|by rewrite Hns|done].
    assert (size c = S (size (delete n c))) as ->; [|lia].
    rewrite <-(insert_delete _ _ _ Hc) at 1. apply map_size_insert_None, lookup_delete.
  - eapply IH1; [|exact Hgood'|done|done|done|done]. lia.
  - eapply (IH2 (Z.to_nat (sumg D (nodes D o s')))); [lia|exact Hgood'|done|lia|done|done].
Qed.

Lemma search_ends_within : ∃ r, ends (search D pr_new pr_upd false o lim s0) r.
Proof.
  destruct (init_good D pr_new pr_upd false o lim lt okk OK OL okk_new upd_new s0) as (s & Hi & Hgood & _ & _ & Hns).
  edestruct loop_ends_within as [r Hr]; [exact Hgood| |reflexivity|reflexivity|reflexivity|].
  { rewrite Hns. intros a ->%elem_of_list_singleton. done. }
  exists r. eapply ends_ext; [|exact Hr]. intros n. unfold search. by rewrite Hi.
Qed.
End along.


(** ** A-star *)

(** What A-star reports costs no more than any solution along which [h] is a lower bound, wherever else it is not. *)
Theorem C83_astar_optimal_along D (h : St D → Z) o lim :
  domain_ok D → ol_ok astar_lt nonneg_key o → (∀ s, 0 ≤ h s) →
  ∀ s0 fuel path os s', astar D h o lim s0 fuel = Some (Some (path, os), s') →
  ∃ k, solution s0 (reverse path) (reverse os) k ∧
    ∀ ss' os' k', solution s0 ss' os' k' → lower h ss' os' → k ≤ k'.
Proof.
  intros OK OL Hh s0 fuel path os s' Hs.
  destruct (search_end_exact D (astar_new h) astar_upd false o lim astar_lt nonneg_key OK OL (astar_okk h Hh) (astar_upd_new h) s0
    astar_lt_sw (astar_lt_drop h) eq_refl _ _ _ _ Hs)
    as (c & n & pn & Hgood & Hn & Hc & Hmin & Hsol & Hl).
  exists (n_g D pn). split; [done|]. intros ss' os' k' Hsol' Hlow.
  destruct (frontier_solution_suffix D (astar_new h) astar_upd o astar_lt nonneg_key OL (astar_okk h Hh) (astar_upd_new h) s0 _ _ _ _ _ Hgood Hsol')
    as (j & b & k1 & ss2 & os2 & k2 & Hj & Hb & Hpr & _ & Hs2 & -> & Hk1 & Hsuf & Hsuf').
  specialize (Hmin _ _ Hj). pose proof (Hlow _ _ _ _ Hsuf Hsuf' Hs2) as Hhb.
  pose proof Hgood as (_ & Hinv & _).
  destruct (i_pr _ _ _ _ _ Hinv _ _ Hn) as [Hpn _].
  unfold n_key in Hmin. rewrite astar_lt_false, Hpr, Hpn in Hmin. unfold astar_new in Hmin.
  specialize (Hh (n_state D pn)). lia.
Qed.

(** If every operator costs at least 1 and there is such a solution, A-star finds a solution, although infinitely many
    states may be reachable. *)
Theorem C83_astar_infinite_space D (h : St D → Z) o :
  domain_ok D → ol_ok astar_lt nonneg_key o → (∀ s, 0 ≤ h s) → (∀ s (op : Op D), op ∈ ops s → 1 ≤ cost s op) →
  ∀ s0 ss os k, solution s0 ss os k → lower h ss os →
  ∃ path os' s' k', ends (astar D h o no_limits s0) (Some (path, os'), s') ∧
    solution s0 (reverse path) (reverse os') k' ∧ k' ≤ k.
Proof.
  intros OK OL Hh H1 s0 ss os k Hsol Hlow.
  destruct (search_ends_within D (astar_new h) astar_upd o no_limits astar_lt nonneg_key OK OL (astar_okk h Hh) (astar_upd_new h) s0
    (ball D s0 (S (Z.to_nat k)))) as [[out s'] Hends].
  - apply (ball_mono _ _ _ 0); [lia|]. by apply elem_of_list_singleton.
  - intros s c n pn Hgood Hn Hc Hmin op Hop. pose proof Hgood as (_ & Hinv & _).
    apply ball_step; [|done].
    eapply (node_ball D (astar_new h) astar_upd o no_limits astar_lt nonneg_key OK OL (astar_okk h Hh) (astar_upd_new h) s0); [done|done|done|].
    destruct (frontier_solution_suffix D (astar_new h) astar_upd o astar_lt nonneg_key OL (astar_okk h Hh) (astar_upd_new h) s0 _ _ _ _ _ Hgood Hsol)
      as (j & b & k1 & ss2 & os2 & k2 & Hj & Hb & Hpr & _ & Hs2 & -> & Hk1 & Hsuf & Hsuf').
    specialize (Hmin _ _ Hj). pose proof (Hlow _ _ _ _ Hsuf Hsuf' Hs2) as Hhb.
    destruct (i_pr _ _ _ _ _ Hinv _ _ Hn) as [Hpn _].
    unfold n_key in Hmin. rewrite astar_lt_false, Hpr, Hpn in Hmin. unfold astar_new in Hmin.
    specialize (Hh (n_state D pn)). lia.
  - pose proof Hends as [n Hn]. specialize (Hn n (le_n _)). destruct out as [[path os']|].
    + destruct (C83_astar_optimal_along D h o no_limits OK OL Hh s0 n path os' s' Hn) as (k' & Hs & Hmin).
      exists path, os', s', k'. split_and!; [done|done|]. by eapply Hmin.
    + destruct (C36_astar_complete D h o OK OL Hh s0 n s' Hn ss os k Hsol).
Qed.

(** A-star reports that there is no solution only if finitely many states are reachable... *)
Theorem C83_astar_none_finite D (h : St D → Z) o :
  domain_ok D → ol_ok astar_lt nonneg_key o → (∀ s, 0 ≤ h s) →
  ∀ s0 fuel s', astar D h o no_limits s0 fuel = Some (None, s') → finite_space s0.
Proof.
  intros OK OL Hh s0 fuel s' Hs.
  destruct (search_end D (astar_new h) astar_upd false o no_limits astar_lt nonneg_key OK OL (astar_okk h Hh) (astar_upd_new h) s0 _ _ _ Hs)
    as (c & (_ & Hinv & Hcl) & Hround).
  inversion Hround as [[->|Hlim]| |]; [|done]. apply (closed_finite (n_state D <$> nodes D o s')).
  - destruct (i_root _ _ _ _ _ Hinv) as (a & Ha & Hp). destruct (i_noroot _ _ _ _ _ Hinv _ _ Ha Hp) as (_ & Hs0 & _).
    rewrite <-Hs0. apply elem_of_list_fmap_1. by eapply elem_of_list_lookup_2.
  - intros t op (a & -> & [i Ha]%elem_of_list_lookup)%elem_of_list_fmap Hop.
    destruct (Hcl _ _ Ha (lookup_empty _)) as [_ Hcov]; [tauto|]. destruct (Hcov op Hop) as (j & b & Hb & Hsb & _).
    rewrite <-Hsb. apply elem_of_list_fmap_1. by eapply elem_of_list_lookup_2.
Qed.
(** ... so on an infinite space without a solution it runs for ever. *)
Corollary C83_astar_unsolvable_never_ends D (h : St D → Z) o :
  domain_ok D → ol_ok astar_lt nonneg_key o → (∀ s, 0 ≤ h s) →
  ∀ s0, ¬ finite_space s0 → (∀ ss os k, ¬ solution s0 ss os k) → ∀ fuel, astar D h o no_limits s0 fuel = None.
Proof.
  intros OK OL Hh s0 Hinf Hno fuel. destruct (astar D h o no_limits s0 fuel) as [[[[path os]|] s']|] eqn:Hs; [exfalso..|done].
  - destruct (C83_astar_optimal_along D h o no_limits OK OL Hh _ _ _ _ _ Hs) as (k & Hsol & _). by eapply Hno.
  - by eapply Hinf, C83_astar_none_finite.
Qed.

(** ** Weighted A-star *)
Theorem C83_wastar_bounded_along D wn wd (h : St D → Z) o lim :
  domain_ok D → ol_ok wastar_lt (λ _, True) o → (∀ s, 0 ≤ h s) → 0 < wd ≤ wn →
  ∀ s0 fuel path os s', wastar D wn wd h false o lim s0 fuel = Some (Some (path, os), s') →
  ∃ k, solution s0 (reverse path) (reverse os) k ∧
    ∀ ss' os' k', solution s0 ss' os' k' → lower h ss' os' → wd * k ≤ wn * k'.
Proof.
  intros OK OL Hh Hw s0 fuel path os s' Hs.
  destruct (search_end_exact D (wastar_new wn wd h) (wastar_upd wd) false o lim wastar_lt _ OK OL
    (λ _ _ _, I) (wastar_upd_new wn wd h) s0 wastar_lt_sw
    (λ g g' s, wastar_lt_drop wn wd h g g' s (proj1 Hw)) eq_refl _ _ _ _ Hs)
    as (c & n & pn & Hgood & Hn & Hc & Hmin & Hsol & Hl).
  exists (n_g D pn). split; [done|]. intros ss' os' k' Hsol' Hlow.
  destruct (frontier_solution_suffix D (wastar_new wn wd h) (wastar_upd wd) o wastar_lt _ OL (λ _ _ _, I) (wastar_upd_new wn wd h) s0 _ _ _ _ _ Hgood Hsol')
    as (j & b & k1 & ss2 & os2 & k2 & Hj & Hb & Hpr & Hgb & Hs2 & -> & Hk1 & Hsuf & Hsuf').
  specialize (Hmin _ _ Hj). pose proof (Hlow _ _ _ _ Hsuf Hsuf' Hs2) as Hhb.
  pose proof Hgood as (_ & Hinv & _).
  destruct (i_pr _ _ _ _ _ Hinv _ _ Hn) as [Hpn _].
  unfold n_key in Hmin. rewrite Hpr, Hpn in Hmin. unfold wastar_new in Hmin.
  apply wastar_lt_false in Hmin. pose proof (Hh (n_state D pn)). pose proof (Hh (n_state D b)).
  assert (wd * n_g D pn + wn * h (n_state D pn) ≤ wd * n_g D b + wn * h (n_state D b)) by lia.
  nia.
Qed.

Theorem C83_wastar_infinite_space D wn wd (h : St D → Z) o :
  domain_ok D → ol_ok wastar_lt (λ _, True) o → (∀ s, 0 ≤ h s) → 0 < wd ≤ wn → (∀ s (op : Op D), op ∈ ops s → 1 ≤ cost s op) →
  ∀ s0 ss os k, solution s0 ss os k → lower h ss os →
  ∃ path os' s' k', ends (wastar D wn wd h false o no_limits s0) (Some (path, os'), s') ∧
    solution s0 (reverse path) (reverse os') k' ∧ wd * k' ≤ wn * k.
Proof.
  intros OK OL Hh Hw H1 s0 ss os k Hsol Hlow.
  destruct (search_ends_within D (wastar_new wn wd h) (wastar_upd wd) o no_limits wastar_lt _ OK OL (λ _ _ _, I) (wastar_upd_new wn wd h) s0
    (ball D s0 (S (Z.to_nat (wn * k))))) as [[out s'] Hends].
  - apply (ball_mono _ _ _ 0); [lia|]. by apply elem_of_list_singleton.
  - intros s c n pn Hgood Hn Hc Hmin op Hop. pose proof Hgood as (_ & Hinv & _).
    apply ball_step; [|done].
    eapply (node_ball D (wastar_new wn wd h) (wastar_upd wd) o no_limits wastar_lt _ OK OL (λ _ _ _, I) (wastar_upd_new wn wd h) s0); [done|done|done|].
    destruct (frontier_solution_suffix D (wastar_new wn wd h) (wastar_upd wd) o wastar_lt _ OL (λ _ _ _, I) (wastar_upd_new wn wd h) s0 _ _ _ _ _ Hgood Hsol)
      as (j & b & k1 & ss2 & os2 & k2 & Hj & Hb & Hpr & Hgb & Hs2 & -> & Hk1 & Hsuf & Hsuf').
    specialize (Hmin _ _ Hj). pose proof (Hlow _ _ _ _ Hsuf Hsuf' Hs2) as Hhb.
    destruct (i_pr _ _ _ _ _ Hinv _ _ Hn) as [Hpn Hg0].
    unfold n_key in Hmin. rewrite Hpr, Hpn in Hmin. unfold wastar_new in Hmin.
    apply wastar_lt_false in Hmin. pose proof (Hh (n_state D pn)). pose proof (Hh (n_state D b)).
    assert (wd * n_g D pn + wn * h (n_state D pn) ≤ wd * n_g D b + wn * h (n_state D b)) by lia.
    nia.
  - pose proof Hends as [n Hn]. specialize (Hn n (le_n _)). destruct out as [[path os']|].
    + destruct (C83_wastar_bounded_along D wn wd h o no_limits OK OL Hh Hw s0 n path os' s' Hn) as (k' & Hs & Hmin).
      exists path, os', s', k'. split_and!; [done|done|]. by eapply Hmin.
    + pose proof (C39_wastar_sound_complete D wn wd h false o no_limits OK OL s0 n None s' Hn eq_refl ss os k Hsol). done.
Qed.

(** ** An infinite space *)
(** The natural numbers from 0 on: operator [false] leads from 0 to the goal 1, [true] to 2, and on from there. *)
Definition ray : domain := {|
  St := nat; Op := option bool; St_eq := _; Op_eq := _; nop := None;
  ops n := match n with 0%nat => [Some false; Some true] | 1%nat => [] | _ => [Some true] end;
  edge n o := match n, o with
              | 0%nat, Some false => (1%nat, 5, None)
              | 0%nat, _ => (2%nat, 1, None)
              | _, _ => (S n, 1, None)
              end;
  isgoal n := (n =? 1)%nat |}.
(** Greedy search is drawn along the ray. *)
Definition ray_h (n : nat) : Z := if (n =? 1)%nat then 3 else 0.

Lemma ray_ok : domain_ok ray.
Proof.
  split.
  - intros s op Hop. unfold cost. cbn. destruct s as [|[|s]]; [destruct op as [[]|]|..]; done.
  - intros s op Hop Hrev. exfalso. unfold revop, dest in Hrev. cbn in Hrev.
    assert ((edge (d:=ray) s op).2 = None) as E by (cbn; destruct s as [|[|s]]; [destruct op as [[]|]|..]; done).
    cbn in E. rewrite E in Hrev. destruct (match s with 0%nat => _ | _ => _ end) as [[n ?] ?]. cbn in Hrev.
    destruct n as [|[|n]]; rewrite ?elem_of_cons, ?elem_of_nil in Hrev; naive_solver.
  - intros s Hin. cbn in Hin. destruct s as [|[|s]]; rewrite ?elem_of_cons, ?elem_of_nil in Hin; naive_solver.
Qed.
Lemma ray_one s (op : Op ray) : op ∈ ops s → 1 ≤ cost s op.
Proof. intros _. unfold cost. cbn. destruct s as [|[|s]]; [destruct op as [[]|]|..]; cbn; lia. Qed.
Lemma ray_solution : solution (D:=ray) 0%nat [0%nat; 1%nat] [Some false] 5.
Proof. split; [|split; [done|by exists 1%nat]]. apply (walk_step ray 0%nat (Some false) [] [] 0); [cbn; left|constructor]. Qed.
Lemma ray_lower : lower (D:=ray) (λ n, if (n =? 1)%nat then 0 else 5) [0%nat; 1%nat] [Some false].
Proof.
  intros t ss2 os2 k2 Hsuf Hsuf' (Hw & Hh & Hg). destruct (decide (t = 1%nat)) as [->|Hne].
  { cbn. by apply (walk_nonneg ray _ _ _ ray_ok) in Hw. }
  replace (t =? 1)%nat with false by (symmetry; by apply Nat.eqb_neq).
  inversion Hw as [s|s op ss os k Hop Hw']; subst.
  - destruct Hg as (t' & [= <-] & Hg). injection Hh as ->. cbn in Hg. by apply Nat.eqb_eq in Hg.
  - destruct Hsuf' as [l Hl]. destruct l as [|? l]; [|by destruct l]. injection Hl as <- <-.
    pose proof (walk_nonneg ray _ _ _ ray_ok Hw'). injection Hh as ->.
    destruct t as [|[|t]]; [cbn in *; lia|done|]. cbn in Hop. apply elem_of_list_singleton in Hop. done.
Qed.

(** Infinitely many states can be reached, A-star finds the goal, greedy search never ends. *)
Lemma ray_reachable n : reachable (D:=ray) 0%nat (S (S n)).
Proof.
  induction n as [|n IH].
  - apply (reachable_step ray _ 0%nat (Some true)); [apply reachable_refl|cbn; right; left].
  - apply (reachable_step ray _ (S (S n)) (Some true)); [done|cbn; left].
Qed.
Example ray_astar : ¬ finite_space (D:=ray) 0%nat ∧
  ∃ path os s' k, ends (astar ray (λ n, if (n =? 1)%nat then 0 else 5) (heap_ol astar_lt (0, 0)) no_limits 0%nat) (Some (path, os), s') ∧
    solution (D:=ray) 0%nat (reverse path) (reverse os) k ∧ k ≤ 5.
Proof.
  split.
  - intros [V HV]. assert (∀ n : nat, S (S n) ∈ V) as H by (intros n; apply HV, ray_reachable).
    assert (∀ m, (∀ n, n ∈ V → (n ≤ m)%nat) → False) as Hm by (intros m Hm; specialize (Hm _ (H m)); lia).
    clear HV H. apply (Hm (foldr max 0%nat V)). intros n Hn. clear Hm. induction V as [|v V IH]; [by apply elem_of_nil in Hn|].
    apply elem_of_cons in Hn as [->|Hn]; simpl; [lia|]. specialize (IH Hn). lia.
  - eapply C83_astar_infinite_space; [apply ray_ok|apply astar_heap_ok| |apply ray_one|apply ray_solution|apply ray_lower].
    intros s. destruct (s =? 1)%nat; lia.
Qed.

Theorem C83_greedy_diverges_refuted o :
  ol_ok greedy_lt nonneg_key o → ∀ fuel, greedy ray ray_h false o no_limits 0%nat fuel = None.
Proof.
  intros OL fuel. destruct (greedy ray ray_h false o no_limits 0%nat fuel) as [[out s']|] eqn:Hs; [exfalso|done].
  assert (∀ s, 0 ≤ ray_h s) as Hh. { intros s. unfold ray_h. destruct (s =? 1)%nat; lia. }
  destruct (search_end ray (greedy_new (D:=ray) ray_h) greedy_upd false o no_limits greedy_lt nonneg_key ray_ok OL
    (greedy_okk (D:=ray) ray_h Hh) (λ _ _ _, eq_refl) 0%nat _ _ _ Hs) as (c & Hgood & Hround).
  pose proof Hgood as (_ & Hinv & Hcl).
  assert (∃ j b, c !! j = Some (n_key ray b) ∧ nodes ray o s' !! j = Some b ∧ n_state ray b ≠ 1%nat) as (j & b & Hj & Hb & Hb1).
  { destruct (i_root _ _ _ _ _ Hinv) as (a & Ha & Hp). destruct (i_noroot _ _ _ _ _ Hinv _ _ Ha Hp) as (_ & Hs0 & _).
    assert (∀ m i a, nodes ray o s' !! i = Some a → n_state ray a ≠ 1%nat → (foldr max 0%nat (n_state ray <$> nodes ray o s') - n_state ray a ≤ m)%nat →
      ∃ j b, c !! j = Some (n_key ray b) ∧ nodes ray o s' !! j = Some b ∧ n_state ray b ≠ 1%nat) as Hex.
    { assert (∀ i a, nodes ray o s' !! i = Some a → (n_state ray a ≤ foldr max 0%nat (n_state ray <$> nodes ray o s'))%nat) as Hmax.
      { intros i a' Ha'. apply elem_of_list_lookup_2 in Ha'. clear -Ha'. induction (nodes ray o s') as [|x l IH]; [by apply elem_of_nil in Ha'|].
        apply elem_of_cons in Ha' as [->|Ha']; cbn [fmap list_fmap foldr]; [lia|]. etransitivity; [exact (IH Ha')|]. apply Nat.le_max_r. }
      induction m as [|m IH]; intros i a' Ha' Hne Hm; destruct (c !! i) as [k'|] eqn:E.
      1,3: destruct (i_open _ _ _ _ _ Hinv _ _ E) as (b' & Hb' & ->); rewrite Ha' in Hb'; injection Hb' as <-; by exists i, a'.
      all: destruct (Hcl _ _ Ha' E) as [_ Hcov]; [tauto|]; destruct (Hcov (Some true)) as (j & b' & Hb' & Hst & _);
        [cbn; destruct (n_state ray a') as [|[|]]; [right; left|done|left]|].
      all: assert (n_state ray a' < n_state ray b' ∧ n_state ray b' ≠ 1)%nat as [Hlt Hne'] by (rewrite Hst; unfold dest; cbn; destruct (n_state ray a') as [|[|]]; cbn; lia).
      all: pose proof (Hmax _ _ Hb').
      - lia.
      - eapply (IH j b'); [done|done|lia]. }
    exact (Hex _ 0%nat a Ha ltac:(congruence) (le_n _)). }
  inversion Hround as [[->|Hlim]|n pn path os k Hlim Hn Hc Hmin Hgl|]; subst; [|done|].
  - by rewrite lookup_empty in Hj.
  - destruct (i_pr _ _ _ _ _ Hinv _ _ Hn) as [Hpn _]. destruct (i_pr _ _ _ _ _ Hinv _ _ Hb) as [Hpb _].
    specialize (Hmin _ _ Hj). unfold n_key, greedy_lt in Hmin. cbn [fst] in Hmin. rewrite Hpn, Hpb in Hmin. unfold greedy_new in Hmin.
    cbn in Hgl. apply Nat.eqb_eq in Hgl. rewrite Hgl in Hmin. apply bool_decide_eq_false in Hmin.
    unfold ray_h in Hmin. replace (n_state ray b =? 1)%nat with false in Hmin by (symmetry; by apply Nat.eqb_neq).
    cbn in Hmin. lia.
Qed.

Print Assumptions C83_astar_optimal_along.
Print Assumptions C83_astar_infinite_space.
Print Assumptions C83_wastar_bounded_along.
Print Assumptions C83_wastar_infinite_space.
Print Assumptions C83_greedy_diverges_refuted.
Print Assumptions C83_astar_none_finite.
Print Assumptions C83_astar_unsolvable_never_ends.
