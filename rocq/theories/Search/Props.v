(** A-star, weighted A-star and greedy search: C34-C40. *)
From stdpp Require Import prelude gmap.
From Coq Require Import ZArith Lia ZifyBool ZifyNat.
From Verif Require Import Common.Orders Common.Fuel Search.Model Search.Proofs.
Local Open Scope Z_scope.

(** ** The open lists *)

Definition nonneg_key (k : Z * Z) : Prop := 0 ≤ k.1 ∧ 0 ≤ k.2.

Lemma ol_weaken {K} (lt lt' : K → K → bool) (okk okk' : K → Prop) o :
  (∀ a b, lt' a b = true → lt a b = true) → (∀ k, okk' k → okk k) →
  ol_ok lt okk o → ol_ok lt' okk' o.
Proof.
  intros Hlt Hok [R H1 H2 H3 H4 H5 H6].
  refine (OlOk _ lt' okk' o R H1 _ _ _ H5 H6); [by eauto| |by eauto].
  intros s c Hr Hne. destruct (H3 s c Hr Hne) as (s' & n & k & E1 & E2 & E3 & E4).
  exists s', n, k. split_and!; try done. intros m k' Hm. specialize (E3 m k' Hm).
  destruct (lt' k' k) eqn:E; [|done]. apply Hlt in E. congruence.
Qed.

(** A transitive, irreflexive comparison that tells apart any two keys. *)
Lemma total_sw {K} (lt : K → K → bool) :
  (∀ a, lt a a = false) → (∀ a b c, lt a b = true → lt b c = true → lt a c = true) →
  (∀ a b, lt a b = false → lt b a = false → a = b) → strict_weak lt.
Proof.
  intros H1 H2 H3. split; [done|done|]. intros a b c Hab Hba Hbc Hcb.
  rewrite (H3 a b), (H3 b c) by done. done.
Qed.

Lemma astar_lt_true f g f' g' :
  astar_lt (f, g) (f', g') = true ↔ f < f' ∨ f = f' ∧ g' < g.
Proof. unfold astar_lt. simpl. case_decide; rewrite bool_decide_eq_true; lia. Qed.

Lemma astar_lt_false f g f' g' :
  astar_lt (f, g) (f', g') = false ↔ f' < f ∨ f = f' ∧ g ≤ g'.
Proof. unfold astar_lt. simpl. case_decide; rewrite bool_decide_eq_false; lia. Qed.

Lemma astar_lt_sw : strict_weak astar_lt.
Proof.
  apply total_sw.
  - intros [f g]. apply astar_lt_false. lia.
  - intros [f g] [f' g'] [f'' g'']. rewrite !astar_lt_true. lia.
  - intros [f g] [f' g']. rewrite !astar_lt_false. intros. f_equal; lia.
Qed.

Lemma wastar_lt_true e f g e' f' g' :
  wastar_lt (e, f, g) (e', f', g') = true ↔ e < e' ∨ e = e' ∧ (f < f' ∨ f = f' ∧ g' < g).
Proof. unfold wastar_lt. simpl. repeat case_decide; rewrite bool_decide_eq_true; lia. Qed.

Lemma wastar_lt_false e f g e' f' g' :
  wastar_lt (e, f, g) (e', f', g') = false ↔ e' < e ∨ e = e' ∧ (f' < f ∨ f = f' ∧ g ≤ g').
Proof. unfold wastar_lt. simpl. repeat case_decide; rewrite bool_decide_eq_false; lia. Qed.

Lemma wastar_lt_sw : strict_weak wastar_lt.
Proof.
  apply total_sw.
  - intros [[e f] g]. apply wastar_lt_false. lia.
  - intros [[e f] g] [[e' f'] g'] [[e'' f''] g'']. rewrite !wastar_lt_true. lia.
  - intros [[e f] g] [[e' f'] g']. rewrite !wastar_lt_false. intros.
    assert (e = e') as -> by lia. assert (f = f') as -> by lia. f_equal. lia.
Qed.

Lemma greedy_lt_sw : strict_weak greedy_lt.
Proof.
  unfold greedy_lt. split.
  - intros [f g]. simpl. apply bool_decide_eq_false. lia.
  - intros [f g] [f' g'] [f'' g'']. simpl. rewrite !bool_decide_eq_true; lia.
  - intros [f g] [f' g'] [f'' g'']. simpl. rewrite !bool_decide_eq_false; lia.
Qed.

(** Both modelled open lists serve A-star and greedy search (the bucketed one
    when costs are ints); the heap serves weighted A-star.  The theorems below
    are about any open list with this contract. *)
Lemma astar_heap_ok : ol_ok astar_lt nonneg_key (heap_ol astar_lt (0, 0)).
Proof. eapply ol_weaken; [| |apply heap_ok, astar_lt_sw]; done. Qed.
Lemma astar_int_ok : ol_ok astar_lt nonneg_key int_ol.
Proof. exact int_ok. Qed.
Lemma greedy_heap_ok : ol_ok greedy_lt nonneg_key (heap_ol greedy_lt (0, 0)).
Proof. eapply ol_weaken; [| |apply heap_ok, greedy_lt_sw]; done. Qed.
Lemma greedy_int_ok : ol_ok greedy_lt nonneg_key int_ol.
Proof.
  eapply ol_weaken; [| |exact int_ok]; [|done].
  intros [a b] [c d]. unfold greedy_lt, int_lt. simpl. rewrite bool_decide_eq_true.
  intros. rewrite decide_False by lia. by apply bool_decide_eq_true.
Qed.
Lemma wastar_heap_ok : ol_ok wastar_lt (λ _, True) (heap_ol wastar_lt (0, 0, 0)).
Proof. apply heap_ok, wastar_lt_sw. Qed.

Lemma astar_okk {D} (h : St D → Z) :
  (∀ s, 0 ≤ h s) → ∀ g s, 0 ≤ g → nonneg_key (astar_new h g s, g).
Proof. intros Hh g s Hg. unfold nonneg_key, astar_new. simpl. specialize (Hh s). lia. Qed.
Lemma astar_upd_new {D} (h : St D → Z) g g' s : astar_upd (astar_new h g s) g g' = astar_new h g' s.
Proof. unfold astar_upd, astar_new. lia. Qed.
Lemma astar_lt_drop {D} (h : St D → Z) g g' (s : St D) :
  g' < g → astar_lt (astar_new h g' s, g') (astar_new h g s, g) = true.
Proof. unfold astar_new. intros. apply astar_lt_true. lia. Qed.

(** The states a running A-star search goes through. *)
Definition astar_running D (h : St D → Z) o lim := running D (astar_new h) astar_upd false o lim.

(** ** C34 *)

(** The reported states and operators, in reverse order, are a solution, and it
    costs exactly the g value of the goal's node. *)
Theorem C34_astar_solution_real D (h : St D → Z) o lim :
  domain_ok D → ol_ok astar_lt nonneg_key o → (∀ s, 0 ≤ h s) →
  ∀ s0 fuel path os s', astar D h o lim s0 fuel = Some (Some (path, os), s') →
  ∃ n, n ∈ nodes D o s' ∧ last (reverse path) = Some (n_state D n) ∧
    solution s0 (reverse path) (reverse os) (n_g D n).
Proof.
  intros OK OL Hh s0 fuel path os s' Hs.
  destruct (search_end_exact D (astar_new h) astar_upd false o lim astar_lt nonneg_key OK OL (astar_okk h Hh) (astar_upd_new h) s0
    astar_lt_sw (astar_lt_drop h) eq_refl _ _ _ _ Hs)
    as (c & n & pn & _ & Hn & _ & _ & Hsol & Hl).
  exists pn. split; [by eapply elem_of_list_lookup_2|done].
Qed.

(** No round of the search does anything undefined. *)
Theorem C34_astar_survives D (h : St D → Z) o lim :
  domain_ok D → ol_ok astar_lt nonneg_key o → (∀ s, 0 ≤ h s) →
  ∀ s0, is_Some (init D (astar_new h) o s0) ∧
    ∀ s, astar_running D h o lim s0 s → is_Some (step D (astar_new h) astar_upd false o lim s).
Proof.
  intros OK OL Hh s0. split.
  - destruct (init_good D (astar_new h) astar_upd false o lim astar_lt nonneg_key OK OL (astar_okk h Hh) (astar_upd_new h) s0) as (s & -> & _). eauto.
  - intros s Hr.
    destruct (running_good D (astar_new h) astar_upd false o lim astar_lt nonneg_key OK OL (astar_okk h Hh) (astar_upd_new h) s0 _ Hr)
      as [c Hg].
    destruct (step_round D (astar_new h) astar_upd false o lim astar_lt nonneg_key OK OL (astar_okk h Hh) (astar_upd_new h) s0 _ _ Hg)
      as (r & -> & _). eauto.
Qed.

(** ** C35 *)

(** With an admissible heuristic, consistent or not, no solution is cheaper. *)
Theorem C35_astar_optimal D (h : St D → Z) o lim :
  domain_ok D → ol_ok astar_lt nonneg_key o → (∀ s, 0 ≤ h s) → admissible h →
  ∀ s0 fuel path os s', astar D h o lim s0 fuel = Some (Some (path, os), s') →
  ∃ k, solution s0 (reverse path) (reverse os) k ∧
    ∀ ss' os' k', solution s0 ss' os' k' → k ≤ k'.
Proof.
  intros OK OL Hh Hadm s0 fuel path os s' Hs.
  destruct (search_end_exact D (astar_new h) astar_upd false o lim astar_lt nonneg_key OK OL (astar_okk h Hh) (astar_upd_new h) s0
    astar_lt_sw (astar_lt_drop h) eq_refl _ _ _ _ Hs)
    as (c & n & pn & Hgood & Hn & Hc & Hmin & Hsol & Hl).
  exists (n_g D pn). split; [done|]. intros ss' os' k' Hsol'.
  destruct (frontier_solution D (astar_new h) astar_upd false o lim astar_lt nonneg_key OK OL (astar_okk h Hh) (astar_upd_new h) s0
    _ _ _ _ _ Hgood Hsol')
    as (j & b & k1 & ss2 & os2 & k2 & Hj & Hb & Hpr & _ & Hs2 & -> & Hk1).
  specialize (Hk1 eq_refl). specialize (Hmin _ _ Hj). pose proof (Hadm _ _ _ _ Hs2) as Hhb.
  pose proof Hgood as (_ & Hinv & _).
  destruct (i_pr _ _ _ _ _ Hinv _ _ Hn) as [Hpn _].
  unfold n_key in Hmin. rewrite astar_lt_false, Hpr, Hpn in Hmin. unfold astar_new in Hmin.
  specialize (Hh (n_state D pn)). lia.
Qed.

(** ** C36 *)

(** When finitely many states are reachable the search ends, with or without limits. *)
Theorem C36_astar_terminates D (h : St D → Z) o lim :
  domain_ok D → ol_ok astar_lt nonneg_key o → (∀ s, 0 ≤ h s) →
  ∀ s0, finite_space s0 → ∃ r, ends (astar D h o lim s0) r.
Proof.
  intros OK OL Hh s0 Hf.
  apply (search_ends D (astar_new h) astar_upd false o lim astar_lt nonneg_key OK OL (astar_okk h Hh) (astar_upd_new h) s0 Hf).
Qed.

(** Without limits, reporting no solution means that there is none. *)
Theorem C36_astar_complete D (h : St D → Z) o :
  domain_ok D → ol_ok astar_lt nonneg_key o → (∀ s, 0 ≤ h s) →
  ∀ s0 fuel s', astar D h o no_limits s0 fuel = Some (None, s') →
  ∀ ss os k, ¬ solution s0 ss os k.
Proof.
  intros OK OL Hh s0 fuel s' Hs ss os k.
  destruct (search_end D (astar_new h) astar_upd false o no_limits astar_lt nonneg_key OK OL (astar_okk h Hh) (astar_upd_new h) s0 _ _ _ Hs)
    as (c & Hgood & Hround).
  inversion Hround as [[->|Hlim]| |]; [|done].
  apply (exhausted_unsolvable D (astar_new h) astar_upd false o no_limits astar_lt nonneg_key OK OL (astar_okk h Hh) (astar_upd_new h) s0 _ _ _ _ Hgood).
Qed.

(** Both together: on a finite solvable problem A-star reports a solution. *)
Corollary C36_astar_finds D (h : St D → Z) o :
  domain_ok D → ol_ok astar_lt nonneg_key o → (∀ s, 0 ≤ h s) →
  ∀ s0 ss os k, finite_space s0 → solution s0 ss os k →
  ∃ path os' s', ends (astar D h o no_limits s0) (Some (path, os'), s').
Proof.
  intros OK OL Hh s0 ss os k Hf Hsol.
  destruct (C36_astar_terminates D h o no_limits OK OL Hh s0 Hf) as [[out s'] Hends].
  destruct out as [[path os']|]; [by eauto|]. destruct Hends as [n Hn].
  destruct (C36_astar_complete D h o OK OL Hh s0 n s' (Hn n (le_n _)) ss os k Hsol).
Qed.

(** ** C37 *)

(** A search of this family, with whatever priorities and open list, makes at
    most as many expansions as its expansion limit; it makes none after the time
    flag is seen raised; and when its generation limit is reached it stops after
    the expansion under way, that is at most one branching factor later. *)
Theorem C37_limits_respected D {P} (pr_new : Z → St D → P) pr_upd dropdups o lim lt okk :
  domain_ok D → ol_ok lt okk o →
  (∀ g s, 0 ≤ g → okk (pr_new g s, g)) →
  (∀ g g' s, pr_upd (pr_new g s) g g' = pr_new g' s) →
  ∀ s0 b fuel out s', (∀ t, reachable s0 t → length (ops t) ≤ b)%nat →
  search D pr_new pr_upd dropdups o lim s0 fuel = Some (out, s') →
  ((0 < l_expd lim)%nat → (expd D o s' ≤ l_expd lim)%nat) ∧
  (∀ e, timeup lim e = true → (expd D o s' ≤ e)%nat) ∧
  ((0 < l_gend lim)%nat → (gend D o s' < l_gend lim + b)%nat).
Proof.
  intros OK OL Hk Hu s0 b fuel out s' Hb Hs.
  destruct (search_running D pr_new pr_upd dropdups o lim lt okk OK OL Hk Hu s0 _ _ _ Hs) as [Hr _].
  destruct (running_limits D pr_new pr_upd dropdups o lim lt okk OK OL Hk Hu s0 _ _ Hb Hr)
    as (H1 & H2 & H3).
  split_and!; [done|done|]. intros Hg. specialize (H3 Hg). lia.
Qed.

(** The same, for A-star. *)
Corollary C37_astar_limits D (h : St D → Z) o lim :
  domain_ok D → ol_ok astar_lt nonneg_key o → (∀ s, 0 ≤ h s) →
  ∀ s0 b fuel out s', (∀ t, reachable s0 t → length (ops t) ≤ b)%nat →
  astar D h o lim s0 fuel = Some (out, s') →
  ((0 < l_expd lim)%nat → (expd D o s' ≤ l_expd lim)%nat) ∧
  (∀ e, timeup lim e = true → (expd D o s' ≤ e)%nat) ∧
  ((0 < l_gend lim)%nat → (gend D o s' < l_gend lim + b)%nat).
Proof.
  intros OK OL Hh. apply (C37_limits_respected D _ _ _ _ _ _ _ OK OL (astar_okk h Hh) (astar_upd_new h)).
Qed.

(** ** C38 *)

(** Whenever A-star skips an operator at a node, the state that the operator
    leads to has a node, and its cost is at most what the operator would offer. *)
Theorem C38_pruned_operator_useless D (h : St D → Z) o lim :
  domain_ok D → ol_ok astar_lt nonneg_key o → (∀ s, 0 ≤ h s) →
  ∀ s0 s i n, astar_running D h o lim s0 s → nodes D o s !! i = Some n →
  n_pop D n ∈ ops (n_state D n) →
  ∃ m, m ∈ nodes D o s ∧ n_state D m = dest (n_state D n) (n_pop D n) ∧
    n_g D m ≤ n_g D n + cost (n_state D n) (n_pop D n).
Proof.
  intros OK OL Hh s0 s i n Hr Hn Hop.
  destruct (pruned_covered D (astar_new h) astar_upd false o lim astar_lt nonneg_key OK OL
    (astar_okk h Hh) (astar_upd_new h) s0 _ _ _ Hr Hn Hop) as (p & b & _ & Hb & Hst & Hg).
  exists b. split; [by eapply elem_of_list_lookup_2|done].
Qed.

(** ** C39 *)

Lemma wastar_upd_new {D} wn wd (h : St D → Z) g g' s :
  wastar_upd wd (wastar_new wn wd h g s) g g' = wastar_new wn wd h g' s.
Proof. unfold wastar_upd, wastar_new. simpl. f_equal; lia. Qed.

Lemma wastar_lt_drop {D} wn wd (h : St D → Z) g g' (s : St D) : 0 < wd →
  g' < g → wastar_lt (wastar_new wn wd h g' s, g') (wastar_new wn wd h g s, g) = true.
Proof. unfold wastar_new. intros. apply wastar_lt_true. left. nia. Qed.

(** With weight w = wn/wd at least 1, an admissible heuristic and without
    -dropdups, the reported solution costs at most w times any solution. *)
Theorem C39_wastar_bounded D wn wd (h : St D → Z) o lim :
  domain_ok D → ol_ok wastar_lt (λ _, True) o → (∀ s, 0 ≤ h s) → admissible h →
  0 < wd ≤ wn →
  ∀ s0 fuel path os s', wastar D wn wd h false o lim s0 fuel = Some (Some (path, os), s') →
  ∃ k, solution s0 (reverse path) (reverse os) k ∧
    ∀ ss' os' k', solution s0 ss' os' k' → wd * k ≤ wn * k'.
Proof.
  intros OK OL Hh Hadm Hw s0 fuel path os s' Hs.
  destruct (search_end_exact D (wastar_new wn wd h) (wastar_upd wd) false o lim wastar_lt _ OK OL
    (λ _ _ _, I) (wastar_upd_new wn wd h) s0 wastar_lt_sw
    (λ g g' s, wastar_lt_drop wn wd h g g' s (proj1 Hw)) eq_refl _ _ _ _ Hs)
    as (c & n & pn & Hgood & Hn & Hc & Hmin & Hsol & Hl).
  exists (n_g D pn). split; [done|]. intros ss' os' k' Hsol'.
  destruct (frontier_solution D (wastar_new wn wd h) (wastar_upd wd) false o lim wastar_lt _ OK OL
    (λ _ _ _, I) (wastar_upd_new wn wd h) s0 _ _ _ _ _ Hgood Hsol')
    as (j & b & k1 & ss2 & os2 & k2 & Hj & Hb & Hpr & Hgb & Hs2 & -> & Hk1).
  specialize (Hk1 eq_refl). specialize (Hmin _ _ Hj). pose proof (Hadm _ _ _ _ Hs2) as Hhb.
  pose proof Hgood as (_ & Hinv & _).
  destruct (i_pr _ _ _ _ _ Hinv _ _ Hn) as [Hpn _].
  unfold n_key in Hmin. rewrite Hpr, Hpn in Hmin. unfold wastar_new in Hmin.
  apply wastar_lt_false in Hmin. pose proof (Hh (n_state D pn)). pose proof (Hh (n_state D b)).
  assert (wd * n_g D pn + wn * h (n_state D pn) ≤ wd * n_g D b + wn * h (n_state D b)) by lia.
  nia.
Qed.

(** Weighted A-star, with or without -dropdups, ends on finite spaces, reports
    only solutions, and without limits reports one if there is one. *)
Theorem C39_wastar_terminates D wn wd (h : St D → Z) dropdups o lim :
  domain_ok D → ol_ok wastar_lt (λ _, True) o →
  ∀ s0, finite_space s0 → ∃ r, ends (wastar D wn wd h dropdups o lim s0) r.
Proof.
  intros OK OL s0 Hf. apply (search_ends D (wastar_new wn wd h) (wastar_upd wd) dropdups o lim
    wastar_lt _ OK OL (λ _ _ _, I) (wastar_upd_new wn wd h) s0 Hf).
Qed.

Theorem C39_wastar_sound_complete D wn wd (h : St D → Z) dropdups o lim :
  domain_ok D → ol_ok wastar_lt (λ _, True) o →
  ∀ s0 fuel out s', wastar D wn wd h dropdups o lim s0 fuel = Some (out, s') →
  match out with
  | Some (path, os) => ∃ k, solution s0 (reverse path) (reverse os) k
  | None => lim = no_limits → ∀ ss os k, ¬ solution s0 ss os k
  end.
Proof.
  intros OK OL s0 fuel out s' Hs.
  destruct (search_end D (wastar_new wn wd h) (wastar_upd wd) dropdups o lim wastar_lt _ OK OL
    (λ _ _ _, I) (wastar_upd_new wn wd h) s0 _ _ _ Hs) as (c & Hgood & Hround).
  inversion Hround as [[->|Hlim]|n pn path os k ? ? ? ? ? Hsol ? ?|]; simplify_eq.
  - intros -> ss os k. apply (exhausted_unsolvable D (wastar_new wn wd h) (wastar_upd wd) dropdups o
      no_limits wastar_lt _ OK OL (λ _ _ _, I) (wastar_upd_new wn wd h) s0 _ _ _ _ Hgood).
  - intros ->. done.
  - eauto.
Qed.

(** ** C40 *)

Lemma greedy_okk {D} (h : St D → Z) :
  (∀ s, 0 ≤ h s) → ∀ g s, 0 ≤ g → nonneg_key (greedy_new h g s, g).
Proof. intros Hh g s Hg. unfold nonneg_key, greedy_new. simpl. specialize (Hh s). lia. Qed.

(** Greedy and speedy search, with or without -dropdups: the same. *)
Theorem C40_greedy_terminates D (h : St D → Z) dropdups o lim :
  domain_ok D → ol_ok greedy_lt nonneg_key o → (∀ s, 0 ≤ h s) →
  ∀ s0, finite_space s0 → ∃ r, ends (greedy D h dropdups o lim s0) r.
Proof.
  intros OK OL Hh s0 Hf. apply (search_ends D (greedy_new h) greedy_upd dropdups o lim
    greedy_lt nonneg_key OK OL (greedy_okk h Hh) (λ _ _ _, eq_refl) s0 Hf).
Qed.

Theorem C40_greedy_sound_complete D (h : St D → Z) dropdups o lim :
  domain_ok D → ol_ok greedy_lt nonneg_key o → (∀ s, 0 ≤ h s) →
  ∀ s0 fuel out s', greedy D h dropdups o lim s0 fuel = Some (out, s') →
  match out with
  | Some (path, os) => ∃ k, solution s0 (reverse path) (reverse os) k
  | None => lim = no_limits → ∀ ss os k, ¬ solution s0 ss os k
  end.
Proof.
  intros OK OL Hh s0 fuel out s' Hs.
  destruct (search_end D (greedy_new h) greedy_upd dropdups o lim greedy_lt nonneg_key OK OL
    (greedy_okk h Hh) (λ _ _ _, eq_refl) s0 _ _ _ Hs) as (c & Hgood & Hround).
  inversion Hround as [[->|Hlim]|n pn path os k ? ? ? ? ? Hsol ? ?|]; simplify_eq.
  - intros -> ss os k. apply (exhausted_unsolvable D (greedy_new h) greedy_upd dropdups o
      no_limits greedy_lt nonneg_key OK OL (greedy_okk h Hh) (λ _ _ _, eq_refl) s0 _ _ _ _ Hgood).
  - intros ->. done.
  - eauto.
Qed.

(** On a finite solvable problem greedy search reports a solution. *)
Corollary C40_greedy_finds D (h : St D → Z) dropdups o :
  domain_ok D → ol_ok greedy_lt nonneg_key o → (∀ s, 0 ≤ h s) →
  ∀ s0 ss os k, finite_space s0 → solution s0 ss os k →
  ∃ path os' s', ends (greedy D h dropdups o no_limits s0) (Some (path, os'), s').
Proof.
  intros OK OL Hh s0 ss os k Hf Hsol.
  destruct (C40_greedy_terminates D h dropdups o no_limits OK OL Hh s0 Hf) as [[out s'] Hends].
  destruct out as [[path os']|]; [by eauto|]. destruct Hends as [n Hn].
  pose proof (C40_greedy_sound_complete D h dropdups o no_limits OK OL Hh s0 n _ s' (Hn n (le_n _))) as H.
  by destruct (H eq_refl ss os k).
Qed.

(** ** Examples *)

(** A domain given by a table of weighted edges; the operator "go to t" is the
    number t, and it is undone by going back. *)
Definition table_domain (tbl : list (nat * nat * Z)) (goal : nat) : domain := {|
  St := nat; Op := nat; St_eq := _; Op_eq := _;
  nop := 999%nat;
  ops s := (λ e, e.1.2) <$> filter (λ e, e.1.1 = s) tbl;
  edge s t := (t, default 0 (snd <$> list_find (λ e, e.1 = (s, t)) tbl ≫= λ e, Some e.2), s);
  isgoal s := bool_decide (s = goal);
|}.

Lemma table_ok tbl goal :
  forallb (λ e, (0 <=? e.2) && negb (e.1.2 =? 999)%nat) tbl = true →
  domain_ok (table_domain tbl goal).
Proof.
  rewrite forallb_forall. intros H. split; simpl.
  - intros s t _. unfold cost. simpl. destruct (list_find _ tbl) as [[i e]|] eqn:E; simpl; [|done].
    apply list_find_Some in E as (Hi & _). apply elem_of_list_lookup_2, elem_of_list_In, H in Hi.
    lia.
  - done.
  - intros s Hin. apply elem_of_list_fmap in Hin as (e & He & Hin).
    apply elem_of_list_filter in Hin as [_ Hin]. apply elem_of_list_In, H in Hin. lia.
Qed.

(** State 1 is found first over the expensive edge and expanded; state 2 shows
    the cheaper way to it and it is expanded again.  The heuristic is admissible
    but not consistent. *)
Definition ex_dom : domain := table_domain
  [(0%nat, 1%nat, 3); (0%nat, 2%nat, 1); (2%nat, 1%nat, 1); (2%nat, 0%nat, 1);
   (1%nat, 3%nat, 5); (3%nat, 1%nat, 2); (1%nat, 4%nat, 0)] 3.
Definition ex_h (s : St ex_dom) : Z := if decide (s = 2%nat) then 6 else 0.

Example ex_dom_ok : domain_ok ex_dom.
Proof. by apply table_ok. Qed.

(** The distance to the goal. *)
Definition ex_dist (s : nat) : Z := match s with 0%nat => 7 | 1%nat => 5 | 2%nat => 6 | 3%nat => 0 | _ => 1000 end.

Example ex_admissible : admissible ex_h.
Proof.
  apply (consistent_admissible ex_dom ex_h ex_dist).
  - split.
    + intros s Hs. apply bool_decide_eq_true in Hs as ->. done.
    + intros s t Ht. apply elem_of_list_fmap in Ht as (e & -> & He).
      apply elem_of_list_filter in He as [<- He].
      repeat (apply elem_of_cons in He as [->|He]; [vm_compute; done|]). by apply elem_of_nil in He.
  - intros s. unfold ex_h. case_decide; [by subst|].
    destruct s as [|[|[|[|s]]]]; simpl; lia.
Qed.

Example ex_finite : finite_space (D:=ex_dom) 0%nat.
Proof.
  apply (closed_finite (D:=ex_dom) [0; 1; 2; 3; 4]%nat); [vm_compute; set_solver|].
  intros s t _ Ht. apply elem_of_list_fmap in Ht as (e & -> & He).
  apply elem_of_list_filter in He as [<- He]. unfold dest. simpl.
  repeat (apply elem_of_cons in He as [->|He]; [simpl; set_solver|]). by apply elem_of_nil in He.
Qed.

Example ex_solution : solution (D:=ex_dom) 0%nat [0; 2; 1; 3]%nat [2; 1; 3]%nat 7.
Proof.
  split; [|split; [done|by exists 3%nat]].
  apply (walk_step ex_dom 0%nat 2%nat [1; 3]%nat [1; 3]%nat 6); [vm_compute; set_solver|].
  apply (walk_step ex_dom 2%nat 1%nat [3]%nat [3]%nat 5); [vm_compute; set_solver|].
  apply (walk_step ex_dom 1%nat 3%nat [] [] 0); [vm_compute; set_solver|]. constructor.
Qed.

(** The search with the heap and with the array of buckets; state 1 is re-opened. *)
Definition summary {D P} {o : openlist (P * Z)} (r : option (outcome D * sstate D o)) :=
  '(out, s) ← r; Some (out, expd D o s, gend D o s, reopnd D o s, dups D o s).

Example ex_astar_heap :
  summary (astar ex_dom ex_h (heap_ol astar_lt (0, 0)) no_limits 0%nat 10) =
    Some (Some ([3; 1; 2; 0]%nat, [3; 1; 2]%nat), 6%nat, 7%nat, 2%nat, 3%nat).
Proof. vm_compute. done. Qed.
Example ex_astar_int :
  summary (astar ex_dom ex_h int_ol no_limits 0%nat 10) =
    Some (Some ([3; 1; 2; 0]%nat, [3; 1; 2]%nat), 6%nat, 7%nat, 2%nat, 3%nat).
Proof. vm_compute. done. Qed.

Lemma ex_h_nonneg s : 0 ≤ ex_h s.
Proof. unfold ex_h. by case_decide. Qed.

(** The theorems apply to it, with either open list. *)
Example ex_astar_applies :
  ∃ path os s', ends (astar ex_dom ex_h int_ol no_limits 0%nat) (Some (path, os), s').
Proof.
  apply (C36_astar_finds ex_dom ex_h int_ol ex_dom_ok astar_int_ok ex_h_nonneg _ _ _ _
    ex_finite ex_solution).
Qed.

Example ex_greedy_applies :
  ∃ path os s', ends (greedy ex_dom ex_h true (heap_ol greedy_lt (0, 0)) no_limits 0%nat)
    (Some (path, os), s').
Proof.
  apply (C40_greedy_finds ex_dom ex_h true _ ex_dom_ok greedy_heap_ok ex_h_nonneg _ _ _ _
    ex_finite ex_solution).
Qed.

(** Greedy search takes the first way it sees. *)
Example ex_greedy_run :
  summary (greedy ex_dom ex_h false int_ol no_limits 0%nat 10) =
    Some (Some ([3; 1; 0]%nat, [3; 1]%nat), 2%nat, 4%nat, 0%nat, 0%nat).
Proof. vm_compute. done. Qed.

(** Weight 3/2: the bound is 10.5, the solution costs 8. *)
Example ex_wastar_run :
  summary (wastar ex_dom 3 2 ex_h false (heap_ol wastar_lt (0, 0, 0)) no_limits 0%nat 10) =
    Some (Some ([3; 1; 0]%nat, [3; 1]%nat), 3%nat, 4%nat, 0%nat, 0%nat).
Proof. vm_compute. done. Qed.

(** Limits. *)
Example ex_limit_expd :
  summary (astar ex_dom ex_h int_ol (Limits 2 0 (λ _, false)) 0%nat 10) =
    Some (None, 2%nat, 4%nat, 0%nat, 0%nat).
Proof. vm_compute. done. Qed.

(** ** With -dropdups the bound of weighted A-star is lost

    Even with weight 1 and the consistent heuristic 0: state 1 is reached first
    for 10, and the better path for 2 is dropped though state 1 is still open. *)
Definition drop_dom : domain := table_domain
  [(0%nat, 1%nat, 10); (0%nat, 2%nat, 1); (2%nat, 1%nat, 1); (1%nat, 3%nat, 1)] 3.

Theorem C39_wastar_dropdups_refuted :
  ¬ ∀ D wn wd (h : St D → Z) o lim, domain_ok D → ol_ok wastar_lt (λ _, True) o →
    (∀ s, 0 ≤ h s) → admissible h → 0 < wd ≤ wn →
    ∀ s0 fuel path os s', wastar D wn wd h true o lim s0 fuel = Some (Some (path, os), s') →
    ∃ k, solution s0 (reverse path) (reverse os) k ∧
      ∀ ss' os' k', solution s0 ss' os' k' → wd * k ≤ wn * k'.
Proof.
  intros H.
  destruct (wastar drop_dom 1 1 (λ _, 0) true (heap_ol wastar_lt (0, 0, 0)) no_limits 0%nat 10)
    as [[[[path os]|] s']|] eqn:E.
  2: { apply (f_equal (option_map fst)) in E. vm_compute in E. done. }
  2: { apply (f_equal (option_map fst)) in E. vm_compute in E. done. }
  assert (OKd : domain_ok drop_dom) by by apply table_ok.
  destruct (H drop_dom 1 1 (λ _, 0) (heap_ol wastar_lt (0, 0, 0)) no_limits OKd wastar_heap_ok
    (λ _, Z.le_refl 0)) with (s0 := 0%nat) (fuel := 10%nat) (path := path) (os := os) (s' := s')
    as (k & Hsol & Hopt); [|lia|done|].
  { intros s ss os' k (Hw & _). by apply (walk_nonneg drop_dom) in Hw. }
  apply (f_equal (option_map fst)) in E. vm_compute in E. injection E as <- <-.
  assert (Hs : solution (D:=drop_dom) 0%nat [0; 2; 1; 3]%nat [2; 1; 3]%nat 3).
  { split; [|split; [done|by exists 3%nat]].
    apply (walk_step drop_dom 0%nat 2%nat [1; 3]%nat [1; 3]%nat 2); [vm_compute; set_solver|].
    apply (walk_step drop_dom 2%nat 1%nat [3]%nat [3]%nat 1); [vm_compute; set_solver|].
    apply (walk_step drop_dom 1%nat 3%nat [] [] 0); [vm_compute; set_solver|]. constructor. }
  apply Hopt in Hs. destruct Hsol as (Hw & _).
  inversion Hw as [|? ? ? ? k1 _ Hw1]; subst. inversion Hw1 as [|? ? ? ? k2 _ Hw2]; subst.
  inversion Hw2; subst. vm_compute in Hs. done.
Qed.

(** ** The pruning is only safe because the reverse operator really reverses

    Here the edge from 0 to 1 reports as its reverse the operator that leads
    from 1 to the goal 2; it is never applied and A-star reports no solution. *)
Definition norev_dom : domain := {|
  St := nat; Op := nat; St_eq := _; Op_eq := _; nop := 9%nat;
  ops s := match s with 0 => [1] | 1 => [2] | _ => [] end%nat;
  edge s t := (t, 1, 2%nat);
  isgoal s := bool_decide (s = 2%nat);
|}.

Theorem C38_pruning_unsafe_without_reverse :
  (∀ s t : nat, t ∈ @ops norev_dom s → 0 ≤ @cost norev_dom s t) ∧
  (∀ s : nat, @nop norev_dom ∉ @ops norev_dom s) ∧
  solution (D:=norev_dom) 0%nat [0; 1; 2]%nat [1; 2]%nat 2 ∧
  ∃ s', astar norev_dom (λ _, 0) int_ol no_limits 0%nat 10 = Some (None, s').
Proof.
  split_and!.
  - intros. unfold cost. simpl. lia.
  - intros [|[|s]]; simpl; set_solver.
  - split; [|split; [done|by exists 2%nat]].
    apply (walk_step norev_dom 0%nat 1%nat [2]%nat [2]%nat 1); [simpl; set_solver|].
    apply (walk_step norev_dom 1%nat 2%nat [] [] 0); [simpl; set_solver|]. constructor.
  - destruct (astar norev_dom (λ _, 0) int_ol no_limits 0%nat 10) as [[out s']|] eqn:E;
      apply (f_equal (option_map fst)) in E; vm_compute in E; [|done].
    injection E as <-. by exists s'.
Qed.

Print Assumptions C34_astar_solution_real.
Print Assumptions C34_astar_survives.
Print Assumptions C35_astar_optimal.
Print Assumptions C36_astar_finds.
Print Assumptions C37_limits_respected.
Print Assumptions C38_pruned_operator_useless.
Print Assumptions C38_pruning_unsafe_without_reverse.
Print Assumptions C39_wastar_bounded.
Print Assumptions C39_wastar_terminates.
Print Assumptions C39_wastar_sound_complete.
Print Assumptions C39_wastar_dropdups_refuted.
Print Assumptions C40_greedy_sound_complete.
Print Assumptions C40_greedy_finds.
