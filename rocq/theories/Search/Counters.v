(** C92 and C93: what the counters reported with a search result say, and A-star with a consistent heuristic. *)
From stdpp Require Import prelude gmap.
From Coq Require Import ZArith Lia.
From Verif Require Import Search.Model Search.Proofs Search.Props.
Local Open Scope Z_scope.

Section counters.
Context (D : domain) {P : Type}.
Context (pr_new : Z → St D → P) (pr_upd : P → Z → Z → P) (dropdups : bool).
Context (o : openlist (P * Z)) (lim : limits).
Context (lt : P * Z → P * Z → bool) (okk : P * Z → Prop).
Context (OK : domain_ok D) (OL : ol_ok lt okk o).
Context (okk_new : ∀ g s, (0 ≤ g)%Z → okk (pr_new g s, g)).
Context (upd_new : ∀ g g' s, pr_upd (pr_new g s) g g' = pr_new g' s).
Context (s0 : St D).
Set Default Proof Using "All".

Notation K := (P * Z)%type.
Notation inv := (inv D pr_new s0).
Notation kid := (kid D pr_new dropdups).
Implicit Types (c : gmap nat K).

(** A closed node is put back on the open list. *)
Definition reopens (ns : list (node D (P:=P))) c (pn : node D (P:=P)) (op : Op D) : Prop :=
  ∃ d dn, ns !! d = Some dn ∧ c !! d = None ∧ n_state D dn = dest (n_state D pn) op ∧
    n_g D pn + cost (n_state D pn) op < n_g D dn.

Definition total (s : sstate D o) c : Prop :=
  (size c + expd D o s = length (nodes D o s) + reopnd D o s)%nat ∧
  (reopnd D o s ≤ dups D o s)%nat ∧ (dropdups = true → reopnd D o s = 0%nat).

Lemma considerkid_counts (s s' : sstate D o) c n pn op :
  inv (nodes D o s) c → ol_R OL (open D o s) c → total s c →
  nodes D o s !! n = Some pn → op ∈ ops (n_state D pn) →
  considerkid D pr_new pr_upd dropdups o s n op = Some s' →
  ∃ c', ol_R OL (open D o s') c' ∧ kid (nodes D o s) c n pn op (nodes D o s') c' ∧ total s' c' ∧
    expd D o s' = expd D o s ∧ gend D o s' = gend D o s ∧
    (length (nodes D o s) + dups D o s < length (nodes D o s') + dups D o s')%nat ∧
    (length (nodes D o s') + dups D o s' ≤ S (length (nodes D o s) + dups D o s))%nat ∧
    (reopnd D o s' = reopnd D o s ∨ reopens (nodes D o s) c pn op).
Proof.
  intros Hinv HR (Ht1 & Ht2 & Ht3) Hn Hop. unfold considerkid. rewrite Hn. cbn [mbind option_bind].
  rewrite edge_split. pose proof (ok_cost OK _ _ Hop) as Hcost.
  destruct (i_pr _ _ _ _ _ Hinv _ _ Hn) as [_ Hg0].
  destruct (find_node D (nodes D o s) (dest (n_state D pn) op)) as [d|] eqn:Hf.
  - destruct (find_node_Some _ _ _ Hf) as (dn & Hd & Hst). rewrite Hd. cbn [mbind option_bind].
    destruct (dropdups || bool_decide (n_g D dn ≤ n_g D pn + cost (n_state D pn) op)) eqn:Edd.
    { intros [= <-]. exists c. split; [done|]. split.
      { eapply kid_old; [done|done|]. intros Ef. rewrite Ef in Edd. by apply bool_decide_eq_true in Edd. }
      unfold total, add_dups; simpl. split; [auto with lia|]. auto with lia. }
    apply orb_false_iff in Edd as [Ed Hle]. apply bool_decide_eq_false in Hle.
    assert (n_g D pn + cost (n_state D pn) op < n_g D dn) as Hlt by lia.
    destruct (i_pr _ _ _ _ _ Hinv _ _ Hd) as [Hpr Hgd].
    assert (kid (nodes D o s) c n pn op
      (<[d := Node D (Some n) (n_state D dn) op (revop (n_state D pn) op)
         (n_g D pn + cost (n_state D pn) op)
         (pr_new (n_g D pn + cost (n_state D pn) op) (n_state D dn))]> (nodes D o s))
      (<[d := (pr_new (n_g D pn + cost (n_state D pn) op) (n_state D dn),
               n_g D pn + cost (n_state D pn) op)]> c)) as Hkid by (eapply kid_better; done).
    unfold improve. rewrite Hpr, upd_new. cbn [add_dups nodes open expd gend reopnd dups].
    rewrite (olR_mem OL _ c _ HR).
    assert (okk (pr_new (n_g D pn + cost (n_state D pn) op) (n_state D dn),
               n_g D pn + cost (n_state D pn) op)) as Hok by (apply okk_new; lia).
    case_bool_decide as Hmem.
    + destruct Hmem as [k0 Hk0].
      destruct (olR_update OL _ c d k0 _ HR Hk0 Hok) as (q & -> & HR').
      cbn [mbind option_bind]. intros [= <-]. eexists. split; [exact HR'|]. split; [exact Hkid|].
      unfold total; cbn [nodes open expd gend reopnd dups]. rewrite insert_length.
      rewrite map_size_insert_Some by eauto. split; [auto with lia|]. auto with lia.
    + apply eq_None_not_Some in Hmem.
      destruct (olR_push OL _ c d _ HR Hmem Hok) as (q & -> & HR').
      cbn [mbind option_bind]. intros [= <-]. eexists. split; [exact HR'|]. split; [exact Hkid|].
      unfold total; cbn [nodes open expd gend reopnd dups]. rewrite insert_length.
      rewrite map_size_insert_None by done.
      split; [split; [lia|split; [lia|congruence]]|]. split; [done|]. split; [done|]. split; [lia|]. split; [lia|].
      right. exists d, dn. done.
  - assert (c !! length (nodes D o s) = None) as Hc.
    { apply eq_None_not_Some. intros [k Hk]. destruct (i_open _ _ _ _ _ Hinv _ _ Hk) as (a & Ha & _).
      apply lookup_lt_Some in Ha. lia. }
    destruct (olR_push OL _ c (length (nodes D o s))
      (pr_new (n_g D pn + cost (n_state D pn) op) (dest (n_state D pn) op),
       n_g D pn + cost (n_state D pn) op) HR Hc) as (q & -> & HR').
    { apply okk_new. lia. }
    cbn [mbind option_bind]. intros [= <-]. eexists. split; [exact HR'|]. split.
    { eapply kid_new; [|done..]. intros i a Ha. by eapply find_node_None. }
    unfold total; cbn [nodes open expd gend reopnd dups]. rewrite app_length. simpl.
    rewrite map_size_insert_None by done. split; [auto with lia|]. auto with lia.
Qed.

(** [Q ns c]: something kept by every step as long as no closed node is put back. *)
Lemma expand_ops_counts (Q : Prop) (s s' : sstate D o) c n pn os :
  inv (nodes D o s) c → ol_R OL (open D o s) c → total s c →
  (S (gend D o s) = length (nodes D o s) + dups D o s)%nat →
  nodes D o s !! n = Some pn → c !! n = None → (∀ op, op ∈ os → op ∈ ops (n_state D pn)) →
  (Q → ∀ ns' c' op, ext D (nodes D o s) c ns' c' → inv ns' c' → ns' !! n = Some pn → op ∈ ops (n_state D pn) → reopens ns' c' pn op → False) →
  expand_ops D pr_new pr_upd dropdups o s n os = Some s' →
  ∃ c', ol_R OL (open D o s') c' ∧ inv (nodes D o s') c' ∧ total s' c' ∧
    ext D (nodes D o s) c (nodes D o s') c' ∧ nodes D o s' !! n = Some pn ∧ c' !! n = None ∧
    (S (gend D o s') = length (nodes D o s') + dups D o s')%nat ∧
    (Q → reopnd D o s' = reopnd D o s).
Proof.
  intros Hinv HR Ht Hg Hn Hc Hin HQ. revert s c Hinv HR Ht Hg Hn Hc HQ Hin.
  induction os as [|op os IH]; intros s c Hinv HR Ht Hg Hn Hc HQ Hin He; cbn [expand_ops] in He.
  { simplify_eq. exists c. split; [done|]. split; [done|]. split; [done|]. split; [apply (ext_refl D pr_new pr_upd dropdups o lim lt okk OK OL okk_new upd_new s0)|].
    split; [done|]. split; [done|]. split; [done|done]. }
  rewrite Hn in He. cbn [mbind option_bind] in He.
  assert (op ∈ ops (n_state D pn)) as Hop by (apply Hin; by left).
  case_decide as Hpop; [eapply IH; eauto; intros; apply Hin; by right|].
  destruct (considerkid D pr_new pr_upd dropdups o (add_gend D o s) n op) as [s1|] eqn:E; [|done].
  cbn [mbind option_bind] in He.
  destruct (considerkid_counts (add_gend D o s) s1 c n pn op Hinv HR Ht Hn Hop E)
    as (c1 & HR1 & Hkid & Ht1 & He1 & Hg1 & Hs1 & Hs2 & Hre).
  cbn [add_gend nodes expd gend dups reopnd] in *.
  pose proof (kid_ext D pr_new pr_upd dropdups o lim lt okk OK OL okk_new upd_new s0 _ _ _ _ _ _ _ Hkid) as Hext.
  destruct (kid_self D pr_new pr_upd dropdups o lim lt okk OK OL okk_new upd_new s0 _ _ _ _ _ _ _ Hinv Hn Hc Hop Hkid) as [Hn1 Hc1].
  destruct (IH s1 c1) as (c' & H1 & H2 & H3 & H4 & H5 & H6 & H7 & H8).
  - eapply (kid_inv D pr_new pr_upd dropdups o lim lt okk OK OL okk_new upd_new s0); eauto.
  - done.
  - done.
  - lia.
  - done.
  - done.
  - intros HQ1 ns' c' op' Hext' Hinv' Hn' Hop' Hr'.
    eapply (HQ HQ1 ns' c' op'); [|done|done|done|done].
    eapply (ext_trans D pr_new pr_upd dropdups o lim lt okk OK OL okk_new upd_new s0); eauto.
  - intros; apply Hin; by right.
  - done.
  - exists c'. split; [done|]. split; [done|]. split; [done|].
    split; [eapply (ext_trans D pr_new pr_upd dropdups o lim lt okk OK OL okk_new upd_new s0); eauto|].
    split; [done|]. split; [done|]. split; [done|].
    intros HQ1. rewrite H8 by done. destruct Hre as [Hre|Hre]; [done|]. exfalso.
    eapply (HQ HQ1 (nodes D o s) c op); [apply (ext_refl D pr_new pr_upd dropdups o lim lt okk OK OL okk_new upd_new s0)|done|done|done|done].
Qed.

Notation good := (good D pr_new dropdups o lt okk OL s0).

Lemma bool_decide_eq_iff' (A B : Prop) `{Decision A, Decision B} : bool_decide A = bool_decide B → A ↔ B.
Proof. repeat case_bool_decide; done. Qed.

(** The contents of the open list are determined by the state of the search. *)
Lemma contents_unique (s : sstate D o) c1 c2 :
  ol_R OL (open D o s) c1 → inv (nodes D o s) c1 → ol_R OL (open D o s) c2 → inv (nodes D o s) c2 → c1 = c2.
Proof.
  intros R1 I1 R2 I2. apply map_eq. intros i.
  pose proof (olR_mem OL _ _ i R1) as M1. pose proof (olR_mem OL _ _ i R2) as M2. rewrite M1 in M2.
  assert (E : is_Some (c1 !! i) ↔ is_Some (c2 !! i)) by exact (bool_decide_eq_iff' _ _ M2).
  destruct (c1 !! i) as [k1|] eqn:E1, (c2 !! i) as [k2|] eqn:E2; [| | |done].
  - destruct (i_open _ _ _ _ _ I1 _ _ E1) as (a & Ha & ->). destruct (i_open _ _ _ _ _ I2 _ _ E2) as (b & Hb & ->). congruence.
  - exfalso. apply (is_Some_None (A:=K)). apply E. eauto.
  - exfalso. apply (is_Some_None (A:=K)). apply E. eauto.
Qed.

Definition counted (s : sstate D o) c : Prop :=
  good s c ∧ total s c ∧ (S (gend D o s) = length (nodes D o s) + dups D o s)%nat.

Lemma step_counts (Q : Prop) (s s' : sstate D o) c :
  counted s c →
  step D pr_new pr_upd dropdups o lim s = Some (inl s') →
  (∀ n pn, nodes D o s !! n = Some pn → c !! n = Some (n_key D pn) → (∀ m k', c !! m = Some k' → lt k' (n_key D pn) = false) →
    Q → ∀ ns' c' op, ext D (nodes D o s) (delete n c) ns' c' → inv ns' c' → ns' !! n = Some pn → op ∈ ops (n_state D pn) →
      reopens ns' c' pn op → False) →
  ∃ n pn c', counted s' c' ∧ nodes D o s !! n = Some pn ∧ c !! n = Some (n_key D pn) ∧
    (∀ m k', c !! m = Some k' → lt k' (n_key D pn) = false) ∧
    ext D (nodes D o s) (delete n c) (nodes D o s') c' ∧ nodes D o s' !! n = Some pn ∧
    (Q → reopnd D o s' = reopnd D o s).
Proof.
  intros (Hgood & Ht & Hg) Hs HQ. pose proof Hgood as (HR & Hinv & Hcl).
  destruct (step_round D pr_new pr_upd dropdups o lim lt okk OK OL okk_new upd_new s0 _ _ Hgood) as (r & Hs' & Hround).
  rewrite Hs in Hs'. injection Hs' as <-.
  inversion Hround as [| |n pn s1 c1 Hlim Hn Hc Hmin Hng Hgood1 Hext Hprog He Hge Hcov Hn1 Hc1 Hkids]; subst s1.
  unfold step in Hs. destruct (ol_empty o (open D o s) || limit D o lim s) eqn:E; [done|].
  apply orb_false_iff in E as [E _]. rewrite (olR_empty OL _ _ HR) in E. apply bool_decide_eq_false in E.
  destruct (olR_pop OL _ _ HR E) as (q & m & k & Hpop & Hm & Hmmin & HR').
  rewrite Hpop in Hs. cbn [mbind option_bind] in Hs. destruct (i_open _ _ _ _ _ Hinv _ _ Hm) as (pm & Hpm & ->).
  cbn [set_open nodes] in Hs. rewrite Hpm in Hs. cbn [mbind option_bind] in Hs.
  destruct (isgoal (n_state D pm)); [by destruct (solpath _ _ _ _)|].
  unfold expand in Hs. cbn [set_open nodes] in Hs. rewrite Hpm in Hs. cbn [mbind option_bind] in Hs.
  destruct (expand_ops D pr_new pr_upd dropdups o _ m (ops (n_state D pm))) as [s1|] eqn:Ee; [|done]. injection Hs as <-.
  apply (expand_ops_counts Q _ _ (delete m c) _ pm) in Ee.
  - destruct Ee as (c' & H1 & H2 & H3 & H4 & H5 & H6 & H7 & H8). exists m, pm, c'.
    assert (c' = c1) as ->.
    { destruct Hgood1 as (HR1 & Hinv1 & _). by eapply contents_unique. }
    split; [by split|]. done.
  - cbn [add_expd set_open nodes]. destruct Hinv. split; auto. intros i k [_ Hi]%lookup_delete_Some. eauto.
  - exact HR'.
  - destruct Ht as (Ht1 & Ht2 & Ht3). unfold total, add_expd, set_open; cbn [nodes open expd gend reopnd dups].
    split; [|done]. assert (size c = S (size (delete m c))) as Hsz; [|lia].
    rewrite <-(insert_delete _ _ _ Hm) at 1. apply map_size_insert_None, lookup_delete.
  - done.
  - done.
  - apply lookup_delete.
  - done.
  - intros HQ1 ns' c' op. by eapply (HQ m pm).
Qed.

Lemma init_counted s : init D pr_new o s0 = Some s →
  counted s {[0%nat := (pr_new 0 s0, 0)]} ∧ reopnd D o s = 0%nat ∧ nodes D o s = [Node D None s0 nop nop 0 (pr_new 0 s0)].
Proof.
  intros Hi. destruct (init_good D pr_new pr_upd dropdups o lim lt okk OK OL okk_new upd_new s0) as (s1 & Hi' & Hgood & He & Hg & Hns).
  rewrite Hi in Hi'. injection Hi' as <-.
  assert (reopnd D o s = 0%nat ∧ dups D o s = 0%nat) as [Hr Hd].
  { unfold init in Hi. destruct (ol_push _ _ _ _); [|done]. by simplify_eq/=. }
  split; [|done]. split; [done|]. unfold total. rewrite He, Hg, Hns, Hr, Hd, map_size_singleton. simpl. auto.
Qed.

Lemma running_counted s : running D pr_new pr_upd dropdups o lim s0 s → ∃ c, counted s c.
Proof.
  induction 1 as [s Hi|s s' Hr [c IH] Hs].
  - destruct (init_counted s Hi). eauto.
  - destruct (step_counts False s s' c IH Hs) as (n & pn & c' & H & _); [done|]. eauto.
Qed.
End counters.

(** ** C92 *)

(** The states that have a node. *)
Definition seen {D P} {o : openlist (P * Z)} (s : sstate D o) : list (St D) := n_state D <$> nodes D o s.

(** The counters reported with the result of a search of this family, with whatever priorities and open list, fit
    together: the states met are pairwise different, and all can be reached; every state generated, and the first one,
    is one of them or counted as a duplicate; all expansions are of one of them or of one that was reopened; a search
    that ran out of open nodes expanded each of them exactly once, and once more for each reopening.  Reopenings are among
    the duplicates, and there are none if duplicates are dropped. *)
Theorem C92_counters D {P} (pr_new : Z → St D → P) pr_upd dropdups o lim lt okk :
  domain_ok D → ol_ok lt okk o →
  (∀ g s, 0 ≤ g → okk (pr_new g s, g)) →
  (∀ g g' s, pr_upd (pr_new g s) g g' = pr_new g' s) →
  ∀ s0 fuel out s', search D pr_new pr_upd dropdups o lim s0 fuel = Some (out, s') →
  NoDup (seen s') ∧ (∀ t, t ∈ seen s' → reachable s0 t) ∧
  (gend D o s' + 1 = length (seen s') + dups D o s')%nat ∧
  (expd D o s' ≤ length (seen s') + reopnd D o s')%nat ∧
  (ol_empty o (open D o s') = true → expd D o s' = (length (seen s') + reopnd D o s')%nat) ∧
  (reopnd D o s' ≤ dups D o s')%nat ∧ (dropdups = true → reopnd D o s' = 0%nat).
Proof.
  intros OK OL Hk Hu s0 fuel out s' Hs.
  destruct (search_running D pr_new pr_upd dropdups o lim lt okk OK OL Hk Hu s0 _ _ _ Hs) as [Hr _].
  destruct (running_counted D pr_new pr_upd dropdups o lim lt okk OK OL Hk Hu s0 _ Hr) as (c & (HR & Hinv & _) & (H1 & H2 & H3) & H4).
  unfold seen. rewrite fmap_length.
  split.
  { apply NoDup_alt. intros i j t Hi Hj. rewrite list_lookup_fmap in Hi, Hj.
    apply fmap_Some in Hi as (a & Ha & ->). apply fmap_Some in Hj as (b & Hb & Hst).
    by eapply (i_inj _ _ _ _ _ Hinv). }
  split.
  { intros t (a & -> & Ha)%elem_of_list_fmap. apply elem_of_list_lookup in Ha as [i Ha].
    by eapply (node_reachable D pr_new pr_upd dropdups o lim lt okk OK OL Hk Hu s0). }
  split; [lia|]. split; [lia|]. split; [|done].
  rewrite (olR_empty OL _ _ HR). intros Hemp. apply bool_decide_eq_true in Hemp. rewrite Hemp, map_size_empty in H1. lia.
Qed.

(** ** C93 *)

Section consistent.
Context (D : domain) (h : St D → Z) (o : openlist (Z * Z)) (lim : limits).
Context (OK : domain_ok D) (OL : ol_ok astar_lt nonneg_key o) (Hh : ∀ s, 0 ≤ h s).
Context (Hcon : ∀ s (p : Op D), p ∈ ops s → h s ≤ cost s p + h (dest s p)).
Context (s0 : St D).
Set Default Proof Using "All".
Notation inv := (inv D (astar_new h) s0).
Notation counted := (counted D (astar_new h) false o astar_lt nonneg_key OL s0).

(** No walk from the start to the state of [a] is cheaper than its g. *)
Definition best (a : node D (P:=Z)) : Prop :=
  ∀ ss os k, walk ss os k → head ss = Some s0 → last ss = Some (n_state D a) → n_g D a ≤ k.
Definition closedbest (ns : list (node D (P:=Z))) (c : gmap nat (Z * Z)) : Prop :=
  ∀ i a, ns !! i = Some a → c !! i = None → best a.

Lemma walk_h ss os k s t : walk (D:=D) ss os k → head ss = Some s → last ss = Some t → h s ≤ k + h t.
Proof.
  intros Hw. revert s. induction Hw as [s1|s1 p ss os k Hp Hw IH]; intros s Hs Hl; simpl in Hs; injection Hs as <-.
  - injection Hl as ->. lia.
  - specialize (IH (dest s1 p) eq_refl Hl). specialize (Hcon _ _ Hp). lia.
Qed.

(** A walk to an open node passes through an open node that is not behind its cost. *)
Lemma frontier_open ns c ss os k i a n pn :
  inv ns c → closedok D false ns c (λ _, False) → walk ss os k → head ss = Some (n_state D a) → last ss = Some (n_state D pn) →
  ns !! i = Some a → ns !! n = Some pn → is_Some (c !! n) →
  ∃ j b k1 k2 ss2 os2, is_Some (c !! j) ∧ ns !! j = Some b ∧ k = k1 + k2 ∧ n_g D b ≤ n_g D a + k1 ∧
    walk ss2 os2 k2 ∧ head ss2 = Some (n_state D b) ∧ last ss2 = Some (n_state D pn).
Proof.
  intros Hinv Hcl Hw. revert i a. induction Hw as [s1|s1 p ss os k Hp Hw IH]; intros i a Hs Hl Ha Hn Ho.
  - simpl in Hs, Hl. injection Hs as ->. injection Hl as E.
    assert (i = n) as -> by (by eapply (i_inj _ _ _ _ _ Hinv)). rewrite Ha in Hn. injection Hn as <-.
    exists n, a, 0, 0, [n_state D a], []. split; [done|]. split; [done|]. split; [lia|]. split; [lia|]. split; [constructor|done].
  - simpl in Hs. injection Hs as ->. destruct (c !! i) as [ki|] eqn:E.
    + exists i, a, 0, (cost (n_state D a) p + k), (n_state D a :: dest (n_state D a) p :: ss), (p :: os).
      split; [eauto|]. split; [done|]. split; [lia|]. split; [lia|]. split; [by constructor|done].
    + destruct (Hcl _ _ Ha E) as [_ Hcov]; [tauto|].
      destruct (Hcov p Hp) as (j & b & Hb & Hsb & Hgb). specialize (Hgb eq_refl).
      destruct (IH j b) as (j' & b' & k1 & k2 & ss2 & os2 & H1 & H2 & -> & H4 & H5);
        [by rewrite Hsb|done|done|done|done|].
      exists j', b', (cost (n_state D a) p + k1), k2, ss2, os2. split; [done|]. split; [done|]. split; [lia|]. split; [lia|done].
Qed.

Lemma popped_best s c n pn : counted s c → nodes D o s !! n = Some pn → c !! n = Some (n_key D pn) →
  (∀ m k', c !! m = Some k' → astar_lt k' (n_key D pn) = false) → best pn.
Proof.
  intros ((_ & Hinv & Hcl) & _) Hn Hc Hmin ss os k Hw Hs Hl.
  destruct (i_root _ _ _ _ _ Hinv) as (a & Ha & Hp). destruct (i_noroot _ _ _ _ _ Hinv _ _ Ha Hp) as (_ & Hsa & Hga & _).
  rewrite <-Hsa in Hs.
  destruct (frontier_open _ _ _ _ _ _ _ _ _ Hinv Hcl Hw Hs Hl Ha Hn) as (j & b & k1 & k2 & ss2 & os2 & [kj Hj] & Hb & -> & Hgb & Hw2 & Hs2 & Hl2);
    [eauto|].
  pose proof (walk_h _ _ _ _ _ Hw2 Hs2 Hl2) as Hhb.
  destruct (i_open _ _ _ _ _ Hinv _ _ Hj) as (b' & Hb' & ->). rewrite Hb in Hb'. injection Hb' as <-.
  specialize (Hmin _ _ Hj). destruct (i_pr _ _ _ _ _ Hinv _ _ Hn) as [Hpn _]. destruct (i_pr _ _ _ _ _ Hinv _ _ Hb) as [Hpb _].
  unfold n_key in Hmin. rewrite astar_lt_false, Hpn, Hpb in Hmin. unfold astar_new in Hmin. lia.
Qed.

Lemma running_best s : astar_running D h o lim s0 s → ∃ c, counted s c ∧ closedbest (nodes D o s) c ∧ reopnd D o s = 0%nat.
Proof.
  induction 1 as [s Hi|s s' Hr (c & IH & Hcb & Hre) Hs].
  - destruct (init_counted D (astar_new h) astar_upd false o lim astar_lt nonneg_key OK OL (astar_okk h Hh) (astar_upd_new h) s0 s Hi) as (Hc & Hr & Hns).
    eexists. split; [exact Hc|]. split; [|done]. intros i a Ha Hci. rewrite Hns in Ha.
    apply list_lookup_singleton_Some in Ha as [-> <-]. by rewrite lookup_singleton in Hci.
  - destruct (step_counts D (astar_new h) astar_upd false o lim astar_lt nonneg_key OK OL (astar_okk h Hh) (astar_upd_new h) s0 True s s' c IH Hs)
      as (n & pn & c' & Hc' & Hn & Hcn & Hmin & Hext & Hn' & Hr').
    + intros n pn Hn Hcn Hmin _ ns' c' p [_ Hext] Hinv' Hn' Hp (d & dn & Hd & Hcd & Hst & Hlt).
      assert (best dn) as Hbest.
      { destruct (Hext _ Hcd) as [Hcd0 Hsame]. specialize (Hsame _ Hd).
        apply lookup_delete_None in Hcd0 as [->|Hcd0]; [|by eapply Hcb].
        rewrite Hn in Hsame. injection Hsame as <-. eapply (popped_best s c); done. }
      destruct (i_chain _ _ _ _ _ Hinv' _ _ Hn') as [l Hl].
      destruct (chain_solpath D (astar_new h) astar_upd false o lim astar_lt nonneg_key OK OL (astar_okk h Hh) (astar_upd_new h) s0
        _ _ _ _ (length l) _ Hinv' Hl Hn' (le_n _)) as (path & os & k & _ & Hw & Hs0 & Hla & Hk).
      specialize (Hbest _ _ _ (walk_snoc D _ _ _ _ _ Hw Hla Hp)).
      rewrite last_snoc, Hst in Hbest.
      assert (n_g D dn ≤ k + cost (n_state D pn) p); [|lia]. apply Hbest; [|done]. by destruct (reverse path).
    + exists c'. split; [done|]. split; [|by rewrite Hr' by done].
      intros i a Ha Hci. destruct (proj2 Hext _ Hci) as [Hcd0 Hsame]. specialize (Hsame _ Ha).
      apply lookup_delete_None in Hcd0 as [->|Hcd0]; [|by eapply Hcb].
      rewrite Hn in Hsame. injection Hsame as <-. eapply (popped_best s c); done.
Qed.
End consistent.

(** If the heuristic drops along no edge by more than its cost, A-star reopens no node: it expands every state at most
    once. *)
Theorem C93_no_reopening D (h : St D → Z) o lim :
  domain_ok D → ol_ok astar_lt nonneg_key o → (∀ s, 0 ≤ h s) →
  (∀ s (p : Op D), p ∈ ops s → h s ≤ cost s p + h (dest s p)) →
  ∀ s0 fuel out s', astar D h o lim s0 fuel = Some (out, s') →
  reopnd D o s' = 0%nat ∧ (∀ U, (∀ t, reachable s0 t → t ∈ U) → (expd D o s' ≤ length U)%nat).
Proof.
  intros OK OL Hh Hcon s0 fuel out s' Hs.
  destruct (search_running D (astar_new h) astar_upd false o lim astar_lt nonneg_key OK OL (astar_okk h Hh) (astar_upd_new h) s0 _ _ _ Hs) as [Hr _].
  destruct (running_best D h o lim OK OL Hh Hcon s0 s' Hr) as (c & Hc & _ & Hre). split; [done|].
  destruct (C92_counters D (astar_new h) astar_upd false o lim astar_lt nonneg_key OK OL (astar_okk h Hh) (astar_upd_new h) s0 _ _ _ Hs)
    as (H1 & H2 & _ & H3 & _). intros U HU. rewrite Hre in H3.
  assert (length (seen s') ≤ length U)%nat; [|lia]. apply submseteq_length, NoDup_submseteq; [done|]. intros t Ht. auto.
Qed.

(** The example of C35: its true distance is consistent, and no node is reopened; with the heuristic [ex_h], which is
    admissible but not consistent, two are ([ex_astar_heap]). *)
Example ex_dist_consistent s (p : Op ex_dom) : p ∈ ops s → ex_dist s ≤ cost s p + ex_dist (dest s p).
Proof.
  intros Ht. apply elem_of_list_fmap in Ht as (e & -> & He). apply elem_of_list_filter in He as [<- He].
  repeat (apply elem_of_cons in He as [->|He]; [vm_compute; done|]). by apply elem_of_nil in He.
Qed.
Example ex_astar_consistent :
  summary (astar ex_dom ex_dist (heap_ol astar_lt (0, 0)) no_limits 0%nat 10) =
    Some (Some ([3; 1; 2; 0]%nat, [3; 1; 2]%nat), 3%nat, 5%nat, 0%nat, 1%nat).
Proof. vm_compute. done. Qed.
(** An unsolvable problem: all five states are expanded, one of them twice. *)
Definition ex_unsolv : domain := table_domain
  [(0%nat, 1%nat, 3); (0%nat, 2%nat, 1); (2%nat, 1%nat, 1); (2%nat, 0%nat, 1);
   (1%nat, 3%nat, 5); (3%nat, 1%nat, 2); (1%nat, 4%nat, 0)] 7.
Example ex_astar_exhausted :
  summary (astar ex_unsolv ex_h (heap_ol astar_lt (0, 0)) no_limits 0%nat 20) =
    Some (None, 7%nat, 7%nat, 2%nat, 3%nat).
Proof. vm_compute. done. Qed.

Print Assumptions C92_counters.
Print Assumptions C93_no_reopening.
