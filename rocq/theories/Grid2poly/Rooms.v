(** The free space of the polygon map that visnav/grid2poly.cc makes of a framed
    grid map is one room of the grid map. *)
From stdpp Require Import prelude.
From Coq Require Import ZArith Lia ZifyBool ZifyNat.
From Verif.Grid2poly Require Import Model Trace Components Inside Props.
Local Open Scope Z_scope.

(** ** Finite regions are decidable *)
Lemma rtc_finite {A} `{EqDecision A} (R : A → A → Prop) `{!RelDecision R} (U : list A) e :
  e ∈ U → (∀ a b, R a b → b ∈ U) → ∃ l : list A, ∀ a, a ∈ l ↔ rtc R e a.
Proof.
  intros He HU.
  assert (∀ n l, NoDup l → l ⊆ U → (length U - length l ≤ n)%nat → e ∈ l → (∀ a, a ∈ l → rtc R e a) →
    ∃ l : list A, ∀ a, a ∈ l ↔ rtc R e a) as H.
  { induction n as [n IH] using lt_wf_ind. intros l Hnd Hl Hn Hel Hr.
    destruct (decide (Exists (λ s, Exists (λ c, R s c ∧ c ∉ l) U) l)) as [Hex|Hno].
    - apply Exists_exists in Hex as (s & Hs & Hex). apply Exists_exists in Hex as (c & Hc & Hsc & Hcl).
      assert (length (c :: l) ≤ length U)%nat as Hlen.
      { apply submseteq_length, NoDup_submseteq; [by constructor|]. intros x [->|Hx]%elem_of_cons; [done|by apply Hl]. }
      cbn [length] in Hlen.
      apply (IH (length U - length (c :: l))%nat) with (c :: l).
      + cbn [length]. lia.
      + by constructor.
      + intros x [->|Hx]%elem_of_cons; [done|by apply Hl].
      + done.
      + by apply elem_of_list_further.
      + intros a [->|Ha]%elem_of_cons; [|by apply Hr]. eapply rtc_r; [by apply Hr|done].
    - exists l. intros a. split; [apply Hr|]. intros Ha. revert Hel. clear He Hr. revert Ha. generalize e.
      induction 1 as [|x y z Hxy _ IH']; [done|]. intros Hx. apply IH'.
      destruct (decide (y ∈ l)) as [|Hy]; [done|]. destruct Hno. apply Exists_exists. exists x. split; [done|].
      apply Exists_exists. exists y. split; [by eapply HU|done]. }
  apply (H (length U) [e]); [apply NoDup_singleton|intros x ->%elem_of_list_singleton; done|lia|apply elem_of_list_here|].
  intros a ->%elem_of_list_singleton. done.
Qed.

Global Instance step4_dec B : RelDecision (step4 B).
Proof. intros a b. unfold step4. apply _. Defined.

Lemma sumof_scale {A} (f : A → Z) k l : sumof (λ a, k * f a) l = k * sumof f l.
Proof. induction l as [|a l IH]; cbn; [lia|]. fold (sumof (λ a, k * f a) l) (sumof f l). lia. Qed.

(** ** A cell that no component separates from a room is in the room *)
Section jordan.
Context (B : Z → Z → bool) (n : nat) (K : nat → Z → Z → bool).
Context (HB : ∀ x y, B x y = true ↔ ∃ i, (i < n)%nat ∧ K i x y = true).
Context (Kn : ∀ i x y, K i x y = true → (i < n)%nat).
Context (Huniq : ∀ i j x y x' y', K i x y = true → K j x' y' = true → Z.abs (x - x') ≤ 1 → Z.abs (y - y') ≤ 1 → i = j).
Context (Hleft : ∀ i x y, K i x y = true → 0 ≤ x).
Context (F : Z → Z → bool).
Context (Ffree : ∀ x y, F x y = true → B x y = false).
Context (Fstep : ∀ x y x' y', B x y = false → B x' y' = false → Z.abs (x - x') + Z.abs (y - y') = 1 → F x y = F x' y').
Context (Fleft : ∀ x y, F x y = true → 0 ≤ x).

Definition bz (b : bool) : Z := if b then 1 else 0.
(** What component [i] adds to the room when one steps from a cell to the next. *)
Definition jump (i : nat) (x y x' y' : Z) : Z := bz (F x y && K i x' y') - bz (K i x y && F x' y').
Definition pot (i : nat) (x y : Z) : Z :=
  sumof (λ k : nat, jump i (Z.of_nat k - 1) y (Z.of_nat k) y) (seq 0 (Z.to_nat (x + 1))).

Lemma K_left i x y : x < 0 → K i x y = false.
Proof. intros Hx. destruct (K i x y) eqn:E; [|done]. apply Hleft in E. lia. Qed.
Lemma F_left x y : x < 0 → F x y = false.
Proof. intros Hx. destruct (F x y) eqn:E; [|done]. apply Fleft in E. lia. Qed.

Lemma pot_left i x y : x < 0 → pot i x y = 0.
Proof. intros Hx. unfold pot. replace (Z.to_nat (x + 1)) with 0%nat by lia. done. Qed.
Lemma pot_right i x y : pot i (x + 1) y = pot i x y + jump i x y (x + 1) y.
Proof.
  destruct (decide (x < -1)) as [Hx|Hx].
  - rewrite !pot_left by lia. unfold jump. rewrite !K_left by lia. rewrite andb_false_r. done.
  - unfold pot. replace (Z.to_nat (x + 1 + 1)) with (S (Z.to_nat (x + 1))) by lia.
    rewrite seq_S, sumof_app. cbn. rewrite Z.add_0_r. f_equal. f_equal; lia.
Qed.

Lemma K_sub i x y : K i x y = true → B x y = true.
Proof. intros Hk. apply HB. exists i. split; [by eapply Kn|done]. Qed.

Lemma jump_only i x y x' y' : Z.abs (x - x') + Z.abs (y - y') = 1 → B x y = K i x y → B x' y' = K i x' y' →
  jump i x y x' y' = bz (F x y) - bz (F x' y').
Proof.
  intros Hd H1 H2. unfold jump. rewrite <-H1, <-H2. pose proof (Ffree x y) as G1. pose proof (Ffree x' y') as G2.
  pose proof (Fstep x y x' y') as G3.
  destruct (B x y), (B x' y'), (F x y), (F x' y'); cbn; try done;
    first [by specialize (G1 eq_refl)|by specialize (G2 eq_refl)|by specialize (G3 eq_refl eq_refl Hd)].
Qed.
Lemma jump_none i x y x' y' : K i x y = false → K i x' y' = false → jump i x y x' y' = 0.
Proof. intros H1 H2. unfold jump. rewrite H1, H2, andb_false_r. done. Qed.

(** Round a corner of the grid there is at most one component. *)
Lemma corner i x y :
  jump i x y (x + 1) y + jump i (x + 1) y (x + 1) (y + 1) = jump i x y x (y + 1) + jump i x (y + 1) (x + 1) (y + 1).
Proof.
  assert (∀ u v, x ≤ u ≤ x + 1 → y ≤ v ≤ y + 1 → K i u v = true →
    ∀ u' v', x ≤ u' ≤ x + 1 → y ≤ v' ≤ y + 1 → B u' v' = K i u' v') as Hone.
  { intros u v H1 H2 Hk u' v' H3 H4. destruct (B u' v') eqn:E.
    - apply HB in E as (j & _ & Hj). assert (i = j) as <- by (eapply Huniq; [exact Hk|exact Hj|lia|lia]). done.
    - destruct (K i u' v') eqn:E'; [|done]. apply K_sub in E'. congruence. }
  assert ((∀ u' v', x ≤ u' ≤ x + 1 → y ≤ v' ≤ y + 1 → B u' v' = K i u' v') ∨
          K i x y = false ∧ K i (x + 1) y = false ∧ K i x (y + 1) = false ∧ K i (x + 1) (y + 1) = false) as [H|(H1 & H2 & H3 & H4)].
  { destruct (K i x y) eqn:E1; [left; eapply Hone; [| |exact E1]; lia|].
    destruct (K i (x + 1) y) eqn:E2; [left; eapply Hone; [| |exact E2]; lia|].
    destruct (K i x (y + 1)) eqn:E3; [left; eapply Hone; [| |exact E3]; lia|].
    destruct (K i (x + 1) (y + 1)) eqn:E4; [left; eapply Hone; [| |exact E4]; lia|]. by right. }
  - rewrite !jump_only by first [lia|apply H; lia]. lia.
  - rewrite !jump_none by done. done.
Qed.

Lemma pot_up i x y : pot i x (y + 1) = pot i x y + jump i x y x (y + 1).
Proof.
  assert (∀ m : nat, ∀ x, x = Z.of_nat m - 1 → pot i x (y + 1) = pot i x y + jump i x y x (y + 1)) as H.
  { induction m as [|m IH]; intros x0 Hx.
    - rewrite !pot_left by lia. rewrite jump_none by (apply K_left; lia). done.
    - pose proof (IH (x0 - 1) ltac:(lia)) as E. pose proof (pot_right i (x0 - 1) y) as E1.
      pose proof (pot_right i (x0 - 1) (y + 1)) as E2. pose proof (corner i (x0 - 1) y) as E3.
      rewrite Z.sub_add in E1, E2, E3. lia. }
  destruct (decide (x < 0)) as [Hx|Hx].
  - rewrite !pot_left by done. rewrite jump_none by (by apply K_left). done.
  - apply (H (Z.to_nat (x + 1))). lia.
Qed.

(** The potential does not change on a way round the component. *)
Lemma pot_region i a b : region (K i) a b → pot i a.1 a.2 = pot i b.1 b.2.
Proof.
  induction 1 as [|a b c (Ha & Hb & Hd) _ IH]; [done|]. rewrite <-IH. clear IH. destruct a as [x y], b as [x' y']. cbn [fst snd] in *.
  assert (x' = x + 1 ∧ y' = y ∨ x = x' + 1 ∧ y' = y ∨ x' = x ∧ y' = y + 1 ∨ x' = x ∧ y = y' + 1) as Hc by lia.
  destruct Hc as [[-> ->]|[[-> ->]|[[-> ->]|[-> ->]]]].
  - rewrite pot_right, jump_none by done. lia.
  - rewrite pot_right, jump_none by done. lia.
  - rewrite pot_up, jump_none by done. lia.
  - rewrite pot_up, jump_none by done. lia.
Qed.

Lemma K_sum x y : sumof (λ i, bz (K i x y)) (seq 0 n) = bz (B x y).
Proof.
  destruct (B x y) eqn:E.
  - apply HB in E as (i & Hi & Hk). transitivity (ind i (seq 0 n)).
    + rewrite <-sumof_ind by apply NoDup_seq. apply sumof_ext. intros j Hj. destruct (decide (j = i)) as [->|Hne]; [by rewrite Hk|].
      destruct (K j x y) eqn:Ej; [|done]. destruct Hne. eapply Huniq; [exact Ej|exact Hk|lia|lia].
    + unfold ind. rewrite decide_True; [done|]. apply elem_of_seq. lia.
  - transitivity (sumof (λ _ : nat, 0) (seq 0 n)); [|clear; induction (seq 0 n); [done|done]].
    apply sumof_ext. intros i _. destruct (K i x y) eqn:Ek; [|done]. apply K_sub in Ek. congruence.
Qed.

Lemma bz_and a b : bz (a && b) = bz a * bz b.
Proof. by destruct a, b. Qed.

(** All potentials together tell the room. *)
Lemma pot_sum x y : sumof (λ i, pot i x y) (seq 0 n) = - bz (F x y).
Proof.
  assert (∀ x, x < 0 → sumof (λ i, pot i x y) (seq 0 n) = - bz (F x y)) as Hneg.
  { intros x0 Hx. rewrite F_left by done. transitivity (sumof (λ _ : nat, 0) (seq 0 n)).
    - apply sumof_ext. intros i _. by apply pot_left.
    - clear; induction (seq 0 n); done. }
  assert (∀ m : nat, ∀ x, x = Z.of_nat m - 1 → sumof (λ i, pot i x y) (seq 0 n) = - bz (F x y)) as H.
  { induction m as [|m IH]; intros x0 Hx; [apply Hneg; lia|].
    pose proof (IH (x0 - 1) ltac:(lia)) as E.
    assert (sumof (λ i, pot i x0 y) (seq 0 n) - sumof (λ i, pot i (x0 - 1) y) (seq 0 n) = bz (F (x0 - 1) y) - bz (F x0 y)) as E2; [|lia].
    rewrite sumof_minus.
    transitivity (sumof (λ i, bz (F (x0 - 1) y) * bz (K i x0 y) - bz (F x0 y) * bz (K i (x0 - 1) y)) (seq 0 n)).
    { apply sumof_ext. intros i _. pose proof (pot_right i (x0 - 1) y) as E1. rewrite Z.sub_add in E1. rewrite E1.
      unfold jump. rewrite !bz_and. lia. }
    rewrite <-sumof_minus, !sumof_scale, !K_sum. clear E Hneg.
    pose proof (Ffree x0 y) as G1. pose proof (Ffree (x0 - 1) y) as G2. pose proof (Fstep x0 y (x0 - 1) y) as G3.
    assert (Z.abs (x0 - (x0 - 1)) + Z.abs (y - y) = 1) as Hd by lia.
    destruct (B x0 y), (B (x0 - 1) y), (F x0 y), (F (x0 - 1) y); cbn; try done;
      first [by specialize (G1 eq_refl)|by specialize (G2 eq_refl)|by specialize (G3 eq_refl eq_refl Hd)]. }
  destruct (decide (x < 0)) as [Hx|Hx]; [by apply Hneg|]. apply (H (Z.to_nat (x + 1))). lia.
Qed.

Lemma unseparated a b : F a.1 a.2 = true → (∀ i, (i < n)%nat → region (K i) a b) → F b.1 b.2 = true.
Proof.
  intros Ha Hi. pose proof (pot_sum a.1 a.2) as H1. pose proof (pot_sum b.1 b.2) as H2.
  assert (sumof (λ i, pot i a.1 a.2) (seq 0 n) = sumof (λ i, pot i b.1 b.2) (seq 0 n)) as E.
  { apply sumof_ext. intros i Hin%elem_of_seq. apply pot_region, Hi. lia. }
  rewrite H1, H2, Ha in E. destruct (F b.1 b.2); [done|]. cbn in E. lia.
Qed.
End jordan.

Lemma region_hor B y x (n : nat) : (∀ x', x ≤ x' ≤ x + Z.of_nat n → B x' y = false) → region B (x, y) (x + Z.of_nat n, y).
Proof.
  induction n as [|n IH]; intros H; [rewrite Z.add_0_r; apply rtc_refl|]. unfold region. eapply rtc_r; [apply IH; intros; apply H; lia|].
  split_and!; cbn [fst snd]; [apply H; lia|apply H; lia|lia].
Qed.
Lemma region_ver B x y (n : nat) : (∀ y', y ≤ y' ≤ y + Z.of_nat n → B x y' = false) → region B (x, y) (x, y + Z.of_nat n).
Proof.
  induction n as [|n IH]; intros H; [rewrite Z.add_0_r; apply rtc_refl|]. unfold region. eapply rtc_r; [apply IH; intros; apply H; lia|].
  split_and!; cbn [fst snd]; [apply H; lia|apply H; lia|lia].
Qed.
Lemma region_row B y x x' : (∀ x0, B x0 y = false) → region B (x, y) (x', y).
Proof.
  intros H. destruct (decide (x ≤ x')) as [Hx|Hx].
  - pose proof (region_hor B y x (Z.to_nat (x' - x))) as G. replace (x + Z.of_nat (Z.to_nat (x' - x))) with x' in G by lia. auto.
  - apply region_sym. pose proof (region_hor B y x' (Z.to_nat (x - x'))) as G. replace (x' + Z.of_nat (Z.to_nat (x - x'))) with x in G by lia. auto.
Qed.
Lemma region_col B x y y' : (∀ y0, B x y0 = false) → region B (x, y) (x, y').
Proof.
  intros H. destruct (decide (y ≤ y')) as [Hy|Hy].
  - pose proof (region_ver B x y (Z.to_nat (y' - y))) as G. replace (y + Z.of_nat (Z.to_nat (y' - y))) with y' in G by lia. auto.
  - apply region_sym. pose proof (region_ver B x y' (Z.to_nat (y - y'))) as G. replace (y' + Z.of_nat (Z.to_nat (y - y'))) with y in G by lia. auto.
Qed.

Section rooms.
Context (w h : nat) (blkd : list bool).
Notation wall := (wall w h blkd).
Notation adj := (adj w h blkd).

(** One gets round the map. *)
Lemma region_round l a : ¬ inrange w h a → region (blocked w h l) (-1, -1) a.
Proof.
  assert (∀ x y, ¬ inrange w h (x, y) → blocked w h l x y = false) as Hf.
  { intros x y Hn. destruct (blocked w h l x y) eqn:E; [|done]. apply blocked_true in E as [? _]. done. }
  destruct a as [x y]. intros Hn. unfold inrange in Hn. cbn [fst snd] in Hn.
  assert (x < 0 ∨ Z.of_nat w ≤ x ∨ y < 0 ∨ Z.of_nat h ≤ y) as Hor by lia.
  assert ((∀ x0, blocked w h l x0 y = false) ∨ (∀ y0, blocked w h l x y0 = false)) as [Hr|Hc].
  { destruct Hor as [?|[?|[?|?]]]; [right|right|left|left]; intros z; apply Hf; unfold inrange; cbn; lia. }
  - unfold region. transitivity (-1, y); [|by apply region_row]. apply region_col. intros z. apply Hf. unfold inrange; cbn; lia.
  - unfold region. transitivity (x, -1); [|by apply region_col]. apply region_row. intros z. apply Hf. unfold inrange; cbn; lia.
Qed.

Lemma region_end B a b : region B a b → B a.1 a.2 = false → B b.1 b.2 = false.
Proof. induction 1 as [|a b c (_ & Hb & _) _ IH]; [done|]. intros _. by apply IH. Qed.
Lemma region_mono (B B' : Z → Z → bool) a b : (∀ x y, B' x y = true → B x y = true) → region B a b → region B' a b.
Proof.
  intros Hs. assert (∀ x y, B x y = false → B' x y = false) as Hs'.
  { intros x y E. destruct (B' x y) eqn:E'; [|done]. apply Hs in E'. congruence. }
  induction 1 as [|a b c (Ha & Hb & Hd) _ IH]; [apply rtc_refl|]. eapply rtc_l; [|exact IH]. split_and!; auto.
Qed.

(** ** C111: the free space is the room of the rightmost free cell of the lowest row
    that has a free cell; a map without free cells becomes a map without obstacles. *)
Theorem C111_free_space : framed w h blkd →
  ∃ kn kf b ps, (∀ n fuel, (kn ≤ n)%nat → (kf ≤ fuel)%nat → polymap w h blkd n fuel = Some (b, ps)) ∧
  ((∀ a, inrange w h a → wall a) ∧ (∀ a, inside b a ↔ inrange w h a) ∧ ps = [] ∨
   ∃ e, inrange w h e ∧ ¬ wall e ∧ (∀ a, inrange w h a → a.2 < e.2 ∨ a.2 = e.2 ∧ e.1 < a.1 → wall a) ∧
     ∀ a, inside b a ∧ (∀ p, p ∈ ps → ¬ inside p a) ↔ region (blocked w h blkd) e a).
Proof.
  intros Hf. destruct (C105_framed w h blkd Hf) as (kn & kf & c0 & cs & b & ps & Hk & Hpm & Hps & Hfr & Hb).
  destruct (C103_components w h blkd) as (k1 & cs1 & Hk1 & Hwall & Huniq & Hstart & _).
  assert (cs1 = c0 :: cs) as ->. { specialize (Hk1 (k1 + kn)%nat ltac:(lia)). specialize (Hk (k1 + kn)%nat ltac:(lia)). congruence. }
  destruct (component_facts w h blkd) as (k2 & cs2 & Hk2 & Hfacts).
  assert (cs2 = c0 :: cs) as ->. { specialize (Hk2 (k2 + kn)%nat ltac:(lia)). specialize (Hk (k2 + kn)%nat ltac:(lia)). congruence. }
  exists kn, kf, b, ps. split; [done|].
  destruct (Hfacts 0%nat c0 eq_refl) as (_ & Hconn0 & Hsub0 & _).
  destruct Hb as [[Hall (_ & _ & Hout)]|(e & e' & He & Hwe & Hlow & He' & Hd & (_ & _ & Hhole))].
  - left. split; [intros a Ha; by apply Hsub0, Hall|]. split.
    + intros a. assert (inrange w h a ∨ ¬ inrange w h a) as [Ha|Ha] by (unfold inrange; lia).
      * split; [done|]. intros _. destruct (decide (Z.odd (sumof (λ e, if crosses a e then 1 else 0) (polysides b)) = true)) as [|Hn]; [done|].
        apply Hout in Hn. apply region_end in Hn; [|destruct (blocked w h (cells c0) (-1, -1).1 (-1, -1).2) eqn:E; [|done]; apply blocked_true in E as [[Hx _] _]; cbn in Hx; lia].
        specialize (Hall a Ha). unfold incomp in Hall. congruence.
      * split; [|done]. intros Hin. apply (region_round (cells c0)) in Ha. by apply Hout in Ha.
    + destruct cs as [|c1 cs]; [by apply Forall2_nil_inv_l in Hps|]. destruct (Hstart 1%nat c1 eq_refl) as [Hs1 _].
      assert (wall (minx c1, miny c1)) as Hw1. { apply Hwall. by exists 1%nat, c1. }
      assert (incomp w h c0 (minx c1, miny c1)) as Hs0 by (apply Hall, (wall_in _ _ _ _ Hw1)).
      by assert (0%nat = 1%nat) by (by eapply (Huniq 0%nat 1%nat c0 c1)).
  - right. exists e. split; [done|]. split; [done|]. split; [done|].
    set (K := λ i x y, match (c0 :: cs) !! i with Some c => blocked w h (cells c) x y | None => false end).
    assert (∀ i c x y, (c0 :: cs) !! i = Some c → K i x y = blocked w h (cells c) x y) as HKc by (intros i c x y E; unfold K; by rewrite E).
    assert (∀ i x y, K i x y = true → ∃ c, (c0 :: cs) !! i = Some c ∧ incomp w h c (x, y)) as HKt.
    { intros i x y. unfold K. destruct ((c0 :: cs) !! i) as [c|] eqn:E; [|done]. intros HK. by exists c. }
    assert (∀ x y, blocked w h blkd x y = true ↔ ∃ i, (i < length (c0 :: cs))%nat ∧ K i x y = true) as HB.
    { intros x y. rewrite (Hwall (x, y)). split.
      - intros (i & c & Hi & Hc). exists i. split; [by eapply lookup_lt_Some|]. rewrite (HKc i c) by done. exact Hc.
      - intros (i & _ & (c & Hi & Hc)%HKt). by exists i, c. }
    assert (∀ i x y, K i x y = true → (i < length (c0 :: cs))%nat) as HKn.
    { intros i x y (c & Hi & _)%HKt. by eapply lookup_lt_Some. }
    assert (∀ i j x y x' y', K i x y = true → K j x' y' = true → Z.abs (x - x') ≤ 1 → Z.abs (y - y') ≤ 1 → i = j) as HKu.
    { intros i j x y x' y' Hi Hj H1 H2.
      assert (blocked w h blkd x y = true ∧ blocked w h blkd x' y' = true) as [G1 G2].
      { split; apply HB; [exists i|exists j]; (split; [by eapply HKn|done]). }
      apply HKt in Hi as (c & Hi & Hc), Hj as (d & Hj & Hd').
      apply (Huniq i j c d (x, y) (x', y')); [done..|]. apply rtc_once. split_and!; [exact G1|exact G2|cbn; lia|cbn; lia]. }
    assert (∀ i x y, K i x y = true → 0 ≤ x) as HKl.
    { intros i x y (c & _ & Hc)%HKt. apply blocked_in in Hc as [Hx _]. cbn in Hx. lia. }
    assert (∀ i x y, K i x y = true → blocked w h blkd x y = true) as HKs.
    { intros i x y Hk'. apply HB. exists i. split; [by eapply HKn|done]. }
    (* the room of e *)
    assert (blocked w h blkd e.1 e.2 = false) as Hef. { destruct (blocked w h blkd e.1 e.2) eqn:E; [|done]. by destruct Hwe. }
    assert (0 < e.1 < Z.of_nat w - 1 ∧ 0 < e.2 < Z.of_nat h - 1) as Hein.
    { assert (¬ (e.1 = 0 ∨ e.1 = Z.of_nat w - 1 ∨ e.2 = 0 ∨ e.2 = Z.of_nat h - 1)) as Hn; [|destruct He; lia].
      intros Hor. apply Hwe, Hsub0, Hfr; done. }
    assert (∀ a b, region (blocked w h blkd) a b → 0 < a.1 < Z.of_nat w - 1 ∧ 0 < a.2 < Z.of_nat h - 1 →
        0 < b.1 < Z.of_nat w - 1 ∧ 0 < b.2 < Z.of_nat h - 1) as Hstay.
    { clear -Hfr Hsub0. induction 1 as [|a b d (_ & Hfb & Hd) _ IH]; [done|]. intros [Ha1 Ha2]. apply IH.
      assert (¬ (b.1 = 0 ∨ b.1 = Z.of_nat w - 1 ∨ b.2 = 0 ∨ b.2 = Z.of_nat h - 1)) as Hnb; [|lia].
      intros Hor. assert (incomp w h c0 b) as Hc. { apply Hfr; [split; lia|done]. } apply Hsub0 in Hc. unfold Components.wall in Hc. congruence. }
    set (R := λ a b, step4 (blocked w h blkd) a b ∧ inrange w h b).
    assert (RelDecision R) as Rdec. { intros x y. unfold R, inrange. apply _. }
    assert (∃ room : list (Z * Z), ∀ a, a ∈ room ↔ region (blocked w h blkd) e a) as [room Hroom].
    { destruct (rtc_finite R (scan w h) e) as [room Hroom].
      - by apply scan_elem.
      - intros a c [_ Hc]. by apply scan_elem.
      - exists room. intros a. rewrite Hroom. split.
        + clear. induction 1 as [|x y z [Hxy _] _ IH]; [apply rtc_refl|]. by eapply rtc_l.
        + assert (∀ x, region (blocked w h blkd) x a → 0 < x.1 < Z.of_nat w - 1 ∧ 0 < x.2 < Z.of_nat h - 1 → rtc R x a) as G; [|intros H; by apply G].
          clear -Hstay. induction 1 as [|x y z Hxy _ IH]; [done|]. intros Hx.
          pose proof (Hstay x y (rtc_once _ _ Hxy) Hx) as Hy. eapply rtc_l; [|by apply IH]. split; [done|]. split; lia. }
    set (F := λ x y, bool_decide ((x, y) ∈ room)).
    assert (∀ x y, F x y = true ↔ region (blocked w h blkd) e (x, y)) as HF.
    { intros x y. unfold F. rewrite bool_decide_eq_true. apply Hroom. }
    assert (∀ i, (0 < i)%nat → region (K i) (-1, -1) e) as Hother.
    { intros i Hi.
      assert (∀ x y, incomp w h c0 (x, y) → ∀ x' y', Z.abs (x - x') ≤ 1 → Z.abs (y - y') ≤ 1 → K i x' y' = false) as Hnear.
      { intros x y H0 x' y' H1 H2. destruct (K i x' y') eqn:E; [|done]. assert (0%nat = i); [|lia].
        eapply (HKu 0%nat i x y x' y'); [by rewrite (HKc 0%nat c0)|done|lia|lia]. }
      assert (∀ a b, rtc (adj8 (blocked w h (cells c0))) a b → region (K i) a b) as Hwalk.
      { induction 1 as [|a c d (Ha & Hc & H1 & H2) _ IH]; [apply rtc_refl|]. unfold region in *. transitivity c; [|exact IH].
        destruct a as [x y], c as [x' y']. cbn [fst snd] in *. transitivity (x', y).
        - destruct (decide (x = x')) as [->|]; [apply rtc_refl|]. apply rtc_once. split_and!; cbn [fst snd]; [eapply (Hnear x y Ha); lia|eapply (Hnear x y Ha); lia|lia].
        - destruct (decide (y = y')) as [->|]; [apply rtc_refl|]. apply rtc_once. split_and!; cbn [fst snd]; [eapply (Hnear x y Ha); lia|eapply (Hnear x y Ha); lia|lia]. }
      assert (incomp w h c0 (0, 0)) as H00. { apply Hfr; [destruct He; split; cbn; lia|cbn; lia]. }
      unfold region. transitivity (-1, 0); [apply region_col; intros z; destruct (K i (-1) z) eqn:E; [|done]; apply HKl in E; lia|].
      eapply rtc_l with (0, 0).
      { split_and!; cbn [fst snd]; [eapply (Hnear 0 0 H00); lia|eapply (Hnear 0 0 H00); lia|lia]. }
      transitivity e'; [by apply Hwalk, Hconn0|]. destruct e' as [x' y'].
      apply rtc_once. split_and!; cbn [fst snd] in *; [eapply (Hnear _ _ He'); lia|eapply (Hnear _ _ He'); lia|lia]. }
    intros a. split.
    + intros [Hin Hno]. destruct a as [xa ya]. apply HF.
      apply (unseparated (blocked w h blkd) (length (c0 :: cs)) K HB HKn HKu HKl F) with (a := e) (b := (xa, ya)).
      * intros x y Hxy%HF. by apply region_end in Hxy.
      * intros x y x' y' H1 H2 H3. destruct (F x y) eqn:E1, (F x' y') eqn:E2; [done| | |done].
        -- apply HF in E1. assert (F x' y' = true); [|congruence]. apply HF. eapply rtc_r; [exact E1|]. split_and!; done.
        -- apply HF in E2. assert (F x y = true); [|congruence]. apply HF. eapply rtc_r; [exact E2|]. split_and!; cbn [fst snd]; [done|done|lia].
      * intros x y Hxy%HF. apply Hstay in Hxy; [|done]. cbn in Hxy. lia.
      * destruct e as [ex ey]. apply HF, rtc_refl.
      * intros i Hi. destruct i as [|i].
        -- apply Hhole in Hin. eapply region_mono; [|exact Hin]. intros x y Hxy. by rewrite (HKc 0%nat c0) in Hxy.
        -- destruct (lookup_lt_is_Some_2 cs i) as [c Hc]; [cbn in Hi; lia|].
           destruct (Forall2_lookup_l _ _ _ _ _ Hps Hc) as (p & Hp & (_ & _ & Hop)).
           pose proof (Hno p (elem_of_list_lookup_2 _ _ _ Hp)) as Hnp. apply Hop in Hnp.
           unfold region. transitivity (-1, -1); [apply region_sym, Hother; lia|].
           eapply region_mono; [|exact Hnp]. intros x y Hxy. by rewrite (HKc (S i) c) in Hxy.
    + intros Ha. split.
      * apply Hhole. eapply region_mono; [|exact Ha]. intros x y Hxy. exact (Hsub0 (x, y) Hxy).
      * intros p Hp. apply elem_of_list_lookup in Hp as [i Hp].
        destruct (Forall2_lookup_r _ _ _ _ _ Hps Hp) as (c & Hc & (_ & _ & Hop)). apply Hop.
        assert (∀ x y, blocked w h (cells c) x y = true → K (S i) x y = true) as HKi. { intros x y Hxy. by rewrite (HKc (S i) c). }
        unfold region. transitivity e; [eapply region_mono; [exact HKi|apply Hother; lia]|].
        eapply region_mono; [|exact Ha]. intros x y Hxy%HKi. by eapply HKs.
Qed.
End rooms.

(** The hypothesis holds of the map [room] of Props.v, whose free space is the ring
    round its obstacle; a solid map becomes a square without obstacles. *)
Example room_space : ∃ b ps, polymap 5 5 room 50 50 = Some (b, ps) ∧
  (inside b (3, 1) ∧ ∀ p, p ∈ ps → ¬ inside p (3, 1)) ∧ ¬ (inside b (2, 2) ∧ ∀ p, p ∈ ps → ¬ inside p (2, 2)).
Proof.
  eexists _, _. split; [exact room_polymap|]. split.
  - split; [vm_compute; done|]. intros p ->%elem_of_list_singleton. vm_compute. done.
  - intros [_ H]. apply (H _ (elem_of_list_here _ _)). vm_compute. done.
Qed.
Example solid_polymap : framed 2 2 [true; true; true; true] ∧
  polymap 2 2 [true; true; true; true] 50 50 = Some ([(0, 0); (0, 2); (2, 2); (2, 0)], []).
Proof.
  split; [|vm_compute; reflexivity]. split; [lia|]. split; [lia|]. intros [x y] [Hx Hy] _. cbn [fst snd] in *.
  assert (x = 0 ∨ x = 1) as Cx by lia. assert (y = 0 ∨ y = 1) as Cy by lia.
  destruct Cx as [->| ->], Cy as [->| ->]; vm_compute; reflexivity.
Qed.

Print Assumptions C111_free_space.
