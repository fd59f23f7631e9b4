(** The conversion of grid maps to polygons (visnav/grid2poly.cc). *)
From stdpp Require Import prelude.
From Coq Require Import ZArith Lia ZifyBool ZifyNat.
From Verif.Djset Require Model Props.
Import Verif.Djset.Props.
From Verif.Grid2poly Require Import Model Trace Components Inside.
Local Open Scope Z_scope.

(** The specification is in three parts: [wall] and [adj] (Components.v) are the
    blocked cells of the map and the eight neighbours; [outline] (Trace.v) is a
    closed rectilinear polygon along the boundary of a set of cells; [inside] and
    [region] (Inside.v) are the even-odd rule and the cells reachable over free ones. *)

Lemma boundary_sub (B B' : Z → Z → bool) d p :
  (∀ x y, B x y = true → B' x y = true) →
  (∀ x y x' y', B x y = true → B x' y' = false → Z.abs (x - x') + Z.abs (y - y') = 1 → B' x' y' = false) →
  boundary B d p → boundary B' d p.
Proof.
  intros H1 H2. destruct p as [x y]. unfold boundary.
  destruct d; intros [Hb Hf]; (split; [by apply H1|]); (eapply H2; [exact Hb|exact Hf|lia]).
Qed.
Lemma tour_sub (B B' : Z → Z → bool) d p l q d' E :
  (∀ d p, boundary B d p → boundary B' d p) → tour B d p l q d' E → tour B' d p l q d' E.
Proof. intros H. induction 1; econstructor; eauto. Qed.
Lemma outline_sub B B' pts : (∀ d p, boundary B d p → boundary B' d p) → outline B pts → outline B' pts.
Proof.
  intros H (p & l & d & d' & E & -> & Ht & Hr & Hn). exists p, l, d, d', E. split; [done|]. split; [|done].
  by eapply tour_sub.
Qed.

Section props.
Context (w h : nat) (blkd : list bool).
Notation wall := (wall w h blkd).
Notation adj := (adj w h blkd).
(** The cell [a] is one of the component [c]. *)
Definition incomp (c : comp) (a : Z * Z) : Prop := blocked w h (cells c) a.1 a.2 = true.

Lemma iscomp_in c : wall (minx c, miny c) → iscomp w h (λ a, rtc adj (minx c, miny c) a) c →
  ∀ a, incomp c a ↔ rtc adj (minx c, miny c) a.
Proof.
  intros Hw (_ & Hc & _) a. unfold incomp. destruct a as [x y]. cbn [fst snd]. rewrite blocked_true. split.
  - intros [Hr Hl]. by apply Hc.
  - intros Ha. assert (inrange w h (x, y)) as Hr. { eapply wall_in. by eapply rtc_adj_wall. } split; [done|]. by apply Hc.
Qed.

(** ** C103 *)
Theorem C103_components :
  ∃ k cs, (∀ n, (k ≤ n)%nat → components w h blkd n = Some cs) ∧
  (∀ a, wall a ↔ ∃ i c, cs !! i = Some c ∧ incomp c a) ∧
  (∀ i j c d a b, cs !! i = Some c → cs !! j = Some d → incomp c a → incomp d b → (rtc adj a b ↔ i = j)) ∧
  (∀ i c, cs !! i = Some c → incomp c (minx c, miny c) ∧
     ∀ a, incomp c a → minx c < a.1 ∨ minx c = a.1 ∧ miny c ≤ a.2) ∧
  (∀ c a, cs !! 0%nat = Some c → wall a → minx c < a.1 ∨ minx c = a.1 ∧ miny c ≤ a.2).
Proof.
  destruct (components_spec w h blkd) as (k & cs & Hk & Hc & Hall & Huniq & Hfst).
  assert (∀ i c, cs !! i = Some c → ∀ a, incomp c a ↔ rtc adj (minx c, miny c) a) as Hin.
  { intros i c Hi. destruct (Hc i c Hi) as [Hw Hic]. by apply iscomp_in. }
  exists k, cs. split; [done|]. split; [|split; [|split]].
  - intros a. split.
    + intros Ha. destruct (Hall a Ha) as (i & c & Hi & Hr). exists i, c. split; [done|]. by apply (Hin i).
    + intros (i & c & Hi & Ha). apply (Hin i c Hi) in Ha. destruct (Hc i c Hi) as [Hw _]. by eapply rtc_adj_wall.
  - intros i j c d a b Hi Hj Ha Hb. apply (Hin i c Hi) in Ha. apply (Hin j d Hj) in Hb. split.
    + intros Hab. apply (Huniq i j c d Hi Hj). transitivity a; [done|]. transitivity b; [done|]. by apply rtc_adj_sym.
    + intros ->. assert (c = d) as -> by congruence. transitivity (minx d, miny d); [by apply rtc_adj_sym|done].
  - intros i c Hi. split; [by apply (Hin i c Hi)|]. intros a Ha%(Hin i c Hi). destruct (Hc i c Hi) as [_ (_ & _ & _ & Hm)]. by apply Hm.
  - done.
Qed.

(** What the tracing needs to know of a component. *)
Definition good (c : comp) : Prop :=
  incomp c (minx c, miny c) ∧ (∀ a, incomp c a → minx c < a.1 ∨ minx c = a.1 ∧ miny c ≤ a.2).
Definition conn (c : comp) : Prop :=
  ∀ a b, incomp c a → incomp c b → rtc (adj8 (blocked w h (cells c))) a b.

Lemma blocked_in (l : list bool) x y : blocked w h l x y = true → 0 ≤ x < Z.of_nat w ∧ 0 ≤ y < Z.of_nat h.
Proof. intros [H _]%blocked_true. exact H. Qed.

(** The sections of Trace.v and Inside.v put together. *)
Lemma trace_encloses c : conn c →
  let B := blocked w h (cells c) in let s := Pose (minx c) (miny c) Up in
  valid B s → pdir (back B s) ≠ Up →
  ∃ k pts, (∀ fuel, (k ≤ fuel)%nat → comppoly w h fuel c = Some pts) ∧ outline B pts ∧ (4 ≤ length pts)%nat ∧
    ∀ a, (region B (minx c - 1, miny c) (-1, -1) → ¬ inside pts a ↔ region B (minx c - 1, miny c) a) ∧
         (¬ region B (minx c - 1, miny c) (-1, -1) → inside pts a ↔ region B (minx c - 1, miny c) a).
Proof.
  intros Hconn B s Hv Hb.
  destruct (poly_tour B w h (blocked_in (cells c)) (minx c) (miny c) Hv Hb) as (k & l & d' & Hk & Ek & Hnd & Ht & Hr & Hp).
  exists k, ((minx c, miny c) :: l). split; [exact Hp|].
  assert (outline B ((minx c, miny c) :: l)) as Ho.
  { exists (minx c, miny c), l, Up, d', (edge <$> (orbit B s <$> seq 0 k)). split; [done|]. split; [done|]. split; [done|].
    apply NoDup_fmap_2; [|done]. intros e e' He. by apply edge_inj. }
  split; [done|]. split; [by apply (outline_four B)|]. intros a.
  exact (enclosed B w h (blocked_in (cells c)) Hconn s k _ _ _ _ Hv Hk Ek Hnd Ht a).
Qed.

(** From the left of the start one gets out. *)
Lemma good_outer c : good c → region (blocked w h (cells c)) (minx c - 1, miny c) (-1, -1).
Proof.
  intros [Hin Hmin]. set (B := blocked w h (cells c)).
  pose proof (blocked_in _ _ _ Hin) as [Hx Hy]. cbn [fst snd] in Hx, Hy.
  assert (∀ x y, x < minx c → B x y = false) as Hfree.
  { intros x y Hlt. destruct (B x y) eqn:E; [|done]. destruct (Hmin (x, y) E) as [?|?]; cbn in *; lia. }
  transitivity (-1, miny c).
  - assert (∀ n : nat, Z.of_nat n ≤ minx c → region B (minx c - 1, miny c) (minx c - 1 - Z.of_nat n, miny c)) as Hn.
    { induction n as [|n IH]; intros Hn; [replace (minx c - 1 - Z.of_nat 0) with (minx c - 1) by lia; apply rtc_refl|].
      unfold region. eapply rtc_r; [apply IH; lia|]. split_and!; cbn [fst snd]; [apply Hfree; lia|apply Hfree; lia|lia]. }
    specialize (Hn (Z.to_nat (minx c)) ltac:(lia)). replace (minx c - 1 - Z.of_nat (Z.to_nat (minx c))) with (-1) in Hn by lia. done.
  - assert (∀ n : nat, region B (-1, miny c) (-1, miny c - Z.of_nat n)) as Hn.
    { induction n as [|n IH]; [replace (miny c - Z.of_nat 0) with (miny c) by lia; apply rtc_refl|].
      unfold region. eapply rtc_r; [apply IH|]. split_and!; cbn [fst snd]; [apply Hfree; lia|apply Hfree; lia|lia]. }
    specialize (Hn (Z.to_nat (miny c + 1))). replace (miny c - Z.of_nat (Z.to_nat (miny c + 1))) with (-1) in Hn by lia. done.
Qed.

Lemma good_start c : good c → let B := blocked w h (cells c) in let s := Pose (minx c) (miny c) Up in
  valid B s ∧ pdir (back B s) ≠ Up.
Proof.
  intros [Hin Hmin] B s.
  assert (∀ x y, x < minx c → B x y = false) as Hfree.
  { intros x y Hlt. destruct (B x y) eqn:E; [|done]. destruct (Hmin (x, y) E) as [?|?]; cbn in *; lia. }
  split.
  - split; [exact Hin|]. apply Hfree. cbn. lia.
  - unfold s, back. rewrite Hfree by lia. destruct (B (minx c) (miny c - 1)) eqn:E; [|done].
    destruct (Hmin (minx c, miny c - 1) E) as [?|?]; cbn in *; lia.
Qed.

Lemma component_facts : ∃ k cs, (∀ n, (k ≤ n)%nat → components w h blkd n = Some cs) ∧
  ∀ i c, cs !! i = Some c → good c ∧ conn c ∧ (∀ a, incomp c a → wall a) ∧ (∀ a b, incomp c a → adj a b → incomp c b).
Proof.
  destruct (components_spec w h blkd) as (k & cs & Hk & Hc & Hall & Huniq & Hfst).
  exists k, cs. split; [done|]. intros i c Hi. destruct (Hc i c Hi) as [Hw Hic]. pose proof (iscomp_in c Hw Hic) as Hin.
  split; [|split; [|split]].
  - split; [by apply Hin|]. intros a Ha%Hin. by apply Hic.
  - intros a b Ha%Hin Hb%Hin. assert (rtc adj a b) as Hab. { transitivity (minx c, miny c); [by apply rtc_adj_sym|done]. }
    clear Hb. induction Hab as [|a a' b Haa _ IH]; [done|].
    assert (rtc adj (minx c, miny c) a') as Ha' by (by eapply rtc_r). eapply rtc_l; [|by apply IH].
    destruct Haa as (_ & _ & H1 & H2). split_and!; [by apply Hin|by apply Hin|done|done].
  - intros a Ha%Hin. by eapply rtc_adj_wall.
  - intros a b Ha%Hin Hab. apply Hin. by eapply rtc_r.
Qed.

(** ** C104 *)
Theorem C104_outlines : ∃ k cs, (∀ n, (k ≤ n)%nat → components w h blkd n = Some cs) ∧
  ∀ i c, cs !! i = Some c → ∃ kf pts, (∀ fuel, (kf ≤ fuel)%nat → comppoly w h fuel c = Some pts) ∧
    outline (blocked w h (cells c)) pts ∧ outline (blocked w h blkd) pts ∧ (4 ≤ length pts)%nat ∧
    ∀ a, ¬ inside pts a ↔ region (blocked w h (cells c)) (-1, -1) a.
Proof.
  destruct component_facts as (k & cs & Hk & Hc). exists k, cs. split; [done|]. intros i c Hi.
  destruct (Hc i c Hi) as (Hg & Hconn & Hsub & Hcl). destruct (good_start c Hg) as [Hv Hb].
  destruct (trace_encloses c Hconn Hv Hb) as (kf & pts & Hp & Ho & H4 & Hins). exists kf, pts.
  split; [done|]. split; [done|]. split; [|split; [done|]].
  - eapply outline_sub; [|exact Ho]. intros d p. apply boundary_sub.
    + intros x y H. exact (Hsub (x, y) H).
    + intros x y x' y' H1 H2 H3. destruct (blocked w h blkd x' y') eqn:E; [|done].
      assert (incomp c (x', y')) as Hin; [|unfold incomp in Hin; cbn in Hin; congruence].
      apply (Hcl (x, y)); [exact H1|]. split_and!; [exact (Hsub (x, y) H1)|exact E|cbn; lia|cbn; lia].
  - intros a. pose proof (good_outer c Hg) as Hout. destruct (Hins a) as [H1 _]. rewrite (H1 Hout).
    unfold region in *. split; intros Ha.
    + transitivity (minx c - 1, miny c); [by apply region_sym|done].
    + by transitivity (-1, -1).
Qed.

(** ** C105: maps with a closed frame *)
Definition framed : Prop :=
  (0 < w)%nat ∧ (0 < h)%nat ∧
  ∀ a, inrange w h a → a.1 = 0 ∨ a.1 = Z.of_nat w - 1 ∨ a.2 = 0 ∨ a.2 = Z.of_nat h - 1 → wall a.

Section invert.
Context (c : comp).
Notation B := (blocked w h (cells c)).
Notation W := (Z.of_nat w).
Notation H := (Z.of_nat h).
Context (w0 : (0 < w)%nat) (mx0 : minx c = 0) (my0 : miny c = 0).
Context (leftcol : ∀ y, 0 ≤ y < H → B 0 y = true) (rightcol : ∀ y, 0 ≤ y < H → B (W - 1) y = true).

Lemma skipleft_run y k x : 0 ≤ x → x < Z.of_nat k → let r := skipleft w h (cells c) false k 0 x y in
  0 ≤ r ≤ x ∧ (∀ x', r < x' ≤ x → B x' y = true) ∧ (r = 0 ∨ B r y = false).
Proof.
  revert x. induction k as [|k IH]; intros x H0 Hx; [lia|]. cbn [skipleft negb].
  destruct (bool_decide (0 < x)) eqn:E1; cbn [andb].
  - apply bool_decide_eq_true in E1. destruct (B x y) eqn:E2; cbn [Bool.eqb].
    + destruct (IH (x - 1)) as (H1 & H2 & H3); [lia|lia|]. split; [lia|]. split; [|done].
      intros x' Hx'. destruct (decide (x' = x)) as [->|]; [done|]. apply H2. lia.
    + split; [lia|]. split; [lia|]. by right.
  - apply bool_decide_eq_false in E1. split; [lia|]. split; [lia|]. left. lia.
Qed.

Lemma invertloop_spec k y : y = H - Z.of_nat k → 0 ≤ y → (∀ x' y', 0 ≤ x' < W → 0 ≤ y' < y → B x' y' = true) →
  (invertloop w h c k y = c ∧ ∀ x' y', 0 ≤ x' < W → 0 ≤ y' < H → B x' y' = true) ∨
  ∃ x yr, invertloop w h c k y = Comp (x + 1) yr (num c) (cells c) ∧ 0 < x ∧ 0 ≤ yr < H ∧
    B (x + 1) yr = true ∧ B x yr = false ∧ (∀ x', x < x' < W → B x' yr = true) ∧ ∀ x' y', 0 ≤ x' < W → 0 ≤ y' < yr → B x' y' = true.
Proof.
  revert y. induction k as [|k IH]; intros y Hy H0 Hfull.
  - left. split; [done|]. intros x' y' Hx Hy'. apply Hfull; [done|lia].
  - cbn [invertloop]. assert (0 ≤ y < H) as Hyr by lia.
    assert (skipright w h (cells c) w (minx c) y = 0) as ->.
    { rewrite mx0. destruct w as [|w'] eqn:Ew; [lia|]. cbn [skipright]. rewrite (leftcol y Hyr). by rewrite andb_false_r. }
    assert (skipleft w h (cells c) true w 0 (W - 1) y = W - 1) as ->.
    { destruct w as [|w'] eqn:Ew; [lia|]. cbn [skipleft]. rewrite (rightcol y Hyr). cbn [negb Bool.eqb]. by rewrite andb_false_r. }
    destruct (skipleft_run y w (W - 1)) as (Hr & Hb & Hf); [lia|lia|].
    set (r := skipleft w h (cells c) false w 0 (W - 1) y) in *. destruct (decide (r = 0)) as [E|Hne].
    + apply IH; [lia|lia|]. intros x' y' Hx Hy'. destruct (decide (y' = y)) as [->|]; [|apply Hfull; lia].
      destruct (decide (x' = 0)) as [->|]; [by apply leftcol|]. apply Hb. lia.
    + right. exists r, y. destruct Hf as [|Hf]; [done|]. split; [done|]. split; [lia|]. split; [done|]. split; [|split; [done|split; [|done]]]; [|intros x' Hx'; apply Hb; lia].
      apply Hb. assert (r ≠ W - 1); [|lia]. intros ->. rewrite (rightcol y Hyr) in Hf. done.
Qed.
End invert.

Lemma frame_conn : framed → ∀ a, inrange w h a → a.1 = 0 ∨ a.1 = Z.of_nat w - 1 ∨ a.2 = 0 ∨ a.2 = Z.of_nat h - 1 → rtc adj (0, 0) a.
Proof.
  intros (Hw & Hh & Hf).
  assert (∀ a d, (d = (1, 0) ∨ d = (0, 1)) → rtc adj (0, 0) a →
    ∀ n : nat, (∀ i : nat, (i ≤ n)%nat → wall (a.1 + Z.of_nat i * d.1, a.2 + Z.of_nat i * d.2)) →
      rtc adj (0, 0) (a.1 + Z.of_nat n * d.1, a.2 + Z.of_nat n * d.2)) as Hline.
  { intros [x y] d Hd Ha n Hn. cbn [fst snd] in *. induction n as [|n IH].
    - replace (x + Z.of_nat 0 * d.1) with x by lia. replace (y + Z.of_nat 0 * d.2) with y by lia. done.
    - eapply rtc_r; [apply IH; intros i Hi; apply Hn; lia|]. split_and!; [apply (Hn n); lia|apply (Hn (S n)); lia| |].
      + cbn [fst]. destruct Hd as [->| ->]; cbn [fst]; lia.
      + cbn [snd]. destruct Hd as [->| ->]; cbn [snd]; lia. }
  assert (∀ x y : Z, 0 ≤ x < Z.of_nat w → 0 ≤ y < Z.of_nat h → x = 0 ∨ x = Z.of_nat w - 1 ∨ y = 0 ∨ y = Z.of_nat h - 1 → wall (x, y)) as Hf'.
  { intros x y Hx Hy Hor. by apply Hf. }
  assert (∀ x, 0 ≤ x < Z.of_nat w → rtc adj (0, 0) (x, 0)) as Hbot.
  { intros x Hx. pose proof (Hline (0, 0) (1, 0) (or_introl eq_refl) (rtc_refl _ _) (Z.to_nat x)) as Hl. cbn [fst snd] in Hl.
    replace (0 + Z.of_nat (Z.to_nat x) * 1) with x in Hl by lia. replace (0 + Z.of_nat (Z.to_nat x) * 0) with 0 in Hl by lia.
    apply Hl. intros i Hi. apply Hf'; lia. }
  assert (∀ x y, x = 0 ∨ x = Z.of_nat w - 1 → 0 ≤ y < Z.of_nat h → rtc adj (0, 0) (x, y)) as Hcol.
  { intros x y Hx Hy. pose proof (Hline (x, 0) (0, 1) (or_intror eq_refl) (Hbot x ltac:(lia)) (Z.to_nat y)) as Hl. cbn [fst snd] in Hl.
    replace (0 + Z.of_nat (Z.to_nat y) * 1) with y in Hl by lia. replace (x + Z.of_nat (Z.to_nat y) * 0) with x in Hl by lia.
    apply Hl. intros i Hi. apply Hf'; lia. }
  intros [x y] [Hx Hy] Hor. cbn [fst snd] in *. destruct Hor as [E|[E|[E|E]]]; [apply Hcol; auto|apply Hcol; auto|subst; auto|].
  subst y. pose proof (Hline (0, Z.of_nat h - 1) (1, 0) (or_introl eq_refl) (Hcol 0 (Z.of_nat h - 1) (or_introl eq_refl) ltac:(lia)) (Z.to_nat x)) as Hl.
  cbn [fst snd] in Hl. replace (0 + Z.of_nat (Z.to_nat x) * 1) with x in Hl by lia.
  replace (Z.of_nat h - 1 + Z.of_nat (Z.to_nat x) * 0) with (Z.of_nat h - 1) in Hl by lia.
  apply Hl. intros i Hi. apply Hf'; lia.
Qed.

Lemma comppolys (Q : comp → list pt → Prop) cs :
  (∀ i c, cs !! i = Some c → ∃ kf pts, (∀ fuel, (kf ≤ fuel)%nat → comppoly w h fuel c = Some pts) ∧ Q c pts) →
  ∃ kf ps, (∀ fuel, (kf ≤ fuel)%nat → mapM (comppoly w h fuel) cs = Some ps) ∧ Forall2 Q cs ps.
Proof.
  induction cs as [|c cs IH]; intros Hc; [by exists 0%nat, []|].
  destruct (Hc 0%nat c eq_refl) as (k1 & pts & H1 & HQ). destruct IH as (k2 & ps & H2 & Hps).
  { intros i d Hi. by apply (Hc (S i)). }
  exists (k1 + k2)%nat, (pts :: ps). split; [|by constructor]. intros fuel Hf. cbn [mapM]. rewrite H1 by lia.
  cbn [mbind option_bind]. rewrite H2 by lia. done.
Qed.

(** The outline of a component, seen from outside. *)
Definition outer_outline (c : comp) (pts : list pt) : Prop :=
  outline (blocked w h (cells c)) pts ∧ outline (blocked w h blkd) pts ∧
  ∀ a, ¬ inside pts a ↔ region (blocked w h (cells c)) (-1, -1) a.
(** The outline of a hole of a component that contains the cell [e]. *)
Definition hole_outline (c : comp) (e : Z * Z) (pts : list pt) : Prop :=
  outline (blocked w h (cells c)) pts ∧ outline (blocked w h blkd) pts ∧
  ∀ a, inside pts a ↔ region (blocked w h (cells c)) e a.

Lemma outline_whole c pts : (∀ a, incomp c a → wall a) → (∀ a b, incomp c a → adj a b → incomp c b) →
  outline (blocked w h (cells c)) pts → outline (blocked w h blkd) pts.
Proof.
  intros Hsub Hcl. apply outline_sub. intros d p. apply boundary_sub.
  - intros x y Hb. exact (Hsub (x, y) Hb).
  - intros x y x' y' H1 H2 H3. destruct (blocked w h blkd x' y') eqn:E; [|done].
    assert (incomp c (x', y')) as Hin; [|unfold incomp in Hin; cbn in Hin; congruence].
    apply (Hcl (x, y)); [exact H1|]. split_and!; [exact (Hsub (x, y) H1)|exact E|cbn; lia|cbn; lia].
Qed.

Theorem C105_framed : framed →
  ∃ kn kf c0 cs b ps, (∀ n, (kn ≤ n)%nat → components w h blkd n = Some (c0 :: cs)) ∧
  (∀ n fuel, (kn ≤ n)%nat → (kf ≤ fuel)%nat → polymap w h blkd n fuel = Some (b, ps)) ∧
  Forall2 outer_outline cs ps ∧
  (∀ a, inrange w h a → a.1 = 0 ∨ a.1 = Z.of_nat w - 1 ∨ a.2 = 0 ∨ a.2 = Z.of_nat h - 1 → incomp c0 a) ∧
  ((∀ a, inrange w h a → incomp c0 a) ∧ outer_outline c0 b ∨
   ∃ e e', inrange w h e ∧ ¬ wall e ∧ (∀ a, inrange w h a → a.2 < e.2 ∨ a.2 = e.2 ∧ e.1 < a.1 → wall a) ∧
     incomp c0 e' ∧ Z.abs (e'.1 - e.1) + Z.abs (e'.2 - e.2) = 1 ∧ hole_outline c0 e b).
Proof.
  intros Hf. pose proof Hf as (Hw & Hh & Hbord).
  destruct C103_components as (k1 & cs0 & Hk1 & Hwall & Huniq & Hstart & Hfst).
  destruct component_facts as (k2 & cs2 & Hk2 & Hfacts).
  assert (cs2 = cs0) as ->. { specialize (Hk1 (k1 + k2)%nat ltac:(lia)). specialize (Hk2 (k1 + k2)%nat ltac:(lia)). congruence. }
  destruct C104_outlines as (k3 & cs3 & Hk3 & Hout).
  assert (cs3 = cs0) as ->. { specialize (Hk1 (k1 + k3)%nat ltac:(lia)). specialize (Hk3 (k1 + k3)%nat ltac:(lia)). congruence. }
  assert (wall (0, 0)) as H00. { apply Hbord; [split; cbn; lia|cbn; lia]. }
  destruct (proj1 (Hwall (0, 0)) H00) as (i0 & c0' & Hi0 & _).
  destruct cs0 as [|c0 cs]; [by rewrite lookup_nil in Hi0|]. clear i0 c0' Hi0.
  destruct (Hstart 0%nat c0 eq_refl) as [Hs0 Hmin0].
  assert (minx c0 = 0 ∧ miny c0 = 0) as [Emx Emy].
  { pose proof (Hfst c0 (0, 0) eq_refl H00) as Hle. pose proof (blocked_in _ _ _ Hs0) as [? ?]. cbn [fst snd] in *. lia. }
  rewrite Emx, Emy in Hs0.
  destruct (Hfacts 0%nat c0 eq_refl) as (Hg0 & Hconn0 & Hsub0 & Hcl0).
  assert (∀ a, inrange w h a → a.1 = 0 ∨ a.1 = Z.of_nat w - 1 ∨ a.2 = 0 ∨ a.2 = Z.of_nat h - 1 → incomp c0 a) as Hfr.
  { intros a Ha Hor. pose proof (frame_conn Hf a Ha Hor) as Hr.
    destruct (proj1 (Hwall a)) as (i & c & Hi & Hia); [by apply Hbord|].
    assert (0%nat = i) as <- by (by eapply (Huniq 0%nat i c0 c)). by injection Hi as <-. }
  assert (∃ kf b, (∀ fuel, (kf ≤ fuel)%nat → comppoly w h fuel (invert w h c0) = Some b) ∧
     ((∀ a, inrange w h a → incomp c0 a) ∧ outer_outline c0 b ∨
      ∃ e e', inrange w h e ∧ ¬ wall e ∧ (∀ a, inrange w h a → a.2 < e.2 ∨ a.2 = e.2 ∧ e.1 < a.1 → wall a) ∧
     incomp c0 e' ∧ Z.abs (e'.1 - e.1) + Z.abs (e'.2 - e.2) = 1 ∧ hole_outline c0 e b)) as (kf1 & b & Hb & Hbq).
  { unfold invert. rewrite Emy. change (h - Z.to_nat 0)%nat with (h - 0)%nat.
    destruct (invertloop_spec c0 Hw Emx) with (k := (h - 0)%nat) (y := 0) as [[E Hfull]|(x & y & E & Hx0 & Hy & Hb1 & Hb0 & Hright & Hrows)].
    - intros y Hy. apply (Hfr (0, y)); [split; cbn; lia|]. by left.
    - intros y Hy. apply (Hfr (Z.of_nat w - 1, y)); [split; cbn; lia|]. by right; left.
    - lia.
    - lia.
    - lia.
    - rewrite E. destruct (Hout 0%nat c0 eq_refl) as (kf & pts & Hp & Ho1 & Ho2 & _ & Hins).
      exists kf, pts. split; [done|]. left. split; [|done]. intros [x y] [Hx Hy]. by apply Hfull.
    - rewrite E. set (c := Comp (x + 1) y (num c0) (cells c0)).
      assert (0 < x < Z.of_nat w - 1) as Hx. { pose proof (blocked_in _ _ _ Hb1). lia. }
      assert (0 < y) as Hy0.
      { destruct (decide (y = 0)) as [->|]; [|lia]. assert (incomp c0 (x, 0)) as Hc; [|unfold incomp in Hc; cbn in Hc; congruence].
        apply Hfr; [split; cbn; lia|cbn; lia]. }
      destruct (trace_encloses c Hconn0) as (kf & pts & Hp & Ho & _ & Hins).
      { split; [exact Hb1|]. cbn [outside pdir px py minx miny c fst snd]. by rewrite Z.add_simpl_r. }
      { cbn [back minx miny c]. change (cells c) with (cells c0). rewrite Z.add_simpl_r.
        rewrite Hrows by lia. done. }
      exists kf, pts. split; [done|]. right. exists (x, y), (x + 1, y).
      assert (¬ incomp c0 (x, y)) as Hno. { unfold incomp. cbn. congruence. }
      split; [split; cbn; lia|]. split.
      { intros Hwe. apply Hno, (Hcl0 (x + 1, y)); [exact Hb1|]. split_and!; [by apply Hsub0|done|cbn; lia|cbn; lia]. }
      split.
      { intros [ax ay] [Hax Hay] Hlow. cbn [fst snd] in *. apply Hsub0. unfold incomp. cbn [fst snd]. destruct Hlow as [Hlow|[-> Hlow]]; [apply Hrows; lia|apply Hright; lia]. }
      split; [exact Hb1|]. split; [cbn; lia|]. split; [exact Ho|]. split; [by eapply outline_whole|].
      intros a. destruct (Hins a) as [_ H2]. cbn [minx miny c] in H2. rewrite Z.add_simpl_r in H2. change (cells c) with (cells c0) in H2.
      apply H2. intros Hr.
      assert (∀ a b, region (blocked w h (cells c0)) a b → 0 < a.1 < Z.of_nat w - 1 ∧ 0 < a.2 < Z.of_nat h - 1 →
        0 < b.1 < Z.of_nat w - 1 ∧ 0 < b.2 < Z.of_nat h - 1) as Hstay.
      { clear -Hfr. induction 1 as [|a b d (_ & Hfb & Hd) _ IH]; [done|]. intros [Ha1 Ha2]. apply IH.
        assert (¬ (b.1 = 0 ∨ b.1 = Z.of_nat w - 1 ∨ b.2 = 0 ∨ b.2 = Z.of_nat h - 1)) as Hnb; [|lia].
        intros Hor. assert (incomp c0 b) as Hc; [|unfold incomp in Hc; congruence]. apply Hfr; [split; lia|done]. }
      destruct (Hstay _ _ Hr) as [? _]; [|cbn in *; lia]. cbn [fst snd]. split; [lia|].
      assert (y ≠ Z.of_nat h - 1); [|lia]. intros ->. apply Hno, Hfr; [split; cbn; lia|cbn; lia]. }
  destruct (comppolys outer_outline cs) as (kf2 & ps & Hps & HF).
  { intros i c Hi. destruct (Hout (S i) c Hi) as (kf & pts & Hp & Ho1 & Ho2 & _ & Hins). exists kf, pts. done. }
  exists k1, (kf1 + kf2)%nat, c0, cs, b, ps. split; [done|]. split; [|done].
  intros n fuel Hn Hfu. unfold polymap. rewrite Hk1 by done. cbn [mbind option_bind]. rewrite Hb by lia. cbn [mbind option_bind].
  rewrite Hps by lia. done.
Qed.
End props.

(** Tracing does not end if the start is entered straight ahead. *)
Theorem C104_start_must_be_a_corner B mx my : valid B (Pose mx my Up) → pdir (back B (Pose mx my Up)) = Up →
  ∀ fuel, poly B fuel mx my = None.
Proof.
  intros Hs Hb fuel. unfold poly. generalize [(mx, my)] as pts. generalize Hs. generalize (Pose mx my Up) as cur.
  induction fuel as [|fuel IH]; intros cur Hc pts; [done|]. cbn [trace].
  destruct (decide (pdir cur = pdir (clockwise B cur))) as [E|E]; [apply IH; by apply clockwise_valid|].
  destruct (decide (clockwise B cur = Pose mx my Up)) as [E'|E']; [|apply IH; by apply clockwise_valid].
  exfalso. apply E. rewrite E'. rewrite <-(back_clockwise B cur Hc), E'. done.
Qed.

Lemma joinall_mono n m s i js s' : joinall n s i js = Some s' → (n ≤ m)%nat → joinall m s i js = Some s'.
Proof.
  revert s. induction js as [|j js IH]; intros s E Hm; [done|]. cbn [joinall] in *.
  destruct (Djset.Model.join n s i j) as [s1|] eqn:E1; [|done]. cbn [mbind option_bind] in E.
  rewrite (join_mono n m _ _ _ _ E1 Hm). cbn [mbind option_bind]. by apply IH.
Qed.
Lemma forest_mono w h blkd n m s cs s' : forest w h blkd n s cs = Some s' → (n ≤ m)%nat → forest w h blkd m s cs = Some s'.
Proof.
  revert s. induction cs as [|[x y] cs IH]; intros s E Hm; [done|]. cbn [forest] in *.
  destruct (joinall n s (idx h x y) (joins w h blkd x y)) as [s1|] eqn:E1; [|done]. cbn [mbind option_bind] in E.
  rewrite (joinall_mono n m _ _ _ _ E1 Hm). cbn [mbind option_bind]. by apply IH.
Qed.
Lemma place_mono w h blkd n m st x y st' : place w h blkd n st x y = Some st' → (n ≤ m)%nat → place w h blkd m st x y = Some st'.
Proof.
  destruct st as [[s aux] cs]. unfold place. destruct (default false (blkd !! idx h x y)); [|done]. intros E Hm.
  destruct (Djset.Model.find n s (idx h x y)) as [[s1 r]|] eqn:E1; [|done]. by rewrite (find_mono n m _ _ _ E1 Hm).
Qed.
Lemma placeall_mono w h blkd n m cs st st' : placeall w h blkd n st cs = Some st' → (n ≤ m)%nat → placeall w h blkd m st cs = Some st'.
Proof.
  revert st. induction cs as [|[x y] cs IH]; intros st E Hm; [done|]. cbn [placeall] in *.
  destruct (place w h blkd n st x y) as [st1|] eqn:E1; [|done]. cbn [mbind option_bind] in E.
  rewrite (place_mono _ _ _ n m _ _ _ _ E1 Hm). cbn [mbind option_bind]. by apply IH.
Qed.
Lemma components_mono w h blkd n m cs : components w h blkd n = Some cs → (n ≤ m)%nat → components w h blkd m = Some cs.
Proof.
  unfold components. intros E Hm. destruct (forest w h blkd n Djset.Model.new (scan w h)) as [s|] eqn:E1; [|done].
  rewrite (forest_mono _ _ _ n m _ _ _ E1 Hm). cbn [mbind option_bind] in *.
  destruct (placeall w h blkd n (s, λ _, 0%nat, []) (scan w h)) as [st|] eqn:E2; [|done].
  by rewrite (placeall_mono _ _ _ n m _ _ _ E2 Hm).
Qed.

(** ** C105: without a closed frame, and with several rooms *)

(** A frame with a door in its left side (columns from left to right, each from
    the bottom up): the conversion does not end. *)
Definition doormap : list bool :=
  [true; false; true; true] ++ [true; false; false; true] ++ [true; true; true; true].

Theorem C105_open_frame_refuted : ∀ n fuel, polymap 3 4 doormap n fuel = None.
Proof.
  intros n fuel. unfold polymap. destruct (components 3 4 doormap n) as [l|] eqn:E; [|done]. cbn [mbind option_bind].
  apply (components_mono _ _ _ _ (n + 50)) in E; [|lia].
  pose proof (components_mono 3 4 doormap 50 (n + 50) [Comp 0 0 9 doormap] ltac:(vm_compute; reflexivity) ltac:(lia)) as E'.
  rewrite E' in E. injection E as <-.
  assert (invert 3 4 (Comp 0 0 9 doormap) = Comp 2 2 9 doormap) as -> by (vm_compute; reflexivity).
  unfold comppoly. cbn [cells minx miny]. rewrite C104_start_must_be_a_corner; [done| |].
  - split; vm_compute; reflexivity.
  - vm_compute. reflexivity.
Qed.

(** A map of four cells, one of them blocked: the bound is a square outside the map. *)
Theorem C105_no_frame_refuted : ∀ n fuel, (50 ≤ n)%nat → (50 ≤ fuel)%nat →
  polymap 2 2 [true; false; false; false] n fuel = Some ([(2, 1); (2, 2); (3, 2); (3, 1)], []).
Proof.
  intros n fuel Hn Hf. unfold polymap.
  rewrite (components_mono 2 2 [true; false; false; false] 50 n [Comp 0 0 1 [true; false; false; false]] ltac:(vm_compute; reflexivity) Hn).
  cbn [mbind option_bind]. replace fuel with (4 + (fuel - 4))%nat by lia. reflexivity.
Qed.

(** Two rooms: only the one whose right side is met first in the lowest row with a
    free cell becomes the bound. *)
Definition tworooms : list bool :=
  [true; true; true] ++ [true; false; true] ++ [true; true; true] ++ [true; false; true] ++ [true; true; true].
Example two_rooms : polymap 5 3 tworooms 50 50 = Some ([(4, 1); (4, 2); (3, 2); (3, 1)], []).
Proof. vm_compute. reflexivity. Qed.

(** A framed room with an obstacle in its middle. *)
Definition room : list bool :=
  [true; true; true; true; true] ++ [true; false; false; false; true] ++ [true; false; true; false; true] ++
  [true; false; false; false; true] ++ [true; true; true; true; true].
Example room_framed : framed 5 5 room.
Proof.
  split; [lia|]. split; [lia|]. intros [x y] [Hx Hy] Hor. cbn [fst snd] in *.
  assert (x = 0 ∨ x = 1 ∨ x = 2 ∨ x = 3 ∨ x = 4) as Cx by lia. assert (y = 0 ∨ y = 1 ∨ y = 2 ∨ y = 3 ∨ y = 4) as Cy by lia.
  destruct Cx as [->|[->|[->|[->| ->]]]], Cy as [->|[->|[->|[->| ->]]]]; try (exfalso; lia); vm_compute; reflexivity.
Qed.
Example room_polymap : polymap 5 5 room 50 50 =
  Some ([(4, 1); (4, 4); (1, 4); (1, 1)], [[(2, 2); (2, 3); (3, 3); (3, 2)]]).
Proof. vm_compute. reflexivity. Qed.
(** A room whose wall has a bump that touches it by a corner only. *)
Example bump_polymap : polymap 6 5
    ([true; true; true; true; true] ++ [true; false; false; false; true] ++ [true; false; true; false; true] ++
     [true; false; false; true; true] ++ [true; false; false; false; true] ++ [true; true; true; true; true]) 50 50 =
  Some ([(5, 1); (5, 4); (4, 4); (4, 3); (3, 3); (3, 2); (2, 2); (2, 3); (3, 3); (3, 4); (1, 4); (1, 1)], []).
Proof. vm_compute. reflexivity. Qed.
(** The even-odd rule on the outline of the obstacle. *)
Example room_inside : inside [(2, 2); (2, 3); (3, 3); (3, 2)] (2, 2) ∧ ¬ inside [(2, 2); (2, 3); (3, 3); (3, 2)] (3, 2) ∧
  ¬ inside [(2, 2); (2, 3); (3, 3); (3, 2)] (1, 2) ∧ inside [(4, 1); (4, 4); (1, 4); (1, 1)] (2, 2).
Proof. split_and!; vm_compute; done. Qed.

Print Assumptions C103_components.
Print Assumptions C104_outlines.
Print Assumptions C104_start_must_be_a_corner.
Print Assumptions C105_framed.
Print Assumptions C105_open_frame_refuted.
Print Assumptions C105_no_frame_refuted.
