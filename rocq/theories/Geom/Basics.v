(** Boxes and segments of utils/geom2d.hpp. *)
From stdpp Require Import prelude.
From Coq Require Import QArith Qabs Lqa.
From Verif.Geom Require Import Model.
Local Open Scope Q_scope.

Lemma Qltb_lt a b : Qltb a b = true ↔ a < b.
Proof. unfold Qltb. rewrite negb_true_iff. rewrite <-not_true_iff_false, Qle_bool_iff. split; [apply Qnot_le_lt|apply Qlt_not_le]. Qed.
Lemma Qltb_ge a b : Qltb a b = false ↔ b <= a.
Proof. unfold Qltb. by rewrite negb_false_iff, Qle_bool_iff. Qed.
Lemma Qle_bool_gt a b : Qle_bool a b = false ↔ b < a.
Proof. rewrite <-not_true_iff_false, Qle_bool_iff. split; [apply Qnot_le_lt|apply Qlt_not_le]. Qed.

Lemma between_iff lo hi v : between lo hi v = true ↔ lo - Threshold <= v /\ v <= hi + Threshold.
Proof. unfold between. by rewrite andb_true_iff, !Qle_bool_iff. Qed.
Lemma doubleeq_iff a b : doubleeq a b = true ↔ Qabs (a - b) < Threshold.
Proof. apply Qltb_lt. Qed.
Lemma doubleeq_false a b : doubleeq a b = false ↔ Threshold <= Qabs (a - b).
Proof. apply Qltb_ge. Qed.
Lemma tau_pos : 0 < Threshold.
Proof. reflexivity. Qed.
Lemma eps_tau : Epsilon < Threshold.
Proof. reflexivity. Qed.
Lemma eps_pos : 0 < Epsilon.
Proof. reflexivity. Qed.
Lemma doubleeq_eq a b : a == b → doubleeq a b = true.
Proof. intros H. apply doubleeq_iff. rewrite H. setoid_replace (b - b) with 0 by ring. reflexivity. Qed.
#[global] Opaque Threshold Epsilon.

Ltac qcases := repeat match goal with
  | |- context [if Qltb ?a ?b then _ else _] => destruct (Qltb a b) eqn:?
  end; repeat match goal with
  | H : Qltb _ _ = true |- _ => apply Qltb_lt in H
  | H : Qltb _ _ = false |- _ => apply Qltb_ge in H
  end.

(** ** Specification *)
(** A point of a box. *)
Definition inbox (b : bbox) (p : pt) : Prop := x (lo b) <= x p /\ x p <= x (hi b) /\ y (lo b) <= y p /\ y p <= y (hi b).
(** The points agree. *)
Definition same (p q : pt) : Prop := x p == x q /\ y p == y q.
(** A point of the segment from [a] to [c]. *)
Definition on (a c p : pt) : Prop :=
  ∃ t, 0 <= t /\ t <= 1 /\ x p == x a + t * (x c - x a) /\ y p == y a + t * (y c - y a).
(** A point at most [Threshold] from the segment, in both coordinates. *)
Definition near (a c p : pt) : Prop :=
  ∃ q, on a c q ∧ Qabs (x p - x q) <= Threshold /\ Qabs (y p - y q) <= Threshold.

(** ** C106: boxes *)
Definition leastbox (b : bbox) (ps : list pt) : Prop :=
  (∀ p, p ∈ ps → inbox b p) ∧
  (∃ p, p ∈ ps ∧ x p == x (lo b)) ∧ (∃ p, p ∈ ps ∧ x p == x (hi b)) ∧
  (∃ p, p ∈ ps ∧ y p == y (lo b)) ∧ (∃ p, p ∈ ps ∧ y p == y (hi b)).

Lemma growbbox_least b ps p : leastbox b ps → leastbox (growbbox b p) (ps ++ [p]).
Proof.
  intros (Hin & (a & Ha & Ea) & (c & Hc & Ec) & (d & Hd & Ed) & (e & He & Ee)).
  split; [|split_and!].
  - intros q [Hq|Hq]%elem_of_app.
    + destruct (Hin q Hq) as (H1 & H2 & H3 & H4). unfold inbox, growbbox. cbn [lo hi x y]. qcases; split_and!; lra.
    + apply elem_of_list_singleton in Hq as ->. unfold inbox, growbbox. cbn [lo hi x y]. qcases; split_and!; lra.
  - unfold growbbox. cbn [lo hi x y]. qcases; [exists p|exists a]; (split; [apply elem_of_app; (by left) || (right; by apply elem_of_list_singleton)|lra]).
  - unfold growbbox. cbn [lo hi x y]. qcases; [exists p|exists c]; (split; [apply elem_of_app; (by left) || (right; by apply elem_of_list_singleton)|lra]).
  - unfold growbbox. cbn [lo hi x y]. qcases; [exists p|exists d]; (split; [apply elem_of_app; (by left) || (right; by apply elem_of_list_singleton)|lra]).
  - unfold growbbox. cbn [lo hi x y]. qcases; [exists p|exists e]; (split; [apply elem_of_app; (by left) || (right; by apply elem_of_list_singleton)|lra]).
Qed.

Theorem C106_box_of_points ps : (ps = [] ∧ bboxof ps = None) ∨ ∃ b, bboxof ps = Some b ∧ leastbox b ps.
Proof.
  destruct ps as [|p ps]; [by left|]. right. eexists. split; [done|].
  assert (∀ l b, leastbox b l → leastbox (fold_left growbbox ps b) (l ++ ps)) as Hl.
  { induction ps as [|q ps IH]; intros l b Hb; [by rewrite app_nil_r|]. cbn [fold_left].
    replace (l ++ q :: ps) with ((l ++ [q]) ++ ps) by (by rewrite <-app_assoc). apply IH. by apply growbbox_least. }
  apply (Hl [p]). split; [|split_and!; exists p; (split; [apply elem_of_list_here|cbn; lra])].
  intros q ->%elem_of_list_singleton. unfold inbox. cbn. split_and!; lra.
Qed.

Lemma mkbbox_least p q : leastbox (mkbbox p q) [p; q].
Proof.
  split.
  - intros r [->|[->|Hn]%elem_of_cons]%elem_of_cons; [| |by apply elem_of_nil in Hn];
      unfold inbox, mkbbox; cbn [lo hi x y]; qcases; split_and!; lra.
  - unfold mkbbox; cbn [lo hi x y]; split_and!; qcases;
      (exists p; split; [by apply elem_of_cons; left|lra]) || (exists q; split; [apply elem_of_cons; right; by apply elem_of_list_singleton|lra]).
Qed.
Theorem C106_box_of_corners p q : leastbox (mkbbox p q) [p; q] ∧ inbox (mkbbox p q) (center (mkbbox p q)).
Proof.
  split; [apply mkbbox_least|]. unfold inbox, center, mkbbox. cbn [lo hi x y].
  assert (∀ a : Q, a / 2 == a * (1 # 2)) as Hh by (intros; unfold Qdiv; reflexivity).
  rewrite !Hh. qcases; split_and!; lra.
Qed.

Lemma leastbox_proper b ps : leastbox b ps → x (lo b) <= x (hi b) /\ y (lo b) <= y (hi b).
Proof. intros (Hin & (a & Ha & _) & _). destruct (Hin a Ha) as (? & ? & ? & ?). split; lra. Qed.

(** Two boxes hit exactly if they have a point in common. *)
Theorem C106_hits a c ps qs : leastbox a ps → leastbox c qs → bhits a c = true ↔ ∃ p, inbox a p ∧ inbox c p.
Proof.
  intros Ha%leastbox_proper Hc%leastbox_proper. destruct Ha as [Ha1 Ha2], Hc as [Hc1 Hc2].
  unfold bhits. rewrite negb_true_iff, !orb_false_iff, !Qltb_ge. split.
  - intros [[[H1 H2] H3] H4].
    exists (Pt (if Qltb (x (lo a)) (x (lo c)) then x (lo c) else x (lo a)) (if Qltb (y (lo a)) (y (lo c)) then y (lo c) else y (lo a))).
    unfold inbox. cbn [x y]. qcases; split_and!; lra.
  - intros (p & (? & ? & ? & ?) & (? & ? & ? & ?)). split_and!; lra.
Qed.

(** A box contains the points at most [Threshold] outside of it. *)
Theorem C106_contains a p : bcontains a p = true ↔
  inbox (Bbox (Pt (x (lo a) - Threshold) (y (lo a) - Threshold)) (Pt (x (hi a) + Threshold) (y (hi a) + Threshold))) p.
Proof. unfold bcontains, inbox. rewrite andb_true_iff, !between_iff. cbn [lo hi x y]. tauto. Qed.

Theorem C106_translate b ps dx dy : leastbox b ps → leastbox (btranslate dx dy b) (translatept dx dy <$> ps).
Proof.
  intros (Hin & (a & Ha & Ea) & (c & Hc & Ec) & (d & Hd & Ed) & (e & He & Ee)).
  split; [|split_and!].
  - intros q (p & -> & Hp)%elem_of_list_fmap. destruct (Hin p Hp) as (? & ? & ? & ?). unfold inbox, btranslate, translatept. cbn [lo hi x y]. split_and!; lra.
  - exists (translatept dx dy a). split; [by apply elem_of_list_fmap_1|]. cbn. lra.
  - exists (translatept dx dy c). split; [by apply elem_of_list_fmap_1|]. cbn. lra.
  - exists (translatept dx dy d). split; [by apply elem_of_list_fmap_1|]. cbn. lra.
  - exists (translatept dx dy e). split; [by apply elem_of_list_fmap_1|]. cbn. lra.
Qed.

(** ** C107: segments *)
Definition dx (a c : pt) : Q := x c - x a.
Definition dy (a c : pt) : Q := y c - y a.
(** Neither nearly upright nor (to each other) nearly parallel. *)
Definition plain (a c : pt) : Prop := dx a c == 0 \/ Threshold <= Qabs (dx a c).
Definition clear (a c a' c' : pt) : Prop :=
  plain a c ∧ plain a' c' ∧ ¬ dy a c * dx a' c' - dy a' c' * dx a c == 0 ∧
  Threshold * Qabs (dx a c * dx a' c') <= Qabs (dy a c * dx a' c' - dy a' c' * dx a c).

Lemma vert_zero a c : plain a c → isvertical (mkseg a c) = true ↔ dx a c == 0.
Proof.
  intros Hp. unfold isvertical, mkseg. cbn [Model.p0 Model.p1]. rewrite doubleeq_iff.
  assert (Qabs (x a - x c) == Qabs (dx a c)) as ->. { unfold dx. rewrite Qabs_Qminus. reflexivity. }
  split.
  - intros H. destruct Hp as [?|?]; [done|lra].
  - intros ->. apply tau_pos.
Qed.

Lemma line_finite a c : ¬ dx a c == 0 → plain a c →
  ∃ mm bb, mkline a c = Line (Some mm) bb ∧ mm * dx a c == dy a c ∧ bb == y a - mm * x a.
Proof.
  intros H0 [?|Hp]; [done|]. unfold mkline. fold (dx a c) (dy a c).
  destruct (Qltb (Qabs (dx a c)) Epsilon) eqn:E.
  - apply Qltb_lt in E. pose proof eps_tau. lra.
  - exists (dy a c / dx a c), (y a - dy a c / dx a c * x a). split; [done|]. split; [|reflexivity].
    field. done.
Qed.
Lemma line_upright a c : dx a c == 0 → mkline a c = Line None (x c).
Proof.
  intros H0. unfold mkline. fold (dx a c) (dy a c). assert (Qltb (Qabs (dx a c)) Epsilon = true) as ->; [|done].
  apply Qltb_lt. rewrite H0. apply eps_pos.
Qed.

Lemma on_inbox a c p : on a c p → inbox (mkbbox a c) p.
Proof.
  intros (t & H0 & H1 & Ex & Ey). unfold inbox, mkbbox. cbn [lo hi x y]. rewrite Ex, Ey.
  split_and!; qcases; nra.
Qed.

(** [within] on a point of the line of the segment. *)
Lemma within_on a c p : on a c p → within (mkseg a c) p = true.
Proof.
  intros (H1 & H2 & H3 & H4)%on_inbox. pose proof tau_pos. unfold within, mkseg. cbn [sb].
  destruct (Qltb _ _); apply between_iff; split; lra.
Qed.

(** A point of the infinite line. *)
Definition online (a c p : pt) : Prop := ∃ t, x p == x a + t * dx a c /\ y p == y a + t * dy a c.

Lemma Qabs_bound u e : Qabs u <= e ↔ - e <= u /\ u <= e.
Proof. apply Qabs_Qle_condition. Qed.

Lemma scaled_dev (t d e : Q) : Qabs e <= Qabs d → Qabs (t * d) <= Threshold → Qabs (t * e) <= Threshold.
Proof.
  intros H1 H2. rewrite Qabs_Qmult in *. eapply Qle_trans; [|exact H2].
  rewrite (Qmult_comm (Qabs t)), (Qmult_comm (Qabs t)). apply Qmult_le_compat_r; [done|apply Qabs_nonneg].
Qed.

Lemma Qabs_cases u : (0 <= u /\ Qabs u == u) \/ (u <= 0 /\ Qabs u == - u).
Proof.
  destruct (Qlt_le_dec u 0) as [H|H]; [right|left]; (split; [lra|]); [apply Qabs_neg|apply Qabs_pos]; lra.
Qed.

Lemma dev_1d a c t v : v == a + t * (c - a) →
  between (if Qltb c a then c else a) (if Qltb c a then a else c) v = true →
  (t < 0 → Qabs (t * (c - a)) <= Threshold) ∧ (1 < t → Qabs ((t - 1) * (c - a)) <= Threshold).
Proof.
  intros Ev. rewrite between_iff. rewrite Ev. pose proof tau_pos. intros [H1 H2].
  destruct (Qltb c a) eqn:E; [apply Qltb_lt in E|apply Qltb_ge in E].
  - split; intros Ht; apply Qabs_bound; split; nra.
  - split; intros Ht; apply Qabs_bound; split; nra.
Qed.

Lemma extent_1d a c : (if Qltb c a then a else c) - (if Qltb c a then c else a) == Qabs (c - a).
Proof.
  destruct (Qltb c a) eqn:E; [apply Qltb_lt in E|apply Qltb_ge in E].
  - rewrite Qabs_neg by lra. ring.
  - rewrite Qabs_pos by lra. ring.
Qed.

Lemma within_near a c p : online a c p → within (mkseg a c) p = true → near a c p.
Proof.
  intros (t & Ex & Ey) Hw. pose proof tau_pos as Ht.
  assert ((t < 0 → Qabs (t * dx a c) <= Threshold ∧ Qabs (t * dy a c) <= Threshold) ∧
          (1 < t → Qabs ((t - 1) * dx a c) <= Threshold ∧ Qabs ((t - 1) * dy a c) <= Threshold)) as [Hneg Hbig].
  { unfold within, mkseg, mkbbox in Hw. cbn [sb lo hi x y] in Hw.
    destruct (Qltb _ _) eqn:E in Hw; [apply Qltb_lt in E|apply Qltb_ge in E]; rewrite !extent_1d in E.
    - destruct (dev_1d _ _ _ _ Ex Hw) as [H1 H2]. split; intros Hlt.
      + split; [by apply H1|]. apply (scaled_dev t (dx a c)); [unfold dx, dy; lra|by apply H1].
      + split; [by apply H2|]. apply (scaled_dev (t - 1) (dx a c)); [unfold dx, dy; lra|by apply H2].
    - destruct (dev_1d _ _ _ _ Ey Hw) as [H1 H2]. split; intros Hlt.
      + split; [|by apply H1]. apply (scaled_dev t (dy a c)); [unfold dx, dy; lra|by apply H1].
      + split; [|by apply H2]. apply (scaled_dev (t - 1) (dy a c)); [unfold dx, dy; lra|by apply H2]. }
  destruct (Qlt_le_dec t 0) as [Hlt|Hpos]; [|destruct (Qlt_le_dec 1 t) as [Hlt|Hle]].
  - exists a. split; [exists 0; split_and!; lra|]. rewrite Ex, Ey. split.
    + assert (x a + t * dx a c - x a == t * dx a c) as -> by ring. by apply Hneg.
    + assert (y a + t * dy a c - y a == t * dy a c) as -> by ring. by apply Hneg.
  - exists c. split; [exists 1; split_and!; lra|]. rewrite Ex, Ey. split.
    + assert (x a + t * dx a c - x c == (t - 1) * dx a c) as -> by (unfold dx; ring). by apply Hbig.
    + assert (y a + t * dy a c - y c == (t - 1) * dy a c) as -> by (unfold dy; ring). by apply Hbig.
  - exists p. split; [exists t; split_and!; done|].
    assert (∀ u : Q, u - u == 0) as Hz by (intros; ring). rewrite !Hz. change (Qabs 0) with 0. lra.
Qed.

(** The crossing of two lines that are clear of each other. *)
Lemma crossing_unique a c a' c' p q : ¬ dy a c * dx a' c' - dy a' c' * dx a c == 0 →
  online a c p → online a' c' p → online a c q → online a' c' q → same p q.
Proof.
  intros Hx (t & E1 & E2) (t' & E3 & E4) (s & F1 & F2) (s' & F3 & F4).
  assert (t == s) as Hts.
  { assert ((t - s) * (dy a c * dx a' c' - dy a' c' * dx a c) == 0) as Hz.
    { assert ((t - s) * dx a c == (t' - s') * dx a' c') as Ha by lra.
      assert ((t - s) * dy a c == (t' - s') * dy a' c') as Hb by lra.
      setoid_replace ((t - s) * (dy a c * dx a' c' - dy a' c' * dx a c)) with
        (((t - s) * dy a c) * dx a' c' - dy a' c' * ((t - s) * dx a c)) by ring. rewrite Ha, Hb. ring. }
    destruct (Qmult_integral _ _ Hz); [lra|done]. }
  split; [rewrite E1, F1, Hts; reflexivity|rewrite E2, F2, Hts; reflexivity].
Qed.

Lemma isect_point a c a' c' : clear a c a' c' →
  ∃ p, online a c p ∧ online a' c' p ∧
    isect (mkseg a c) (mkseg a' c') =
      (if within (mkseg a c) p && within (mkseg a' c') p then Some p else None).
Proof.
  intros (Hp & Hp' & Hcr & Hsl). pose proof (vert_zero a c Hp) as Hv. pose proof (vert_zero a' c' Hp') as Hv'.
  unfold isect. destruct (isvertical (mkseg a c)) eqn:E1.
  - pose proof (proj1 Hv eq_refl) as H0. destruct (isvertical (mkseg a' c')) eqn:E2.
    { destruct Hcr. rewrite H0, (proj1 Hv' eq_refl). ring. }
    assert (¬ dx a' c' == 0) as H0'. { intros H. by apply Hv' in H. }
    assert (¬ dy a c == 0) as Hd. { intros H. apply Hcr. rewrite H, H0. ring. }
    cbn [andb]. change (sl (mkseg a c)) with (mkline a c). change (sl (mkseg a' c')) with (mkline a' c').
    rewrite (line_upright a c H0). destruct (line_finite a' c' H0' Hp') as (mm & bb & -> & Em & Eb).
    cbn [m slopeeq default b]. exists (Pt (x a) (mm * x a + bb)). cbn [Model.p0 mkseg]. split; [|split; [|done]].
    + exists ((mm * x a + bb - y a) / dy a c). cbn [x y]. split; [rewrite H0; ring|field; done].
    + exists ((x a - x a') / dx a' c'). cbn [x y]. split; [field; done|]. rewrite Eb, <-Em. field. done.
  - assert (¬ dx a c == 0) as H0. { intros H. by apply Hv in H. }
    cbn [andb]. change (sl (mkseg a c)) with (mkline a c). change (sl (mkseg a' c')) with (mkline a' c').
    destruct (line_finite a c H0 Hp) as (mm & bb & -> & Em & Eb).
    destruct (isvertical (mkseg a' c')) eqn:E2.
    + pose proof (proj1 Hv' eq_refl) as H0'. assert (¬ dy a' c' == 0) as Hd. { intros H. apply Hcr. rewrite H, H0'. ring. }
      rewrite (line_upright a' c' H0'). cbn [m slopeeq default b]. exists (Pt (x a') (mm * x a' + bb)). cbn [Model.p0 mkseg]. split; [|split; [|done]].
      * exists ((x a' - x a) / dx a c). cbn [x y]. split; [field; done|]. rewrite Eb, <-Em. field. done.
      * exists ((mm * x a' + bb - y a') / dy a' c'). cbn [x y]. split; [rewrite H0'; ring|field; done].
    + assert (¬ dx a' c' == 0) as H0'. { intros H. by apply Hv' in H. }
      destruct (line_finite a' c' H0' Hp') as (mm' & bb' & -> & Em' & Eb').
      assert (dy a c * dx a' c' - dy a' c' * dx a c == (mm - mm') * (dx a c * dx a' c')) as Ecr.
      { rewrite <-Em, <-Em'. ring. }
      assert (¬ mm - mm' == 0) as Hne. { intros H. apply Hcr. rewrite Ecr, H. ring. }
      assert (slopeeq (Some mm) (Some mm') = false) as Hse.
      { cbn [slopeeq]. apply doubleeq_false. rewrite Ecr, (Qabs_Qmult (mm - mm')) in Hsl.
        assert (0 < Qabs (dx a c * dx a' c')) as Hpos.
        { destruct (Qabs_cases (dx a c * dx a' c')) as [[? ->]|[? ->]].
          - destruct (Qle_lt_or_eq _ _ H) as [?|He]; [done|]. symmetry in He. apply Qmult_integral in He. tauto.
          - destruct (Qle_lt_or_eq _ _ H) as [?|He]; [lra|]. apply Qmult_integral in He. tauto. }
        apply (Qmult_le_r _ _ _ Hpos). exact Hsl. }
      cbn [m]. rewrite Hse. unfold lisect. cbn [m]. rewrite Hse. cbn [b].
      exists (Pt ((bb' - bb) / (mm - mm')) (mm * ((bb' - bb) / (mm - mm')) + bb)). split; [|split; [|done]].
      * exists (((bb' - bb) / (mm - mm') - x a) / dx a c). cbn [x y]. split; [field; done|]. rewrite <-Em, Eb. field. done.
      * exists (((bb' - bb) / (mm - mm') - x a') / dx a' c'). cbn [x y]. split; [field; done|]. rewrite <-Em', Eb, Eb'. field. done.
Qed.

Lemma on_online a c p : on a c p → online a c p.
Proof. intros (t & _ & _ & E1 & E2). by exists t. Qed.

#[global] Instance between_proper : Proper (Qeq ==> Qeq ==> Qeq ==> eq) between.
Proof.
  intros a a' Ea c c' Ec v v' Ev. apply eq_bool_prop_intro. unfold Is_true.
  destruct (between a c v) eqn:E1, (between a' c' v') eqn:E2; try done.
  - apply between_iff in E1. rewrite Ea, Ec, Ev in E1. apply between_iff in E1. congruence.
  - apply between_iff in E2. rewrite <-Ea, <-Ec, <-Ev in E2. apply between_iff in E2. congruence.
Qed.
Lemma within_same s p q : same p q → within s p = within s q.
Proof. intros [H1 H2]. unfold within. by rewrite H1, H2. Qed.

(** Segments with a point in common. *)
Theorem C107_meet_found a c a' c' p : clear a c a' c' → on a c p → on a' c' p →
  (∃ q, isect (mkseg a c) (mkseg a' c') = Some q ∧ same q p) ∧ hits (mkseg a c) (mkseg a' c') = true.
Proof.
  intros Hc Hon Hon'.
  assert (∃ q, isect (mkseg a c) (mkseg a' c') = Some q ∧ same q p) as (q & Eq & Hs).
  { destruct (isect_point _ _ _ _ Hc) as (q & Hq1 & Hq2 & ->).
    assert (same q p) as Hs. { eapply crossing_unique; [apply Hc|done|done|by apply on_online|by apply on_online]. }
    rewrite !(within_same _ _ _ Hs), !within_on by done. by exists q. }
  split; [by exists q|]. unfold hits. rewrite Eq. rewrite bool_decide_eq_true_2 by done.
  destruct (_ || _); [done|]. rewrite andb_true_r. cbn [sb mkseg].
  apply (C106_hits _ _ _ _ (mkbbox_least _ _) (mkbbox_least _ _)). exists p. split; by apply on_inbox.
Qed.

(** What is found lies on both lines, and near both segments. *)
Theorem C107_found_meet a c a' c' : clear a c a' c' →
  (∀ q, isect (mkseg a c) (mkseg a' c') = Some q → online a c q ∧ online a' c' q ∧ near a c q ∧ near a' c' q) ∧
  (hits (mkseg a c) (mkseg a' c') = true → ∃ q, near a c q ∧ near a' c' q).
Proof.
  intros Hc. assert (∀ q, isect (mkseg a c) (mkseg a' c') = Some q → online a c q ∧ online a' c' q ∧ near a c q ∧ near a' c' q) as Hi.
  { intros q. destruct (isect_point _ _ _ _ Hc) as (p & H1 & H2 & ->).
    destruct (within (mkseg a c) p) eqn:E1; [|done]. destruct (within (mkseg a' c') p) eqn:E2; [|done]. intros [= <-].
    split; [done|]. split; [done|]. split; by apply within_near. }
  split; [done|]. unfold hits. intros Hh. destruct (isect (mkseg a c) (mkseg a' c')) as [q|].
  - exists q. destruct (Hi q eq_refl) as (_ & _ & ? & ?). done.
  - destruct (_ || _) in Hh; [by apply bool_decide_eq_true in Hh|]. apply andb_true_iff in Hh as [_ Hh]. by apply bool_decide_eq_true in Hh.
Qed.

(** Segments on one line: an end of the argument on the receiver is found, and nothing else. *)
Theorem C107_in_line a c a' c' : ¬ same a c → plain a c → plain a' c' → ¬ same a' c' → online a c a' → online a c c' →
  (on a c a' ∨ on a c c' → ∃ q, isect (mkseg a c) (mkseg a' c') = Some q ∧ hits (mkseg a c) (mkseg a' c') = true) ∧
  (∀ q, isect (mkseg a c) (mkseg a' c') = Some q → (q = a' ∨ q = c') ∧ near a c q).
Proof.
  intros Hne Hp Hp' Hne' Ha Hc. pose proof (vert_zero a c Hp) as Hv. pose proof (vert_zero a' c' Hp') as Hv'.
  assert (isect (mkseg a c) (mkseg a' c') = overlap (mkseg a c) (mkseg a' c')) as Eo.
  { unfold isect. destruct Ha as (t & T1 & T2), Hc as (u & U1 & U2).
    assert (dx a' c' == (u - t) * dx a c) as D1 by (unfold dx at 1; rewrite T1, U1; ring).
    assert (dy a' c' == (u - t) * dy a c) as D2 by (unfold dy at 1; rewrite T2, U2; ring).
    assert (¬ u - t == 0) as Hut. { intros E. apply Hne'. rewrite E in D1, D2. unfold dx, dy in D1, D2. split; lra. }
    destruct (isvertical (mkseg a c)) eqn:E1.
    - pose proof (proj1 Hv eq_refl) as H0. rewrite (proj2 Hv') by (rewrite D1, H0; ring). cbn [andb].
      rewrite doubleeq_eq; [done|]. cbn [Model.p0 mkseg]. rewrite T1, H0. ring.
    - assert (¬ dx a c == 0) as H0. { intros H. by apply Hv in H. }
      assert (¬ dx a' c' == 0) as H0'. { intros H. rewrite D1 in H. apply Qmult_integral in H as [?|?]; done. }
      cbn [andb]. change (sl (mkseg a c)) with (mkline a c). change (sl (mkseg a' c')) with (mkline a' c').
      destruct (line_finite a c H0 Hp) as (mm & bb & -> & Em & Eb). destruct (line_finite a' c' H0' Hp') as (mm' & bb' & -> & Em' & _).
      cbn [m]. assert (mm == mm') as Emm.
      { assert (mm * dx a' c' == mm' * dx a' c') as E. { rewrite Em', D1, D2, <-Em. ring. }
        assert ((mm - mm') * dx a' c' == 0) as E' by lra. apply Qmult_integral in E' as [?|?]; [lra|done]. }
      cbn [slopeeq]. rewrite (doubleeq_eq _ _ Emm). unfold lcontains. cbn [m b Model.p0 mkseg].
      rewrite (doubleeq_eq (y a') (x a' * mm + bb)); [done|]. rewrite T2, T1, Eb, <-Em. ring. }
  rewrite Eo. split.
  - intros Hor. assert (∃ q, overlap (mkseg a c) (mkseg a' c') = Some q) as [q Eq].
    { unfold overlap. cbn [Model.p0 Model.p1 mkseg]. fold (mkseg a c). destruct (within (mkseg a c) a') eqn:W1; [eauto|].
      destruct Hor as [H|H]; apply within_on in H; [congruence|]. rewrite H. eauto. }
    exists q. split; [done|]. unfold hits. rewrite Eo, Eq. rewrite bool_decide_eq_true_2 by done.
    destruct (_ || _); [done|]. rewrite andb_true_r. cbn [sb mkseg].
    apply (C106_hits _ _ _ _ (mkbbox_least _ _) (mkbbox_least _ _)). destruct Hor as [H|H]; apply on_inbox in H; eexists; (split; [exact H|]);
      apply mkbbox_least; [apply elem_of_list_here|apply elem_of_list_further, elem_of_list_here].
  - intros q. unfold overlap. cbn [Model.p0 Model.p1 mkseg]. fold (mkseg a c). destruct (within (mkseg a c) a') eqn:W1.
    + intros [= <-]. split; [by left|]. by apply within_near.
    + destruct (within (mkseg a c) c') eqn:W2; [|done]. intros [= <-]. split; [by right|]. by apply within_near.
Qed.

(** A segment inside a longer one on the same line: found one way round only. *)
Theorem C107_contained_refuted :
  let s := mkseg (Pt 1 1) (Pt 2 2) in let o := mkseg (Pt 0 0) (Pt 3 3) in
  on (Pt 1 1) (Pt 2 2) (Pt 1 1) ∧ on (Pt 0 0) (Pt 3 3) (Pt 1 1) ∧ hits s o = false ∧ hits o s = true.
Proof.
  split; [exists 0; cbn; lra|]. split; [exists (1#3); split_and!; cbn; lra|]. split; vm_compute; reflexivity.
Qed.
(** Crossing segments whose slopes differ by less than [Threshold] are not found. *)
Theorem C107_parallel_refuted :
  let s := mkseg (Pt (-400000000) 0) (Pt 400000000 0) in let o := mkseg (Pt (-200000000) (-1)) (Pt 200000000 1) in
  on (Pt (-400000000) 0) (Pt 400000000 0) (Pt 0 0) ∧ on (Pt (-200000000) (-1)) (Pt 200000000 1) (Pt 0 0) ∧ hits s o = false ∧ hits o s = false.
Proof.
  split; [exists (1#2); split_and!; cbn; lra|]. split; [exists (1#2); split_and!; cbn; lra|]. split; vm_compute; reflexivity.
Qed.

Example clear_cross : clear (Pt 0 0) (Pt 2 2) (Pt 0 2) (Pt 2 0).
Proof.
  split_and!; [right|right|..]; unfold dx, dy; cbn [x y]; vm_compute; congruence.
Qed.
Example cross_hits : isect (mkseg (Pt 0 0) (Pt 2 2)) (mkseg (Pt 0 2) (Pt 2 0)) ≠ None.
Proof. vm_compute. congruence. Qed.

Print Assumptions C106_box_of_points.
Print Assumptions C106_box_of_corners.
Print Assumptions C106_hits.
Print Assumptions C106_contains.
Print Assumptions C106_translate.
Print Assumptions C107_meet_found.
Print Assumptions C107_found_meet.
Print Assumptions C107_contained_refuted.
Print Assumptions C107_parallel_refuted.
Print Assumptions C107_in_line.
