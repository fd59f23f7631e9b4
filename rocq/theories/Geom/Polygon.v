(** Polygons of utils/geom2d.hpp and geom2d.cc. *)
From stdpp Require Import prelude.
From Coq Require Import QArith Qabs Lqa.
From Verif.Geom Require Import Model Basics.
Local Open Scope Q_scope.

(** ** Specification *)
(** The pairs of neighbours along [vs] from [p], and those around a closed list. *)
Fixpoint legs (p : pt) (vs : list pt) : list (pt * pt) :=
  match vs with
  | [] => []
  | q :: vs => (p, q) :: legs q vs
  end.
Definition around (vs : list pt) : list (pt * pt) :=
  match vs with
  | [] => []
  | p :: l => legs p (l ++ [p])
  end.
(** A point of the outline. *)
Definition outline (vs : list pt) (p : pt) : Prop := ∃ e, e ∈ around vs ∧ on e.1 e.2 p.
(** The rightward ray from [p] meets the side, and not in its lower end only. *)
Definition crosses (p : pt) (e : pt * pt) : bool :=
  (Qltb (y e.1) (y p) && Qle_bool (y p) (y e.2) || Qltb (y e.2) (y p) && Qle_bool (y p) (y e.1)) &&
  Qltb (x p) (x e.1 + (y p - y e.1) / (y e.2 - y e.1) * (x e.2 - x e.1)).
(** The number of sides crossed is odd. *)
Fixpoint oddly {A} (f : A → bool) (l : list A) : bool :=
  match l with
  | [] => false
  | a :: l => xorb (f a) (oddly f l)
  end.
Definition enclosed (vs : list pt) (p : pt) : bool := oddly (crosses p) (around vs).
(** The side is level, or steep enough not to be taken for level, and upright or
    wide enough not to be taken for upright; its ends are level with [p] or well off. *)
Definition fit (p : pt) (e : pt * pt) : Prop :=
  (dy e.1 e.2 == 0 \/ dx e.1 e.2 == 0 \/ (Epsilon <= Qabs (dx e.1 e.2) /\ Threshold * Qabs (dx e.1 e.2) <= Qabs (dy e.1 e.2))) ∧
  (y e.1 == y p \/ Threshold <= Qabs (y e.1 - y p)) ∧ (y e.2 == y p \/ Threshold <= Qabs (y e.2 - y p)).

(** ** The loop of [contains] *)
Lemma path_legs p vs : path p vs = (λ e, mkseg e.1 e.2) <$> legs p vs.
Proof. revert p. induction vs as [|q vs IH]; intros p; cbn; [done|]. by rewrite IH. Qed.
Lemma initsides_around vs ss : initsides vs = Some ss → ss = (λ e, mkseg e.1 e.2) <$> around vs.
Proof. destruct vs as [|p l]; [done|]. cbn [initsides]. intros [= <-]. apply path_legs. Qed.

Lemma containsloop_odd p ss even is : (is = false → even = true) →
  containsloop p ss even is = xorb (negb even) (oddly (counts p) ss).
Proof.
  revert even is. induction ss as [|s ss IH]; intros even is H; cbn [containsloop oddly].
  - rewrite xorb_false_r. destruct is; [done|]. by rewrite H.
  - destruct (counts p s).
    + rewrite IH by done. by destruct even, (oddly _ _).
    + rewrite IH by done. by rewrite xorb_false_l.
Qed.

Lemma pteq_iff p q : pteq p q = true ↔ Qabs (x p - x q) < Threshold ∧ Qabs (y p - y q) < Threshold.
Proof. unfold pteq. by rewrite andb_true_iff, !doubleeq_iff. Qed.
Lemma Qabs_zero u : u == 0 → Qabs u < Threshold.
Proof. intros ->. apply tau_pos. Qed.

(** A point on the side at the height of [p]. *)
Lemma counts_hit p a c hit : y hit == y p → on a c hit → ¬ dy a c == 0 →
  (y a == y p \/ Threshold <= Qabs (y a - y p)) → (y c == y p \/ Threshold <= Qabs (y c - y p)) →
  (if Qle_bool (x hit) (x p) || negb (within (mkseg a c) hit) then false
   else if pteq a hit && Qle_bool (y hit) (y c) then false
   else if pteq c hit && Qle_bool (y hit) (y a) then false
   else true) = Qltb (x p) (x hit) && (Qltb (y a) (y p) || Qltb (y c) (y p)).
Proof.
  intros Ey Hon Hd Ha Hc. rewrite within_on by done. cbn [negb]. rewrite orb_false_r.
  unfold Qltb at 1. destruct (Qle_bool (x hit) (x p)) eqn:Ex; [done|]. cbn [negb andb].
  destruct Hon as (t & H0 & H1 & Ht1 & Ht2).
  assert (¬ t == 0 → ¬ t == 1 → (y a < y p /\ y p < y c) \/ (y c < y p /\ y p < y a)) as Hmid.
  { intros Ht0 Ht3. unfold dy in Hd. rewrite <-Ey. assert (0 < t /\ t < 1) as [? ?].
    { split; [destruct (Qle_lt_or_eq _ _ H0)|destruct (Qle_lt_or_eq _ _ H1)]; try done; lra. }
    destruct (Qlt_le_dec (y a) (y c)); [left|right; assert (y c < y a) by (destruct (Qle_lt_or_eq _ _ q) as [?|E]; [done|rewrite E in Hd; destruct Hd; lra])]; split; nra. }
  destruct (Qeq_dec t 0) as [E0|E0].
  { assert (x hit == x a) as Hx by (rewrite Ht1, E0; ring). assert (y hit == y a) as Hy by (rewrite Ht2, E0; ring).
    assert (pteq a hit = true) as ->. { apply pteq_iff. split; apply Qabs_zero; lra. }
    assert (pteq c hit = false) as ->.
    { apply not_true_iff_false. intros [_ H]%pteq_iff. unfold dy in Hd. assert (y c - y hit == y c - y p) as E by lra. rewrite E in H.
      destruct Hc as [Hc|Hc]; [apply Hd; lra|lra]. }
    assert (Qltb (y a) (y p) = false) as ->. { apply Qltb_ge. lra. }
    cbn [andb orb]. unfold Qltb. destruct (Qle_bool (y hit) (y c)) eqn:E1, (Qle_bool (y p) (y c)) eqn:E2; try done.
    - apply Qle_bool_iff in E1. apply Qle_bool_gt in E2. lra.
    - apply Qle_bool_iff in E2. apply Qle_bool_gt in E1. lra. }
  destruct (Qeq_dec t 1) as [E1|E1].
  { assert (x hit == x c) as Hx by (rewrite Ht1, E1; ring). assert (y hit == y c) as Hy by (rewrite Ht2, E1; ring).
    assert (pteq c hit = true) as ->. { apply pteq_iff. split; apply Qabs_zero; lra. }
    assert (pteq a hit = false) as ->.
    { apply not_true_iff_false. intros [_ H]%pteq_iff. unfold dy in Hd. assert (y a - y hit == y a - y p) as E by lra. rewrite E in H.
      destruct Ha as [Ha|Ha]; [apply Hd; lra|lra]. }
    assert (Qltb (y c) (y p) = false) as ->. { apply Qltb_ge. lra. }
    cbn [andb orb]. rewrite orb_false_r. unfold Qltb. destruct (Qle_bool (y hit) (y a)) eqn:E2, (Qle_bool (y p) (y a)) eqn:E3; try done.
    - apply Qle_bool_iff in E2. apply Qle_bool_gt in E3. lra.
    - apply Qle_bool_iff in E3. apply Qle_bool_gt in E2. lra. }
  specialize (Hmid E0 E1).
  assert (pteq a hit = false) as ->.
  { apply not_true_iff_false. intros [_ H]%pteq_iff. assert (y a - y hit == y a - y p) as E by lra. rewrite E in H. destruct Ha as [Ha|Ha]; lra. }
  assert (pteq c hit = false) as ->.
  { apply not_true_iff_false. intros [_ H]%pteq_iff. assert (y c - y hit == y c - y p) as E by lra. rewrite E in H. destruct Hc as [Hc|Hc]; lra. }
  cbn [andb]. symmetry. apply orb_true_iff. rewrite !Qltb_lt. lra.
Qed.

Lemma ray_line p : ∃ mm bb, mkline p (Pt (x p + 1) (y p)) = Line (Some mm) bb ∧ mm == 0 ∧ bb == y p.
Proof.
  unfold mkline. cbn [x y]. assert (x p + 1 - x p == 1) as E by ring.
  assert (Qltb (Qabs (x p + 1 - x p)) Epsilon = false) as ->. { apply Qltb_ge. rewrite E. vm_compute. congruence. }
  eexists _, _. split; [done|]. assert ((y p - y p) / (x p + 1 - x p) == 0) as H0. { rewrite E. field. } rewrite H0. split; [done|ring].
Qed.

Lemma level_between p a c : dy a c == 0 → crosses p (a, c) = false.
Proof.
  intros Hd. unfold dy in Hd. unfold crosses. cbn [fst snd]. apply andb_false_iff. left. apply orb_false_iff.
  split; apply andb_false_iff.
  - destruct (Qltb (y a) (y p)) eqn:E; [right|by left]. apply Qltb_lt in E. apply Qle_bool_gt. lra.
  - destruct (Qltb (y c) (y p)) eqn:E; [right|by left]. apply Qltb_lt in E. apply Qle_bool_gt. lra.
Qed.

Lemma counts_crosses p e : fit p e → counts p (mkseg e.1 e.2) = crosses p e.
Proof.
  destruct e as [a c]. cbn [fst snd]. intros (Hs & Ha & Hc). cbn [fst snd] in Hs, Ha, Hc. unfold counts.
  destruct (ray_line p) as (mm & bb & -> & Em & Eb). change (sb (mkseg a c)) with (mkbbox a c).
  change (sl (mkseg a c)) with (mkline a c). change (Model.p0 (mkseg a c)) with a. change (Model.p1 (mkseg a c)) with c.
  set (out := (Qltb (x (hi (mkbbox a c))) (x p) || Qltb (y (hi (mkbbox a c))) (y p) || Qltb (y p) (y (lo (mkbbox a c))))).
  destruct (Qeq_dec (dy a c) 0) as [Hd|Hd].
  { (* level *)
    rewrite level_between by done. destruct out eqn:Eo; [done|].
    assert (y a == y p /\ y c == y p) as [Ea Ec].
    { unfold out in Eo. rewrite !orb_false_iff, !Qltb_ge in Eo. destruct Eo as [[_ H1] H2]. unfold mkbbox in H1, H2. cbn [lo hi y] in H1, H2. unfold dy in Hd.
      destruct (Qltb (y c) (y a)) eqn:E; [apply Qltb_lt in E|apply Qltb_ge in E]; split; lra. }
    unfold mkline. fold (dx a c) (dy a c). destruct (Qltb (Qabs (dx a c)) Epsilon) eqn:E.
    - unfold lisect. cbn [m b slopeeq x y].
      destruct (Qle_bool (x c) (x p) || _); [done|]. destruct (pteq a (Pt (x c) (mm * x c + bb)) && Qle_bool (mm * x c + bb) (y c)); [done|].
      assert (pteq c (Pt (x c) (mm * x c + bb)) = true) as ->.
      { apply pteq_iff. cbn [x y]. split; apply Qabs_zero; [ring|]. rewrite Em, Eb, Ec. ring. }
      assert (Qle_bool (mm * x c + bb) (y a) = true) as ->; [|done].
      apply Qle_bool_iff. rewrite Em, Eb, Ea. lra.
    - unfold lisect. cbn [m]. assert (slopeeq (Some mm) (Some (dy a c / dx a c)) = true) as ->; [|done].
      cbn [slopeeq]. apply doubleeq_eq. rewrite Em, Hd. unfold Qdiv. ring. }
  (* the hit *)
  set (t := (y p - y a) / dy a c).
  assert (∃ hit, lisect (Line (Some mm) bb) (mkline a c) = Some hit ∧ x hit == x a + t * dx a c ∧ y hit == y p) as (hit & Eh & Hx & Hy).
  { destruct (Qeq_dec (dx a c) 0) as [Hz|Hz].
    - rewrite (line_upright _ _ Hz). unfold lisect. cbn [m b slopeeq]. eexists. split; [done|]. cbn [x y]. split.
      + rewrite Hz. unfold dx in Hz. lra.
      + rewrite Em, Eb. ring.
    - assert (Epsilon <= Qabs (dx a c) /\ Threshold * Qabs (dx a c) <= Qabs (dy a c)) as [He Ht] by tauto.
      assert (0 < Qabs (dx a c)) as Hpos by (pose proof eps_pos; lra).
      unfold mkline. fold (dx a c) (dy a c). assert (Qltb (Qabs (dx a c)) Epsilon = false) as -> by by apply Qltb_ge.
      assert (Threshold <= Qabs (mm - dy a c / dx a c)) as Hse.
      { assert (Qabs (mm - dy a c / dx a c) == Qabs (dy a c / dx a c)) as ->.
        { rewrite Em. rewrite Qabs_Qminus. setoid_replace (dy a c / dx a c - 0) with (dy a c / dx a c) by ring. reflexivity. }
        apply (Qmult_le_r _ _ _ Hpos). rewrite <-Qabs_Qmult. setoid_replace (dy a c / dx a c * dx a c) with (dy a c) by (field; done). done. }
      assert (slopeeq (Some mm) (Some (dy a c / dx a c)) = false) as Hsf by by apply doubleeq_false.
      unfold lisect. cbn [m]. rewrite Hsf. eexists. split; [done|]. cbn [x y b]. split.
      + rewrite Em, Eb. unfold t. field. done.
      + rewrite Em, Eb. ring. }
  rewrite Eh.
  assert (Hcr : crosses p (a, c) = (Qltb (y a) (y p) && Qle_bool (y p) (y c) || Qltb (y c) (y p) && Qle_bool (y p) (y a)) && Qltb (x p) (x hit)).
  { unfold crosses. cbn [fst snd]. f_equal. fold (dy a c) (dx a c). fold t. unfold Qltb. f_equal.
    destruct (Qle_bool (x hit) (x p)) eqn:E1, (Qle_bool (x a + t * dx a c) (x p)) eqn:E2; try done.
    - apply Qle_bool_iff in E1. apply Qle_bool_gt in E2. lra.
    - apply Qle_bool_iff in E2. apply Qle_bool_gt in E1. lra. }
  rewrite Hcr. destruct (Qlt_le_dec t 0) as [Ht|Ht]; [|destruct (Qlt_le_dec 1 t) as [Ht'|Ht']].
  - (* before the start *)
    assert ((y p < y a /\ y p < y c) \/ (y a < y p /\ y c < y p)) as Hside.
    { assert (t * dy a c == y p - y a) as E by (unfold t; field; done). destruct (Qlt_le_dec 0 (dy a c)).
      - left. unfold dy in *. split; nra.
      - right. unfold dy in *. assert (y c - y a < 0) by (destruct (Qle_lt_or_eq _ _ q); [done|by rewrite H in Hd]). split; nra. }
    assert (out = true) as ->.
    { unfold out. rewrite !orb_true_iff, !Qltb_lt. unfold mkbbox. cbn [lo hi y x].
      destruct (Qltb (y c) (y a)) eqn:E; [apply Qltb_lt in E|apply Qltb_ge in E]; lra. }
    symmetry. apply andb_false_iff. left. apply orb_false_iff. rewrite !andb_false_iff, !Qltb_ge, !Qle_bool_gt. lra.
  - assert ((y p < y a /\ y p < y c) \/ (y a < y p /\ y c < y p)) as Hside.
    { assert (t * dy a c == y p - y a) as E by (unfold t; field; done). destruct (Qlt_le_dec 0 (dy a c)).
      - right. unfold dy in *. split; nra.
      - left. unfold dy in *. assert (y c - y a < 0) by (destruct (Qle_lt_or_eq _ _ q); [done|by rewrite H in Hd]). split; nra. }
    assert (out = true) as ->.
    { unfold out. rewrite !orb_true_iff, !Qltb_lt. unfold mkbbox. cbn [lo hi y x].
      destruct (Qltb (y c) (y a)) eqn:E; [apply Qltb_lt in E|apply Qltb_ge in E]; lra. }
    symmetry. apply andb_false_iff. left. apply orb_false_iff. rewrite !andb_false_iff, !Qltb_ge, !Qle_bool_gt. lra.
  - assert (t * dy a c == y p - y a) as Et by (unfold t; field; done).
    assert (on a c hit) as Hon. { exists t. split; [done|]. split; [done|]. split; [done|]. rewrite Hy. unfold dy in Et. lra. }
    pose proof (on_inbox _ _ _ Hon) as (B1 & B2 & B3 & B4).
    rewrite (counts_hit p a c hit) by done.
    assert (Qltb (y a) (y p) && Qle_bool (y p) (y c) || Qltb (y c) (y p) && Qle_bool (y p) (y a) = Qltb (y a) (y p) || Qltb (y c) (y p)) as ->.
    { rewrite <-Hy in *. unfold mkbbox in B3, B4. cbn [lo hi y x] in B3, B4.
      assert (Qltb (y a) (y p) = true → Qle_bool (y p) (y c) = true) as H1.
      { intros E%Qltb_lt. apply Qle_bool_iff. destruct (Qltb (y c) (y a)) eqn:E'; [apply Qltb_lt in E'|apply Qltb_ge in E']; lra. }
      assert (Qltb (y c) (y p) = true → Qle_bool (y p) (y a) = true) as H2.
      { intros E%Qltb_lt. apply Qle_bool_iff. destruct (Qltb (y c) (y a)) eqn:E'; [apply Qltb_lt in E'|apply Qltb_ge in E']; lra. }
      destruct (Qltb (y a) (y p)); [rewrite H1 by done|]; (destruct (Qltb (y c) (y p)); [rewrite H2 by done|]); done. }
    rewrite andb_comm. destruct out eqn:Eo; [|done]. symmetry. apply andb_false_iff. right. apply Qltb_ge.
    unfold out in Eo. rewrite !orb_true_iff, !Qltb_lt in Eo. lra.
Qed.

Theorem C108_contains vs ss bb p : initsides vs = Some ss → (∀ e, e ∈ around vs → fit p e) →
  contains (Poly vs ss bb) p = enclosed vs p.
Proof.
  intros Hss Hfit. unfold contains. cbn [sides]. rewrite containsloop_odd by done. cbn [negb]. rewrite xorb_false_l.
  apply initsides_around in Hss as ->. unfold enclosed. induction (around vs) as [|e l IH]; [done|].
  cbn [fmap list_fmap oddly]. rewrite counts_crosses by (apply Hfit; apply elem_of_list_here). f_equal.
  apply IH. intros e' He'. apply Hfit. by apply elem_of_list_further.
Qed.

(** ** Closed lists of vertices *)
Lemma legs_app p l q l' : legs p (l ++ q :: l') = legs p (l ++ [q]) ++ legs q l'.
Proof. revert p. induction l as [|a l IH]; intros p; cbn; [done|]. by rewrite IH. Qed.
Lemma around_rot l1 l2 : around (l1 ++ l2) ≡ₚ around (l2 ++ l1).
Proof.
  destruct l1 as [|p l1]; [by rewrite app_nil_r|]. destruct l2 as [|q l2]; [by rewrite app_nil_r|].
  cbn [around app]. rewrite <-!app_assoc. cbn [app].
  rewrite (legs_app p l1 q (l2 ++ [p])), (legs_app q l2 p (l1 ++ [q])). apply Permutation_app_comm.
Qed.
Lemma legs_last w r u q : last (w :: r) = Some u → legs w (r ++ [q]) = legs w r ++ [(u, q)].
Proof.
  revert w. induction r as [|a r IH]; intros w Hl; [cbn in *; by injection Hl as ->|].
  cbn [legs app]. rewrite (IH a); [done|]. by rewrite last_cons_cons in Hl.
Qed.
Lemma around_drop l1 v l2 w u : head (l2 ++ l1) = Some w → last (l2 ++ l1) = Some u →
  ∃ es, around (l1 ++ v :: l2) ≡ₚ (u, v) :: (v, w) :: es ∧ around (l1 ++ l2) ≡ₚ (u, w) :: es.
Proof.
  intros Hh Hl. destruct (l2 ++ l1) as [|w' r] eqn:E; [done|]. injection Hh as ->.
  exists (legs w r). split.
  - rewrite (around_rot l1 (v :: l2)). cbn [app]. rewrite E. cbn [around legs app]. rewrite (legs_last w r u v Hl).
    rewrite Permutation_app_comm. cbn [app]. apply perm_swap.
  - rewrite (around_rot l1 l2), E. cbn [around]. rewrite (legs_last w r u w Hl). rewrite Permutation_app_comm. done.
Qed.

Lemma oddly_perm {A} (f : A → bool) l l' : l ≡ₚ l' → oddly f l = oddly f l'.
Proof.
  induction 1 as [|a l l' _ IH|a b l|l1 l2 l3 _ IH1 _ IH2]; cbn [oddly]; [done|by rewrite IH| |congruence].
  by destruct (f a), (f b), (oddly f l).
Qed.

(** ** Removing a vertex on a straight stretch *)
Definition turnof (u v w : pt) : Q * Q :=
  let a := minus v u in let b := minus w v in (x b * y a - x a * y b, x b * x a + y b * y a).

Lemma straight_iff u v w : straight (turnof u v w) = true ↔
  dx v w * dy u v == dx u v * dy v w /\ 0 <= dx v w * dx u v + dy v w * dy u v.
Proof.
  unfold straight, turnof, minus, dx, dy. cbn [fst snd x y]. rewrite andb_true_iff, Qeq_bool_iff, Qle_bool_iff. split; intros [H1 H2]; split; lra.
Qed.

Lemma sq_zero a b : a * a + b * b == 0 → a == 0 /\ b == 0.
Proof.
  intros H. assert (∀ c : Q, 0 <= c * c) as Hsq. { intros c. destruct (Qlt_le_dec c 0); nra. }
  pose proof (Hsq a). pose proof (Hsq b). assert (a * a == 0) as Ha by lra. assert (b * b == 0) as Hb by lra.
  split; [destruct (Qmult_integral _ _ Ha)|destruct (Qmult_integral _ _ Hb)]; done.
Qed.
Lemma sq_nonneg (c : Q) : 0 <= c * c.
Proof. destruct (Qlt_le_dec c 0); nra. Qed.

Lemma straight_on u v w : straight (turnof u v w) = true → on u w v.
Proof.
  intros [Hc Hd]%straight_iff.
  set (aa := dx u v * dx u v + dy u v * dy u v). set (ab := dx v w * dx u v + dy v w * dy u v).
  fold ab in Hd. assert (0 <= aa) as Haa. { unfold aa. pose proof (sq_nonneg (dx u v)). pose proof (sq_nonneg (dy u v)). lra. }
  destruct (Qeq_dec aa 0) as [E|E].
  { apply sq_zero in E as [E1 E2]. unfold dx, dy in E1, E2. exists 0. split_and!; lra. }
  assert (0 < aa) as Hpos. { destruct (Qle_lt_or_eq _ _ Haa); [done|]. symmetry in H. done. }
  assert (0 < aa + ab) as Hs by lra.
  assert (aa * dx v w == ab * dx u v) as E1.
  { unfold aa, ab. setoid_replace ((dx u v * dx u v + dy u v * dy u v) * dx v w) with (dx u v * dx u v * dx v w + dy u v * (dx v w * dy u v)) by ring. rewrite Hc. ring. }
  assert (aa * dy v w == ab * dy u v) as E2.
  { unfold aa, ab. setoid_replace ((dx u v * dx u v + dy u v * dy u v) * dy v w) with (dx u v * (dx u v * dy v w) + dy u v * dy u v * dy v w) by ring. rewrite <-Hc. ring. }
  exists (aa / (aa + ab)). split_and!.
  - apply Qle_shift_div_l; [done|]. lra.
  - apply Qle_shift_div_r; [done|]. lra.
  - assert (x w - x u == dx u v + dx v w) as -> by (unfold dx; ring).
    assert (aa / (aa + ab) * (dx u v + dx v w) == dx u v) as ->; [|unfold dx; ring].
    setoid_replace (aa / (aa + ab) * (dx u v + dx v w)) with ((aa * dx u v + aa * dx v w) / (aa + ab)) by (field; lra).
    rewrite E1. field. lra.
  - assert (y w - y u == dy u v + dy v w) as -> by (unfold dy; ring).
    assert (aa / (aa + ab) * (dy u v + dy v w) == dy u v) as ->; [|unfold dy; ring].
    setoid_replace (aa / (aa + ab) * (dy u v + dy v w)) with ((aa * dy u v + aa * dy v w) / (aa + ab)) by (field; lra).
    rewrite E2. field. lra.
Qed.

(** A point of a segment cuts it in two. *)
Lemma on_split u v w p : on u w v → on u w p ↔ on u v p ∨ on v w p.
Proof.
  intros (s & S0 & S1 & Sx & Sy). split.
  - intros (t & T0 & T1 & Tx & Ty). destruct (Qlt_le_dec s t) as [H|H].
    + right. exists ((t - s) / (1 - s)). split_and!.
      * apply Qle_shift_div_l; lra.
      * apply Qle_shift_div_r; lra.
      * rewrite Tx, Sx. field. lra.
      * rewrite Ty, Sy. field. lra.
    + left. destruct (Qeq_dec s 0) as [E|E].
      * exists 0. assert (t == 0) as Ht by lra. split_and!; try lra; [rewrite Tx, Sx, Ht, E|rewrite Ty, Sy, Ht, E]; ring.
      * exists (t / s). assert (0 < s) by lra. split_and!.
        -- apply Qle_shift_div_l; lra.
        -- apply Qle_shift_div_r; lra.
        -- rewrite Tx, Sx. field. done.
        -- rewrite Ty, Sy. field. done.
  - intros [(t & T0 & T1 & Tx & Ty)|(t & T0 & T1 & Tx & Ty)].
    + exists (t * s). split_and!; [nra|nra| |].
      * rewrite Tx, Sx. ring.
      * rewrite Ty, Sy. ring.
    + exists (s + t * (1 - s)). split_and!; [nra|nra| |].
      * rewrite Tx, Sx. ring.
      * rewrite Ty, Sy. ring.
Qed.

#[global] Instance Qltb_proper : Proper (Qeq ==> Qeq ==> eq) Qltb.
Proof.
  intros a a' Ea c c' Ec. destruct (Qltb a c) eqn:E1, (Qltb a' c') eqn:E2; try done.
  - apply Qltb_lt in E1. apply Qltb_ge in E2. lra.
  - apply Qltb_lt in E2. apply Qltb_ge in E1. lra.
Qed.
Lemma crosses_xorb p e : crosses p e = xorb (Qltb (y e.1) (y p)) (Qltb (y e.2) (y p)) &&
  Qltb (x p) (x e.1 + (y p - y e.1) / (y e.2 - y e.1) * (x e.2 - x e.1)).
Proof. unfold crosses. f_equal. unfold Qltb. by destruct (Qle_bool (y p) (y e.1)), (Qle_bool (y p) (y e.2)). Qed.

Lemma crosses_cut p u v w : on u w v → xorb (crosses p (u, v)) (crosses p (v, w)) = crosses p (u, w).
Proof.
  intros (s & S0 & S1 & Sx & Sy). rewrite !crosses_xorb. cbn [fst snd].
  assert ((y u <= y v /\ y v <= y w) \/ (y w <= y v /\ y v <= y u)) as Hmono.
  { rewrite Sy. destruct (Qlt_le_dec (y u) (y w)); [left|right]; split; nra. }
  destruct (Qltb (y u) (y p)) eqn:Eu, (Qltb (y w) (y p)) eqn:Ew, (Qltb (y v) (y p)) eqn:Ev;
    change (xorb true true) with false; change (xorb true false) with true; change (xorb false true) with true; change (xorb false false) with false;
    cbn [andb]; rewrite ?xorb_false_l, ?xorb_false_r; try done;
    repeat match goal with H : Qltb _ _ = true |- _ => apply Qltb_lt in H | H : Qltb _ _ = false |- _ => apply Qltb_ge in H end;
    try (exfalso; lra); (apply Qltb_proper; [done|]);
    (assert (¬ y w - y u == 0) as H1 by (intros E; lra));
    ((assert (¬ y w - y v == 0) as H2 by (intros E; lra); assert (¬ 1 - s == 0) as H3 by (intros E; apply H2; rewrite Sy; assert (s == 1) as -> by lra; ring)) ||
     (assert (¬ y v - y u == 0) as H2 by (intros E; lra); assert (¬ s == 0) as H3 by (intros E; apply H2; rewrite Sy, E; ring)));
    rewrite Sy in H2 |- *; rewrite Sx; field; repeat split; done.
Qed.

(** The neighbours of vertex [i] of [n]. *)
Definition before (n i : nat) : nat := if decide (i = 0%nat) then (n - 1)%nat else (i - 1)%nat.
Definition after (n i : nat) : nat := if decide (i = n - 1)%nat then 0%nat else (i + 1)%nat.
Lemma turn_some vs i u v w : vs !! before (length vs) i = Some u → vs !! i = Some v → vs !! after (length vs) i = Some w →
  turn vs i = Some (turnof u v w).
Proof. unfold before, after. intros Hu Hv Hw. unfold turn. rewrite Hu. cbn [mbind option_bind]. rewrite Hv. cbn [mbind option_bind]. by rewrite Hw. Qed.
Lemma neighbours (vs : list pt) i : (i < length vs)%nat → ∃ u v w, vs !! before (length vs) i = Some u ∧ vs !! i = Some v ∧ vs !! after (length vs) i = Some w.
Proof.
  intros Hi. destruct (lookup_lt_is_Some_2 vs i Hi) as [v Hv].
  destruct (lookup_lt_is_Some_2 vs (before (length vs) i)) as [u Hu]; [unfold before; destruct (decide _); lia|].
  destruct (lookup_lt_is_Some_2 vs (after (length vs) i)) as [w Hw]; [unfold after; destruct (decide _); lia|]. by exists u, v, w.
Qed.
(** The same seen from the list without the vertex. *)
Lemma neighbours_rest (l1 : list pt) v l2 u w : l1 ++ l2 ≠ [] → let vs := l1 ++ v :: l2 in let i := length l1 in
  vs !! before (length vs) i = Some u → vs !! after (length vs) i = Some w →
  head (l2 ++ l1) = Some w ∧ last (l2 ++ l1) = Some u.
Proof.
  intros Hne vs i Hu Hw. unfold vs, i, before, after in *. rewrite app_length in *. cbn [length] in *. split.
  - destruct l2 as [|a l2].
    + rewrite decide_True in Hw by (cbn; lia). destruct l1 as [|a l1]; [done|]. cbn in *. congruence.
    + rewrite decide_False in Hw by (cbn; lia). rewrite lookup_app_r in Hw by lia.
      replace (length l1 + 1 - length l1)%nat with 1%nat in Hw by lia. cbn in *. congruence.
  - destruct l1 as [|a l1 _] using rev_ind.
    + rewrite app_nil_r. rewrite decide_True in Hu by done. cbn [length app] in Hu. destruct l2 as [|a l2 _] using rev_ind; [done|]. rewrite last_snoc.
      rewrite app_length in Hu. cbn [length] in Hu. replace (0 + S (length l2 + 1) - 1)%nat with (S (length l2)) in Hu by lia. cbn in Hu.
      assert ((l2 ++ [a]) !! length l2 = Some a) as Hx by by apply list_lookup_middle. exact (eq_trans (eq_sym Hx) Hu).
    + rewrite app_assoc, last_snoc. rewrite app_length in Hu. cbn [length] in Hu. rewrite decide_False in Hu by lia.
      rewrite <-app_assoc in Hu. rewrite lookup_app_r in Hu by lia. replace (length l1 + 1 - 1 - length l1)%nat with 0%nat in Hu by lia. cbn in Hu. congruence.
Qed.

Lemma removecolinear_ind (P : list pt → Prop) :
  (∀ l1 v l2 u w, head (l2 ++ l1) = Some w → last (l2 ++ l1) = Some u → straight (turnof u v w) = true → P (l1 ++ v :: l2) → P (l1 ++ l2)) →
  (∀ v, P [v] → P []) →
  ∀ k i vs, (i + k = length vs)%nat → P vs → ∃ vs', removecolinear k i vs = Some vs' ∧ P vs'.
Proof.
  intros Hstep Hone. induction k as [|k IH]; intros i vs Hk HP; [by exists vs|]. cbn [removecolinear].
  destruct (neighbours vs i) as (u & v & w & Hu & Hv & Hw); [lia|]. rewrite (turn_some vs i u v w) by done. cbn [mbind option_bind].
  destruct (straight (turnof u v w)) eqn:E; [|apply IH; [lia|done]]. apply IH; [rewrite length_delete by eauto; lia|].
  apply elem_of_list_split_length in Hv as (l1 & l2 & -> & ->). rewrite delete_middle.
  destruct (decide (l1 ++ l2 = [])) as [[-> ->]%app_eq_nil|Hne]; [by eapply Hone|].
  destruct (neighbours_rest l1 v l2 u w Hne Hu Hw) as [H1 H2]. by eapply Hstep.
Qed.

Lemma outline_same l1 v l2 u w p : head (l2 ++ l1) = Some w → last (l2 ++ l1) = Some u → on u w v →
  outline (l1 ++ l2) p ↔ outline (l1 ++ v :: l2) p.
Proof.
  intros Hh Hl Hon. destruct (around_drop l1 v l2 w u Hh Hl) as (es & E1 & E2). unfold outline.
  split; intros (e & He & Hp).
  - rewrite E2 in He. apply elem_of_cons in He as [->|He].
    + apply (on_split u v w p Hon) in Hp as [Hp|Hp]; [exists (u, v)|exists (v, w)]; (split; [|done]); rewrite E1; [apply elem_of_list_here|apply elem_of_list_further, elem_of_list_here].
    + exists e. split; [|done]. rewrite E1. by do 2 apply elem_of_list_further.
  - rewrite E1 in He. apply elem_of_cons in He as [->|[->|He]%elem_of_cons].
    + exists (u, w). split; [rewrite E2; apply elem_of_list_here|]. apply (on_split u v w p Hon). by left.
    + exists (u, w). split; [rewrite E2; apply elem_of_list_here|]. apply (on_split u v w p Hon). by right.
    + exists e. split; [|done]. rewrite E2. by apply elem_of_list_further.
Qed.
Lemma enclosed_same l1 v l2 u w p : head (l2 ++ l1) = Some w → last (l2 ++ l1) = Some u → on u w v →
  enclosed (l1 ++ l2) p = enclosed (l1 ++ v :: l2) p.
Proof.
  intros Hh Hl Hon. destruct (around_drop l1 v l2 w u Hh Hl) as (es & E1 & E2). unfold enclosed.
  rewrite (oddly_perm _ _ _ E1), (oddly_perm _ _ _ E2). cbn [oddly]. rewrite <-xorb_assoc, (crosses_cut p u v w Hon). done.
Qed.
Lemma on_ends_eq u w : on u w u ∧ on u w w.
Proof. split; [exists 0|exists 1]; split_and!; lra. Qed.
Lemma on_boxed b u w v : inbox b u → inbox b w → on u w v → inbox b v.
Proof. intros (?&?&?&?) (?&?&?&?) (t & T0 & T1 & Tx & Ty). unfold inbox. rewrite Tx, Ty. split_and!; nra. Qed.
(** An extreme point inside a segment is matched by one of its ends. *)
Lemma on_extreme (s z : Q) (a c v : Q) : 0 <= s → s <= 1 → v == a + s * (c - a) → z <= a → z <= c → v == z → a == z \/ c == z.
Proof.
  intros H0 H1 Hv Ha Hc Hz. destruct (Qlt_le_dec z a); [|left; lra]. destruct (Qlt_le_dec z c); [exfalso|right; lra].
  destruct (Qlt_le_dec s 1); [nra|assert (s == 1) as E by lra; rewrite E in Hv; lra].
Qed.
Lemma on_extreme' (s z : Q) (a c v : Q) : 0 <= s → s <= 1 → v == a + s * (c - a) → a <= z → c <= z → v == z → a == z \/ c == z.
Proof.
  intros H0 H1 Hv Ha Hc Hz. destruct (Qlt_le_dec a z); [|left; lra]. destruct (Qlt_le_dec c z); [exfalso|right; lra].
  destruct (Qlt_le_dec s 1); [nra|assert (s == 1) as E by lra; rewrite E in Hv; lra].
Qed.

Lemma head_elem {A} (l : list A) a : head l = Some a → a ∈ l.
Proof. destruct l; [done|]. intros [= ->]. apply elem_of_list_here. Qed.
Lemma leastbox_drop b l1 v l2 u w : head (l2 ++ l1) = Some w → last (l2 ++ l1) = Some u → on u w v →
  leastbox b (l1 ++ v :: l2) → leastbox b (l1 ++ l2).
Proof.
  intros Hh%head_elem Hl%last_Some_elem_of Hon (Hin & (a & Ha & Ea) & (c & Hc & Ec) & (d & Hd & Ed) & (e & He & Ee)).
  assert (∀ q, q ∈ l2 ++ l1 → q ∈ l1 ++ l2) as Hcomm. { intros q. rewrite !elem_of_app. tauto. }
  apply Hcomm in Hh, Hl. clear Hcomm.
  assert (∀ q, q ∈ l1 ++ v :: l2 → q = v ∨ q ∈ l1 ++ l2) as Hsub. { intros q. rewrite !elem_of_app, elem_of_cons. tauto. }
  assert (∀ q, q ∈ l1 ++ l2 → q ∈ l1 ++ v :: l2) as Hsup. { intros q. rewrite !elem_of_app, elem_of_cons. tauto. }
  pose proof (Hin u (Hsup _ Hl)) as (U1 & U2 & U3 & U4). pose proof (Hin w (Hsup _ Hh)) as (W1 & W2 & W3 & W4).
  destruct Hon as (s & S0 & S1 & Sx & Sy). split; [|split_and!].
  - intros q Hq. by apply Hin, Hsup.
  - apply Hsub in Ha as [->|Ha]; [|eauto]. destruct (on_extreme s _ _ _ _ S0 S1 Sx U1 W1 Ea); eauto.
  - apply Hsub in Hc as [->|Hc]; [|eauto]. destruct (on_extreme' s _ _ _ _ S0 S1 Sx U2 W2 Ec); eauto.
  - apply Hsub in Hd as [->|Hd]; [|eauto]. destruct (on_extreme s _ _ _ _ S0 S1 Sy U3 W3 Ed); eauto.
  - apply Hsub in He as [->|He]; [|eauto]. destruct (on_extreme' s _ _ _ _ S0 S1 Sy U4 W4 Ee); eauto.
Qed.

(** No vertex that was passed becomes straight again. *)
Lemma straight_scale t u v w : straight (turnof u v w) = true → straight (turnof t u v) = false → straight (turnof t u w) = false.
Proof.
  intros Hs Hb. apply not_true_iff_false. intros Hw. apply not_true_iff_false in Hb. apply Hb. clear Hb.
  apply straight_iff in Hs as [S1 S2]. apply straight_iff in Hw as [W1 W2]. apply straight_iff.
  set (b1 := dx u v) in *. set (b2 := dy u v) in *. set (c1 := dx v w) in *. set (c2 := dy v w) in *.
  assert (dx u w == b1 + c1) as E1 by (unfold b1, c1, dx; ring). assert (dy u w == b2 + c2) as E2 by (unfold b2, c2, dy; ring).
  rewrite E1, E2 in W1, W2. set (a1 := dx t u) in *. set (a2 := dy t u) in *.
  destruct (Qeq_dec (b1 * b1 + b2 * b2) 0) as [[Z1 Z2]%sq_zero|Hne].
  { rewrite Z1, Z2. split; [ring|lra]. }
  set (bb := b1 * b1 + b2 * b2) in *. set (bc := c1 * b1 + c2 * b2) in *.
  assert (0 < bb) as Hpos.
  { assert (0 <= bb) as H by (unfold bb; pose proof (sq_nonneg b1); pose proof (sq_nonneg b2); lra). destruct (Qle_lt_or_eq _ _ H) as [?|E]; [done|by symmetry in E]. }
  assert (bb * c1 == bc * b1) as F1.
  { unfold bb, bc. setoid_replace ((b1 * b1 + b2 * b2) * c1) with (b1 * b1 * c1 + b2 * (c1 * b2)) by ring. rewrite S1. ring. }
  assert (bb * c2 == bc * b2) as F2.
  { unfold bb, bc. setoid_replace ((b1 * b1 + b2 * b2) * c2) with (b1 * (b1 * c2) + b2 * b2 * c2) by ring. rewrite <-S1. ring. }
  assert ((bb + bc) * (b1 * a2 - a1 * b2) == 0) as G1.
  { setoid_replace ((bb + bc) * (b1 * a2 - a1 * b2)) with ((bb * b1 + bc * b1) * a2 - a1 * (bb * b2 + bc * b2)) by ring.
    rewrite <-F1, <-F2. setoid_replace ((bb * b1 + bb * c1) * a2 - a1 * (bb * b2 + bb * c2)) with (bb * ((b1 + c1) * a2 - a1 * (b2 + c2))) by ring. rewrite W1. ring. }
  assert ((bb + bc) * (b1 * a1 + b2 * a2) == bb * ((b1 + c1) * a1 + (b2 + c2) * a2)) as G2.
  { setoid_replace ((bb + bc) * (b1 * a1 + b2 * a2)) with ((bb * b1 + bc * b1) * a1 + (bb * b2 + bc * b2) * a2) by ring. rewrite <-F1, <-F2. ring. }
  split.
  - apply Qmult_integral in G1 as [G1|G1]; lra.
  - apply (Qmult_le_l _ _ (bb + bc)); [lra|]. rewrite G2. nra.
Qed.
Lemma straight_rev u v w : straight (turnof u v w) = straight (turnof w v u).
Proof.
  assert (∀ u v w, straight (turnof u v w) = true → straight (turnof w v u) = true) as H.
  { intros a b c [H1 H2]%straight_iff. apply straight_iff. unfold dx, dy in *. split; lra. }
  destruct (straight (turnof u v w)) eqn:E1, (straight (turnof w v u)) eqn:E2; try done; [apply H in E1|apply H in E2]; congruence.
Qed.
Lemma straight_scale' u v w z : straight (turnof u v w) = true → straight (turnof v w z) = false → straight (turnof u w z) = false.
Proof. rewrite (straight_rev u v w), (straight_rev v w z), (straight_rev u w z). apply straight_scale. Qed.

Definition bentto (i : nat) (vs : list pt) : Prop := ∀ j u v w, (j < i)%nat →
  vs !! before (length vs) j = Some u → vs !! j = Some v → vs !! after (length vs) j = Some w → straight (turnof u v w) = false.

Lemma bent_delete i vs u v w : vs !! before (length vs) i = Some u → vs !! i = Some v → vs !! after (length vs) i = Some w →
  straight (turnof u v w) = true → bentto i vs → bentto i (delete i vs).
Proof.
  intros Hu Hv Hw Hs Hb j a b c Hj Ha Hbb Hc. pose proof (lookup_lt_Some _ _ _ Hv) as Hi.
  rewrite length_delete in * by eauto. rewrite (lookup_delete_lt _ _ _ Hj) in Hbb.
  destruct (neighbours vs j) as (a' & b' & c' & Ha' & Hb' & Hc'); [lia|].
  assert (b' = b) as -> by congruence. pose proof (Hb j a' b c' Hj Ha' Hb' Hc') as Hbent.
  assert (a' = a ∨ j = 0%nat ∧ i = (length vs - 1)%nat ∧ a' = v ∧ a = u ∧ b = w) as Hpre.
  { unfold before in Ha, Ha', Hu. unfold after in Hw. destruct (decide (j = 0%nat)) as [->|Hj0].
    - destruct (decide (i = length vs - 1)%nat) as [Ei|Ei].
      + right. rewrite decide_False in Hu by lia. rewrite lookup_delete_lt in Ha by lia. replace (length vs - 1 - 1)%nat with (i - 1)%nat in Ha by lia.
        rewrite <-Ei in Ha'. split_and!; congruence.
      + left. rewrite lookup_delete_ge in Ha by lia. replace (S (length vs - 1 - 1)) with (length vs - 1)%nat in Ha by lia. congruence.
    - left. rewrite lookup_delete_lt in Ha by lia. congruence. }
  assert (c' = c ∨ i = S j ∧ c' = v ∧ c = w ∧ b = u) as Hpost.
  { unfold after in Hc, Hc', Hw. unfold before in Hu. rewrite decide_False in Hc' by lia. destruct (decide (j = length vs - 1 - 1)%nat) as [Ej|Ej].
    - right. assert (i = S j) as Ei by lia. rewrite decide_True in Hw by lia. rewrite decide_False in Hu by lia.
      rewrite lookup_delete_lt in Hc by lia. replace (i - 1)%nat with j in Hu by lia. replace (j + 1)%nat with i in Hc' by lia. split_and!; congruence.
    - destruct (decide (i = S j)) as [Ei|Ei].
      + right. rewrite decide_False in Hw by lia. rewrite decide_False in Hu by lia. rewrite lookup_delete_ge in Hc by lia.
        replace (S (j + 1)) with (i + 1)%nat in Hc by lia. replace (i - 1)%nat with j in Hu by lia. replace (j + 1)%nat with i in Hc' by lia. split_and!; congruence.
      + left. rewrite lookup_delete_lt in Hc by lia. congruence. }
  destruct Hpre as [->|(Ej & Ei & -> & -> & ->)].
  - destruct Hpost as [->|(_ & -> & -> & ->)]; [done|]. by eapply straight_scale.
  - destruct Hpost as [->|(Ei' & -> & -> & ->)]; [by eapply straight_scale'|].
    (* two vertices *)
    exfalso. apply straight_iff in Hs as [S1 S2]. apply not_true_iff_false in Hbent. apply Hbent. apply straight_iff.
    assert (dx v u * dx v u + dy v u * dy v u == 0) as [Z1 Z2]%sq_zero.
    { pose proof (sq_nonneg (dx v u)). pose proof (sq_nonneg (dy v u)). unfold dx, dy in *. lra. }
    rewrite Z1, Z2. split; [ring|lra].
Qed.

Lemma removecolinear_bent k i vs vs' : (i + k = length vs)%nat → bentto i vs → removecolinear k i vs = Some vs' → bentto (length vs') vs'.
Proof.
  revert i vs. induction k as [|k IH]; intros i vs Hk Hb; cbn [removecolinear].
  - intros [= ->]. by replace (length vs') with i by lia.
  - destruct (neighbours vs i) as (u & v & w & Hu & Hv & Hw); [lia|]. rewrite (turn_some vs i u v w) by done. cbn [mbind option_bind].
    destruct (straight (turnof u v w)) eqn:E.
    + apply IH; [rewrite length_delete by eauto; lia|]. by eapply bent_delete.
    + apply IH; [lia|]. intros j a b c Hj Ha Hbb Hc. destruct (decide (j = i)) as [->|]; [congruence|]. eapply Hb; [|done..]. lia.
Qed.

(** ** The polygon built from a list of vertices *)
(** Three vertices in a row that are on one line, the middle one not beyond the others
    (at a spike the outline turns back). *)
Definition inline (u v w : pt) : Prop := on u w v.
Lemma inline_straight u v w : inline u v w → straight (turnof u v w) = true.
Proof.
  intros (t & T0 & T1 & Tx & Ty). apply straight_iff. unfold dx, dy.
  assert (x v - x u == t * (x w - x u)) as E1 by lra. assert (y v - y u == t * (y w - y u)) as E2 by lra.
  assert (x w - x v == (1 - t) * (x w - x u)) as E3 by lra. assert (y w - y v == (1 - t) * (y w - y u)) as E4 by lra.
  rewrite E1, E2, E3, E4. split; [ring|].
  setoid_replace ((1 - t) * (x w - x u) * (t * (x w - x u)) + (1 - t) * (y w - y u) * (t * (y w - y u)))
    with ((1 - t) * t * ((x w - x u) * (x w - x u) + (y w - y u) * (y w - y u))) by ring.
  pose proof (sq_nonneg (x w - x u)). pose proof (sq_nonneg (y w - y u)).
  apply Qmult_le_0_compat; [apply Qmult_le_0_compat; lra|lra].
Qed.

Lemma removed vs b : vs ≠ [] → leastbox b vs → ∃ vs', removecolinear (length vs) 0 vs = Some vs' ∧
  (vs' = [] ∨ leastbox b vs' ∧ (∀ p, outline vs' p ↔ outline vs p) ∧ (∀ p, enclosed vs' p = enclosed vs p)) ∧
  ((∃ a c, a ∈ vs ∧ c ∈ vs ∧ ¬ same a c) ↔ ∃ a c, a ∈ vs' ∧ c ∈ vs' ∧ ¬ same a c) ∧
  (∀ a, a ∈ vs' → a ∈ vs).
Proof.
  intros Hne Hb.
  apply (removecolinear_ind (λ vs', (vs' = [] ∨ leastbox b vs' ∧ (∀ p, outline vs' p ↔ outline vs p) ∧ (∀ p, enclosed vs' p = enclosed vs p)) ∧
    ((∃ a c, a ∈ vs ∧ c ∈ vs ∧ ¬ same a c) ↔ ∃ a c, a ∈ vs' ∧ c ∈ vs' ∧ ¬ same a c) ∧ (∀ a, a ∈ vs' → a ∈ vs))); [..|lia|].
  - intros l1 v l2 u w Hh Hl Hs%straight_on ([Hnil|(H1 & H2 & H3)] & H4 & H5); [by destruct l1|]. split; [|split].
    + right. split; [by eapply leastbox_drop|]. split.
      * intros p. rewrite <-H2. by eapply outline_same.
      * intros p. rewrite <-H3. by eapply enclosed_same.
    + rewrite H4. assert (∀ q, q ∈ l2 ++ l1 ↔ q ∈ l1 ++ l2) as Hcomm. { intros q. rewrite !elem_of_app. tauto. }
      apply head_elem, Hcomm in Hh. apply last_Some_elem_of, Hcomm in Hl.
      assert (∀ q, q ∈ l1 ++ v :: l2 ↔ q = v ∨ q ∈ l1 ++ l2) as Hsub. { intros q. rewrite !elem_of_app, elem_of_cons. tauto. }
      assert (same u w ∨ ¬ same u w) as [Hsame|?].
      { unfold same. destruct (Qeq_dec (x u) (x w)), (Qeq_dec (y u) (y w)); tauto. }
      2:{ split; intros _; exists u, w; (split; [|split; [|done]]); rewrite ?Hsub; auto. }
      assert (same v u) as Hvu. { destruct Hs as (t & _ & _ & Tx & Ty), Hsame as [E1 E2]. split; [rewrite Tx, <-E1; ring|rewrite Ty, <-E2; ring]. }
      assert (∀ a c, same a c → same c a) as Hsym by (intros ? ? [? ?]; split; by symmetry).
      assert (∀ a c d, same a c → same c d → same a d) as Htr by (intros ? ? ? [? ?] [? ?]; split; etransitivity; eauto).
      split.
      * intros (a & c & Ha & Hc & Hn). apply Hsub in Ha as [->|Ha], Hc as [->|Hc].
        -- destruct Hn. by split.
        -- exists u, c. split; [done|]. split; [done|]. intros E. apply Hn. by eapply Htr.
        -- exists a, u. split; [done|]. split; [done|]. intros E. apply Hn. eapply Htr; [done|]. by apply Hsym.
        -- eauto.
      * intros (a & c & Ha & Hc & Hn). exists a, c. rewrite !Hsub. auto.
    + intros a Ha. apply H5. rewrite elem_of_app, elem_of_cons in *. tauto.
  - intros v (_ & H4 & H5). split; [by left|]. split; [|by intros a Ha%elem_of_nil]. rewrite H4. split.
    + intros (a & c & ->%elem_of_list_singleton & ->%elem_of_list_singleton & Hn). destruct Hn. by split.
    + intros (a & c & Ha%elem_of_nil & _). done.
  - split; [|done]. right. done.
Qed.

(** The polygon goes around the given vertices, without those in line with their neighbours. *)
Theorem C108_built vs q : mkpoly vs = Some q →
  (∀ v, v ∈ verts q → v ∈ vs) ∧ (∀ p, outline (verts q) p ↔ outline vs p) ∧ (∀ p, enclosed (verts q) p = enclosed vs p) ∧
  (∀ i u v w, verts q !! before (length (verts q)) i = Some u → verts q !! i = Some v → verts q !! after (length (verts q)) i = Some w → ¬ inline u v w) ∧
  sides q = (λ e, mkseg e.1 e.2) <$> around (verts q) ∧ leastbox (pb q) (verts q).
Proof.
  unfold mkpoly. destruct (decide (length vs < 3)%nat); [done|]. intros Hq.
  destruct (C106_box_of_points vs) as [[-> _]|(bb & Hbb & Hleast)]; [done|]. rewrite Hbb in Hq. cbn [mbind option_bind] in Hq.
  destruct (removed vs bb) as (vs' & Hrm & Hor & _ & Hsub); [by destruct vs|done|]. rewrite Hrm in Hq. cbn [mbind option_bind] in Hq.
  destruct (initsides vs') as [ss|] eqn:Ess; [|done]. injection Hq as <-. cbn [verts sides pb].
  destruct Hor as [->|(H1 & H2 & H3)]; [done|]. split; [done|]. split; [done|]. split; [done|]. split; [|split; [by apply initsides_around|done]].
  intros i u v w Hu Hv Hw Hin%inline_straight. apply removecolinear_bent in Hrm; [|lia|intros j ? ? ? Hj; lia].
  rewrite (Hrm i u v w (lookup_lt_Some _ _ _ Hv) Hu Hv Hw) in Hin. done.
Qed.

(** It can be built from three or more vertices that do not all agree, and from no others. *)
Theorem C108_defined vs : (∃ q, mkpoly vs = Some q) ↔ (3 ≤ length vs)%nat ∧ ∃ a c, a ∈ vs ∧ c ∈ vs ∧ ¬ same a c.
Proof.
  unfold mkpoly. destruct (decide (length vs < 3)%nat) as [Hlt|Hge].
  { split; [by intros [q Hq]|]. intros [? _]. lia. }
  destruct (C106_box_of_points vs) as [[-> _]|(bb & Hbb & Hleast)]; [cbn in Hge; lia|]. rewrite Hbb. cbn [mbind option_bind].
  destruct (removed vs bb) as (vs' & Hrm & Hor & Hdiff & Hsub); [by destruct vs; [cbn in Hge; lia|]|done|]. rewrite Hrm. cbn [mbind option_bind].
  rewrite Hdiff. split.
  - intros [q Hq]. split; [lia|]. destruct vs' as [|a [|c l]]; [done| |].
    + exfalso. apply removecolinear_bent in Hrm; [|lia|intros j ? ? ? Hj; lia].
      assert (straight (turnof a a a) = false) as Hs by (apply (Hrm 0%nat a a a); [cbn; lia|done|done|done]).
      apply not_true_iff_false in Hs. apply Hs. apply straight_iff. unfold dx, dy. split; lra.
    + exists a, c. split; [apply elem_of_list_here|]. split; [apply elem_of_list_further, elem_of_list_here|]. intros [E1 E2].
      apply removecolinear_bent in Hrm; [|lia|intros j ? ? ? Hj; lia].
      destruct (neighbours (a :: c :: l) 0) as (u & v & w & Hu & Hv & Hw); [cbn; lia|].
      pose proof (Hrm 0%nat u v w ltac:(cbn; lia) Hu Hv Hw) as Hs. cbn in Hv. injection Hv as <-. cbn in Hw. injection Hw as <-.
      apply not_true_iff_false in Hs. apply Hs. apply inline_straight. exists 1. split_and!; [lra|lra|rewrite E1; ring|rewrite E2; ring].
  - intros [_ (a & c & Ha & Hc & Hn)]. destruct vs' as [|p l]; [by apply elem_of_nil in Ha|]. cbn [initsides mbind option_bind]. eauto.
Qed.

Corollary C108_contains_built vs q p : mkpoly vs = Some q → (∀ e, e ∈ around (verts q) → fit p e) → contains q p = enclosed vs p.
Proof.
  intros Hq Hfit. destruct (C108_built vs q Hq) as (_ & _ & Henc & _ & Hs & _). rewrite <-Henc.
  destruct q as [vs' ss bb]. cbn [verts sides] in *. eapply C108_contains; [|done]. rewrite Hs.
  destruct vs' as [|a l]; [|cbn [initsides around]; by rewrite path_legs].
  exfalso. unfold mkpoly in Hq. destruct (decide _); [done|]. destruct (bboxof vs); [|done]. cbn [mbind option_bind] in Hq.
  destruct (removecolinear _ _ _) as [[|]|]; done.
Qed.

Print Assumptions C108_contains.
Print Assumptions C108_built.
Print Assumptions C108_defined.
Print Assumptions C108_contains_built.
