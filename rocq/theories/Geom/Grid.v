(** The polygon map of a grid map: visnav/grid2poly.cc with the polygons of
    utils/geom2d.hpp. *)
From stdpp Require Import prelude.
From Coq Require Import ZArith Lia ZifyBool ZifyNat QArith Qabs Lqa.
From Verif.Grid2poly Require Model Trace Components Inside Props Rooms.
From Verif.Geom Require Import Model Basics Polygon Map.
Local Open Scope Q_scope.

(** grid2poly.cc:91-106: the corners become points. *)
Definition emb (p : Z * Z) : pt := Pt (inject_Z p.1) (inject_Z p.2).
(** grid2poly.cc:142-189: the constructor. *)
Definition gridpoly (pts : list (Z * Z)) : option poly := mkpoly (emb <$> pts).
Definition gridmap (w h : nat) (blkd : list bool) (n fuel : nat) : option polymap :=
  '(b, ps) ← Grid2poly.Model.polymap w h blkd n fuel;
  b ← gridpoly b;
  ps ← mapM gridpoly ps;
  Some (PolyMap ps (Some b)).

(** ** Specification: a point in a cell, away from its lower and its upper side *)
Definition incell (a : Z * Z) (p : pt) : Prop :=
  inject_Z a.1 <= x p /\ x p < inject_Z a.1 + 1 /\
  inject_Z a.2 + Threshold <= y p /\ y p <= inject_Z a.2 + 1 - Threshold.

(** ** The sides of an outline *)
Section dirs.
Local Open Scope Z_scope.
Notation move := Grid2poly.Trace.move.
Notation right_angle := Grid2poly.Trace.right_angle.

Lemma tour_dirs B d (p : Z * Z) (l : list (Z * Z)) q d' E : Grid2poly.Trace.tour B d p l q d' E →
  ∃ ds : list (Grid2poly.Model.dir * nat), length ds = S (length l) ∧
  (∃ n, ds !! 0%nat = Some (d, n)) ∧ (∃ n, ds !! length l = Some (d', n)) ∧
  (∀ i e n, ds !! i = Some (e, n) → (0 < n)%nat ∧ ∃ a, (p :: l) !! i = Some a ∧ (l ++ [q]) !! i = Some (move e a n)) ∧
  (∀ i e e' n n', ds !! i = Some (e, n) → ds !! S i = Some (e', n') → right_angle e e').
Proof.
  induction 1 as [d p n Hn _|d d1 p n l q dl E Hn _ Hr _ (ds & Hlen & (n0 & H0) & (n1 & H1) & Hleg & Hang)].
  - exists [(d, n)]. split; [done|]. split; [by exists n|]. split; [by exists n|]. split.
    + intros [|i] e m Hi; [|done]. injection Hi as <- <-. split; [done|]. by exists p.
    + intros [|i] e e' m m' Hi Hi'; done.
  - exists ((d, n) :: ds). split; [cbn; lia|]. split; [by exists n|]. split; [by exists n1|]. split.
    + intros [|i] e m Hi; [injection Hi as <- <-; split; [done|]; by exists p|]. exact (Hleg i e m Hi).
    + intros [|i] e e' m m' Hi Hi'; [|by eapply (Hang i)]. injection Hi as <- <-. pose proof (eq_trans (eq_sym H0) Hi') as Hx. by injection Hx as <- <-.
Qed.

(** The corners of an outline in order. *)
Lemma outline_corners B pts : Grid2poly.Trace.outline B pts → (3 ≤ length pts)%nat ∧
  ∀ i u v w, pts !! before (length pts) i = Some u → pts !! i = Some v → pts !! after (length pts) i = Some w →
  ∃ d d' n n', (0 < n)%nat ∧ (0 < n')%nat ∧ v = move d u n ∧ w = move d' v n' ∧ right_angle d d'.
Proof.
  intros Ho. pose proof (Grid2poly.Trace.outline_four _ _ Ho) as H4. split; [lia|].
  destruct Ho as (p & l & d & d' & E & -> & Ht & Hr & _).
  destruct (tour_dirs _ _ _ _ _ _ _ Ht) as (ds & Hlen & (n0 & H0) & (n1 & H1) & Hleg & Hang).
  assert (∀ j a b, (p :: l) !! j = Some a → (p :: l) !! after (length (p :: l)) j = Some b → (l ++ [p]) !! j = Some b) as Hnext.
  { intros j a b Hj Hb. pose proof (lookup_lt_Some _ _ _ Hj) as Hlt. unfold after in Hb. cbn [length] in *.
    destruct (decide (j = S (length l) - 1)%nat) as [->|Hne].
    - replace (S (length l) - 1)%nat with (length l) by lia. rewrite lookup_app_r, Nat.sub_diag by lia. done.
    - rewrite Nat.add_1_r in Hb. cbn in Hb. rewrite lookup_app_l by lia. done. }
  assert (∀ j a b, (p :: l) !! j = Some a → (p :: l) !! after (length (p :: l)) j = Some b →
    ∃ e n, ds !! j = Some (e, n) ∧ (0 < n)%nat ∧ b = move e a n) as Hside.
  { intros j a b Hj Hb. destruct (lookup_lt_is_Some_2 ds j) as [[e n] Hd].
    { apply lookup_lt_Some in Hj. rewrite Hlen. exact Hj. }
    exists e, n. split; [done|]. destruct (Hleg j e n Hd) as (Hn & a' & Ha' & Hm). split; [done|].
    pose proof (eq_trans (eq_sym (Hnext j a b Hj Hb)) Hm) as E1. pose proof (eq_trans (eq_sym Hj) Ha') as E2. injection E1 as ->. by injection E2 as ->. }
  intros i u v w Hu Hv Hw. destruct (Hside i v w Hv Hw) as (e' & n' & Hd' & Hn' & ->).
  pose proof (lookup_lt_Some _ _ _ Hv) as Hi. cbn [length] in Hi.
  assert (after (length (p :: l)) (before (length (p :: l)) i) = i) as Hab.
  { unfold before, after. cbn [length]. destruct (decide (i = 0%nat)) as [->|]; [rewrite decide_True by lia; done|rewrite decide_False by lia; lia]. }
  destruct (Hside (before (length (p :: l)) i) u v) as (e & n & Hd & Hn & Ev); [done|by rewrite Hab|].
  exists e, e', n, n'. split; [done|]. split; [done|]. split; [done|]. split; [done|].
  unfold before in Hd. cbn [length] in Hd. destruct (decide (i = 0%nat)) as [->|Hne].
  - replace (S (length l) - 1)%nat with (length l) in Hd by lia.
    pose proof (eq_trans (eq_sym Hd) H1) as E1. pose proof (eq_trans (eq_sym Hd') H0) as E2. injection E1 as -> _. by injection E2 as -> _.
  - eapply (Hang (i - 1)%nat); [exact Hd|]. replace (S (i - 1)) with i by lia. exact Hd'.
Qed.

(** Every side is upright or level. *)
Lemma tour_sides B d (p : Z * Z) (l : list (Z * Z)) q d' E e : Grid2poly.Trace.tour B d p l q d' E →
  e ∈ Grid2poly.Inside.sides p (l ++ [q]) → e.1.1 = e.2.1 ∨ e.1.2 = e.2.2.
Proof.
  induction 1 as [d p n Hn _|d d1 p n l q dl E Hn _ Hr _ IH]; cbn [Grid2poly.Inside.sides app].
  - intros ->%elem_of_list_singleton. destruct d; cbn; auto.
  - intros [->|He]%elem_of_cons; [|by apply IH]. destruct d; cbn; auto.
Qed.
Lemma outline_sides B pts e : Grid2poly.Trace.outline B pts → e ∈ Grid2poly.Inside.polysides pts → e.1.1 = e.2.1 ∨ e.1.2 = e.2.2.
Proof. intros (p & l & d & d' & E & -> & Ht & _) He. by eapply tour_sides. Qed.

(** Counting. *)
Lemma oddly_sum {A} (f : A → bool) l : Z.odd (Grid2poly.Inside.sumof (λ a, if f a then 1 else 0) l) = oddly f l.
Proof.
  induction l as [|a l IH]; [done|]. cbn [oddly]. cbn. fold (Grid2poly.Inside.sumof (λ a, if f a then 1 else 0) l).
  rewrite Z.odd_add, IH. by destruct (f a).
Qed.
Lemma oddly_xorb {A} (f g : A → bool) l : oddly (λ a, xorb (f a) (g a)) l = xorb (oddly f l) (oddly g l).
Proof. induction l as [|a l IH]; [done|]. cbn [oddly]. rewrite IH. by destruct (f a), (g a), (oddly f l), (oddly g l). Qed.
Lemma oddly_closed (g : Z * Z → bool) p l : oddly (λ e, xorb (g e.1) (g e.2)) (Grid2poly.Inside.sides p (l ++ [p])) = false.
Proof.
  assert (∀ q, oddly (λ e, xorb (g e.1) (g e.2)) (Grid2poly.Inside.sides q (l ++ [p])) = xorb (g q) (g p)) as H.
  { induction l as [|r l IH]; intros q; cbn [Grid2poly.Inside.sides app oddly fst snd]; [by rewrite xorb_false_r|].
    rewrite IH. by destruct (g q), (g r), (g p). }
  rewrite H. by destruct (g p).
Qed.
End dirs.

Lemma around_emb pts : around (emb <$> pts) = (λ e, (emb e.1, emb e.2)) <$> Grid2poly.Inside.polysides pts.
Proof.
  destruct pts as [|p l]; [done|]. cbn [fmap list_fmap around Grid2poly.Inside.polysides].
  assert (∀ l q, legs (emb q) (emb <$> l) = (λ e, (emb e.1, emb e.2)) <$> Grid2poly.Inside.sides q l) as H.
  { clear. induction l as [|r l IH]; intros q; [done|]. cbn [fmap list_fmap legs Grid2poly.Inside.sides fst snd]. by rewrite IH. }
  rewrite <-H. f_equal. by rewrite fmap_app.
Qed.

Lemma emb_le a b : inject_Z a <= inject_Z b ↔ (a <= b)%Z.
Proof. by rewrite <-Zle_Qle. Qed.
Lemma emb_next a : inject_Z (a + 1) == inject_Z a + 1.
Proof. by rewrite inject_Z_plus. Qed.

Lemma incell_above a p z : incell a p → Qltb (inject_Z z) (y p) = bool_decide (z <= a.2)%Z.
Proof.
  intros (_ & _ & H1 & H2). pose proof tau_pos. destruct (decide (z <= a.2)%Z) as [Hz|Hz].
  - rewrite (bool_decide_eq_true_2 _ Hz). apply Qltb_lt. apply emb_le in Hz. lra.
  - rewrite (bool_decide_eq_false_2 _ Hz). apply Qltb_ge. assert (a.2 + 1 <= z)%Z as Hz' by lia. apply emb_le in Hz'. rewrite emb_next in Hz'. lra.
Qed.
Lemma incell_left a p z : incell a p → Qltb (x p) (inject_Z z) = bool_decide (a.1 < z)%Z.
Proof.
  intros (H1 & H2 & _ & _). destruct (decide (a.1 < z)%Z) as [Hz|Hz].
  - rewrite (bool_decide_eq_true_2 _ Hz). apply Qltb_lt. assert (a.1 + 1 <= z)%Z as Hz' by lia. apply emb_le in Hz'. rewrite emb_next in Hz'. lra.
  - rewrite (bool_decide_eq_false_2 _ Hz). apply Qltb_ge. assert (z <= a.1)%Z as Hz' by lia. apply emb_le in Hz'. lra.
Qed.

(** A rightward ray in the plane and a leftward one in the grid. *)
Lemma crosses_grid a p e : incell a p → (e.1.1 = e.2.1 ∨ e.1.2 = e.2.2) →
  crosses p (emb e.1, emb e.2) =
  xorb (xorb (bool_decide (e.1.2 <= a.2)%Z) (bool_decide (e.2.2 <= a.2)%Z)) (Grid2poly.Inside.crosses a e).
Proof.
  intros Hc He. rewrite crosses_xorb. destruct e as [[x1 y1] [x2 y2]]. unfold Grid2poly.Inside.crosses. cbn [fst snd emb x y] in *.
  rewrite !(incell_above a p _ Hc).
  assert ((bool_decide (y1 <= a.2 < y2)%Z || bool_decide (y2 <= a.2 < y1)%Z) = xorb (bool_decide (y1 <= a.2)%Z) (bool_decide (y2 <= a.2)%Z)) as ->.
  { repeat case_bool_decide; try done; exfalso; lia. }
  destruct He as [->| ->].
  - rewrite (bool_decide_eq_true_2 (x2 = x2)) by done. cbn [andb].
    assert (Qltb (x p) (inject_Z x2 + (y p - inject_Z y1) / (inject_Z y2 - inject_Z y1) * (inject_Z x2 - inject_Z x2)) = bool_decide (a.1 < x2)%Z) as ->.
    { rewrite <-(incell_left a p _ Hc). apply Qltb_proper; [done|]. ring. }
    destruct (xorb _ _); cbn [andb]; rewrite ?andb_false_r, ?andb_true_r; [|done].
    case_bool_decide; case_bool_decide; try done; exfalso; lia.
  - rewrite xorb_nilpotent. cbn [andb]. by rewrite andb_false_r.
Qed.

Lemma enclosed_grid B pts a p : Grid2poly.Trace.outline B pts → incell a p →
  enclosed (emb <$> pts) p = true ↔ Grid2poly.Inside.inside pts a.
Proof.
  intros Ho Hc. unfold enclosed, Grid2poly.Inside.inside. rewrite oddly_sum, around_emb, oddly_fmap.
  assert (oddly (λ e, crosses p (emb e.1, emb e.2)) (Grid2poly.Inside.polysides pts) =
          oddly (λ e, xorb (xorb (bool_decide (e.1.2 <= a.2)%Z) (bool_decide (e.2.2 <= a.2)%Z)) (Grid2poly.Inside.crosses a e)) (Grid2poly.Inside.polysides pts)) as ->.
  { apply oddly_ext. intros e He. apply crosses_grid; [done|]. by eapply outline_sides. }
  rewrite oddly_xorb. destruct Ho as (q & l & d & d' & E & -> & _). cbn [Grid2poly.Inside.polysides].
  pose proof (oddly_closed (λ v, bool_decide (v.2 <= a.2)%Z) q l) as H0. cbn beta in H0.
  match goal with |- xorb ?u ?v = true ↔ _ => change (xorb u v) with (xorb (oddly (λ e : Z * Z * (Z * Z), xorb (bool_decide (e.1.2 <= a.2)%Z) (bool_decide (e.2.2 <= a.2)%Z)) (Grid2poly.Inside.sides q (l ++ [q]))) v) end.
  by rewrite H0, xorb_false_l.
Qed.

Lemma removecolinear_same k i vs : (i + k = length vs)%nat →
  (∀ j u v w, vs !! before (length vs) j = Some u → vs !! j = Some v → vs !! after (length vs) j = Some w → straight (turnof u v w) = false) →
  removecolinear k i vs = Some vs.
Proof.
  intros Hk Hb. revert i Hk. induction k as [|k IH]; intros i Hk; [done|]. cbn [removecolinear].
  destruct (neighbours vs i) as (u & v & w & Hu & Hv & Hw); [lia|]. rewrite (turn_some vs i u v w) by done. cbn [mbind option_bind].
  rewrite (Hb i u v w) by done. apply IH. lia.
Qed.

Lemma corner_bent u d n d' n' : (0 < n)%nat → (0 < n')%nat → Grid2poly.Trace.right_angle d d' →
  straight (turnof (emb u) (emb (Grid2poly.Trace.move d u n)) (emb (Grid2poly.Trace.move d' (Grid2poly.Trace.move d u n) n'))) = false.
Proof.
  intros Hn Hn' Hr. apply not_true_iff_false. rewrite straight_iff. intros [H _]. destruct u as [ux uy].
  set (N := inject_Z (Z.of_nat n)). set (N' := inject_Z (Z.of_nat n')).
  assert (0 < N) as HN. { change 0 with (inject_Z 0). unfold N. rewrite <-Zlt_Qlt. lia. }
  assert (0 < N') as HN'. { change 0 with (inject_Z 0). unfold N'. rewrite <-Zlt_Qlt. lia. }
  assert (0 < N * N') as HNN by nra.
  unfold dx, dy in H. destruct d, d'; cbn in Hr; destruct Hr as [Hr|Hr]; try done; cbn [emb x y fst snd Grid2poly.Trace.move] in H;
    unfold Z.sub in H; rewrite ?inject_Z_plus, ?inject_Z_opp in H; fold N N' in H; lra.
Qed.

(** ** C112 *)
Theorem C112_outline B pts : Grid2poly.Trace.outline B pts →
  ∃ q, gridpoly pts = Some q ∧ verts q = emb <$> pts ∧
  ∀ a p, incell a p → contains q p = true ↔ Grid2poly.Inside.inside pts a.
Proof.
  intros Ho. destruct (outline_corners B pts Ho) as [H3 Hc].
  assert (∃ q, gridpoly pts = Some q ∧ verts q = emb <$> pts) as (q & Hq & Hv).
  { unfold gridpoly, mkpoly. rewrite fmap_length. rewrite decide_False by (apply Nat.le_ngt; exact H3).
    destruct (C106_box_of_points (emb <$> pts)) as [[E _]|(bb & Hbb & _)]; [destruct pts; [cbn in H3; lia|done]|].
    rewrite Hbb. cbn [mbind option_bind]. rewrite removecolinear_same; [|by rewrite fmap_length|].
    - cbn [mbind option_bind]. destruct (emb <$> pts) as [|v vs] eqn:E; [by destruct pts; [cbn in H3; lia|]|].
      cbn [initsides mbind option_bind]. eexists. split; [done|]. done.
    - rewrite fmap_length. intros j u v w Hu Hv Hw. rewrite list_lookup_fmap in Hu, Hv, Hw.
      apply fmap_Some in Hu as (u' & Hu & ->), Hv as (v' & Hv & ->), Hw as (w' & Hw & ->).
      destruct (Hc j u' v' w' Hu Hv Hw) as (d & d' & n & n' & Hn & Hn' & -> & -> & Hr). by apply corner_bent. }
  exists q. split; [done|]. split; [done|]. intros a p Hp.
  rewrite (C108_contains_built (emb <$> pts) q p); [by eapply enclosed_grid|done|].
  rewrite Hv, around_emb. intros e (e' & -> & He')%elem_of_list_fmap. pose proof (outline_sides B pts e' Ho He') as Hax.
  assert (∀ z, inject_Z z == y p \/ Threshold <= Qabs (inject_Z z - y p)) as Hoff.
  { intros z. right. destruct Hp as (_ & _ & H1 & H2). destruct (Z_le_gt_dec z a.2) as [Hz|Hz].
    - apply emb_le in Hz. rewrite Qabs_neg by (pose proof tau_pos; lra). lra.
    - assert (a.2 + 1 <= z)%Z as Hz' by lia. apply emb_le in Hz'. rewrite emb_next in Hz'. rewrite Qabs_pos by (pose proof tau_pos; lra). lra. }
  split; [|split; apply Hoff]. cbn [fst snd]. unfold dx, dy. cbn [emb x y]. destruct Hax as [-> | ->]; [right; left; ring|left; ring].
Qed.

Theorem C112_free_space w h blkd : Grid2poly.Props.framed w h blkd →
  ∃ kn kf pm, (∀ n fuel, (kn ≤ n)%nat → (kf ≤ fuel)%nat → gridmap w h blkd n fuel = Some pm) ∧ wellmap pm ∧
  ((∀ a, Grid2poly.Components.inrange w h a → Grid2poly.Components.wall w h blkd a) ∧
     (∀ a p, incell a p → obstructed pm p = false ↔ Grid2poly.Components.inrange w h a) ∨
   ∃ e, Grid2poly.Components.inrange w h e ∧ ¬ Grid2poly.Components.wall w h blkd e ∧
     (∀ a, Grid2poly.Components.inrange w h a → (a.2 < e.2)%Z ∨ a.2 = e.2 ∧ (e.1 < a.1)%Z → Grid2poly.Components.wall w h blkd a) ∧
     ∀ a p, incell a p → obstructed pm p = false ↔ Grid2poly.Inside.region (Grid2poly.Model.blocked w h blkd) e a).
Proof.
  intros Hf. destruct (Grid2poly.Rooms.C111_free_space w h blkd Hf) as (kn & kf & b & ps & Hpm & Hcases).
  destruct (Grid2poly.Props.C105_framed w h blkd Hf) as (kn' & kf' & c0 & cs & b' & ps' & _ & Hpm' & Hps & _ & Hb).
  assert (b' = b ∧ ps' = ps) as [-> ->].
  { specialize (Hpm (kn + kn')%nat (kf + kf')%nat ltac:(lia) ltac:(lia)). specialize (Hpm' (kn + kn')%nat (kf + kf')%nat ltac:(lia) ltac:(lia)).
    rewrite Hpm in Hpm'. by injection Hpm' as -> ->. }
  assert (∃ B, Grid2poly.Trace.outline B b) as [B Hbo].
  { destruct Hb as [(_ & (Ho & _))|(e & e' & _ & _ & _ & _ & _ & (Ho & _))]; by eexists. }
  destruct (C112_outline B b Hbo) as (q & Hq & _ & Hqc).
  assert (∃ qs, mapM gridpoly ps = Some qs ∧ (∀ q, q ∈ qs → wellformed q) ∧
    ∀ a p, incell a p → existsb (λ q, contains q p) qs = false ↔ ∀ pts, pts ∈ ps → ¬ Grid2poly.Inside.inside pts a) as (qs & Hqs & Hwf & Hqsc).
  { clear Hpm Hpm' Hcases. induction Hps as [|c pts cs ps (Ho & _) Hps IH].
    - exists []. split; [done|]. split; [by intros ? ?%elem_of_nil|]. intros a p _. split; [by intros _ ? ?%elem_of_nil|done].
    - destruct IH as (qs & Hqs & Hwf & IH). destruct (C112_outline _ pts Ho) as (r & Hr & _ & Hrc).
      exists (r :: qs). cbn [mapM]. rewrite Hr. cbn [mbind option_bind]. rewrite Hqs. split; [done|]. split.
      { intros r' [->|Hr']%elem_of_cons; [by eapply C109_built|by apply Hwf]. }
      intros a p Hp. cbn [existsb]. rewrite orb_false_iff, IH by done. rewrite <-not_true_iff_false, (Hrc a p Hp). split.
      + intros [H1 H2] pts' [->|Hin]%elem_of_cons; [done|by apply H2].
      + intros H. split; [apply H, elem_of_list_here|]. intros pts' Hin. by apply H, elem_of_list_further. }
  exists kn, kf, (PolyMap qs (Some q)). split.
  { intros n fuel Hn Hfu. unfold gridmap. rewrite Hpm by done. cbn [mbind option_bind]. rewrite Hq. cbn [mbind option_bind]. by rewrite Hqs. }
  split. { split; [exact Hwf|]. cbn [bound]. intros q' [= <-]. by eapply C109_built. }
  assert (∀ a p, incell a p → obstructed (PolyMap qs (Some q)) p = false ↔
    Grid2poly.Inside.inside b a ∧ ∀ pts, pts ∈ ps → ¬ Grid2poly.Inside.inside pts a) as Hobs.
  { intros a p Hp. unfold obstructed. cbn [bound polys]. rewrite <-(Hqsc a p Hp), <-(Hqc a p Hp). destruct (contains q p); cbn [negb].
    - split; [done|]. by intros [_ ?].
    - split; [done|]. by intros [? _]. }
  destruct Hcases as [(Hall & Hin & ->)|(e & He & Hwe & Hlow & Hreg)].
  - left. split; [done|]. intros a p Hp. rewrite (Hobs a p Hp), <-Hin. split; [by intros [? _]|]. intros Ha. split; [done|]. by intros ? ?%elem_of_nil.
  - right. exists e. split; [done|]. split; [done|]. split; [done|]. intros a p Hp. by rewrite (Hobs a p Hp).
Qed.

(** The middle of a cell is in the cell; the map of Grid2poly/Props.v meets the hypothesis. *)
Example middle a : incell a (Pt (inject_Z a.1 + 1 / 2) (inject_Z a.2 + 1 / 2)).
Proof.
  assert (Threshold < 1 # 2) as Ht by reflexivity. unfold incell. cbn [x y].
  setoid_replace (1 / 2) with (1 # 2) by reflexivity. split_and!; lra.
Qed.
Example room_gridmap : Grid2poly.Props.framed 5 5 Grid2poly.Props.room ∧
  ∃ pm, gridmap 5 5 Grid2poly.Props.room 50 50 = Some pm ∧
  (obstructed pm (Pt (7 # 2) (3 # 2)), obstructed pm (Pt (5 # 2) (5 # 2)), obstructed pm (Pt (1 # 2) (5 # 2))) = (false, true, true).
Proof.
  split; [apply Grid2poly.Props.room_framed|]. eexists. split; [vm_compute; reflexivity|]. vm_compute. reflexivity.
Qed.

Print Assumptions C112_outline.
Print Assumptions C112_free_space.
