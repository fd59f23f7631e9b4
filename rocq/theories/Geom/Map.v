(** Maps of polygons: visnav/polymap.hpp and polymap.cc. *)
From stdpp Require Import prelude.
From Coq Require Import QArith Qabs Lqa.
From Verif.Geom Require Import Model Basics Polygon.
Local Open Scope Q_scope.

(** ** Specification *)
(** A polygon as it is built: its sides go around its vertices, its box is the least one. *)
Definition wellformed (q : poly) : Prop :=
  verts q ≠ [] ∧ sides q = (λ e, mkseg e.1 e.2) <$> around (verts q) ∧ leastbox (pb q) (verts q).
Definition wellmap (pm : polymap) : Prop := (∀ q, q ∈ polys pm → wellformed q) ∧ (∀ q, bound pm = Some q → wellformed q).
(** The polygons of the map, the boundary too. *)
Definition fence (pm : polymap) (q : poly) : Prop := q ∈ polys pm ∨ bound pm = Some q.

Lemma wellformed_initsides q : wellformed q → initsides (verts q) = Some (sides q).
Proof. intros (Hne & -> & _). destruct (verts q) as [|a l]; [done|]. cbn [initsides around]. by rewrite path_legs. Qed.
Lemma mkpoly_verts vs q : mkpoly vs = Some q → verts q ≠ [].
Proof.
  unfold mkpoly. destruct (decide _); [done|]. destruct (bboxof vs); [|done]. cbn [mbind option_bind].
  destruct (removecolinear _ _ _) as [[|a l]|]; [done| |done]. cbn. by intros [= <-].
Qed.
Theorem C109_built vs q : mkpoly vs = Some q → wellformed q.
Proof. intros H. pose proof (mkpoly_verts _ _ H). destruct (C108_built vs q H) as (_ & _ & _ & _ & ? & ?). by split_and!. Qed.

(** ** Moving and scaling *)
Lemma legs_fmap f p l : legs (f p) (f <$> l) = prod_map f f <$> legs p l.
Proof. revert p. induction l as [|a l IH]; intros p; cbn; [done|]. by rewrite IH. Qed.
Lemma around_fmap f vs : around (f <$> vs) = prod_map f f <$> around vs.
Proof. destruct vs as [|p l]; [done|]. cbn [around fmap list_fmap]. rewrite <-legs_fmap. by rewrite fmap_app. Qed.

Theorem C109_translated dx dy q : wellformed q →
  ∃ q', translatepoly dx dy q = Some q' ∧ wellformed q' ∧ verts q' = translatept dx dy <$> verts q.
Proof.
  intros (Hne & Hs & Hb). unfold translatepoly. destruct (initsides (translatept dx dy <$> verts q)) as [ss|] eqn:E.
  - cbn [mbind option_bind]. eexists. split; [done|]. split; [|done]. split; [|split]; cbn [verts sides pb].
    + by destruct (verts q).
    + by apply initsides_around.
    + by apply C106_translate.
  - destruct (verts q); done.
Qed.
Theorem C109_scaled sx sy q : wellformed q →
  ∃ q', scalepoly sx sy q = Some q' ∧ wellformed q' ∧ verts q' = scalept sx sy <$> verts q.
Proof.
  intros (Hne & Hs & Hb). unfold scalepoly.
  destruct (C106_box_of_points (scalept sx sy <$> verts q)) as [[E _]|(bb & Ebb & Hleast)]; [by destruct (verts q)|].
  rewrite Ebb. cbn [mbind option_bind]. destruct (initsides (scalept sx sy <$> verts q)) as [ss|] eqn:E.
  - cbn [mbind option_bind]. eexists. split; [done|]. split; [|done]. split; [|split]; cbn [verts sides pb].
    + by destruct (verts q).
    + by apply initsides_around.
    + done.
  - destruct (verts q); done.
Qed.

Lemma oddly_fmap {A B} (f : B → bool) (g : A → B) l : oddly f (g <$> l) = oddly (λ a, f (g a)) l.
Proof. induction l as [|a l IH]; cbn; [done|]. by rewrite IH. Qed.
Lemma oddly_ext {A} (f g : A → bool) l : (∀ a, a ∈ l → f a = g a) → oddly f l = oddly g l.
Proof.
  induction l as [|a l IH]; intros H; cbn; [done|]. rewrite H by apply elem_of_list_here. f_equal. apply IH. intros b Hb. apply H. by apply elem_of_list_further.
Qed.

Lemma Qltb_iff a c a' c' : (a < c ↔ a' < c') → Qltb a c = Qltb a' c'.
Proof.
  intros H. destruct (Qltb a c) eqn:E1, (Qltb a' c') eqn:E2; try done.
  - apply Qltb_lt, H, Qltb_lt in E1. congruence.
  - apply Qltb_lt, H, Qltb_lt in E2. congruence.
Qed.
Lemma enclosed_translate dx dy vs p : enclosed (translatept dx dy <$> vs) (translatept dx dy p) = enclosed vs p.
Proof.
  unfold enclosed. rewrite around_fmap, oddly_fmap. apply oddly_ext. intros [a c] _. rewrite !crosses_xorb. cbn [fst snd prod_map translatept x y].
  f_equal; [f_equal; apply Qltb_iff; split; lra|].
  setoid_replace (y p + dy - (y a + dy)) with (y p - y a) by ring. setoid_replace (y c + dy - (y a + dy)) with (y c - y a) by ring.
  setoid_replace (x c + dx - (x a + dx)) with (x c - x a) by ring. apply Qltb_iff. split; lra.
Qed.
Lemma Qltb_scale a c k : 0 < k → Qltb (a * k) (c * k) = Qltb a c.
Proof. intros Hk. apply Qltb_iff. by apply Qmult_lt_r. Qed.
Lemma enclosed_scale sx sy vs p : 0 < sx → 0 < sy → enclosed (scalept sx sy <$> vs) (scalept sx sy p) = enclosed vs p.
Proof.
  intros Hx Hy. unfold enclosed. rewrite around_fmap, oddly_fmap. apply oddly_ext. intros [a c] _. rewrite !crosses_xorb. cbn [fst snd prod_map scalept x y].
  rewrite !(Qltb_scale _ _ sy Hy). destruct (xorb _ _) eqn:E; [|done]. cbn [andb].
  assert (¬ y c - y a == 0) as Hne.
  { intros Hz. assert (Qltb (y a) (y p) = Qltb (y c) (y p)) as E'. { apply Qltb_proper; [lra|done]. } rewrite E', xorb_nilpotent in E. done. }
  rewrite <-(Qltb_scale (x p) _ sx Hx). apply Qltb_proper; [done|]. field. split; [done|].
  intros E1. apply Hne. assert ((y c - y a) * sy == 0) as E2 by lra. apply Qmult_integral in E2 as [?|?]; lra.
Qed.

(** Whether a point is obstructed. *)
Theorem C109_obstructed pm p : wellmap pm → (∀ q e, fence pm q → e ∈ around (verts q) → fit p e) →
  obstructed pm p = true ↔ (∃ q, bound pm = Some q ∧ enclosed (verts q) p = false) ∨ (∃ q, q ∈ polys pm ∧ enclosed (verts q) p = true).
Proof.
  intros [Hps Hbd] Hfit.
  assert (∀ q, fence pm q → contains q p = enclosed (verts q) p) as Hc.
  { intros q Hq. assert (wellformed q) as Hw by (destruct Hq; auto). destruct q as [vs ss bb]. apply (wellformed_initsides _) in Hw.
    eapply C108_contains; [done|]. intros e He. by eapply (Hfit (Poly vs ss bb)). }
  assert (existsb (λ q, contains q p) (polys pm) = true ↔ ∃ q, q ∈ polys pm ∧ enclosed (verts q) p = true) as He.
  { rewrite existsb_exists. split; intros (q & Hq & E).
    - apply elem_of_list_In in Hq. exists q. split; [done|]. rewrite <-Hc; [done|by left].
    - exists q. split; [by apply elem_of_list_In|]. rewrite Hc; [done|by left]. }
  unfold obstructed. destruct (bound pm) as [bd|] eqn:Eb.
  - rewrite (Hc bd) by by right. destruct (enclosed (verts bd) p) eqn:E; cbn [negb].
    + rewrite He. split; [by right|]. intros [(q & [= <-] & ?)|?]; [congruence|done].
    + split; [|done]. intros _. left. eauto.
  - rewrite He. split; [by right|]. by intros [(q & ? & _)|?].
Qed.

Lemma mapM_elem {A B} (f : A → option B) l l' : mapM f l = Some l' → ∀ b, b ∈ l' ↔ ∃ a, a ∈ l ∧ f a = Some b.
Proof.
  intros H%mapM_Some b. rewrite elem_of_list_lookup. split.
  - intros [i Hi]. destruct (Forall2_lookup_r _ _ _ _ _ H Hi) as (a & Ha & E). exists a. split; [by eapply elem_of_list_lookup_2|done].
  - intros (a & [i Hi]%elem_of_list_lookup & E). destruct (Forall2_lookup_l _ _ _ _ _ H Hi) as (b' & Hb' & E'). exists i. congruence.
Qed.
Lemma mapM_defined {A B} (f : A → option B) l : (∀ a, a ∈ l → ∃ b, f a = Some b) → ∃ l', mapM f l = Some l'.
Proof.
  induction l as [|a l IH]; intros H; [by exists []|]. destruct (H a) as [b Hb]; [apply elem_of_list_here|].
  destruct IH as [l' Hl]; [intros c Hc; apply H; by apply elem_of_list_further|]. exists (b :: l'). cbn [mapM]. rewrite Hb. cbn [mbind option_bind]. by rewrite Hl.
Qed.

(** A change of the vertices that does not change what is enclosed. *)
Lemma mapmap_spec (f : poly → option poly) (g : pt → pt) pm :
  (∀ q, wellformed q → ∃ q', f q = Some q' ∧ wellformed q' ∧ verts q' = g <$> verts q) →
  (∀ vs p, enclosed (g <$> vs) (g p) = enclosed vs p) → wellmap pm →
  ∃ pm', mapmap f pm = Some pm' ∧ wellmap pm' ∧
    (∀ vs, (∃ q, q ∈ polys pm' ∧ verts q = vs) ↔ ∃ q, q ∈ polys pm ∧ vs = g <$> verts q) ∧
    (∀ vs, (∃ q, bound pm' = Some q ∧ verts q = vs) ↔ ∃ q, bound pm = Some q ∧ vs = g <$> verts q) ∧
    ∀ p, (∀ q e, fence pm q → e ∈ around (verts q) → fit p e) →
         (∀ q e, fence pm' q → e ∈ around (verts q) → fit (g p) e) →
         obstructed pm' (g p) = obstructed pm p.
Proof.
  intros Hf Hg [Hps Hbd]. unfold mapmap.
  destruct (mapM_defined f (polys pm)) as [ps Eps]. { intros q Hq. destruct (Hf q (Hps q Hq)) as (q' & ? & _). eauto. }
  rewrite Eps. cbn [mbind option_bind]. pose proof (mapM_elem _ _ _ Eps) as Hel.
  assert (∀ q', q' ∈ ps → wellformed q') as Hw.
  { intros q' (q & Hq & E)%Hel. destruct (Hf q (Hps q Hq)) as (q'' & E' & ? & _). congruence. }
  assert (∀ vs, (∃ q, q ∈ ps ∧ verts q = vs) ↔ ∃ q, q ∈ polys pm ∧ vs = g <$> verts q) as Hv.
  { intros vs. split.
    - intros (q' & (q & Hq & E)%Hel & <-). exists q. split; [done|]. destruct (Hf q (Hps q Hq)) as (q'' & E' & _ & ?). congruence.
    - intros (q & Hq & ->). destruct (Hf q (Hps q Hq)) as (q' & E' & _ & Ev). exists q'. split; [|done]. apply Hel. eauto. }
  set (bd' := match bound pm with None => Some None | Some bd => b' ← f bd; Some (Some b') end).
  assert (∃ ob, bd' = Some ob ∧ (∀ q, ob = Some q → wellformed q) ∧ ∀ vs, (∃ q, ob = Some q ∧ verts q = vs) ↔ ∃ q, bound pm = Some q ∧ vs = g <$> verts q) as (ob & Eob & How & Hov).
  { unfold bd'. destruct (bound pm) as [bd|].
    - destruct (Hf bd (Hbd bd eq_refl)) as (q' & E' & ? & Ev). rewrite E'. cbn [mbind option_bind]. exists (Some q'). split; [done|]. split; [by intros q [= <-]|].
      intros vs. split; [intros (q & [= <-] & <-); eauto|intros (q & [= <-] & ->); eauto].
    - exists None. split; [done|]. split; [done|]. intros vs. split; by intros (q & ? & _). }
  assert (match bound pm with None => Some (PolyMap ps None) | Some bd => bd ← f bd; Some (PolyMap ps (Some bd)) end = Some (PolyMap ps ob)) as ->.
  { unfold bd' in Eob. destruct (bound pm) as [bd|]; [|by injection Eob as <-]. destruct (f bd); [|done]. cbn in *. by injection Eob as <-. }
  exists (PolyMap ps ob). split; [done|]. assert (wellmap (PolyMap ps ob)) as Hwm by done. split; [done|]. split; [done|]. split; [done|].
  intros p F1 F2. apply eq_bool_prop_intro. rewrite !Is_true_true.
  rewrite (C109_obstructed _ _ Hwm F2), (C109_obstructed pm p (conj Hps Hbd) F1). cbn [bound polys]. split.
  - intros [(q & Hq & E)|(q & Hq & E)]; [left|right].
    + destruct (proj1 (Hov (verts q))) as (q0 & Hq0 & E0); [eauto|]. exists q0. split; [done|]. by rewrite <-(Hg _ p), <-E0.
    + destruct (proj1 (Hv (verts q))) as (q0 & Hq0 & E0); [eauto|]. exists q0. split; [done|]. by rewrite <-(Hg _ p), <-E0.
  - intros [(q & Hq & E)|(q & Hq & E)]; [left|right].
    + destruct (proj2 (Hov (g <$> verts q))) as (q0 & Hq0 & E0); [eauto|]. exists q0. split; [done|]. by rewrite E0, Hg.
    + destruct (proj2 (Hv (g <$> verts q))) as (q0 & Hq0 & E0); [eauto|]. exists q0. split; [done|]. by rewrite E0, Hg.
Qed.

(** Moving and scaling a map moves and scales what is obstructed. *)
Theorem C109_map_translated dx dy pm : wellmap pm → ∃ pm', translatemap dx dy pm = Some pm' ∧ wellmap pm' ∧
  (∀ vs, (∃ q, q ∈ polys pm' ∧ verts q = vs) ↔ ∃ q, q ∈ polys pm ∧ vs = translatept dx dy <$> verts q) ∧
  (∀ vs, (∃ q, bound pm' = Some q ∧ verts q = vs) ↔ ∃ q, bound pm = Some q ∧ vs = translatept dx dy <$> verts q) ∧
  ∀ p, (∀ q e, fence pm q → e ∈ around (verts q) → fit p e) → obstructed pm' (translatept dx dy p) = obstructed pm p.
Proof.
  intros Hw. destruct (mapmap_spec (translatepoly dx dy) (translatept dx dy) pm (C109_translated dx dy) (enclosed_translate dx dy) Hw)
    as (pm' & E & Hw' & Hv & Hb & Ho). exists pm'. split; [done|]. split; [done|]. split; [done|]. split; [done|].
  intros p F. apply Ho; [done|]. intros q e Hq He.
  assert (∃ q0, fence pm q0 ∧ verts q = translatept dx dy <$> verts q0) as (q0 & Hq0 & Ev).
  { destruct Hq as [Hq|Hq].
    - destruct (proj1 (Hv (verts q))) as (q0 & ? & ?); [eauto|]. exists q0. split; [by left|done].
    - destruct (proj1 (Hb (verts q))) as (q0 & ? & ?); [eauto|]. exists q0. split; [by right|done]. }
  rewrite Ev, around_fmap in He. apply elem_of_list_fmap in He as ([a c] & -> & He). destruct (F q0 _ Hq0 He) as (F1 & F2 & F3).
  unfold fit, Basics.dx, Basics.dy in *. cbn [fst snd prod_map translatept x y] in *.
  setoid_replace (y c + dy - (y a + dy)) with (y c - y a) by ring. setoid_replace (x c + dx - (x a + dx)) with (x c - x a) by ring.
  setoid_replace (y a + dy - (y p + dy)) with (y a - y p) by ring. setoid_replace (y c + dy - (y p + dy)) with (y c - y p) by ring.
  split; [done|]. split; [destruct F2; [left; lra|by right]|destruct F3; [left; lra|by right]].
Qed.
Theorem C109_map_scaled sx sy pm : 0 < sx → 0 < sy → wellmap pm → ∃ pm', scalemap sx sy pm = Some pm' ∧ wellmap pm' ∧
  (∀ vs, (∃ q, q ∈ polys pm' ∧ verts q = vs) ↔ ∃ q, q ∈ polys pm ∧ vs = scalept sx sy <$> verts q) ∧
  (∀ vs, (∃ q, bound pm' = Some q ∧ verts q = vs) ↔ ∃ q, bound pm = Some q ∧ vs = scalept sx sy <$> verts q) ∧
  ∀ p, (∀ q e, fence pm q → e ∈ around (verts q) → fit p e) → (∀ q e, fence pm' q → e ∈ around (verts q) → fit (scalept sx sy p) e) →
    obstructed pm' (scalept sx sy p) = obstructed pm p.
Proof. intros Hx Hy. apply mapmap_spec; [apply C109_scaled|]. intros vs p. by apply enclosed_scale. Qed.

(** ** C110: visibility *)
Lemma existsb_false {A} (f : A → bool) l : existsb f l = false → ∀ a, a ∈ l → f a = false.
Proof. intros H a Ha. apply not_true_iff_false. intros E. apply not_true_iff_false in H. apply H, existsb_exists. exists a. split; [by apply elem_of_list_In|done]. Qed.

Lemma polyhits_meet q p p' e r : wellformed q → e ∈ around (verts q) → clear p p' e.1 e.2 → on p p' r → on e.1 e.2 r →
  bhits (sb (mkseg p p')) (pb q) = true ∧ polyhits q (mkseg p p') = true.
Proof.
  intros (_ & Hs & Hb) He Hc H1 H2.
  assert (∀ l a, e ∈ legs a l → e.1 ∈ a :: l ∧ e.2 ∈ a :: l) as Hlegs.
  { intros l. induction l as [|b l IH]; intros a Hl; [by apply elem_of_nil in Hl|]. cbn [legs] in Hl. apply elem_of_cons in Hl as [->|Hl].
    - cbn [fst snd]. split; [apply elem_of_list_here|apply elem_of_list_further, elem_of_list_here].
    - destruct (IH b Hl). split; by apply elem_of_list_further. }
  assert (e.1 ∈ verts q ∧ e.2 ∈ verts q) as [V1 V2].
  { destruct (verts q) as [|a l]; [by apply elem_of_nil in He|]. cbn [around] in He. apply Hlegs in He as [Ha Hb'].
    assert (∀ z, z ∈ a :: l ++ [a] → z ∈ a :: l) as Hz. { intros z. rewrite !elem_of_cons, elem_of_app, elem_of_list_singleton. tauto. } auto. }
  assert (inbox (pb q) r) as Hr. { apply (on_boxed _ e.1 e.2); [by apply Hb|by apply Hb|done]. }
  assert (inbox (mkbbox p p') r) as Hr' by by apply on_inbox.
  assert (bhits (mkbbox p p') (pb q) = true) as B1. { apply (C106_hits _ _ _ _ (mkbbox_least p p') Hb). eauto. }
  assert (bhits (pb q) (mkbbox p p') = true) as B2. { apply (C106_hits _ _ _ _ Hb (mkbbox_least p p')). eauto. }
  split; [done|]. unfold polyhits. cbn [sb mkseg]. rewrite B2. apply existsb_exists. exists (mkseg e.1 e.2).
  split; [|by apply (C107_meet_found p p' e.1 e.2 r)]. apply elem_of_list_In. rewrite Hs. by apply (elem_of_list_fmap_1 (λ e, mkseg e.1 e.2)).
Qed.
Lemma polyhits_near q p p' : wellformed q → (∀ e, e ∈ around (verts q) → clear p p' e.1 e.2) → polyhits q (mkseg p p') = true →
  ∃ e r, e ∈ around (verts q) ∧ near p p' r ∧ near e.1 e.2 r.
Proof.
  intros (_ & Hs & Hb) Hc. unfold polyhits. destruct (bhits _ _); [|done]. intros (s & Hin & Hh)%existsb_exists.
  apply elem_of_list_In in Hin. rewrite Hs in Hin. apply elem_of_list_fmap in Hin as (e & -> & He).
  destruct (C107_found_meet p p' e.1 e.2 (Hc e He)) as [_ H2]. destruct (H2 Hh) as (r & ? & ?). by exists e, r.
Qed.

(** What is visible is not cut off: no point of the sight line is on a polygon. *)
Theorem C110_visible pm p p' : wellmap pm → isvisible pm p p' = true →
  (∀ q, bound pm = Some q → contains q p = true) ∧
  ∀ q e r, fence pm q → e ∈ around (verts q) → clear p p' e.1 e.2 → on p p' r → on e.1 e.2 r → False.
Proof.
  intros [Hps Hbd]. unfold isvisible. destruct (existsb _ (polys pm)) eqn:E; [done|]. intros Hv. pose proof (existsb_false _ _ E) as Hf. clear E.
  split.
  - intros q Hq. rewrite Hq in Hv. by apply andb_true_iff in Hv as [? _].
  - intros q e r [Hq|Hq] He Hc H1 H2.
    + destruct (polyhits_meet q p p' e r (Hps q Hq) He Hc H1 H2) as [B1 B2]. specialize (Hf q Hq). cbn beta in Hf. rewrite B1, B2 in Hf. done.
    + destruct (polyhits_meet q p p' e r (Hbd q Hq) He Hc H1 H2) as [B1 B2]. rewrite Hq in Hv. apply andb_true_iff in Hv as [_ Hv]. rewrite B2 in Hv. done.
Qed.
(** What is not visible is cut off, within [Threshold]. *)
Theorem C110_hidden pm p p' : wellmap pm → (∀ q e, fence pm q → e ∈ around (verts q) → clear p p' e.1 e.2) → isvisible pm p p' = false →
  (∃ q, bound pm = Some q ∧ contains q p = false) ∨
  ∃ q e r, fence pm q ∧ e ∈ around (verts q) ∧ near p p' r ∧ near e.1 e.2 r.
Proof.
  intros [Hps Hbd] Hc. unfold isvisible. destruct (existsb _ (polys pm)) eqn:E.
  - intros _. right. apply existsb_exists in E as (q & Hq & [_ Hh]%andb_true_iff). apply elem_of_list_In in Hq.
    destruct (polyhits_near q p p' (Hps q Hq)) as (e & r & ? & ? & ?); [intros e; apply Hc; by left|done|]. exists q, e, r. split; [by left|done].
  - destruct (bound pm) as [bd|] eqn:Eb; [|done]. destruct (contains bd p) eqn:Ec; [|intros _; left; eauto]. cbn [andb]. intros Hh%negb_false_iff. right.
    destruct (polyhits_near bd p p' (Hbd bd eq_refl)) as (e & r & ? & ? & ?); [intros e; apply Hc; by right|done|]. exists bd, e, r. split; [by right|done].
Qed.

(** ** The corners of a map *)
Definition minstep (f : poly → Q) (m : option Q) (q : poly) : option Q := if less (f q) m then Some (f q) else m.
Lemma fold_min f ps : ∀ mx,
  (∀ q, q ∈ ps → ∃ z, fold_left (minstep f) ps mx = Some z /\ z <= f q) ∧
  (∀ z, mx = Some z → ∃ z', fold_left (minstep f) ps mx = Some z' /\ z' <= z) ∧
  (∀ z, fold_left (minstep f) ps mx = Some z → mx = Some z ∨ ∃ q, q ∈ ps ∧ z = f q).
Proof.
  induction ps as [|a ps IH]; intros mx; cbn [fold_left].
  - split_and!; [by intros q Hq%elem_of_nil|intros z ->; exists z; split; [done|lra]|by left].
  - destruct (IH (minstep f mx a)) as (I1 & I2 & I3).
    assert (∃ z0, minstep f mx a = Some z0 /\ z0 <= f a /\ ∀ z, mx = Some z → z0 <= z) as (z0 & Ez & Hz1 & Hz2).
    { unfold minstep. destruct mx as [z|]; cbn [less].
      - destruct (Qltb (f a) z) eqn:E; [apply Qltb_lt in E|apply Qltb_ge in E]; eexists; (split; [done|]); (split; [lra|]); intros ? [= <-]; lra.
      - eexists. split; [done|]. split; [lra|done]. }
    destruct (I2 z0 Ez) as (z' & E' & Hle). split_and!.
    + intros q [->|Hq]%elem_of_cons; [|by apply I1]. exists z'. split; [done|lra].
    + intros z Hz. exists z'. split; [done|]. specialize (Hz2 z Hz). lra.
    + intros z Hz. destruct (I3 z Hz) as [Hm|(q & Hq & ->)].
      * unfold minstep in Hm. destruct (less (f a) mx); [|by left]. injection Hm as <-. right. exists a. split; [apply elem_of_list_here|done].
      * right. exists q. split; [by apply elem_of_list_further|done].
Qed.
Lemma fold_pair {A} (f g : option Q → A → option Q) ps mx my :
  fold_left (λ '(mx, my) q, (f mx q, g my q)) ps (mx, my) = (fold_left f ps mx, fold_left g ps my).
Proof. revert mx my. induction ps as [|a ps IH]; intros mx my; cbn [fold_left]; [done|]. apply IH. Qed.

(** The lower corner of a map: no vertex is below it or left of it. *)
Theorem C110_min pm : wellmap pm → bound pm = None → polys pm ≠ [] →
  ∃ mx my, mapmin pm = (Some mx, Some my) ∧
    (∀ q v, q ∈ polys pm → v ∈ verts q → mx <= x v /\ my <= y v) ∧
    (∃ q v, q ∈ polys pm ∧ v ∈ verts q ∧ x v == mx) ∧ (∃ q v, q ∈ polys pm ∧ v ∈ verts q ∧ y v == my).
Proof.
  intros [Hps _] Hb Hne. unfold mapmin. rewrite Hb.
  assert (mapmin pm = (fold_left (minstep (λ q, x (lo (pb q)))) (polys pm) None, fold_left (minstep (λ q, y (lo (pb q)))) (polys pm) None)) as E.
  { unfold mapmin. rewrite Hb. rewrite <-fold_pair. done. }
  unfold mapmin in E. rewrite Hb in E. rewrite E.
  destruct (fold_min (λ q, x (lo (pb q))) (polys pm) None) as (X1 & _ & X3). destruct (fold_min (λ q, y (lo (pb q))) (polys pm) None) as (Y1 & _ & Y3).
  destruct (polys pm) as [|a ps] eqn:Ep; [done|]. rewrite <-Ep in *.
  destruct (X1 a) as (mx & Ex & _); [rewrite Ep; apply elem_of_list_here|]. destruct (Y1 a) as (my & Ey & _); [rewrite Ep; apply elem_of_list_here|].
  exists mx, my. rewrite Ex, Ey. split; [done|]. split; [|split].
  - intros q v Hq Hv. destruct (Hps q Hq) as (_ & _ & Hin & _). destruct (Hin v Hv) as (? & _ & ? & _).
    destruct (X1 q Hq) as (z & Ez & ?). destruct (Y1 q Hq) as (z' & Ez' & ?). rewrite Ex in Ez. injection Ez as <-. rewrite Ey in Ez'. injection Ez' as <-. split; lra.
  - destruct (X3 mx Ex) as [?|(q & Hq & ->)]; [done|]. destruct (Hps q Hq) as (_ & _ & _ & (v & Hv & E1) & _). eauto.
  - destruct (Y3 my Ey) as [?|(q & Hq & ->)]; [done|]. destruct (Hps q Hq) as (_ & _ & _ & _ & _ & (v & Hv & E1) & _). eauto.
Qed.

Definition tri (z : Q) : list pt := [Pt 0 z; Pt 1 (z + 10); Pt 2 z].
(** The upper corner is not above all of the vertices. *)
Theorem C110_max_refuted : ∃ q1 q2, mkpoly (tri 0) = Some q1 ∧ mkpoly (tri 5) = Some q2 ∧
  let pm := PolyMap [q1; q2] None in
  ∃ mx my, mapmax pm = (mx, Some my) ∧ ∃ q v, q ∈ polys pm ∧ v ∈ verts q ∧ my < y v.
Proof.
  eexists _, _. split; [reflexivity|]. split; [reflexivity|]. eexists _, _. split; [vm_compute; reflexivity|].
  eexists _, (Pt 1 (5 + 10)). split; [apply elem_of_list_further, elem_of_list_here|]. split; [cbn [verts]; apply elem_of_list_further, elem_of_list_here|].
  vm_compute. reflexivity.
Qed.

(** A square and a point in it, one outside and a sight line through. *)
Definition square : list pt := [Pt 0 0; Pt 0 2; Pt 1 2; Pt 2 2; Pt 2 0].
Example square_built : ∃ q, mkpoly square = Some q ∧ verts q = [Pt 0 0; Pt 0 2; Pt 2 2; Pt 2 0] ∧
  contains q (Pt 1 1) = true ∧ contains q (Pt 3 1) = false ∧
  (∀ e, e ∈ around (verts q) → fit (Pt 1 1) e) ∧
  isvisible (PolyMap [q] None) (Pt (-1) 1) (Pt 3 (1#2)) = false ∧ isvisible (PolyMap [q] None) (Pt (-1) 1) (Pt 1 3) = false ∧
  isvisible (PolyMap [q] None) (Pt (-1) 1) (Pt (-1) 4) = true ∧
  (∀ e, e ∈ around (verts q) → clear (Pt (-1) 1) (Pt 3 (1#2)) e.1 e.2).
Proof.
  eexists. split; [reflexivity|]. cbn [verts]. split; [done|]. split; [reflexivity|]. split; [reflexivity|]. split; [|split_and!; [reflexivity..|]].
  - intros e He. cbn [around legs app] in He. repeat (apply elem_of_cons in He as [->|He]; [|]); [..|by apply elem_of_nil in He];
      unfold fit, dx, dy; cbn [fst snd x y]; vm_compute; intuition (congruence || (right; congruence) || (left; congruence)).
  - intros e He. cbn [around legs app] in He. repeat (apply elem_of_cons in He as [->|He]; [|]); [..|by apply elem_of_nil in He];
      unfold clear, plain, dx, dy; cbn [fst snd x y]; vm_compute; intuition congruence.
Qed.

Print Assumptions C109_built.
Print Assumptions C109_translated.
Print Assumptions C109_scaled.
Print Assumptions C109_obstructed.
Print Assumptions C109_map_translated.
Print Assumptions C109_map_scaled.
Print Assumptions C110_visible.
Print Assumptions C110_hidden.
Print Assumptions C110_min.
Print Assumptions C110_max_refuted.
