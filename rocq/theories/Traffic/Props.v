(** The traffic domain: C65, C66 and C84. *)
From stdpp Require Import prelude gmap.
From Coq Require Import ZArith Lia ZifyBool.
From Verif Require Import Common.Fuel Traffic.Model Search.Open Search.Model Search.Props Search.Along.
Local Open Scope Z_scope.

(** ** Specification *)

(** One step of a ball that moves along the cells 0..[m] and is reflected at the ends: position and velocity. *)
Definition bounce (m : Z) (b : Z * Z) : Z * Z :=
  let q := b.1 + b.2 in
  if q <? 0 then (- q, - b.2) else if m <? q then (2 * m - q, - b.2) else (q, b.2).

(** The displacement of each operator. *)
Definition displacement (op : Z) : option (Z * Z) :=
  match op with
  | 0 => Some (0, 1) | 1 => Some (0, -1) | 2 => Some (-1, 0) | 3 => Some (1, 0) | 4 => Some (0, 0)
  | _ => None
  end.

(** Instances with at least two rows and columns, made by the constructors from an obstacle list, with the start
    inside the grid. *)
Record instance (d : traffic) : Prop := {
  in_map : mkgrid (gw (tmap d)) (gh (tmap d)) (obstacles (tmap d)) = Some (tmap d);
  in_w : 2 ≤ gw (tmap d);
  in_h : 2 ≤ gh (tmap d);
  in_start : 0 ≤ tstart d < gw (tmap d) * gh (tmap d);
}.
Definition in_grid (d : traffic) (x y : Z) : Prop := 0 ≤ x < gw (tmap d) ∧ 0 ≤ y < gh (tmap d).
(** An obstacle is in this cell at this time. *)
Definition obstructed (d : traffic) (x y t : Z) : Prop :=
  ∃ o, o ∈ obstacles (tmap d) ∧ positionAt o (gw (tmap d)) (gh (tmap d)) t = Some (x, y).
(** An obstacle goes from the second cell to the first one between this time and the next. *)
Definition crossed (d : traffic) (x y x' y' t : Z) : Prop :=
  ∃ o, o ∈ obstacles (tmap d) ∧ positionAt o (gw (tmap d)) (gh (tmap d)) t = Some (x', y') ∧
    positionAt o (gw (tmap d)) (gh (tmap d)) (t + 1) = Some (x, y).

(** The domain as the searches see it; where the code has no answer the state stays. *)
Definition traffic_domain (d : traffic) : domain := {|
  St := Z * Z; Op := Z; St_eq := _; Op_eq := _; nop := TNop;
  ops s := default [] (operators d s);
  edge s op := match mkedge d s op with Some (s', c) => (s', c.1, TNop) | None => (s, 1, TNop) end;
  isgoal s := tgoal d s |}.

Lemma suffix_cons_cases {A} (l1 l2 : list A) y : l1 `suffix_of` (y :: l2) → l1 = y :: l2 ∨ l1 `suffix_of` l2.
Proof. intros [[|z k] Hk]; [by left|right]. injection Hk as _ ->. by exists k. Qed.

(** ** Obstacles *)

(** [p] is the reflection of [z] into 0..[m]. *)
Definition folds (m z p : Z) : Prop := 0 ≤ p ≤ m ∧ ∃ k, p = z + 2 * m * k ∨ p = - z + 2 * m * k.

Lemma folds_unique m z p p' : 0 < m → folds m z p → folds m z p' → p = p'.
Proof.
  intros Hm [Hp [k Hk]] [Hp' [k' Hk']].
  assert (∃ j, (p - p' = 2 * m * j ∨ p + p' = 2 * m * j)) as [j Hj].
  { destruct Hk as [Hk|Hk], Hk' as [Hk'|Hk']; [exists (k - k')|exists (k + k')|exists (k + k')|exists (k - k')]; lia. }
  destruct (decide (j = 0)) as [->|]; [lia|]. destruct (decide (j = 1)) as [->|]; [lia|]. exfalso.
  assert (j ≤ -1 ∨ 2 ≤ j) as [?|?] by lia; nia.
Qed.

Lemma axis_spec w x dx t : 2 ≤ w → ∃ p, axis w x dx t = Some p ∧ folds (w - 1) (x + dx * t) p.
Proof.
  intros Hw. unfold axis. destruct (Z.eqb_spec (w - 1) 0); [lia|]. eexists. split; [done|].
  set (z := x + dx * t). set (m := w - 1). assert (0 < m) by lia.
  rewrite Z.quot_div_nonneg, (Z.rem_mod_nonneg (Z.abs z) m) by lia.
  pose proof (Z.div_mod (Z.abs z) m ltac:(lia)) as Hdm. pose proof (Z.mod_pos_bound (Z.abs z) m ltac:(lia)).
  assert (0 ≤ Z.abs z / m) by (apply Z.div_pos; lia).
  set (q := Z.abs z / m) in *. set (r := Z.abs z mod m) in *. rewrite (Z.rem_mod_nonneg q) by lia.
  pose proof (Z.div_mod q 2 ltac:(lia)) as Hq. pose proof (Z.mod_pos_bound q 2 ltac:(lia)).
  destruct (Z.eqb_spec (q mod 2) 0) as [E|E].
  - split; [lia|]. destruct (decide (0 ≤ z)).
    + exists (- (q / 2)). left. nia.
    + exists (- (q / 2)). right. nia.
  - assert (q mod 2 = 1) as E' by lia. split; [lia|]. destruct (decide (0 ≤ z)).
    + exists (q / 2 + 1). right. subst m. nia.
    + exists (q / 2 + 1). left. subst m. nia.
Qed.
Lemma axis_folds w x dx t p : 2 ≤ w → axis w x dx t = Some p ↔ folds (w - 1) (x + dx * t) p.
Proof.
  intros Hw. destruct (axis_spec w x dx t Hw) as (p' & E & Hp'). rewrite E. split; [by intros [= <-]|].
  intros Hp. f_equal. eapply folds_unique; [|done|done]. lia.
Qed.

Lemma positionAt_some o w h t : 2 ≤ w → 2 ≤ h → ∃ x y, positionAt o w h t = Some (x, y) ∧
  axis w (ox o) (odx o) t = Some x ∧ axis h (oy o) (ody o) t = Some y ∧ 0 ≤ x < w ∧ 0 ≤ y < h.
Proof.
  intros Hw Hh. unfold positionAt. destruct (axis_spec w (ox o) (odx o) t Hw) as (x & Ex & [Hx _]).
  destruct (axis_spec h (oy o) (ody o) t Hh) as (y & Ey & [Hy _]).
  exists x, y. rewrite Ex, Ey. split_and!; [done|done|done|lia..].
Qed.

(** At every time an obstacle is in a cell of the grid. *)
Theorem C65_inside o w h t : 2 ≤ w → 2 ≤ h →
  ∃ x y, positionAt o w h t = Some (x, y) ∧ 0 ≤ x < w ∧ 0 ≤ y < h.
Proof. intros Hw Hh. destruct (positionAt_some o w h t Hw Hh) as (x & y & ? & _ & _ & ? & ?). eauto. Qed.

(** It starts where it was put. *)
Theorem C65_start o w h : 2 ≤ w → 2 ≤ h → 0 ≤ ox o < w → 0 ≤ oy o < h → positionAt o w h 0 = Some (ox o, oy o).
Proof.
  intros Hw Hh Hx Hy. unfold positionAt.
  assert (axis w (ox o) (odx o) 0 = Some (ox o)) as ->.
  { apply axis_folds; [done|]. split; [lia|]. exists 0. left. lia. }
  assert (axis h (oy o) (ody o) 0 = Some (oy o)) as ->.
  { apply axis_folds; [done|]. split; [lia|]. exists 0. left. lia. }
  done.
Qed.

Lemma folds_lipschitz m z z' p p' : 0 < m → folds m z p → folds m z' p' → Z.abs (p' - p) ≤ Z.abs (z' - z).
Proof.
  intros Hm [Hp [k Hk]] [Hp' [k' Hk']]. set (e := z' - z).
  assert (∃ j, (p' - p = e + 2 * m * j ∨ p' - p = - e + 2 * m * j) ∨ (p' + p = e + 2 * m * j ∨ p' + p = - e + 2 * m * j)) as [j Hj].
  { subst e. destruct Hk as [Hk|Hk], Hk' as [Hk'|Hk'].
    - exists (k' - k). left. left. lia.
    - exists (k' + k). right. right. lia.
    - exists (k' + k). right. left. lia.
    - exists (k' - k). left. right. lia. }
  destruct (decide (m ≤ Z.abs e)) as [He|He]; [lia|].
  destruct (decide (j = 0)) as [->|Hj0]; [lia|]. destruct (decide (j = 1)) as [->|Hj1]; [lia|].
  exfalso. assert (j ≤ -1 ∨ 2 ≤ j) as [?|?] by lia; nia.
Qed.
(** Between two times it moves, in each axis, by no more than its speed times the time between. *)
Theorem C65_continuous o w h t t' x y x' y' : 2 ≤ w → 2 ≤ h →
  positionAt o w h t = Some (x, y) → positionAt o w h t' = Some (x', y') →
  Z.abs (x' - x) ≤ Z.abs (odx o) * Z.abs (t' - t) ∧ Z.abs (y' - y) ≤ Z.abs (ody o) * Z.abs (t' - t).
Proof.
  intros Hw Hh H H'. destruct (positionAt_some o w h t Hw Hh) as (? & ? & E & Hx & Hy & _).
  destruct (positionAt_some o w h t' Hw Hh) as (? & ? & E' & Hx' & Hy' & _). simplify_eq.
  apply axis_folds in Hx, Hy, Hx', Hy'; try done.
  pose proof (folds_lipschitz (w - 1) _ _ _ _ ltac:(lia) Hx Hx') as H1. pose proof (folds_lipschitz (h - 1) _ _ _ _ ltac:(lia) Hy Hy') as H2.
  replace (ox o + odx o * t' - (ox o + odx o * t)) with (odx o * (t' - t)) in H1 by lia.
  replace (oy o + ody o * t' - (oy o + ody o * t)) with (ody o * (t' - t)) in H2 by lia.
  rewrite Z.abs_mul in H1, H2. done.
Qed.

Lemma bounce_folds m x dx (n : nat) : 0 ≤ x ≤ m → Z.abs dx ≤ m →
  let b := Nat.iter n (bounce m) (x, dx) in
  0 ≤ b.1 ≤ m ∧ ∃ k, (b.1 = (x + dx * Z.of_nat n) + 2 * m * k ∧ b.2 = dx) ∨ (b.1 = - (x + dx * Z.of_nat n) + 2 * m * k ∧ b.2 = - dx).
Proof.
  intros Hx Hdx. induction n as [|n IH].
  - simpl. split; [lia|]. exists 0. left. lia.
  - change (Nat.iter (S n) (bounce m) (x, dx)) with (bounce m (Nat.iter n (bounce m) (x, dx))).
    set (b := Nat.iter n (bounce m) (x, dx)) in *. destruct IH as [Hb [k Hk]].
    replace (Z.of_nat (S n)) with (Z.of_nat n + 1) by lia. unfold bounce.
    destruct (Z.ltb_spec (b.1 + b.2) 0); [|destruct (Z.ltb_spec m (b.1 + b.2))]; cbn [fst snd].
    + split; [lia|]. exists (- k). destruct Hk as [Hk|Hk]; [right|left]; lia.
    + split; [lia|]. exists (1 - k). destruct Hk as [Hk|Hk]; [right|left]; lia.
    + split; [lia|]. exists k. destruct Hk as [Hk|Hk]; [left|right]; lia.
Qed.
(** Its position at time n is that of two balls bouncing for n steps, one in each axis (speeds that do not cross the
    grid in one step). *)
Theorem C65_bounce o w h (n : nat) : 2 ≤ w → 2 ≤ h → 0 ≤ ox o < w → 0 ≤ oy o < h → Z.abs (odx o) < w → Z.abs (ody o) < h →
  positionAt o w h (Z.of_nat n) =
    Some ((Nat.iter n (bounce (w - 1)) (ox o, odx o)).1, (Nat.iter n (bounce (h - 1)) (oy o, ody o)).1).
Proof.
  intros Hw Hh Hx Hy Hdx Hdy. unfold positionAt.
  assert (axis w (ox o) (odx o) (Z.of_nat n) = Some (Nat.iter n (bounce (w - 1)) (ox o, odx o)).1) as ->.
  { apply axis_folds; [done|]. destruct (bounce_folds (w - 1) (ox o) (odx o) n ltac:(lia) ltac:(lia)) as [Hb [k Hk]].
    split; [done|]. exists k. destruct Hk as [[Hk _]|[Hk _]]; [by left|by right]. }
  assert (axis h (oy o) (ody o) (Z.of_nat n) = Some (Nat.iter n (bounce (h - 1)) (oy o, ody o)).1) as ->.
  { apply axis_folds; [done|]. destruct (bounce_folds (h - 1) (oy o) (ody o) n ltac:(lia) ltac:(lia)) as [Hb [k Hk]].
    split; [done|]. exists k. destruct Hk as [[Hk _]|[Hk _]]; [by left|by right]. }
  done.
Qed.
Example bounce_example : positionAt (Obstacle 3 1 2 (-1)) 5 3 7 = Some (1, 2) ∧
  (λ n, (Nat.iter n (bounce 4) (3, 2)).1) <$> seq 0 8 = [3; 3; 1; 1; 3; 3; 1; 1].
Proof. done. Qed.

(** A grid of one row or column divides by zero. *)
Theorem C65_one_row_refuted o w h t : w = 1 ∨ h = 1 → positionAt o w h t = None.
Proof.
  intros H. unfold positionAt. destruct H as [->| ->]; [done|]. by destruct (axis w (ox o) (odx o) t).
Qed.

(** ** Moves *)
Section moves.
Context (d : traffic) (Hd : instance d).
Notation w := (gw (tmap d)).
Notation h := (gh (tmap d)).

Definition themove (dx dy : Z) : move := Move dx dy (dx + w * dy) true [dx + w * dy].
Lemma mvs_eq : mvs (tmap d) = [themove 0 1; themove 0 (-1); themove (-1) 0; themove 1 0; themove 0 0].
Proof using Hd.
  pose proof (f_equal (λ o, mvs <$> o) (in_map d Hd)) as H. unfold mkgrid, setfourway, mkmove in H. cbn in H.
  injection H as H. by rewrite <-H.
Qed.
(** The move of an operator. *)
Lemma mvs_lookup op : 0 ≤ op → mvs (tmap d) !! Z.to_nat op =
  match displacement op with Some (dx, dy) => Some (Move dx dy (dx + w * dy) true [dx + w * dy]) | None => None end.
Proof using Hd.
  intros Hop. rewrite mvs_eq. destruct (decide (op < 5)) as [H5|H5].
  - assert (op = 0 ∨ op = 1 ∨ op = 2 ∨ op = 3 ∨ op = 4) as Hc by lia.
    destruct Hc as [->|[->|[->|[->| ->]]]]; done.
  - rewrite lookup_ge_None_2 by (cbn; lia). unfold displacement. destruct op as [|p|]; [lia| |lia].
    destruct p as [[?|?|]|[?|[?|?|]|]|]; try lia; done.
Qed.
Lemma displacement_range op dx dy : displacement op = Some (dx, dy) → 0 ≤ op < 5 ∧ Z.abs dx + Z.abs dy ≤ 1.
Proof. unfold displacement. destruct op as [|p|]; [|destruct p as [[?|?|]|[?|[?|?|]|]|]|]; try done; intros [= <- <-]; lia. Qed.

Lemma index_inj x y x' y' : 0 ≤ x < w → 0 ≤ x' < w → index w x y = index w x' y' → x = x' ∧ y = y'.
Proof. unfold index. intros Hx Hx' H. assert (y = y') by nia. subst. lia. Qed.
Lemma coord_index x y : 0 ≤ x < w → index w x y mod w = x ∧ index w x y / w = y.
Proof.
  intros Hx. unfold index. rewrite Z.add_comm, Z_mod_plus_full, Z_div_plus_full by lia.
  rewrite Z.mod_small, Z.div_small by lia. lia.
Qed.

Lemma obsloc_spec o t : ∃ x y, positionAt o w h t = Some (x, y) ∧ obsloc (tmap d) o t = Some (index w x y) ∧ in_grid d x y.
Proof using Hd.
  destruct (positionAt_some o w h t (in_w d Hd) (in_h d Hd)) as (x & y & E & _ & _ & Hx & Hy).
  exists x, y. unfold obsloc. rewrite E. done.
Qed.

Lemma okobs_spec x y x' y' t m : in_grid d x y → in_grid d x' y' → mchk m = [mdelta m] →
  okobs (tmap d) (index w x y) (index w x' y') (t + 1) m (obstacles (tmap d)) = Some true ∧ ¬ crossed d x y x' y' t ∨
  okobs (tmap d) (index w x y) (index w x' y') (t + 1) m (obstacles (tmap d)) = Some false ∧ crossed d x y x' y' t.
Proof using Hd.
  intros [Hx Hy] [Hx' Hy'] Hm. unfold crossed. induction (obstacles (tmap d)) as [|o obs IH].
  { left. split; [done|]. intros (o & []%elem_of_nil & _). }
  cbn [okobs]. replace (t + 1 - 1) with t by lia.
  destruct (obsloc_spec o t) as (x1 & y1 & E1 & -> & Hg1 & _). destruct (obsloc_spec o (t + 1)) as (x2 & y2 & E2 & -> & Hg2 & _).
  cbn [mbind option_bind]. rewrite Hm. cbn [existsb]. rewrite Z.eqb_refl. rewrite andb_false_r, orb_false_r.
  destruct (decide ((x, y) = (x2, y2) ∧ (x', y') = (x1, y1))) as [[H1 H2]|Hne].
  - injection H1 as -> ->. injection H2 as -> ->. rewrite !Z.eqb_refl. right. split; [done|]. exists o. split; [left|done].
  - destruct (Z.eqb_spec (index w x y) (index w x2 y2)) as [H1|H1]; [destruct (Z.eqb_spec (index w x' y') (index w x1 y1)) as [H2|H2]|]; cbn [andb].
    { apply index_inj in H1 as [-> ->]; [|done..]. apply index_inj in H2 as [-> ->]; [|done..]. by destruct Hne. }
    all: destruct IH as [[IH IH']|[IH IH']]; [left|right]; (split; [done|]).
    all: try (intros (o' & [->|Ho]%elem_of_cons & H3 & H4); [simplify_eq|by eapply IH'; eauto]).
    all: try (destruct IH' as (o' & Ho & H3 & H4); exists o'; split; [by right|done]).
    all: by destruct Hne.
Qed.
Lemma collides_spec x y t : in_grid d x y →
  collides (tmap d) (index w x y) t (obstacles (tmap d)) = Some true ∧ obstructed d x y t ∨
  collides (tmap d) (index w x y) t (obstacles (tmap d)) = Some false ∧ ¬ obstructed d x y t.
Proof using Hd.
  intros [Hx Hy]. unfold obstructed. induction (obstacles (tmap d)) as [|o obs IH].
  { right. split; [done|]. intros (o & []%elem_of_nil & _). }
  cbn [collides]. destruct (obsloc_spec o t) as (x1 & y1 & E1 & -> & Hg1 & _). cbn [mbind option_bind].
  destruct (Z.eqb_spec (index w x y) (index w x1 y1)) as [H1|H1].
  - left. split; [done|]. apply index_inj in H1 as [-> ->]; [|done..]. exists o. split; [left|done].
  - destruct IH as [[IH IH']|[IH IH']]; [left|right]; (split; [done|]).
    + destruct IH' as (o' & Ho & H3). exists o'. split; [by right|done].
    + intros (o' & [->|Ho]%elem_of_cons & H3); [by simplify_eq|by eapply IH'; eauto].
Qed.

(** Moves that stay in the grid and do not cross an obstacle are allowed. *)
Definition allowed (x y t op : Z) : Prop :=
  ∃ dx dy, displacement op = Some (dx, dy) ∧ in_grid d (x + dx) (y + dy) ∧ ¬ crossed d x y (x + dx) (y + dy) t.

Lemma ok_spec x y t dx dy : in_grid d x y →
  let m := Move dx dy (dx + w * dy) true [dx + w * dy] in
  (ok (tmap d) (index w x y) (t + 1) m = Some true ∧ in_grid d (x + dx) (y + dy) ∧ ¬ crossed d x y (x + dx) (y + dy) t) ∨
  (ok (tmap d) (index w x y) (t + 1) m = Some false ∧ ¬ (in_grid d (x + dx) (y + dy) ∧ ¬ crossed d x y (x + dx) (y + dy) t)).
Proof using Hd.
  intros Hg m. pose proof (in_w d Hd). pose proof (in_h d Hd). unfold ok. destruct (Z.eqb_spec w 0); [lia|].
  destruct (coord_index x y (proj1 Hg)) as [-> ->]. cbn [mdx mdy m].
  destruct (decide (in_grid d (x + dx) (y + dy))) as [Hg'|Hg'].
  - assert (((x + dx <? 0) || (y + dy <? 0) || (w <=? x + dx) || (h <=? y + dy)) = false) as -> by (destruct Hg'; lia).
    destruct (okobs_spec x y (x + dx) (y + dy) t m Hg Hg' eq_refl) as [[E H']|[E H']]; rewrite E; [left|right]; naive_solver.
  - assert (((x + dx <? 0) || (y + dy <? 0) || (w <=? x + dx) || (h <=? y + dy)) = true) as -> by (unfold in_grid in Hg'; lia).
    right. naive_solver.
Qed.

Lemma opsfrom_elem s i ms l op : opsfrom d s i ms = Some l →
  op ∈ l ↔ ∃ (j : nat) m, op = i + Z.of_nat j ∧ ms !! j = Some m ∧ ok (tmap d) s.1 (s.2 + 1) m = Some true.
Proof.
  revert i l. induction ms as [|m ms IH]; intros i l; cbn [opsfrom].
  - intros [= <-]. split; [by intros ?%elem_of_nil|]. by intros (j & m & _ & ? & _).
  - destruct (ok (tmap d) s.1 (s.2 + 1) m) as [b|] eqn:Eb; [|done]. cbn [mbind option_bind].
    destruct (opsfrom d s (i + 1) ms) as [l'|] eqn:E; [|done]. cbn [mbind option_bind]. intros [= <-].
    assert (op ∈ l' ↔ ∃ (j : nat) m', op = i + Z.of_nat (S j) ∧ ms !! j = Some m' ∧ ok (tmap d) s.1 (s.2 + 1) m' = Some true) as Hl'.
    { rewrite (IH _ _ E). split; intros (j & m' & ? & ?); exists j, m'; (split; [lia|done]). }
    assert (op ∈ (if b then i :: l' else l') ↔ (op = i ∧ b = true) ∨ op ∈ l') as ->.
    { destruct b; [rewrite elem_of_cons|]; naive_solver. }
    rewrite Hl'. split.
    + intros [[-> ->]|(j & m' & ? & ? & ?)]; [exists 0%nat, m; split_and!; [lia|done..]|exists (S j), m'; done].
    + intros ([|j] & m' & H1 & H2 & H3); [left|right; exists j, m'; done]. injection H2 as <-. split; [lia|congruence].
Qed.
Lemma opsfrom_some s i ms : (∀ m, m ∈ ms → is_Some (ok (tmap d) s.1 (s.2 + 1) m)) → is_Some (opsfrom d s i ms).
Proof.
  revert i. induction ms as [|m ms IH]; intros i H; cbn [opsfrom]; [by eexists|].
  destruct (H m) as [b ->]; [left|]. cbn [mbind option_bind]. destruct (IH (i + 1)) as [l ->]; [|by eexists].
  intros m' Hm'. apply H. by right.
Qed.

Theorem C84_operators x y t : in_grid d x y →
  ∃ l, operators d (index w x y, t) = Some l ∧ ∀ op, op ∈ l ↔ allowed x y t op.
Proof using Hd.
  intros Hg. unfold operators.
  assert (∀ j m, mvs (tmap d) !! j = Some m → ∃ dx dy, displacement (Z.of_nat j) = Some (dx, dy) ∧ m = Move dx dy (dx + w * dy) true [dx + w * dy]) as Hm.
  { intros j m Hj. pose proof (mvs_lookup (Z.of_nat j) ltac:(lia)) as Hl. rewrite Nat2Z.id in Hl. rewrite Hj in Hl.
    destruct (displacement (Z.of_nat j)) as [[dx dy]|]; [|done]. injection Hl as ->. eauto. }
  destruct (opsfrom_some (index w x y, t) 0 (mvs (tmap d))) as [l Hl].
  { intros m (j & Hj)%elem_of_list_lookup. destruct (Hm _ _ Hj) as (dx & dy & _ & ->). cbn [fst snd].
    destruct (ok_spec x y t dx dy Hg) as [[-> _]|[-> _]]; by eexists. }
  exists l. split; [done|]. intros op. rewrite (opsfrom_elem _ _ _ _ op Hl). unfold allowed. cbn [fst snd]. split.
  - intros (j & m & -> & Hj & Hok). destruct (Hm _ _ Hj) as (dx & dy & E & ->).
    exists dx, dy. split; [done|]. destruct (ok_spec x y t dx dy Hg) as [[_ ?]|[E' _]]; [done|congruence].
  - intros (dx & dy & E & Hin). destruct (displacement_range _ _ _ E) as [Hr _].
    exists (Z.to_nat op), (Move dx dy (dx + w * dy) true [dx + w * dy]). split_and!; [lia|by rewrite mvs_lookup, E by lia|].
    destruct (ok_spec x y t dx dy Hg) as [[? _]|[_ []]]; done.
Qed.

(** An allowed move costs 1 and leads to the neighbouring cell one time step later, or back to the start at time 0 if
    an obstacle is there then. *)
Theorem C84_edge x y t op dx dy : in_grid d x y → allowed x y t op → displacement op = Some (dx, dy) →
  mkedge d (index w x y, t) op = Some ((index w (x + dx) (y + dy), t + 1), (1, 0)) ∧ ¬ obstructed d (x + dx) (y + dy) (t + 1) ∨
  mkedge d (index w x y, t) op = Some ((tstart d, 0), (1, 0)) ∧ obstructed d (x + dx) (y + dy) (t + 1).
Proof using Hd.
  intros [Hx Hy] (dx' & dy' & E & [Hx' Hy'] & _) E'. rewrite E in E'. injection E' as -> ->.
  pose proof (displacement_range _ _ _ E) as [Hr _]. pose proof (in_start d Hd). pose proof (in_w d Hd). pose proof (in_h d Hd).
  unfold mkedge. cbn [fst snd].
  assert (∀ x y, in_grid d x y → (0 <=? index w x y) && (index w x y <? gsz (tmap d)) = true) as Hin.
  { intros x0 y0 [? ?]. unfold index, gsz. apply andb_true_iff. split; [apply Z.leb_le|apply Z.ltb_lt]; nia. }
  rewrite Hin by done. destruct (Z.ltb_spec op 0); [lia|]. cbn [negb]. rewrite mvs_lookup, E by lia. cbn [mbind option_bind mdelta mone].
  replace (index w x y + (dx + w * dy)) with (index w (x + dx) (y + dy)) by (unfold index; lia).
  destruct (collides_spec (x + dx) (y + dy) (t + 1) (conj Hx' Hy')) as [[-> Ho]|[-> Ho]]; cbn [mbind option_bind]; [right|left].
  - unfold initialstate. cbn [fst snd]. assert ((0 <=? tstart d) && (tstart d <? gsz (tmap d)) = true) as -> by (unfold gsz; lia).
    cbn [negb]. by rewrite orb_true_r.
  - cbn [fst snd]. rewrite Hin by done. cbn [negb]. by rewrite orb_true_r.
Qed.

(** ** The search domain *)
Notation D := (traffic_domain d).

Lemma edge_cost s op s' c : mkedge d s op = Some (s', c) → 0 ≤ c.1.
Proof.
  unfold mkedge. destruct (negb _); [done|]. destruct (op <? 0); [done|]. destruct (mvs _ !! _) as [m|]; [|done]. cbn [mbind option_bind].
  destruct (collides _ _ _ _) as [b|]; [|done]. cbn [mbind option_bind]. destruct (negb _); [done|]. intros [= _ <-]. by destruct (_ || _).
Qed.
Lemma ops_nonneg s op : op ∈ ops (d:=D) s → 0 ≤ op.
Proof.
  cbn. unfold operators. destruct (opsfrom d s 0 (mvs (tmap d))) as [l|] eqn:E; [|by intros ?%elem_of_nil]. cbn.
  rewrite (opsfrom_elem _ _ _ _ op E). intros (j & m & -> & _). lia.
Qed.
Lemma traffic_ok : domain_ok D.
Proof.
  split.
  - intros s op _. unfold cost. cbn. destruct (mkedge d s op) as [[s' c]|] eqn:E; [|done]. by eapply edge_cost.
  - intros s op _ Hrev. exfalso. apply ops_nonneg in Hrev. unfold revop in Hrev. cbn in Hrev.
    destruct (mkedge d s op) as [[s' c]|]; unfold TNop in Hrev; cbn in Hrev; lia.
  - intros s Hn%ops_nonneg. cbn in Hn. unfold TNop in Hn. lia.
Qed.

(** States inside the grid. *)
Definition sane (s : Z * Z) : Prop := ∃ x y, in_grid d x y ∧ s = (index w x y, s.2) ∧ 0 ≤ s.2.
Lemma start_sane : sane (initialstate d).
Proof using Hd.
  pose proof (in_start d Hd) as Hs. pose proof (in_w d Hd). pose proof (in_h d Hd).
  exists (tstart d mod w), (tstart d / w). pose proof (Z.div_mod (tstart d) w ltac:(lia)). pose proof (Z.mod_pos_bound (tstart d) w ltac:(lia)).
  assert (0 ≤ tstart d / w) by (apply Z.div_pos; lia). assert (tstart d / w < h) by (apply Z.div_lt_upper_bound; lia).
  split; [done|]. unfold initialstate, index. cbn [snd]. split; [f_equal; lia|lia].
Qed.
(** What an applicable operator does. *)
Lemma step_cases s op : sane s → op ∈ ops (d:=D) s →
  ∃ x y dx dy, in_grid d x y ∧ s = (index w x y, s.2) ∧ displacement op = Some (dx, dy) ∧ in_grid d (x + dx) (y + dy) ∧
    cost (D:=D) s op = 1 ∧ mkedge d s op = Some (dest (D:=D) s op, (1, 0)) ∧
    (dest (D:=D) s op = (index w (x + dx) (y + dy), s.2 + 1) ∨ dest (D:=D) s op = initialstate d).
Proof using Hd.
  intros (x & y & Hg & Hs & Ht) Hop. destruct (C84_operators x y s.2 Hg) as (l & Hl & Hall). cbn in Hop.
  rewrite <-Hs in Hl. rewrite Hl in Hop. cbn in Hop. apply Hall in Hop. pose proof Hop as (dx & dy & E & Hg' & _).
  exists x, y, dx, dy. unfold dest, cost. cbn [traffic_domain edge].
  destruct (C84_edge x y s.2 op dx dy Hg Hop E) as [[E' _]|[E' _]]; rewrite <-Hs in E'; rewrite E'; cbn; split_and!; try done; [by left|by right].
Qed.
Lemma step_sane s op : sane s → op ∈ ops (d:=D) s → sane (dest (D:=D) s op).
Proof using Hd.
  intros Hs Hop. destruct (step_cases s op Hs Hop) as (x & y & dx & dy & _ & _ & _ & Hg & _ & _ & [->| ->]).
  - destruct Hs as (_ & _ & _ & _ & Ht). exists (x + dx), (y + dy). cbn [snd]. split_and!; [done|done|lia].
  - apply start_sane.
Qed.
Lemma reachable_sane s : reachable (D:=D) (initialstate d) s → sane s.
Proof using Hd. apply reachable_inv; [apply start_sane|]. intros s' op. apply step_sane. Qed.

(** No state that a search from the start can reach makes the code read or divide wrongly or fail an assertion. *)
Theorem C84_safe s : reachable (D:=D) (initialstate d) s →
  ∃ l, operators d s = Some l ∧ ∀ op, op ∈ l → ∃ s', mkedge d s op = Some (s', (1, 0)).
Proof using Hd.
  intros Hr%reachable_sane. pose proof Hr as (x & y & Hg & Hs & _). destruct (C84_operators x y s.2 Hg) as (l & Hl & _).
  rewrite <-Hs in Hl. exists l. split; [done|]. intros op Hop.
  destruct (step_cases s op Hr) as (_ & _ & _ & _ & _ & _ & _ & _ & _ & E & _); [cbn; by rewrite Hl|]. eauto.
Qed.

(** Replaying the operators of a solution, stored goal first, confirms its cost and prints the operators in order. *)
Theorem C84_pathcost ss os k : solution (D:=D) (initialstate d) ss os k → pathcost d (reverse os) = Some ((k, 0), os).
Proof using Hd.
  intros (Hw & Hh & t & Hl & Hg). unfold pathcost. rewrite reverse_involutive.
  assert (∀ s, head ss = Some s → sane s → replay d s os = Some (t, (k, 0))) as H.
  { clear Hh. induction Hw as [s1|s1 op ss os k Hop Hw IH]; intros s Hh Hs; injection Hh as <-.
    - injection Hl as ->. done.
    - cbn [replay]. destruct (step_cases s1 op Hs Hop) as (_ & _ & _ & _ & _ & _ & _ & _ & Hc & -> & _). cbn [mbind option_bind fst snd].
      rewrite (IH Hl (dest (D:=D) s1 op) eq_refl (step_sane _ _ Hs Hop)). cbn [mbind option_bind fst snd]. do 2 f_equal. f_equal; lia. }
  rewrite (H _ Hh start_sane). cbn [mbind option_bind fst snd]. cbn in Hg. by rewrite Hg.
Qed.

(** ** The heuristic *)
Lemma heur_nonneg s : 0 ≤ heur d s.
Proof. unfold heur. lia. Qed.

(** A part of a walk from the start that does not come back to it: every step moves by one cell. *)
Lemma walk_suffix (ss : list (Z * Z)) os k ss2 : walk (D:=D) ss os k → ss2 `suffix_of` ss → ss2 ≠ [] →
  ∀ s, head ss = Some s → sane s → ∀ s2, head ss2 = Some s2 → sane s2.
Proof using Hd.
  intros Hw. revert ss2. induction Hw as [s1|s1 op ss os k Hop Hw IH]; intros ss2 Hsuf Hne s Hh Hs s2 Hh2; injection Hh as <-.
  - apply suffix_cons_cases in Hsuf as [->|Hsuf]; [by injection Hh2 as <-|]. by apply suffix_nil_inv in Hsuf.
  - apply suffix_cons_cases in Hsuf as [->|Hsuf]; [by injection Hh2 as <-|].
    eapply (IH ss2 Hsuf Hne); [done|by apply step_sane|done].
Qed.

Lemma heur_lower ss os k t : walk (D:=D) ss os k → sane t → head ss = Some t → initialstate d ∉ tail ss →
  (∃ u, last ss = Some u ∧ isgoal (d:=D) u = true) → heur d t ≤ k.
Proof using Hd.
  intros Hw. revert t. induction Hw as [s1|s1 op ss os k Hop Hw IH]; intros s Hs Hh Hni Hg; injection Hh as <-.
  - destruct Hg as (u & [= <-] & Hg). cbn in Hg. unfold tgoal in Hg. apply Z.eqb_eq in Hg. unfold heur. rewrite Hg. lia.
  - cbn [tail] in Hni. apply not_elem_of_cons in Hni as [Hne Hni].
    specialize (IH (dest (D:=D) s1 op) (step_sane _ _ Hs Hop) eq_refl Hni Hg).
    destruct (step_cases s1 op Hs Hop) as (x & y & dx & dy & Hxy & Es & E & Hxy' & Hc & _ & [Hd'|Hd']); [|congruence].
    destruct (displacement_range _ _ _ E) as [_ Hr]. rewrite Hc. rewrite Hd' in IH. unfold heur in *. rewrite Es. cbn [fst snd] in *.
    destruct (coord_index x y (proj1 Hxy)) as [-> ->]. destruct (coord_index _ (y + dy) (proj1 Hxy')) as [E1 E2]. rewrite E1, E2 in IH. lia.
Qed.

(** The rest of a solution after its last visit to the start is a solution, and no dearer. *)
Lemma last_visit ss os k : solution (D:=D) (initialstate d) ss os k →
  ∃ ss2 os2 k2, solution (D:=D) (initialstate d) ss2 os2 k2 ∧ initialstate d ∉ tail ss2 ∧ k2 ≤ k.
Proof.
  intros (Hw & Hh & Hg).
  assert (∀ s, head ss = Some s → (∃ ss2 os2 k2, solution (D:=D) (initialstate d) ss2 os2 k2 ∧ initialstate d ∉ tail ss2 ∧ k2 ≤ k) ∨ initialstate d ∉ ss) as H.
  { clear Hh. induction Hw as [s1|s1 op ss os k Hop Hw IH]; intros s Hh; injection Hh as <-.
    - destruct (decide (initialstate d = s1)) as [<-|Hne].
      + left. exists [initialstate d], [], 0. split_and!; [|by intros ?%elem_of_nil|lia]. split_and!; [constructor|done|done].
      + right. by intros ?%elem_of_list_singleton.
    - pose proof (ok_cost traffic_ok s1 op Hop). destruct (IH Hg (dest (D:=D) s1 op) eq_refl) as [(ss2 & os2 & k2 & H1 & H2 & H3)|Hni].
      + left. exists ss2, os2, k2. split_and!; [done..|lia].
      + destruct (decide (initialstate d = s1)) as [<-|Hne].
        * left. exists (initialstate d :: dest (D:=D) (initialstate d) op :: ss), (op :: os), (cost (D:=D) (initialstate d) op + k).
          split_and!; [split_and!; [by apply walk_step|done|exact Hg]|done|lia].
        * right. by intros [?|?]%elem_of_cons. }
  destruct (H _ Hh) as [?|Hni]; [done|]. destruct Hni. destruct ss as [|s ss]; [done|]. injection Hh as ->. left.
Qed.
Lemma lower_fresh ss os k : solution (D:=D) (initialstate d) ss os k → initialstate d ∉ tail ss → lower (D:=D) (heur d) ss os.
Proof using Hd.
  intros (Hw & Hh & _) Hni t ss2 os2 k2 Hsuf _ (Hw2 & Hh2 & Hg2). eapply heur_lower; [done| |done| |done].
  - eapply (walk_suffix _ _ _ ss2 Hw Hsuf); [by destruct ss2|done|apply start_sane|done].
  - destruct ss as [|s ss]; [done|]. apply suffix_cons_cases in Hsuf as [->|Hsuf]; [done|].
    cbn [tail] in Hni. contradict Hni. destruct Hsuf as [l ->]. apply elem_of_app. right. destruct ss2; [done|]. by right.
Qed.
End moves.

(** A-star from the initial state returns a cheapest solution, although the heuristic overestimates (see below) ... *)
Theorem C66_astar_optimal d o lim :
  instance d → ol_ok astar_lt nonneg_key o →
  ∀ fuel path os s', astar (traffic_domain d) (heur d) o lim (initialstate d) fuel = Some (Some (path, os), s') →
  ∃ k, solution (D:=traffic_domain d) (initialstate d) (reverse path) (reverse os) k ∧
    pathcost d os = Some ((k, 0), reverse os) ∧
    ∀ ss' os' k', solution (D:=traffic_domain d) (initialstate d) ss' os' k' → k ≤ k'.
Proof.
  intros Hd OL fuel path os s' Hs.
  destruct (C83_astar_optimal_along (traffic_domain d) (heur d) o lim (traffic_ok d) OL (heur_nonneg d) _ _ _ _ _ Hs) as (k & Hsol & Hmin).
  exists k. split; [done|]. split.
  - pose proof (C84_pathcost d Hd _ _ _ Hsol) as H. by rewrite reverse_involutive in H.
  - intros ss' os' k' Hsol'. destruct (last_visit d _ _ _ Hsol') as (ss2 & os2 & k2 & H2 & Hni & Hle).
    specialize (Hmin _ _ _ H2 (lower_fresh d Hd _ _ _ H2 Hni)). lia.
Qed.

(** ... and it finds one whenever there is one, although time makes infinitely many states reachable. *)
Theorem C66_astar_solves d o ss os k :
  instance d → ol_ok astar_lt nonneg_key o → solution (D:=traffic_domain d) (initialstate d) ss os k →
  ∃ path os' s' k', ends (astar (traffic_domain d) (heur d) o no_limits (initialstate d)) (Some (path, os'), s') ∧
    solution (D:=traffic_domain d) (initialstate d) (reverse path) (reverse os') k' ∧ k' ≤ k.
Proof.
  intros Hd OL Hsol.
  assert (∃ path os' s' k', ends (astar (traffic_domain d) (heur d) o no_limits (initialstate d)) (Some (path, os'), s') ∧
    solution (D:=traffic_domain d) (initialstate d) (reverse path) (reverse os') k') as (path & os' & s' & k' & He & Hs').
  { destruct (last_visit d _ _ _ Hsol) as (ss2 & os2 & k2 & H2 & Hni & _).
    destruct (C83_astar_infinite_space (traffic_domain d) (heur d) o (traffic_ok d) OL (heur_nonneg d)) with (s0:=initialstate d) (ss:=ss2) (os:=os2) (k:=k2)
      as (path & os' & s' & k' & ? & ? & _); [|done|by eapply lower_fresh|eauto 10].
    intros s op Hop. unfold cost. cbn. destruct (mkedge d s op) as [[s1 c]|] eqn:E; [|done].
    unfold mkedge in E. destruct (negb _); [done|]. destruct (Z.ltb_spec op 0); [done|]. rewrite (mvs_lookup d Hd) in E by done.
    destruct (displacement op) as [[dx dy]|]; [|done]. cbn [mbind option_bind] in E. destruct (collides _ _ _ _) as [b|]; [|done].
    cbn [mbind option_bind] in E. destruct (negb _); [done|]. injection E as _ <-. cbn [mone]. by rewrite orb_true_r. }
  destruct (He) as [n Hn]. specialize (Hn n (le_n _)).
  destruct (C66_astar_optimal d o no_limits Hd OL n path os' s' Hn) as (k1 & H1 & _ & Hmin).
  exists path, os', s', k1. split_and!; [done|done|]. by eapply Hmin.
Qed.

(** ** An instance *)
(** Five columns, two rows; an obstacle that stands still in the top right corner. The robot starts beside the goal. *)
Definition corridor : traffic := Traffic 1 0 (Grid 5 2 [Obstacle 4 0 0 0]
  [Move 0 1 5 true [5]; Move 0 (-1) (-5) true [-5]; Move (-1) 0 (-1) true [-1]; Move 1 0 1 true [1]; Move 0 0 0 true [0]]).
Lemma corridor_instance : instance corridor ∧ mktraffic 1 0 0 0 5 2 [Obstacle 4 0 0 0] = Some corridor.
Proof. split; [|done]. split; [done|cbn; lia..]. Qed.

Lemma walk_cons D s o s1 (ss : list (St D)) os k : o ∈ ops s → dest s o = s1 → walk (s1 :: ss) os k → walk (s :: s1 :: ss) (o :: os) (cost s o + k).
Proof. intros Ho <- Hw. by apply walk_step. Qed.

(** Two cells to the right of the start, time 2: the goal is 3 cells away, but running into the obstacle and then
    stepping left from the start takes 2 moves.  The heuristic is not admissible. *)
Theorem C66_inadmissible_refuted :
  instance corridor ∧ reachable (D:=traffic_domain corridor) (initialstate corridor) (3, 2) ∧
  solution (D:=traffic_domain corridor) (3, 2) [(3, 2); (1, 0); (0, 1)] [3; 2] 2 ∧ heur corridor (3, 2) = 3.
Proof.
  split; [apply corridor_instance|]. split; [|split; [|done]].
  - apply (reachable_step (traffic_domain corridor) _ (2, 1) 3); [|vm_compute; set_solver].
    apply (reachable_step (traffic_domain corridor) _ (1, 0) 3); [apply reachable_refl|vm_compute; set_solver].
  - split; [|split; [done|by exists (0, 1)]]. change 2 with (1 + (1 + 0)).
    apply (walk_cons (traffic_domain corridor) (3, 2) 3 (1, 0)); [vm_compute; set_solver|done|].
    apply (walk_cons (traffic_domain corridor) (1, 0) 2 (0, 1)); [vm_compute; set_solver|done|constructor].
Qed.
Example corridor_solved :
  ∃ path os s' k, ends (astar (traffic_domain corridor) (heur corridor) (heap_ol astar_lt (0, 0)) no_limits (initialstate corridor)) (Some (path, os), s') ∧
    solution (D:=traffic_domain corridor) (initialstate corridor) (reverse path) (reverse os) k ∧ k ≤ 1.
Proof.
  apply (C66_astar_solves corridor _ [(1, 0); (0, 1)] [2] 1); [apply corridor_instance|apply astar_heap_ok|].
  split; [|split; [done|by exists (0, 1)]]. change (walk (D:=traffic_domain corridor) [(1, 0); (0, 1)] [2] (1 + 0)).
  apply (walk_cons (traffic_domain corridor) (1, 0) 2 (0, 1)); [vm_compute; set_solver|done|constructor].
Qed.

(** If the goal is obstructed for ever there is no solution, and A-star never stops: the robot can wait for ever. *)
Definition jammed : traffic := Traffic 1 4 (Grid 5 2 [Obstacle 4 0 0 0]
  [Move 0 1 5 true [5]; Move 0 (-1) (-5) true [-5]; Move (-1) 0 (-1) true [-1]; Move 1 0 1 true [1]; Move 0 0 0 true [0]]).
Lemma jammed_instance : instance jammed ∧ mktraffic 1 0 4 0 5 2 [Obstacle 4 0 0 0] = Some jammed.
Proof. split; [|done]. split; [done|cbn; lia..]. Qed.
Lemma still t : axis 5 4 0 t = Some 4 ∧ axis 2 0 0 t = Some 0.
Proof. unfold axis. rewrite Z.mul_0_l. done. Qed.

Lemma jammed_no_solution ss os k : ¬ solution (D:=traffic_domain jammed) (initialstate jammed) ss os k.
Proof.
  intros (Hw & Hh & t & Hl & Hg).
  assert (reachable (D:=traffic_domain jammed) (initialstate jammed) t) as Hr by (by exists ss, os, k).
  assert (sane jammed t ∧ t.1 ≠ 4) as [_ Ht]; [|cbn in Hg; unfold tgoal in Hg; cbn in Hg; lia].
  revert Hr. apply (reachable_inv (D:=traffic_domain jammed) (λ s, sane jammed s ∧ s.1 ≠ 4)); [split; [apply start_sane, jammed_instance|done]|].
  intros s op [Hs Hne] Hop. split; [by apply step_sane; [apply jammed_instance|..]|].
  pose proof Hs as (x & y & Hxy & Es & Ht). destruct (C84_operators jammed (proj1 jammed_instance) x y s.2 Hxy) as (l & El & Hall).
  change (op ∈ default [] (operators jammed s)) in Hop. rewrite <-Es in El. rewrite El in Hop. change (op ∈ l) in Hop. apply Hall in Hop.
  pose proof Hop as (dx & dy & E & Hxy' & _). unfold dest. cbn [traffic_domain edge].
  destruct (C84_edge jammed (proj1 jammed_instance) x y s.2 op dx dy Hxy Hop E) as [[E' Hn]|[E' _]]; rewrite <-Es in E'; rewrite E'; [|done].
  cbn [fst]. intros Heq. apply Hn. destruct Hxy' as [Hx' Hy']. cbn in Hx', Hy', Heq. unfold index in Heq.
  assert (x + dx = 4 ∧ y + dy = 0) as [-> ->] by lia. exists (Obstacle 4 0 0 0). split; [left|].
  unfold positionAt. cbn [ox oy odx ody tmap gw gh jammed]. destruct (still (s.2 + 1)) as [-> ->]. done.
Qed.
Lemma jammed_infinite : ¬ finite_space (D:=traffic_domain jammed) (initialstate jammed).
Proof.
  assert (∀ n : nat, reachable (D:=traffic_domain jammed) (initialstate jammed) (1, Z.of_nat n)) as Hwait.
  { induction n as [|n IH]; [apply reachable_refl|].
    assert (in_grid jammed 1 0) as Hg by (split; cbn; lia).
    assert (∀ t, ¬ obstructed jammed 1 0 t) as Hno.
    { intros t (o & ->%elem_of_list_singleton & H). unfold positionAt in H. cbn [ox oy odx ody tmap gw gh jammed] in H.
      destruct (still t) as [E1 E2]. rewrite E1, E2 in H. done. }
    assert (allowed jammed 1 0 (Z.of_nat n) 4) as Ha.
    { exists 0, 0. split_and!; [done|done|]. intros (o & Ho & H & _). by eapply Hno; exists o. }
    destruct (C84_operators jammed (proj1 jammed_instance) 1 0 (Z.of_nat n) Hg) as (l & El & Hall).
    destruct (C84_edge jammed (proj1 jammed_instance) 1 0 (Z.of_nat n) 4 0 0 Hg Ha eq_refl) as [[E _]|[_ H]]; [|by apply Hno in H].
    change (index (gw (tmap jammed)) 1 0) with 1 in *. change (index (gw (tmap jammed)) (1 + 0) (0 + 0)) with 1 in *.
    replace (1, Z.of_nat (S n)) with (dest (D:=traffic_domain jammed) (1, Z.of_nat n) 4).
    2:{ unfold dest. cbn [traffic_domain edge]. rewrite E. cbn. f_equal. lia. }
    apply reachable_step; [done|]. cbn [traffic_domain ops]. rewrite El. cbn. by apply Hall. }
  intros [U HU]. assert (∀ n : nat, (1, Z.of_nat n) ∈ U) as H by (intros n; apply HU, Hwait).
  assert (∀ m, (∀ p, p ∈ U → snd p ≤ m) → False) as Hm.
  { intros m Hm. specialize (Hm _ (H (Z.to_nat (Z.abs m + 1)))). cbn in Hm. lia. }
  clear HU H Hwait. apply (Hm (foldr Z.max 0 (snd <$> U))). intros p Hp. clear Hm.
  induction U as [|v U IH]; [by apply elem_of_nil in Hp|]. cbn [fmap list_fmap foldr]. apply elem_of_cons in Hp as [->|Hp]; [apply Z.le_max_l|].
  etransitivity; [exact (IH Hp)|apply Z.le_max_r].
Qed.
Theorem C66_unsolvable_never_ends o : ol_ok astar_lt nonneg_key o →
  ∀ fuel, astar (traffic_domain jammed) (heur jammed) o no_limits (initialstate jammed) fuel = None.
Proof.
  intros OL. apply C83_astar_unsolvable_never_ends; [apply traffic_ok|done|apply heur_nonneg|apply jammed_infinite|apply jammed_no_solution].
Qed.

(** The identity operator, which [ident] (traffic.hpp:167-169) offers, is not usable: its move is beyond the array. *)
Theorem C84_ident_refuted d s : instance d → mkedge d s Ident = None.
Proof.
  intros Hd. unfold mkedge. destruct (negb _); [done|]. cbn [Ident Z.ltb Z.compare]. rewrite (mvs_lookup d Hd) by done. done.
Qed.

Print Assumptions C65_inside.
Print Assumptions C65_start.
Print Assumptions C65_continuous.
Print Assumptions C65_bounce.
Print Assumptions C65_one_row_refuted.
Print Assumptions C84_operators.
Print Assumptions C84_edge.
Print Assumptions C84_safe.
Print Assumptions C84_pathcost.
Print Assumptions C84_ident_refuted.
Print Assumptions C66_astar_optimal.
Print Assumptions C66_astar_solves.
Print Assumptions C66_inadmissible_refuted.
Print Assumptions C66_unsolvable_never_ends.
