(** Specification of what fits into a level, and how bodies move in it (plat2d). *)
From stdpp Require Import prelude.
From Coq Require Import ZArith Lia ZifyBool ZifyNat.
From Verif Require Import Plat2d.Model.
Local Open Scope Z_scope.

(** ** Specification *)

(** The tile in column [x] and row [y]. *)
Definition cell (l : level) (x y : Z) (t : tile) : Prop := 0 <= x < lw l ∧ 0 <= y < lh l ∧ tileat l x y = Some t.
(** All tiles are there. *)
Definition complete (l : level) : Prop := 0 <= lw l ∧ 0 <= lh l ∧ Z.of_nat (length (blks l)) = lw l * lh l.
(** The outermost tiles are walls. *)
Definition enclosed (l : level) : Prop := ∀ x y, 0 <= x < lw l → 0 <= y < lh l → (x = 0 ∨ x = lw l - 1 ∨ y = 0 ∨ y = lh l - 1) → tileat l x y = Some Wall.
(** The inner points of the box and of the tile meet. *)
Definition overlap (b : bbox) (x y : Z) : Prop :=
  minx b < (x + 1) * tilew ∧ x * tilew < maxx b ∧ miny b < (y + 1) * tileh ∧ y * tileh < maxy b.
Definition outside_walls (l : level) (b : bbox) : Prop := ∀ x y, cell l x y Wall → ¬ overlap b x y.
(** The box is within the walls around the level. *)
Definition inside (l : level) (b : bbox) : Prop :=
  tilew <= minx b ∧ maxx b <= (lw l - 1) * tilew ∧ tileh <= miny b ∧ maxy b <= (lh l - 1) * tileh.
Definition player_sized (b : bbox) : Prop := maxx b = minx b + playerw ∧ maxy b = miny b + playerh.
Definition fits (l : level) (b : bbox) : Prop := player_sized b ∧ inside l b ∧ outside_walls l b.

(** ** Geometry *)
Lemma px_eq : px = 40. Proof. done. Qed.
Ltac units := unfold tilew, tileh, playerw, playerh, maxdy, jmpspeed, px in *.

Lemma cell_some l x y : complete l → 0 <= x < lw l → 0 <= y < lh l → ∃ t, tileat l x y = Some t ∧ cell l x y t.
Proof.
  intros (H1 & H2 & H3) Hx Hy. unfold cell. unfold tileat at 1. rewrite bool_decide_false by lia.
  destruct (lookup_lt_is_Some_2 (blks l) (Z.to_nat (x * lh l + y))) as [t Ht]; [nia|]. exists t. split; [done|]. split; [done|]. split; [done|].
  unfold tileat. by rewrite bool_decide_false by lia.
Qed.

Lemma lineisect_pos a b oa ob : a < b → oa < ob → (0 < lineisect a b oa ob ↔ a < ob ∧ oa < b).
Proof. intros H1 H2. unfold lineisect, px. repeat case_bool_decide; lia. Qed.
Lemma lineisect_val a b oa ob : a < b → oa < ob → a < ob → oa < b → lineisect a b oa ob = if bool_decide (b <= ob) then b - oa else ob - a.
Proof. intros. unfold lineisect, px. repeat case_bool_decide; lia. Qed.

Lemma tileisect_is t x y b : minx b < maxx b → miny b < maxy b →
  tileisect t x y b = if bool_decide (collide t = true ∧ overlap b x y)
    then Is true (lineisect (minx b) (maxx b) (x * tilew) ((x + 1) * tilew)) (lineisect (miny b) (maxy b) (y * tileh) ((y + 1) * tileh))
    else noisect.
Proof.
  intros Hx Hy. unfold tileisect, overlap. destruct (collide t); [|rewrite bool_decide_false by (intros [? _]; done); done].
  unfold boxisect, tilebox. cbn [minx miny maxx maxy].
  assert (x * tilew < (x + 1) * tilew) as H1 by (units; lia). assert (y * tileh < (y + 1) * tileh) as H2 by (units; lia).
  pose proof (lineisect_pos _ _ _ _ Hx H1) as Px. pose proof (lineisect_pos _ _ _ _ Hy H2) as Py.
  set (ix := lineisect (minx b) _ _ _) in *. set (iy := lineisect (miny b) _ _ _) in *. clearbody ix iy.
  case_bool_decide as E1; [case_bool_decide as E2|].
  - rewrite bool_decide_true; [done|]. tauto.
  - rewrite bool_decide_false; [done|]. tauto.
  - rewrite bool_decide_false; [done|]. tauto.
Qed.

(** The maximum that the loops over the tiles compute *)
Lemma testy_fold l mv zs i : minx mv < maxx mv → miny mv < maxy mv → (∀ x y, (x, y) ∈ zs → ∃ t, tileat l x y = Some t) →
  ∃ j, foldm (testy l mv) zs i = Some j ∧ isx j = isx i ∧ isy i <= isy j ∧ (is i = true → is j = true) ∧
    (isy j = isy i ∧ is j = is i ∨ is j = true ∧ ∃ x y, (x, y) ∈ zs ∧ tileat l x y = Some Wall ∧ overlap mv x y ∧ isy j = lineisect (miny mv) (maxy mv) (y * tileh) ((y + 1) * tileh)) ∧
    ∀ x y, (x, y) ∈ zs → tileat l x y = Some Wall → overlap mv x y → lineisect (miny mv) (maxy mv) (y * tileh) ((y + 1) * tileh) <= isy j.
Proof.
  intros Hx Hy. revert i. induction zs as [|[x y] zs IH]; intros i Hz; cbn [foldm].
  - exists i. split_and!; try done; [by left|]. intros x y H. by apply elem_of_nil in H.
  - destruct (Hz x y) as [t Ht]; [left|]. unfold testy at 1. cbn [fst snd]. rewrite Ht. cbn [mbind option_bind]. rewrite tileisect_is by done.
    assert (∀ x y, (x, y) ∈ zs → ∃ t, tileat l x y = Some t) as Hz' by (intros; apply Hz; by right).
    set (d := lineisect (miny mv) (maxy mv) (y * tileh) ((y + 1) * tileh)).
    destruct (bool_decide (collide t = true ∧ overlap mv x y)) eqn:E; [apply bool_decide_eq_true in E as [Hc Ho]|apply bool_decide_eq_false in E]; cbn [is isy andb].
    + assert (tileat l x y = Some Wall) as HW by (rewrite Ht; destruct t; done).
      case_bool_decide as Hlt; fold d in Hlt |- *.
      * destruct (IH (Is true (isx i) d) Hz') as (j & -> & J1 & J2 & J3 & J4 & J5). cbn [is isx isy] in *. exists j. split; [done|]. split; [done|]. split; [lia|]. split; [intros _; by apply J3|]. split.
        -- right. split; [by apply J3|]. destruct J4 as [[J4 _]|[_ (x' & y' & ? & ? & ? & ?)]].
           ++ exists x, y. split_and!; [left|done|done|done].
           ++ exists x', y'. split_and!; [by right|done..].
        -- intros x' y' [[= -> ->]|Hin]%elem_of_cons HW' Ho'; [fold d; lia|]. by apply (J5 x' y').
      * destruct (IH i Hz') as (j & -> & J1 & J2 & J3 & J4 & J5). exists j. split; [done|]. split; [done|]. split; [lia|]. split; [done|]. split.
        -- destruct J4 as [J4|[J4 (x' & y' & ? & ? & ? & ?)]]; [by left|right]. split; [done|]. exists x', y'. split_and!; [by right|done..].
        -- intros x' y' [[= -> ->]|Hin]%elem_of_cons HW' Ho'; [fold d; lia|]. by apply (J5 x' y').
    + unfold noisect. cbn [is andb]. destruct (IH i Hz') as (j & -> & J1 & J2 & J3 & J4 & J5). exists j. split; [done|]. split; [done|]. split; [lia|]. split; [done|]. split.
      * destruct J4 as [J4|[J4 (x' & y' & ? & ? & ? & ?)]]; [by left|right]. split; [done|]. exists x', y'. split_and!; [by right|done..].
      * intros x' y' [[= -> ->]|Hin]%elem_of_cons HW' Ho'; [|by apply (J5 x' y')]. exfalso. apply E. rewrite Ht in HW'. injection HW' as ->. done.
Qed.
Lemma testx_fold l mv zs i : minx mv < maxx mv → miny mv < maxy mv → (∀ x y, (x, y) ∈ zs → ∃ t, tileat l x y = Some t) →
  ∃ j, foldm (testx l mv) zs i = Some j ∧ isy j = isy i ∧ isx i <= isx j ∧ (is i = true → is j = true) ∧
    (isx j = isx i ∧ is j = is i ∨ is j = true ∧ ∃ x y, (x, y) ∈ zs ∧ tileat l x y = Some Wall ∧ overlap mv x y ∧ isx j = lineisect (minx mv) (maxx mv) (x * tilew) ((x + 1) * tilew)) ∧
    ∀ x y, (x, y) ∈ zs → tileat l x y = Some Wall → overlap mv x y → lineisect (minx mv) (maxx mv) (x * tilew) ((x + 1) * tilew) <= isx j.
Proof.
  intros Hx Hy. revert i. induction zs as [|[x y] zs IH]; intros i Hz; cbn [foldm].
  - exists i. split_and!; try done; [by left|]. intros x y H. by apply elem_of_nil in H.
  - destruct (Hz x y) as [t Ht]; [left|]. unfold testx at 1. cbn [fst snd]. rewrite Ht. cbn [mbind option_bind]. rewrite tileisect_is by done.
    assert (∀ x y, (x, y) ∈ zs → ∃ t, tileat l x y = Some t) as Hz' by (intros; apply Hz; by right).
    set (d := lineisect (minx mv) (maxx mv) (x * tilew) ((x + 1) * tilew)).
    destruct (bool_decide (collide t = true ∧ overlap mv x y)) eqn:E; [apply bool_decide_eq_true in E as [Hc Ho]|apply bool_decide_eq_false in E]; cbn [is isx andb].
    + assert (tileat l x y = Some Wall) as HW by (rewrite Ht; destruct t; done).
      case_bool_decide as Hlt; fold d in Hlt |- *.
      * destruct (IH (Is true d (isy i)) Hz') as (j & -> & J1 & J2 & J3 & J4 & J5). cbn [is isx isy] in *. exists j. split; [done|]. split; [done|]. split; [lia|]. split; [intros _; by apply J3|]. split.
        -- right. split; [by apply J3|]. destruct J4 as [[J4 _]|[_ (x' & y' & ? & ? & ? & ?)]].
           ++ exists x, y. split_and!; [left|done|done|done].
           ++ exists x', y'. split_and!; [by right|done..].
        -- intros x' y' [[= -> ->]|Hin]%elem_of_cons HW' Ho'; [fold d; lia|]. by apply (J5 x' y').
      * destruct (IH i Hz') as (j & -> & J1 & J2 & J3 & J4 & J5). exists j. split; [done|]. split; [done|]. split; [lia|]. split; [done|]. split.
        -- destruct J4 as [J4|[J4 (x' & y' & ? & ? & ? & ?)]]; [by left|right]. split; [done|]. exists x', y'. split_and!; [by right|done..].
        -- intros x' y' [[= -> ->]|Hin]%elem_of_cons HW' Ho'; [fold d; lia|]. by apply (J5 x' y').
    + unfold noisect. cbn [is andb]. destruct (IH i Hz') as (j & -> & J1 & J2 & J3 & J4 & J5). exists j. split; [done|]. split; [done|]. split; [lia|]. split; [done|]. split.
      * destruct J4 as [J4|[J4 (x' & y' & ? & ? & ? & ?)]]; [by left|right]. split; [done|]. exists x', y'. split_and!; [by right|done..].
      * intros x' y' [[= -> ->]|Hin]%elem_of_cons HW' Ho'; [|by apply (J5 x' y')]. exfalso. apply E. rewrite Ht in HW'. injection HW' as ->. done.
Qed.

Lemma elem_of_zrange a b x : x ∈ zrange a b ↔ a <= x <= b.
Proof.
  unfold zrange. rewrite elem_of_list_In, in_map_iff. split.
  - intros (i & <- & Hi%in_seq). lia.
  - intros H. exists (Z.to_nat (x - a)). split; [lia|]. apply in_seq. lia.
Qed.
Lemma elem_of_zonetiles x0 y0 x1 y1 x y : (x, y) ∈ zonetiles (x0, y0, x1, y1) ↔ x0 <= x <= x1 ∧ y0 <= y <= y1.
Proof.
  unfold zonetiles. rewrite elem_of_list_bind. split.
  - intros (x' & Hin & Hx'). apply elem_of_list_In, in_map_iff in Hin as (y' & [= -> ->] & Hy). apply elem_of_zrange in Hx'. apply elem_of_list_In, elem_of_zrange in Hy. done.
  - intros [Hx Hy]. exists x. split; [|by apply elem_of_zrange]. apply elem_of_list_In, in_map_iff. exists y. split; [done|]. by apply elem_of_list_In, elem_of_zrange.
Qed.

Lemma hitzone_ok l b : inside l b → player_sized b → ∃ x0 y0 x1 y1, hitzone b = Some (x0, y0, x1, y1) ∧
  0 <= x0 ∧ 0 <= y0 ∧ x1 < lw l ∧ y1 < lh l ∧
  x0 * tilew <= minx b - px ∧ y0 * tileh <= miny b - px ∧ maxx b < (x1 + 1) * tilew ∧ maxy b < (y1 + 1) * tileh ∧
  floorpx (maxx b) + px <= (x1 + 1) * tilew ∧ floorpx (maxy b) + px <= (y1 + 1) * tileh.
Proof.
  intros (H1 & H2 & H3 & H4) [Hw Hh]. unfold hitzone, tounsigned.
  assert (0 <= minx b) by (units; lia). assert (0 <= miny b) by (units; lia).
  assert (maxx b <= ceilpx (maxx b) < maxx b + px) as Hcx by (unfold ceilpx, floorpx; units; lia).
  assert (maxy b <= ceilpx (maxy b) < maxy b + px) as Hcy by (unfold ceilpx, floorpx; units; lia).
  assert (∃ k, ceilpx (maxx b) = px * k ∧ floorpx (maxx b) + px <= px * k + px) as (kx & Ekx & Hkx) by (eexists; split; [unfold ceilpx, floorpx; rewrite <-Z.mul_opp_r; reflexivity|unfold floorpx; units; lia]).
  assert (∃ k, ceilpx (maxy b) = px * k ∧ floorpx (maxy b) + px <= px * k + px) as (ky & Eky & Hky) by (eexists; split; [unfold ceilpx, floorpx; rewrite <-Z.mul_opp_r; reflexivity|unfold floorpx; units; lia]).
  assert (floorpx (maxx b) <= maxx b) as Hfx by (unfold floorpx; units; lia). assert (floorpx (maxy b) <= maxy b) as Hfy by (unfold floorpx; units; lia).
  assert (px * kx <= (lw l - 1) * tilew) as Hkx2. { units. lia. }
  assert (px * ky <= (lh l - 1) * tileh) as Hky2. { units. lia. }
  rewrite Ekx, Eky in *.
  rewrite !Z.quot_div_nonneg by (units; lia).
  assert (1 <= minx b / tilew) as Hx1 by (units; lia). assert (1 <= miny b / tileh) as Hy1 by (units; lia).
  assert (0 <= px * kx / tilew) as Hx2 by (units; lia). assert (0 <= px * ky / tileh) as Hy2 by (units; lia).
  rewrite !(bool_decide_false (_ < 0)) by lia. cbn [mbind option_bind]. rewrite !(bool_decide_true (0 < _)) by lia.
  do 4 eexists. split; [reflexivity|]. split; [lia|]. split; [lia|]. units.
  split_and!; lia.
Qed.

(** Where a step may end: up to the next whole pixel *)
Definition short (loc v : Z) : Prop := - px <= v ∧ v <= px ∧ loc + v <= floorpx loc + px.

Lemma inside_step l b dx dy : complete l → enclosed l → inside l b → player_sized b → - px <= dx <= px → - px <= dy <= px →
  outside_walls l (translate b dx dy) → inside l (translate b dx dy).
Proof.
  intros Hc He (H1 & H2 & H3 & H4) [Hw Hh] Hdx Hdy Ho. unfold inside, translate. cbn [minx miny maxx maxy].
  assert (3 <= lw l ∧ 3 <= lh l) as [Hl1 Hl2] by (units; lia).
  set (ty := (miny b + dy + playerh / 2) / tileh). set (tx := (minx b + dx + playerw / 2) / tilew).
  assert (0 <= ty < lh l ∧ miny b + dy < (ty + 1) * tileh ∧ ty * tileh < maxy b + dy) as (Ht1 & Ht2 & Ht3) by (unfold ty; units; lia).
  assert (0 <= tx < lw l ∧ minx b + dx < (tx + 1) * tilew ∧ tx * tilew < maxx b + dx) as (Ht4 & Ht5 & Ht6) by (unfold tx; units; lia).
  clearbody tx ty.
  assert (∀ x y, 0 <= x < lw l → 0 <= y < lh l → (x = 0 ∨ x = lw l - 1 ∨ y = 0 ∨ y = lh l - 1) → ¬ overlap (translate b dx dy) x y) as Hno.
  { intros x y Hx Hy Hb. apply Ho. split; [done|]. split; [done|]. by apply He. }
  unfold overlap, translate in Hno. cbn [minx miny maxx maxy] in Hno.
  split; [|split; [|split]].
  - specialize (Hno 0 ty). units. lia.
  - specialize (Hno (lw l - 1) ty). units. lia.
  - specialize (Hno tx 0). units. lia.
  - specialize (Hno tx (lh l - 1)). units. lia.
Qed.

(** The vertical part of a step *)
Lemma ystep l b vy zs x0 y0 x1 y1 : complete l → inside l b → player_sized b → outside_walls l b → hitzone b = Some (x0, y0, x1, y1) → zs = zonetiles (x0, y0, x1, y1) →
  short (maxy b) vy → vy ≠ 0 →
  ∃ i, foldm (testy l (translate b 0 vy)) zs noisect = Some i ∧ isx i = 0 ∧ 0 <= isy i <= Z.abs vy ∧ (is i = true ↔ 0 < isy i) ∧
    let dy := vy + (if bool_decide (vy < 0) then isy i else - isy i) in
    outside_walls l (translate b 0 dy) ∧ (0 < isy i → (px | miny b + dy)).
Proof.
  intros Hc Hin Hsz Hout Hz -> Hsh Hne. destruct (hitzone_ok l b Hin Hsz) as (x0' & y0' & x1' & y1' & Hz' & Z1 & Z2 & Z3 & Z4 & Z5 & Z6 & Z7 & Z8 & Z9 & Z10).
  rewrite Hz in Hz'. injection Hz' as <- <- <- <-. destruct Hsh as (S1 & S2 & S3). pose proof Hsz as [Hw Hh].
  set (mv := translate b 0 vy). assert (minx mv = minx b ∧ maxx mv = maxx b ∧ miny mv = miny b + vy ∧ maxy mv = maxy b + vy) as (M1 & M2 & M3 & M4) by (unfold mv, translate; cbn [minx miny maxx maxy]; lia).
  destruct (testy_fold l mv (zonetiles (x0, y0, x1, y1)) noisect) as (i & -> & J1 & J2 & J3 & J4 & J5); [units; lia..| |].
  { intros x y Hxy. apply elem_of_zonetiles in Hxy. destruct (cell_some l x y Hc) as (t & ? & _); [lia..|]. by exists t. }
  cbn [is isx isy noisect] in *.
  assert (∀ x y, (x, y) ∈ zonetiles (x0, y0, x1, y1) → tileat l x y = Some Wall → overlap mv x y →
    (0 < vy ∧ maxy b <= y * tileh < maxy b + vy ∧ lineisect (miny mv) (maxy mv) (y * tileh) ((y + 1) * tileh) = maxy b + vy - y * tileh) ∨
    (vy < 0 ∧ miny b + vy < (y + 1) * tileh <= miny b ∧ lineisect (miny mv) (maxy mv) (y * tileh) ((y + 1) * tileh) = (y + 1) * tileh - (miny b + vy))) as Hdepth.
  { intros x y Hxy HW Ho. apply elem_of_zonetiles in Hxy. assert (cell l x y Wall) as Hcell by (split; [lia|]; split; [lia|done]). pose proof (Hout x y Hcell) as Hno.
    unfold overlap in Ho, Hno. rewrite M1, M2, M3, M4 in Ho. rewrite lineisect_val by (units; lia). rewrite M3, M4. case_bool_decide; units; lia. }
  assert (isy i <= Z.abs vy) as Hbnd.
  { destruct J4 as [[-> _]|[_ (x & y & Hxy & HW & Ho & ->)]]; [lia|]. destruct (Hdepth x y Hxy HW Ho) as [(? & ? & ->)|(? & ? & ->)]; lia. }
  exists i. split; [done|]. split; [done|]. split; [done|]. split.
  - destruct J4 as [[-> ->]|[-> (x & y & Hxy & HW & Ho & ->)]]; [split; [done|lia]|]. split; [|done]. intros _. destruct (Hdepth x y Hxy HW Ho) as [(? & ? & ->)|(? & ? & ->)]; lia.
  - cbn zeta. set (dy := vy + (if bool_decide (vy < 0) then isy i else - isy i)). split.
    + intros x y Hcell Ho. pose proof (Hout x y Hcell) as Hno. pose proof Hcell as (Hx & Hy & HW).
      unfold overlap, translate in Ho. cbn [minx miny maxx maxy] in Ho. unfold overlap in Hno.
      assert (overlap mv x y) as Hmv. { unfold overlap. rewrite M1, M2, M3, M4. unfold dy in Ho. case_bool_decide; units; lia. }
      assert ((x, y) ∈ zonetiles (x0, y0, x1, y1)) as Hxy. { apply elem_of_zonetiles. unfold overlap in Hmv. rewrite M1, M2, M3, M4 in Hmv. units. lia. }
      pose proof (J5 x y Hxy HW Hmv) as Hle. destruct (Hdepth x y Hxy HW Hmv) as [(? & ? & E)|(? & ? & E)]; rewrite E in Hle; unfold dy in Ho; [rewrite bool_decide_false in Ho by lia|rewrite bool_decide_true in Ho by lia]; lia.
    + intros Hpos. destruct J4 as [[E _]|[_ (x & y & Hxy & HW & Ho & E)]]; [lia|]. unfold dy.
      destruct (Hdepth x y Hxy HW Ho) as [(? & ? & E')|(? & ? & E')]; rewrite E' in E.
      * rewrite bool_decide_false by lia. exists (32 * y - 29). units. lia.
      * rewrite bool_decide_true by lia. exists (32 * (y + 1)). units. lia.
Qed.

(** The horizontal part of a step *)
Lemma xstep l b vx dy x0 y0 x1 y1 i : complete l → inside l b → player_sized b → outside_walls l (translate b 0 dy) → hitzone b = Some (x0, y0, x1, y1) →
  short (maxy b) dy → short (maxx b) vx → vx ≠ 0 → isx i = 0 → 0 <= isy i → (is i = true ↔ 0 < isy i) →
  ∃ j, foldm (testx l (translate b vx dy)) (zonetiles (x0, y0, x1, y1)) i = Some j ∧ isy j = isy i ∧ 0 <= isx j <= Z.abs vx ∧ (is j = true ↔ 0 < isx j ∨ 0 < isy j) ∧
    let dx := vx + (if bool_decide (vx < 0) then isx j else - isx j) in
    outside_walls l (translate b dx dy) ∧ (0 < isx j → (px | minx b + dx)).
Proof.
  intros Hc Hin Hsz Hout Hz Hshy Hsh Hne Hi0 Hi1 Hi2. destruct (hitzone_ok l b Hin Hsz) as (x0' & y0' & x1' & y1' & Hz' & Z1 & Z2 & Z3 & Z4 & Z5 & Z6 & Z7 & Z8 & Z9 & Z10).
  rewrite Hz in Hz'. injection Hz' as <- <- <- <-. destruct Hsh as (S1 & S2 & S3). destruct Hshy as (S4 & S5 & S6). pose proof Hsz as [Hw Hh].
  set (mv := translate b vx dy). assert (minx mv = minx b + vx ∧ maxx mv = maxx b + vx ∧ miny mv = miny b + dy ∧ maxy mv = maxy b + dy) as (M1 & M2 & M3 & M4) by (unfold mv, translate; cbn [minx miny maxx maxy]; lia).
  destruct (testx_fold l mv (zonetiles (x0, y0, x1, y1)) i) as (j & -> & J1 & J2 & J3 & J4 & J5); [units; lia..| |].
  { intros x y Hxy. apply elem_of_zonetiles in Hxy. destruct (cell_some l x y Hc) as (t & ? & _); [lia..|]. by exists t. }
  assert (∀ x y, (x, y) ∈ zonetiles (x0, y0, x1, y1) → tileat l x y = Some Wall → overlap mv x y →
    (0 < vx ∧ maxx b <= x * tilew < maxx b + vx ∧ lineisect (minx mv) (maxx mv) (x * tilew) ((x + 1) * tilew) = maxx b + vx - x * tilew) ∨
    (vx < 0 ∧ minx b + vx < (x + 1) * tilew <= minx b ∧ lineisect (minx mv) (maxx mv) (x * tilew) ((x + 1) * tilew) = (x + 1) * tilew - (minx b + vx))) as Hdepth.
  { intros x y Hxy HW Ho. apply elem_of_zonetiles in Hxy. assert (cell l x y Wall) as Hcell by (split; [lia|]; split; [lia|done]). pose proof (Hout x y Hcell) as Hno.
    unfold overlap, translate in Hno. cbn [minx miny maxx maxy] in Hno. unfold overlap in Ho. rewrite M1, M2, M3, M4 in Ho. rewrite lineisect_val by (units; lia). rewrite M1, M2. case_bool_decide; units; lia. }
  assert (isx j <= Z.abs vx) as Hbnd.
  { destruct J4 as [[-> _]|[_ (x & y & Hxy & HW & Ho & ->)]]; [lia|]. destruct (Hdepth x y Hxy HW Ho) as [(? & ? & ->)|(? & ? & ->)]; lia. }
  exists j. split; [done|]. split; [done|]. split; [lia|]. split.
  - destruct J4 as [[-> ->]|[-> (x & y & Hxy & HW & Ho & ->)]]; [rewrite Hi2; lia|]. split; [|done]. intros _. left. destruct (Hdepth x y Hxy HW Ho) as [(? & ? & ->)|(? & ? & ->)]; lia.
  - cbn zeta. set (dx := vx + (if bool_decide (vx < 0) then isx j else - isx j)). split.
    + intros x y Hcell Ho. pose proof (Hout x y Hcell) as Hno. pose proof Hcell as (Hx & Hy & HW).
      unfold overlap, translate in Ho, Hno. cbn [minx miny maxx maxy] in Ho, Hno.
      assert (overlap mv x y) as Hmv. { unfold overlap. rewrite M1, M2, M3, M4. unfold dx in Ho. case_bool_decide; units; lia. }
      assert ((x, y) ∈ zonetiles (x0, y0, x1, y1)) as Hxy. { apply elem_of_zonetiles. unfold overlap in Hmv. rewrite M1, M2, M3, M4 in Hmv. units. lia. }
      pose proof (J5 x y Hxy HW Hmv) as Hle. destruct (Hdepth x y Hxy HW Hmv) as [(? & ? & E)|(? & ? & E)]; rewrite E in Hle; unfold dx in Ho; [rewrite bool_decide_false in Ho by lia|rewrite bool_decide_true in Ho by lia]; lia.
    + intros Hpos. destruct J4 as [[E _]|[_ (x & y & Hxy & HW & Ho & E)]]; [lia|]. unfold dx.
      destruct (Hdepth x y Hxy HW Ho) as [(? & ? & E')|(? & ? & E')]; rewrite E' in E.
      * rewrite bool_decide_false by lia. exists (32 * x - 21). units. lia.
      * rewrite bool_decide_true by lia. exists (32 * (x + 1)). units. lia.
Qed.

(** A step in a level: it is stopped at walls, and nowhere else than at whole pixels. *)
Definition cut (v d : Z) : Z := v + (if bool_decide (v < 0) then d else - d).
Lemma lvlisect_ok l b vx vy : complete l → enclosed l → fits l b → short (maxx b) vx → short (maxy b) vy →
  ∃ i, lvlisect l b vx vy = Some i ∧ 0 <= isx i <= Z.abs vx ∧ 0 <= isy i <= Z.abs vy ∧ (is i = true ↔ 0 < isx i ∨ 0 < isy i) ∧
    fits l (translate b (cut vx (isx i)) (cut vy (isy i))) ∧
    (0 < isx i → (px | minx b + cut vx (isx i))) ∧ (0 < isy i → (px | miny b + cut vy (isy i))).
Proof.
  intros Hc He (Hsz & Hin & Hout) Hx Hy. unfold lvlisect. destruct (hitzone_ok l b Hin Hsz) as (x0 & y0 & x1 & y1 & Hz & _). rewrite Hz. cbn [mbind option_bind].
  assert (∀ dx dy, short (maxx b) dx → short (maxy b) dy → outside_walls l (translate b dx dy) → fits l (translate b dx dy)) as Hfits.
  { intros dx dy (? & ? & _) (? & ? & _) Ho. split; [|split; [|done]].
    - destruct Hsz. unfold player_sized, translate. cbn [minx miny maxx maxy]. lia.
    - by apply inside_step. }
  assert (∀ loc v d, short loc v → 0 <= d <= Z.abs v → short loc (cut v d)) as Hcut.
  { intros loc v d (? & ? & ?) Hd. unfold short, cut. assert (loc < floorpx loc + px) by (unfold floorpx; units; lia). case_bool_decide; lia. }
  assert (∃ i, (if bool_decide (vy = 0) then Some noisect else foldm (testy l (translate b 0 vy)) (zonetiles (x0, y0, x1, y1)) noisect) = Some i ∧
    isx i = 0 ∧ 0 <= isy i <= Z.abs vy ∧ (is i = true ↔ 0 < isy i) ∧ outside_walls l (translate b 0 (cut vy (isy i))) ∧ (0 < isy i → (px | miny b + cut vy (isy i)))) as (i & -> & I1 & I2 & I3 & I4 & I5).
  { case_bool_decide as E.
    - exists noisect. subst vy. unfold cut, noisect, translate. cbn [is isx isy]. split_and!; try done; try lia.
      rewrite bool_decide_false by lia. rewrite !Z.add_0_r. destruct b. done.
    - destruct (ystep l b vy _ x0 y0 x1 y1 Hc Hin Hsz Hout Hz eq_refl Hy E) as (i & Hi & H1 & H2 & H3 & H4 & H5). exists i. split_and!; try done; try lia; apply H3. }
  cbn [mbind option_bind]. change (vy + (if bool_decide (vy < 0) then isy i else - isy i)) with (cut vy (isy i)).
  case_bool_decide as E.
  - exists i. split; [done|]. subst vx. rewrite I1. split; [lia|]. split; [done|]. split; [rewrite I3; lia|]. assert (cut 0 0 = 0) as -> by (unfold cut; rewrite bool_decide_false by lia; lia).
    split; [|split; [lia|done]]. apply Hfits; [done|by apply Hcut|done].
  - destruct (xstep l b vx (cut vy (isy i)) x0 y0 x1 y1 i Hc Hin Hsz I4 Hz) as (j & -> & J1 & J2 & J3 & J4 & J5); try done; try lia; [by apply Hcut|].
    exists j. split; [done|]. split; [done|]. split; [by rewrite J1|]. split; [done|]. rewrite J1. split; [|split; done]. apply Hfits; [by apply Hcut|by apply Hcut|done].
Qed.

(** ** Moving *)
(** One axis: the part of the way that a step tries *)
Lemma step1_ok loc v : let d := step1 loc v in
  (0 <= v → 0 <= d <= v) ∧ (v <= 0 → v <= d <= 0) ∧ - px <= d <= px ∧ loc + d <= floorpx loc + px ∧
  (v ≠ 0 → d = v ∨ (px | loc) ∧ Z.abs d = px ∨ ¬ (px | loc) ∧ (px | loc + d) ∧ d ≠ 0).
Proof.
  cbn zeta. assert (∃ k r, loc = px * k + r ∧ 0 <= r < px) as (k & r & Hl & Hr) by (exists (loc / px), (loc `mod` px); units; lia).
  assert (floorpx loc = px * k) as Hf by (unfold floorpx; units; subst loc; lia).
  assert (ceilpx loc = px * k + (if decide (r = 0) then 0 else px)) as Hc by (unfold ceilpx, floorpx; subst loc; case_decide; units; lia).
  assert ((px | loc) ↔ r = 0) as Hd. { split; [intros [q Hq]; units; lia|]. intros ->. exists k. units. lia. }
  rewrite Hd. unfold step1, tillwhole. rewrite Hf, Hc.
  destruct (decide (0 < v)) as [Hv|Hv]; [rewrite !(bool_decide_true (0 < v)) by done|rewrite !(bool_decide_false (0 < v)) by done]; destruct (decide (r = 0)) as [Hr0|Hr0].
  - assert (px * k + 0 - loc = 0) as -> by lia. rewrite (bool_decide_true (0 = 0 ∧ v ≠ 0)) by lia. rewrite (bool_decide_false (v < 0)) by lia. case_bool_decide; split_and!; units; lia.
  - rewrite (bool_decide_false (px * k + px - loc = 0 ∧ v ≠ 0)) by lia. case_bool_decide; split_and!; try (units; lia).
    intros _. right. right. split; [done|]. split; [exists (k + 1); lia|lia].
  - assert (px * k - loc = 0) as -> by lia. destruct (decide (v = 0)) as [->|Hv0].
    + rewrite (bool_decide_false (0 = 0 ∧ 0 ≠ 0)) by lia. rewrite bool_decide_false by lia. split_and!; units; lia.
    + rewrite (bool_decide_true (0 = 0 ∧ v ≠ 0)) by lia. rewrite (bool_decide_true (v < 0)) by lia. case_bool_decide; split_and!; units; lia.
  - rewrite (bool_decide_false (px * k - loc = 0 ∧ v ≠ 0)) by lia. case_bool_decide; split_and!; try (units; lia).
    intros _. right. right. split; [done|]. split; [exists k; lia|lia].
Qed.

(** How many rounds an axis can still take *)
Definition todo (loc left : Z) : Z := if bool_decide (0 < left) then (left + px - 1) / px + (if bool_decide (loc `mod` px = 0) then 0 else 1) else 0.
(** The remaining way on an axis: in the direction [mul], at least as long as [left]. *)
Definition way (mul v left : Z) : Prop := (mul = 1 ∧ 0 <= v ∨ mul = -1 ∧ v <= 0) ∧ left <= Z.abs v.
Lemma way_step mul loc v left d i : way mul v left → d = step1 loc v → 0 <= i <= Z.abs d → (0 < i → (px | loc + cut d i)) →
  d - mul * i = cut d i ∧ way mul (v - cut d i) (left - Z.abs d) ∧ 0 <= todo (loc + cut d i) (left - Z.abs d) <= todo loc left ∧
  (0 < left → todo (loc + cut d i) (left - Z.abs d) < todo loc left).
Proof.
  intros [Hm Hl] -> Hi Hdiv. destruct (step1_ok loc v) as (S1 & S2 & S3 & S4 & S5). set (d := step1 loc v) in *. clearbody d.
  assert (d - mul * i = cut d i) as Hcut. { unfold cut. case_bool_decide; lia. }
  assert (0 <= cut d i <= d ∨ d <= cut d i <= 0) as Hc. { unfold cut. case_bool_decide; lia. }
  split; [done|]. split; [split; lia|].
  assert (0 < left → v ≠ 0) as Hv by lia.
  assert (∀ lo le, 0 <= todo lo le) as Hnn. { intros lo le. unfold todo. repeat case_bool_decide; units; lia. }
  enough (0 < left → todo (loc + cut d i) (left - Z.abs d) < todo loc left) as Hs.
  { split; [|done]. split; [apply Hnn|]. destruct (decide (0 < left)); [lia|]. unfold todo. rewrite !bool_decide_false by lia. lia. }
  intros Hpos. destruct (S5 (Hv Hpos)) as [E|[[Hl0 E]|(Hl0 & Hl1 & E)]].
  - unfold todo. rewrite (bool_decide_false (0 < left - Z.abs d)) by lia. rewrite bool_decide_true by lia. case_bool_decide; units; lia.
  - assert (px | loc + cut d i) as Hl1.
    { destruct (decide (0 < i)); [by apply Hdiv|]. assert (cut d i = d) as -> by (unfold cut; case_bool_decide; lia).
      destruct Hl0 as [q Hq]. destruct (decide (0 <= d)); [exists (q + 1)|exists (q - 1)]; lia. }
    unfold todo. rewrite (bool_decide_true (0 < left)) by lia.
    apply Z.mod_divide in Hl0; [|done]. apply Z.mod_divide in Hl1; [|done]. rewrite Hl0, Hl1. rewrite !(bool_decide_true (0 = 0)) by done. rewrite E.
    case_bool_decide; units; lia.
  - assert (px | loc + cut d i) as Hl2.
    { destruct (decide (0 < i)); [by apply Hdiv|]. assert (cut d i = d) as -> by (unfold cut; case_bool_decide; lia). done. }
    unfold todo. rewrite (bool_decide_true (0 < left)) by lia. apply Z.mod_divide in Hl2; [|done]. rewrite Hl2. rewrite (bool_decide_true (0 = 0)) by done.
    rewrite (bool_decide_false (loc `mod` px = 0)) by (intros HH; apply Hl0; by apply Z.mod_divide).
    case_bool_decide; units; lia.
Qed.

Lemma short_size loc size v : (px | size) → short loc v → short (loc + size) v.
Proof. intros [q ->] (H1 & H2 & H3). split; [done|]. split; [done|]. unfold floorpx in *. units. lia. Qed.

Lemma moveloop_ok n l xmul ymul b vx vy leftx lefty fi : complete l → enclosed l → fits l b → way xmul vx leftx → way ymul vy lefty →
  todo (minx b) leftx + todo (miny b) lefty <= Z.of_nat n →
  ∃ b' fi', moveloop n l xmul ymul b vx vy leftx lefty fi = Some (b', fi') ∧ fits l b' ∧
    Z.abs (minx b' - minx b) <= Z.abs vx ∧ Z.abs (miny b' - miny b) <= Z.abs vy ∧
    (fi' = fi ∨ is fi' = true ∧ 0 < isy fi').
Proof.
  intros Hc He. revert b vx vy leftx lefty fi. induction n as [|n IH]; intros b vx vy leftx lefty fi Hf Hx Hy Hn; cbn [moveloop].
  - rewrite bool_decide_false. { exists b, fi. split_and!; try done; try lia. by left. }
    unfold todo in Hn. repeat case_bool_decide; units; lia.
  - case_bool_decide as Hgo; [|exists b, fi; split_and!; try done; try lia; by left].
    destruct (step1_ok (minx b) vx) as (X1 & X2 & X3 & X4 & _). destruct (step1_ok (miny b) vy) as (Y1 & Y2 & Y3 & Y4 & _).
    set (dx := step1 (minx b) vx) in *. set (dy := step1 (miny b) vy) in *. cbn zeta.
    destruct Hf as (Hsz & Hin & Hout). destruct (lvlisect_ok l b dx dy Hc He) as (i & -> & I1 & I2 & I3 & I4 & I5 & I6); [by split_and!| | |].
    { destruct Hsz as [-> _]. apply short_size; [exists 21; done|]. split; [lia|]. split; [lia|done]. }
    { destruct Hsz as [_ ->]. apply short_size; [exists 29; done|]. split; [lia|]. split; [lia|done]. }
    cbn [mbind option_bind].
    destruct (way_step xmul (minx b) vx leftx dx (isx i) Hx eq_refl I1 I5) as (Ex & Wx & Tx1 & Tx2).
    destruct (way_step ymul (miny b) vy lefty dy (isy i) Hy eq_refl I2 I6) as (Ey & Wy & Ty1 & Ty2).
    rewrite Ex, Ey.
    assert (0 <= cut dx (isx i) <= vx ∨ vx <= cut dx (isx i) <= 0) as Cx by (unfold cut; case_bool_decide; lia).
    assert (0 <= cut dy (isy i) <= vy ∨ vy <= cut dy (isy i) <= 0) as Cy by (unfold cut; case_bool_decide; lia).
    destruct (IH (translate b (cut dx (isx i)) (cut dy (isy i))) (vx - cut dx (isx i)) (vy - cut dy (isy i)) (leftx - Z.abs dx) (lefty - Z.abs dy)
      (if is i && bool_decide (isy i ≠ 0) then i else fi) I4 Wx Wy) as (b' & fi' & -> & Hf' & D1 & D2 & D3).
    { unfold translate. cbn [minx miny]. lia. }
    exists b', fi'. split; [done|]. split; [done|]. unfold translate in D1, D2. cbn [minx miny] in D1, D2. split; [clear -D1 Cx; lia|]. split; [clear -D2 Cy; lia|].
    destruct D3 as [->|D3]; [|by right]. destruct (is i) eqn:Ei; cbn [andb]; [|by left]. case_bool_decide; [right|by left]. split; [done|lia].
Qed.

Lemma todo_le loc left : todo loc left <= Z.abs left / px + 2.
Proof. unfold todo. repeat case_bool_decide; units; lia. Qed.

Lemma majorblk_ok l b : complete l → inside l b → player_sized b → ∃ t x y, majorblk l b = Some (t, x, y) ∧ cell l x y t ∧ overlap b x y.
Proof.
  intros Hc (H1 & H2 & H3 & H4) [Hw Hh]. unfold majorblk, tounsigned.
  set (x := (minx b + maxx b) ÷ (2 * tilew)). set (y := (miny b + maxy b) ÷ (2 * tileh)).
  assert (x = (minx b + maxx b) / (2 * tilew)) as Ex by (apply Z.quot_div_nonneg; units; lia).
  assert (y = (miny b + maxy b) / (2 * tileh)) as Ey by (apply Z.quot_div_nonneg; units; lia).
  assert (0 <= x < lw l) as Hx by (rewrite Ex; units; lia). assert (0 <= y < lh l) as Hy by (rewrite Ey; units; lia).
  rewrite !bool_decide_false by lia. cbn [mbind option_bind]. destruct (cell_some l x y Hc Hx Hy) as (t & Ht & Hcell). rewrite Ht. cbn [mbind option_bind].
  exists t, x, y. split; [done|]. split; [done|]. unfold overlap. rewrite Ex, Ey. units. lia.
Qed.

(** A move always ends, and the body stays outside of the walls; it moves no further than its speed. *)
Lemma move_ok l b dx : complete l → enclosed l → fits l (bbx b) → ∃ b', move l b dx = Some b' ∧ fits l (bbx b') ∧
  Z.abs (minx (bbx b') - minx (bbx b)) <= Z.abs dx ∧ Z.abs (miny (bbx b') - miny (bbx b)) <= Z.abs (bdy b) ∧
  (bdy b' = bdy b ∨ bdy b' = 0 ∨ ∃ x y t, cell l x y t ∧ (bdy b' = bdy b + gravity t ∧ bdy b < maxdy ∨ bdy b' = gravity t)).
Proof.
  intros Hc He Hf. unfold move. cbn zeta.
  destruct (moveloop_ok (rounds dx (bdy b)) l (if bool_decide (0 < dx) then 1 else -1) (if bool_decide (0 < bdy b) then 1 else -1) (bbx b) dx (bdy b) (Z.abs dx) (Z.abs (bdy b)) noisect Hc He Hf)
    as (b' & fi & -> & Hf' & D1 & D2 & D3).
  { split; [case_bool_decide; lia|lia]. }
  { split; [case_bool_decide; lia|lia]. }
  { pose proof (todo_le (minx (bbx b)) (Z.abs dx)). pose proof (todo_le (miny (bbx b)) (Z.abs (bdy b))). unfold rounds. units. lia. }
  cbn [mbind option_bind fst snd]. unfold dofall. destruct Hf' as (Hsz & Hin & Hout). destruct (majorblk_ok l b' Hc Hin Hsz) as (t & x & y & Hm & Hcell & _).
  set (p1 := if bool_decide (0 < bdy b) && bool_decide (0 < isy fi) && fall b then (bdy b, false)
             else if bool_decide (bdy b < 0) && bool_decide (0 < isy fi) then (0, true) else (bdy b, fall b)).
  assert (p1.1 = bdy b ∨ p1.1 = 0) as H1. { unfold p1. repeat case_match; cbn [fst]; lia. }
  rewrite (surjective_pairing p1).
  set (p2 := if negb (is fi) && negb p1.2 then (0, true) else (p1.1, p1.2)).
  assert (p2.1 = bdy b ∨ p2.1 = 0) as H2. { unfold p2. case_match; cbn [fst]; lia. }
  rewrite (surjective_pairing p2). clearbody p2. clear p1 H1.
  destruct (p2.2) eqn:E2; cbn [andb].
  - case_bool_decide as Hlt.
    + rewrite Hm. cbn [mbind option_bind fst snd]. eexists. split; [done|]. cbn [bbx bdy]. split; [by split_and!|]. split; [done|]. split; [done|]. right. right.
      exists x, y, t. split; [done|]. destruct H2 as [E|E]; rewrite E in *; [by left|by right].
    + eexists. split; [done|]. cbn [bbx bdy]. split; [by split_and!|]. split; [done|]. split; [done|]. tauto.
  - eexists. split; [done|]. cbn [bbx bdy]. split; [by split_and!|]. split; [done|]. split; [done|]. tauto.
Qed.
