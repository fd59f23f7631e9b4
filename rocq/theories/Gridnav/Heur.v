(** The heuristics of grid navigation: C56 and C57. *)
From stdpp Require Import prelude list_numbers.
From Coq Require Import ZArith Lia ZifyBool.
From Verif Require Import Gridnav.Model Gridnav.Props.
Local Open Scope Z_scope.

(** ** Specification *)

(** A cost weighed with [r] for each square root of two. *)
Definition weigh (r : Z) (c : gcost) : Z := c.1 + r * c.2.
(** [q] times a cost in which a diagonal step weighs [p / q]. *)
Definition value (p q : Z) (c : gcost) : Z := q * c.1 + p * c.2.

(** ** Coordinates *)
Lemma cell_coords g x y : 0 ≤ x < mw g → xcoord g (x + y * mw g) = x ∧ ycoord g (x + y * mw g) = y.
Proof.
  intros Hx. unfold xcoord, ycoord. rewrite Z.mod_add, Z.div_add by lia.
  rewrite Z.mod_small, Z.div_small by lia. split; [done|lia].
Qed.
Lemma inside_coords g l : inside g l →
  l = xcoord g l + ycoord g l * mw g ∧ 0 < xcoord g l < mw g - 1 ∧ 0 < ycoord g l < mh g - 1.
Proof. intros (x & y & -> & Hx & Hy). destruct (cell_coords g x y) as [-> ->]; [lia|]. lia. Qed.

(** What a step does to the coordinates, and what it costs. *)
Record step (g : gridmap) (l l' : Z) (c : gcost) : Prop := Step {
  st_in : inside g l;
  st_in' : inside g l';
  st_x : -1 ≤ xcoord g l' - xcoord g l ≤ 1;
  st_y : -1 ≤ ycoord g l' - ycoord g l ≤ 1;
  st_cost : c = (if decide (xcoord g l' - xcoord g l ≠ 0 ∧ ycoord g l' - ycoord g l ≠ 0)
                 then (0, mul g l) else (mul g l, 0));
  st_four : mmoves g = fourway → xcoord g l' = xcoord g l ∨ ycoord g l' = ycoord g l;
}.
Lemma edge_step g l os op e : good_map g → inside g l → operators g l = Some os → op ∈ os →
  mkedge g l op = Some e → step g l (e_loc e) (e_cost e).
Proof.
  intros Hg Hl Hos Hop He. destruct (step_spec g l os op e Hg Hl Hos Hop He) as (Hi & m & H0 & Hm & Ha & Hloc).
  destruct (mkedge_spec g l op m Hg Hl H0 Hm) as (e1 & He1 & _ & Hcost & _).
  assert (e1 = e) as -> by congruence.
  pose proof (elem_of_list_lookup_2 _ _ _ Hm) as Hmi. destruct (mdisp_near g m Hg Hmi) as [H1 H2]. simpl in H1, H2.
  assert (Hc : xcoord g (e_loc e) - xcoord g l = mdx m ∧ ycoord g (e_loc e) - ycoord g l = mdy m).
  { destruct Hl as (x & y & -> & Hx & Hy). rewrite Hloc. unfold delta. simpl.
    replace (x + y * mw g + (mdx m + mw g * mdy m)) with ((x + mdx m) + (y + mdy m) * mw g) by lia.
    destruct (cell_coords g (x + mdx m) (y + mdy m)) as [-> ->]; [lia|].
    destruct (cell_coords g x y) as [-> ->]; lia. }
  destruct Hc as [Hcx Hcy]. split; [done|done|lia|lia|by rewrite Hcx, Hcy|].
  intros Hf. rewrite Hf in Hmi.
  assert (Hall : Forall (λ m, mdx m = 0 ∨ mdy m = 0) fourway).
  { unfold fourway. repeat constructor; simpl; lia. }
  rewrite Forall_forall in Hall. specialize (Hall m Hmi). lia.
Qed.

(** A potential that drops along a step by no more than its cost bounds the cost of every path. *)
Lemma path_bound g r (P : Z → Z) goal l os c : good_map g → inside g l →
  (∀ l l' c, step g l l' c → P l ≤ weigh r c + P l') → P goal ≤ 0 →
  path g l os goal c → P l ≤ weigh r c.
Proof.
  intros Hg Hl HP H0 Hp. revert Hl H0.
  induction Hp as [l|l os op e rest l' c Hos Hop He Hp IH]; intros Hl H0; [unfold weigh; simpl; lia|].
  pose proof (edge_step g l os op e Hg Hl Hos Hop He) as Hs.
  specialize (IH (st_in' _ _ _ _ Hs) H0). specialize (HP _ _ _ Hs). unfold weigh in *. simpl. lia.
Qed.

Lemma four_costs g l os l' c : good_map g → inside g l → mmoves g = fourway → path g l os l' c → c.2 = 0.
Proof.
  intros Hg Hl Hf Hp. induction Hp as [l|l os op e rest l' c Hos Hop He Hp IH]; [done|].
  pose proof (edge_step g l os op e Hg Hl Hos Hop He) as [_ Hin _ _ Hc H4]. specialize (H4 Hf).
  rewrite Hc. simpl. rewrite (IH Hin). rewrite decide_False by lia. done.
Qed.

(** ** Unit costs *)
Lemma manhattan_step g goal l l' c : mlife g = false → mmoves g = fourway → step g l l' c →
  manhattan g l goal ≤ weigh 1 c + manhattan g l' goal.
Proof.
  intros Hu Hf [_ _ Hx Hy -> H4]. specialize (H4 Hf). unfold weigh, mul, manhattan. rewrite Hu.
  rewrite decide_False by lia. simpl. lia.
Qed.
Lemma octile_step g goal l l' c r : mlife g = false → r = 1 ∨ r = 2 → step g l l' c →
  weigh r (octiledist g l goal).1 ≤ weigh r c + weigh r (octiledist g l' goal).1.
Proof.
  intros Hu Hr [_ _ Hx Hy -> _]. unfold weigh, mul, octiledist. rewrite Hu. cbv zeta.
  generalize dependent (xcoord g l). intros x. generalize (xcoord g goal), (ycoord g goal). intros gx gy.
  generalize dependent (ycoord g l). intros y. generalize dependent (xcoord g l'). intros x'.
  generalize dependent (ycoord g l'). intros y' Hy Hx.
  assert (Hm : ∀ a b : Z, ((if a <? b then b else a) - (if a <? b then a else b)) + r * (if a <? b then a else b) =
    if r =? 1 then Z.max a b else a + b).
  { intros a b. destruct Hr as [-> | ->]; simpl; destruct (Z.ltb_spec a b); lia. }
  cbn [fst snd]. rewrite !Hm. destruct Hr as [-> | ->]; simpl; case_decide; simpl; lia.
Qed.

(** ** Life costs *)

(** The cost of moving straight between two rows, by what it costs to leave them. *)
Lemma quot_twice n : Z.even n = true → 2 * Z.quot n 2 = n.
Proof.
  intros H. apply Z.even_spec in H as [k ->]. rewrite (Z.mul_comm 2 k), Z.quot_mul by lia. lia.
Qed.
Lemma even_square a : Z.even (a * (a + 1)) = true.
Proof. rewrite Z.even_mul, Z.even_add. by destruct (Z.even a). Qed.
Lemma costfrom_up g y0 y1 : let a := lifecost g y0 in let b := lifecost g y1 in b ≤ a →
  2 * costfrom g y0 y1 = a * (a + 1) - b * (b + 1).
Proof.
  intros a b Hab. unfold costfrom, sumbetween. cbv zeta. fold a.
  assert (Hy : y0 - y1 = b - a) by (unfold a, b, lifecost; lia).
  assert (Hn : (a + lifecost g (if y0 <? y1 then (if y0 >? y1 then y1 + 1 else y1) - 1 else (if y0 >? y1 then y1 + 1 else y1))) * Z.abs (y0 - y1)
     = a * (a + 1) - b * (b + 1)).
  { rewrite Hy. destruct (Z.gtb_spec y0 y1); [lia|]. destruct (Z.ltb_spec y0 y1).
    - assert (Hb : lifecost g (y1 - 1) = b + 1) by (unfold b, lifecost; lia). rewrite Hb. lia.
    - assert (a = b) as -> by lia. lia. }
  rewrite Hn. apply quot_twice. rewrite Z.even_sub, !even_square. done.
Qed.
Lemma costfrom_down g y0 y1 : let a := lifecost g y0 in let b := lifecost g y1 in a ≤ b →
  2 * costfrom g y0 y1 = b * (b - 1) - a * (a - 1).
Proof.
  intros a b Hab. unfold costfrom, sumbetween. cbv zeta. fold a.
  assert (Hy : y0 - y1 = b - a) by (unfold a, b, lifecost; lia).
  assert (Hn : (a + lifecost g (if y0 <? y1 then (if y0 >? y1 then y1 + 1 else y1) - 1 else (if y0 >? y1 then y1 + 1 else y1))) * Z.abs (y0 - y1)
     = b * (b - 1) - a * (a - 1)).
  { rewrite Hy. destruct (Z.ltb_spec y0 y1); [lia|]. destruct (Z.gtb_spec y0 y1).
    - assert (Hb : lifecost g (y1 + 1) = b - 1) by (unfold b, lifecost; lia). rewrite Hb. lia.
    - assert (a = b) as -> by lia. lia. }
  rewrite Hn. apply quot_twice.
  replace (b * (b - 1) - a * (a - 1)) with ((b - 1) * (b - 1 + 1) - (a - 1) * (a - 1 + 1)) by lia.
  rewrite Z.even_sub, !even_square. done.
Qed.

(** What it costs to leave a cell. *)
Definition lev (g : gridmap) (l : Z) : Z := mh g - ycoord g l - 2.
Definition across (g : gridmap) (l goal : Z) : Z := Z.abs (xcoord g goal - xcoord g l).
Lemma lev_lifecost g l : lifecost g (ycoord g l - 1) = lev g l.
Proof. unfold lifecost, lev. lia. Qed.
Lemma lev_nonneg g l : inside g l → 0 ≤ lev g l.
Proof. intros Hl. pose proof (inside_coords g l Hl). unfold lev. lia. Qed.

(** Twice a lower bound for four-way maps: stay below the higher of the two rows or go to the top. *)
Definition bound4 (a b d : Z) : Z :=
  Z.min (2 * d * Z.min a b - 2 * Z.min a b * Z.min a b) 0 + a * (a + 1) + b * (b - 1).
(** The value with life costs on a four-way map, exactly. *)
Lemma life4_is g l goal : inside g l → inside g goal →
  2 * (life4cheap g l goal).1.1 =
    Z.min (2 * across g l goal * Z.min (lev g l) (lev g goal)
           - 2 * Z.min (lev g l) (lev g goal) * Z.min (lev g l) (lev g goal)) (-2)
    + lev g l * (lev g l + 1) + lev g goal * (lev g goal - 1) ∧
  (life4cheap g l goal).1.2 = 0.
Proof.
  intros Hl Hgo. pose proof (lev_nonneg g l Hl) as Ha. pose proof (lev_nonneg g goal Hgo) as Hb.
  pose proof (lev_lifecost g l) as Hla. pose proof (lev_lifecost g goal) as Hlb.
  unfold life4cheap. cbv zeta.
  set (y := ycoord g l - 1) in *. set (gy := ycoord g goal - 1) in *.
  assert (Hover : lifecost g (if y >? gy then y else gy) = Z.min (lev g l) (lev g goal)).
  { rewrite <-Hla, <-Hlb. unfold lifecost. destruct (Z.gtb_spec y gy); lia. }
  rewrite Hover.
  assert (Htop : lifecost g (mh g - 2) = -1) by (unfold lifecost; lia).
  assert (Hdx : Z.abs (xcoord g goal - 1 - (xcoord g l - 1)) = across g l goal) by (unfold across; f_equal; lia).
  rewrite Hdx.
  assert (Hup : 2 * costfrom g y (mh g - 2) = lev g l * (lev g l + 1)).
  { rewrite costfrom_up; rewrite Htop, Hla; lia. }
  assert (Hdown : 2 * costfrom g (mh g - 2) gy = lev g goal * (lev g goal - 1) - 2).
  { rewrite costfrom_down; rewrite Htop, Hlb; lia. }
  assert (Hdir : 2 * costfrom g y gy = lev g l * (lev g l + 1) + lev g goal * (lev g goal - 1)
    - 2 * Z.min (lev g l) (lev g goal) * Z.min (lev g l) (lev g goal)).
  { destruct (Z.le_ge_cases (lev g goal) (lev g l)).
    - rewrite costfrom_up; rewrite Hla, Hlb; [|lia]. rewrite Z.min_r by lia. lia.
    - rewrite costfrom_down; rewrite Hla, Hlb; [|lia]. rewrite Z.min_l by lia. lia. }
  set (m := Z.min (lev g l) (lev g goal)) in *.
  destruct (Z.ltb_spec (across g l goal * m + costfrom g y gy) (costfrom g y (mh g - 2) + costfrom g (mh g - 2) gy)); simpl; split; try done; lia.
Qed.

Lemma life4_below g l goal : inside g l → inside g goal →
  2 * (life4cheap g l goal).1.1 ≤ bound4 (lev g l) (lev g goal) (across g l goal) ∧
  (life4cheap g l goal).1.2 = 0.
Proof. intros Hl Hgo. destruct (life4_is g l goal Hl Hgo) as [H1 H2]. split; [unfold bound4; lia|done]. Qed.
Lemma bound4_across a b d d' : 0 ≤ a → 0 ≤ b → 0 ≤ d' → d ≤ d' + 1 → bound4 a b d ≤ 2 * a + bound4 a b d'.
Proof. intros. unfold bound4. assert (0 ≤ Z.min a b ≤ a) by lia. nia. Qed.
Lemma bound4_up a b d : 1 ≤ a → 0 ≤ b → 0 ≤ d → bound4 a b d ≤ 2 * a + bound4 (a - 1) b d.
Proof.
  intros. unfold bound4. destruct (Z.le_ge_cases b (a - 1)).
  - rewrite !Z.min_r with (n := a) by lia. rewrite !Z.min_r with (n := a - 1) by lia. lia.
  - destruct (decide (b = a - 1)) as [->|].
    { rewrite !Z.min_r with (n := a) by lia. rewrite !Z.min_l with (n := a - 1) by lia. lia. }
    rewrite !Z.min_l with (n := a) by lia. rewrite !Z.min_l with (n := a - 1) by lia.
    destruct (Z.le_gt_cases a d); [|nia].
    rewrite Z.min_r by nia. rewrite Z.min_r by nia. lia.
Qed.
Lemma bound4_down a b d : 0 ≤ a → 0 ≤ b → 0 ≤ d → bound4 a b d ≤ 2 * a + bound4 (a + 1) b d.
Proof.
  intros. unfold bound4. destruct (Z.le_ge_cases b a).
  - rewrite !Z.min_r with (n := a) by lia. rewrite !Z.min_r with (n := a + 1) by lia. lia.
  - destruct (decide (b = a)) as [->|].
    + rewrite !Z.min_l with (n := a) by lia. rewrite !Z.min_r with (n := a + 1) by lia. lia.
    + rewrite !Z.min_l with (n := a) by lia. rewrite !Z.min_l with (n := a + 1) by lia. nia.
Qed.
Lemma bound4_step g goal l l' c : mlife g = true → mmoves g = fourway → inside g goal → step g l l' c →
  bound4 (lev g l) (lev g goal) (across g l goal) ≤
  2 * weigh 1 c + bound4 (lev g l') (lev g goal) (across g l' goal).
Proof.
  intros Hu Hf Hgo [Hl Hl' Hx Hy Hc H4]. specialize (H4 Hf). rewrite decide_False in Hc by lia.
  pose proof (lev_nonneg g l Hl) as Ha. pose proof (lev_nonneg g l' Hl') as Ha'. pose proof (lev_nonneg g goal Hgo) as Hb.
  assert (Hw : weigh 1 c = lev g l) by (rewrite Hc; unfold weigh, mul, lev; rewrite Hu; simpl; lia).
  rewrite Hw. destruct H4 as [H4|H4].
  - assert (Hd : across g l' goal = across g l goal) by (unfold across; by rewrite H4). rewrite Hd.
    assert (Hcase : lev g l' = lev g l ∨ lev g l' = lev g l - 1 ∨ lev g l' = lev g l + 1) by (unfold lev; lia).
    assert (Hd0 : 0 ≤ across g l goal) by (unfold across; lia).
    destruct Hcase as [E|[E|E]]; rewrite E in *.
    + apply bound4_across; lia.
    + apply bound4_up; lia.
    + apply bound4_down; lia.
  - assert (E : lev g l' = lev g l) by (unfold lev; by rewrite H4). rewrite E.
    apply bound4_across; try done; unfold across; lia.
Qed.

(** Twice a lower bound for eight-way maps: climb as far as the steps across allow. *)
Definition half (z : Z) : Z := Z.max 0 z * Z.max 0 z / 2.
Definition bound8 (a b d : Z) : Z :=
  a * (a + 1) + b * (b - 1) - half (Z.min (2 * Z.min a b) (a + b - d)).

Lemma half_even t : 0 ≤ t → half (2 * t) = 2 * t * t.
Proof. intros. unfold half. rewrite Z.max_r by lia. replace (2 * t * (2 * t)) with (2 * t * t * 2) by lia. by rewrite Z.div_mul. Qed.
Lemma half_odd t : 1 ≤ t → half (2 * t - 1) = 2 * t * t - 2 * t.
Proof.
  intros. unfold half. rewrite Z.max_r by lia.
  replace ((2 * t - 1) * (2 * t - 1)) with (1 + (2 * t * t - 2 * t) * 2) by lia. by rewrite Z.div_add.
Qed.
Lemma half_nonpos z : z ≤ 0 → half z = 0.
Proof. intros. unfold half. rewrite Z.max_l by lia. done. Qed.
Lemma half_mono z z' : z ≤ z' → half z ≤ half z'.
Proof. intros. unfold half. apply Z.div_le_mono; [lia|]. assert (0 ≤ Z.max 0 z ≤ Z.max 0 z') by lia. nia. Qed.
Lemma half_cases z : z ≤ 0 ∨ ∃ t, 1 ≤ t ∧ (z = 2 * t ∨ z = 2 * t - 1).
Proof.
  destruct (Z.le_gt_cases z 0); [by left|right].
  destruct (Z.Even_or_Odd z) as [[k ->]|[k ->]]; [exists k; lia|exists (k + 1); lia].
Qed.
Lemma half_one z : 0 ≤ z → half (z + 1) ≤ half z + (z + 1).
Proof.
  intros Hz. destruct (half_cases z) as [H|(t & Ht & [-> | ->])].
  - assert (z = 0) as -> by lia. done.
  - replace (2 * t + 1) with (2 * (t + 1) - 1) by lia. rewrite half_odd, half_even by lia. lia.
  - replace (2 * t - 1 + 1) with (2 * t) by lia. rewrite half_odd, half_even by lia. lia.
Qed.
Lemma half_two z : 0 ≤ z → half (z + 2) = half z + 2 * z + 2.
Proof.
  intros Hz. destruct (half_cases z) as [H|(t & Ht & [-> | ->])].
  - assert (z = 0) as -> by lia. done.
  - replace (2 * t + 2) with (2 * (t + 1)) by lia. rewrite !half_even by lia. lia.
  - replace (2 * t - 1 + 2) with (2 * (t + 1) - 1) by lia. rewrite !half_odd by lia. lia.
Qed.
Lemma half_nonneg z : 0 ≤ half z.
Proof.
  pose proof (half_mono (Z.min 0 z) z ltac:(lia)) as Hm. rewrite (half_nonpos (Z.min 0 z)) in Hm by lia. done.
Qed.

Lemma life8_is g l goal : inside g l → inside g goal →
  2 * (life8cheap g l goal).1.1 = bound8 (lev g l) (lev g goal) (across g l goal) ∧
  (life8cheap g l goal).1.2 = 0.
Proof.
  intros Hl Hgo. pose proof (lev_nonneg g l Hl) as Ha. pose proof (lev_nonneg g goal Hgo) as Hb.
  pose proof (lev_lifecost g l) as Hla. pose proof (lev_lifecost g goal) as Hlb.
  unfold life8cheap, bound8. cbv zeta.
  assert (Hdy : Z.abs (ycoord g goal - 1 - (ycoord g l - 1)) = Z.abs (lev g l - lev g goal)) by (unfold lev; lia).
  rewrite Hdy.
  assert (Hmax : (if mh g - 2 - 1 - (ycoord g l - 1) <? mh g - 2 - 1 - (ycoord g goal - 1)
     then mh g - 2 - 1 - (ycoord g l - 1) else mh g - 2 - 1 - (ycoord g goal - 1)) = Z.min (lev g l) (lev g goal)).
  { unfold lev. destruct (Z.ltb_spec (mh g - 2 - 1 - (ycoord g l - 1)) (mh g - 2 - 1 - (ycoord g goal - 1))); lia. }
  rewrite Hmax. clear Hmax.
  set (y := ycoord g l - 1) in *. set (gy := ycoord g goal - 1) in *.
  assert (Hdx : Z.abs (xcoord g goal - 1 - (xcoord g l - 1)) = across g l goal) by (unfold across; f_equal; lia).
  rewrite Hdx. set (d := across g l goal). set (a := lev g l) in *. set (b := lev g goal) in *.
  assert (Hd0 : 0 ≤ d) by (unfold d, across; lia).
  set (m := Z.min a b). assert (Hm : 0 ≤ m ∧ m ≤ a ∧ m ≤ b) by (unfold m; lia).
  destruct (Z.leb_spec d (Z.abs (a - b))) as [Hle|Hgt]; simpl; (split; [|done]).
  - rewrite (Z.min_l (2 * m)) by (unfold m; lia). rewrite half_even by lia.
    destruct (Z.le_ge_cases b a).
    + rewrite costfrom_up; rewrite Hla, Hlb; [|done]. assert (m = b) as -> by (unfold m; lia). lia.
    + rewrite costfrom_down; rewrite Hla, Hlb; [|done]. assert (m = a) as -> by (unfold m; lia). lia.
  - set (e := d - Z.abs (a - b)) in *.
    assert (He : 0 < e) by (unfold e; lia).
    assert (Hq : Z.quot e 2 = e / 2) by (apply Z.quot_div_nonneg; lia). rewrite Hq.
    set (u := if m <? e / 2 then m else e / 2).
    assert (Hu : u = Z.min m (e / 2)) by (unfold u; destruct (Z.ltb_spec m (e / 2)); lia).
    set (hy := (if y >? gy then y else gy) + u).
    assert (Hhy : lifecost g hy = m - u).
    { assert (Hmm : lifecost g (if y >? gy then y else gy) = m).
      { unfold m. rewrite <-Hla, <-Hlb. unfold lifecost. destruct (Z.gtb_spec y gy); lia. }
      unfold hy. unfold lifecost in *. lia. }
    assert (He2 : 0 ≤ e / 2 ∧ (e = 2 * (e / 2) ∨ e = 2 * (e / 2) + 1)).
    { pose proof (Z.div_mod e 2). pose proof (Z.mod_pos_bound e 2). lia. }
    assert (Hupc : 2 * costfrom g y hy = a * (a + 1) - (m - u) * (m - u + 1)) by (rewrite costfrom_up; rewrite Hhy, Hla; lia).
    assert (Hdnc : 2 * costfrom g hy gy = b * (b - 1) - (m - u) * (m - u - 1)) by (rewrite costfrom_down; rewrite Hhy, Hlb; lia).
    rewrite Hhy.
    assert (Hz : a + b - d = 2 * m - e) by (unfold e, m; lia). rewrite Hz. rewrite Z.min_r by lia.
    cut (half (2 * m - e) = 2 * (m - u) * (m - u) - 2 * (e - 2 * u) * (m - u)); [lia|].
    destruct (Z.le_gt_cases m (e / 2)).
    + assert (u = m) as -> by lia. rewrite half_nonpos; lia.
    + assert (u = e / 2) as -> by lia. set (k := e / 2) in *. destruct He2 as [Hk [E|E]].
      * replace (2 * m - e) with (2 * (m - k)) by lia. replace (e - 2 * k) with 0 by lia. rewrite half_even; lia.
      * replace (2 * m - e) with (2 * (m - k) - 1) by lia. replace (e - 2 * k) with 1 by lia. rewrite half_odd; lia.
Qed.

Lemma bound8_step a b d a' d' : 0 ≤ a → 0 ≤ b → 0 ≤ a' → -1 ≤ a' - a ≤ 1 → d ≤ d' + 1 →
  bound8 a b d ≤ 2 * a + bound8 a' b d'.
Proof.
  intros Ha Hb Ha' Hs Hd. unfold bound8.
  set (z := Z.min (2 * Z.min a b) (a + b - d)). set (z' := Z.min (2 * Z.min a' b) (a' + b - d')).
  assert (Hc : a' = a - 1 ∨ a' = a ∨ a' = a + 1) by lia. destruct Hc as [->|[->| ->]].
  - assert (half z' ≤ half z) by (apply half_mono; unfold z, z'; lia). lia.
  - assert (Hz : z' ≤ z + 1) by (unfold z, z'; lia). assert (z' ≤ 2 * a) by (unfold z'; lia).
    pose proof (half_nonneg z).
    destruct (Z.le_gt_cases z' 0); [rewrite (half_nonpos z') by lia; lia|].
    pose proof (half_one (z' - 1) ltac:(lia)) as Ho. replace (z' - 1 + 1) with z' in Ho by lia.
    pose proof (half_mono (z' - 1) z ltac:(lia)). lia.
  - assert (Hz : z' ≤ z + 2) by (unfold z, z'; lia). assert (z' ≤ 2 * a + 2) by (unfold z'; lia).
    pose proof (half_nonneg z).
    destruct (Z.le_gt_cases z' 1).
    { pose proof (half_mono z' 1 ltac:(lia)) as Ho. change (half 1) with 0 in Ho. lia. }
    pose proof (half_two (z' - 2) ltac:(lia)) as Ho. replace (z' - 2 + 2) with z' in Ho by lia.
    pose proof (half_mono (z' - 2) z ltac:(lia)). lia.
Qed.

(** ** Theorems *)

(** The value the search uses, weighing a diagonal step with one or with two. *)
Lemma computeh_bound g r l goal os c : good_map g → inside g l → inside g goal → r = 1 ∨ r = 2 →
  path g l os goal c → weigh r (computeh g l goal).1 ≤ weigh r c.
Proof.
  intros Hg Hl Hgo Hr Hp. unfold computeh.
  assert (Hms : mmoves g = fourway ∨ length (mmoves g) = 8%nat).
  { destruct Hg as [_ [-> | [-> | ->]]]; auto. }
  destruct Hms as [Hf|Hlen].
  - rewrite Hf. simpl. pose proof (four_costs g l os goal c Hg Hl Hf Hp) as Hc2.
    assert (Hw : ∀ r, weigh r c = weigh 1 c) by (intros; unfold weigh; lia). rewrite Hw.
    destruct (mlife g) eqn:Hlife.
    + destruct (life4_below g l goal Hl Hgo) as [H4 H40].
      pose proof (path_bound g 2 (λ l, bound4 (lev g l) (lev g goal) (across g l goal)) goal l os (2 * c.1, 2 * c.2)) as Hb.
      assert (Hgen : ∀ l os l' c, inside g l → path g l os l' c →
        bound4 (lev g l) (lev g goal) (across g l goal) ≤ 2 * weigh 1 c + bound4 (lev g l') (lev g goal) (across g l' goal)).
      { clear -Hg Hf Hlife Hgo. intros l os l' c Hl Hp.
        induction Hp as [l|l os op e rest l' c Hos Hop He Hp IH]; [unfold weigh; simpl; lia|].
        pose proof (edge_step g l os op e Hg Hl Hos Hop He) as Hs. specialize (IH (st_in' _ _ _ _ Hs)).
        pose proof (bound4_step g goal _ _ _ Hlife Hf Hgo Hs). unfold weigh in *. simpl. lia. }
      specialize (Hgen l os goal c Hl Hp).
      assert (Hz : bound4 (lev g goal) (lev g goal) (across g goal goal) = 0).
      { unfold bound4, across. rewrite Z.sub_diag, Z.min_id. pose proof (lev_nonneg g goal Hgo). simpl. nia. }
      rewrite Hz in Hgen. unfold weigh. rewrite H40. unfold weigh in Hgen. lia.
    + simpl. replace (weigh r (manhattan g l goal, 0)) with (manhattan g l goal) by (unfold weigh; simpl; lia).
      apply (path_bound g 1 (λ l, manhattan g l goal) goal l os c Hg Hl); [|unfold manhattan; lia|done].
      intros l1 l2 c1 Hs. by apply manhattan_step.
  - rewrite Hlen. simpl. destruct (mlife g) eqn:Hlife; simpl.
    + destruct (life8_is g l goal Hl Hgo) as [H8 H80].
      assert (Hgen : ∀ l os l' c, inside g l → path g l os l' c →
        bound8 (lev g l) (lev g goal) (across g l goal) ≤ 2 * weigh r c + bound8 (lev g l') (lev g goal) (across g l' goal)).
      { clear -Hg Hlife Hgo Hr. intros l os l' c Hl Hp.
        induction Hp as [l|l os op e rest l' c Hos Hop He Hp IH]; [unfold weigh; simpl; lia|].
        pose proof (edge_step g l os op e Hg Hl Hos Hop He) as [Hi Hi' Hx Hy Hc _]. specialize (IH Hi').
        pose proof (bound8_step (lev g l) (lev g goal) (across g l goal) (lev g (e_loc e)) (across g (e_loc e) goal)) as Hb.
        assert (Hle : lev g l ≤ weigh r (e_cost e)).
        { pose proof (lev_nonneg g l Hi). rewrite Hc. unfold weigh, mul, lev in *. rewrite Hlife.
          destruct Hr as [-> | ->]; case_decide; simpl; lia. }
        assert (Hsum : weigh r ((e_cost e).1 + c.1, (e_cost e).2 + c.2) = weigh r (e_cost e) + weigh r c) by (unfold weigh; simpl; lia).
        rewrite Hsum. pose proof (lev_nonneg g l Hi). pose proof (lev_nonneg g _ Hi'). pose proof (lev_nonneg g _ Hgo).
        assert (bound8 (lev g l) (lev g goal) (across g l goal) ≤ 2 * lev g l + bound8 (lev g (e_loc e)) (lev g goal) (across g (e_loc e) goal)).
        { apply Hb; try done; unfold lev, across; lia. }
        lia. }
      specialize (Hgen l os goal c Hl Hp).
      assert (Hz : bound8 (lev g goal) (lev g goal) (across g goal goal) = 0).
      { unfold bound8, across. rewrite Z.sub_diag, Z.min_id. pose proof (lev_nonneg g goal Hgo).
        change (Z.abs 0) with 0. rewrite Z.min_l by lia. rewrite half_even by lia. lia. }
      rewrite Hz in Hgen. unfold weigh in *. rewrite H80. lia.
    + apply (path_bound g r (λ l, weigh r (octiledist g l goal).1) goal l os c Hg Hl); [| |done].
      * intros l1 l2 c1 Hs. by apply octile_step.
      * unfold weigh, octiledist. rewrite !Z.sub_diag. simpl. lia.
Qed.

(** On every map, with every move set, with unit costs and with life costs: the heuristic value of
    a cell is at most the cost of every sequence of moves from it to the goal.  Costs are compared
    exactly, with any weight [p / q] between one and two for a diagonal step. *)
Theorem C56_heuristics_admissible g l goal os c p q :
  good_map g → inside g l → inside g goal → path g l os goal c → 0 < q → q ≤ p ≤ 2 * q →
  value p q (computeh g l goal).1 ≤ value p q c.
Proof.
  intros Hg Hl Hgo Hp Hq Hpq.
  pose proof (computeh_bound g 1 l goal os c Hg Hl Hgo (or_introl eq_refl) Hp) as H1.
  pose proof (computeh_bound g 2 l goal os c Hg Hl Hgo (or_intror eq_refl) Hp) as H2.
  assert (Hv : ∀ c, value p q c = (2 * q - p) * weigh 1 c + (p - q) * weigh 2 c) by (intros; unfold value, weigh; lia).
  rewrite !Hv. nia.
Qed.

(** On four-way maps no cost has a square root of two, so the values are plain integers. *)
Theorem C56_four_way_admissible g l goal os c :
  good_map g → mmoves g = fourway → inside g l → inside g goal → path g l os goal c →
  c.2 = 0 ∧ (computeh g l goal).1.1 ≤ c.1.
Proof.
  intros Hg Hf Hl Hgo Hp. pose proof (four_costs g l os goal c Hg Hl Hf Hp) as Hc. split; [done|].
  pose proof (C56_heuristics_admissible g l goal os c 1 1 Hg Hl Hgo Hp) as H. unfold value in H.
  assert (H2 : (computeh g l goal).1.2 = 0).
  { unfold computeh. rewrite Hf. simpl. destruct (mlife g); [|done]. by apply life4_below. }
  lia.
Qed.

(** At the goal the value is zero, except for life costs on four-way maps (C57). *)
Theorem C56_zero_at_goal g goal : good_map g → inside g goal →
  mlife g = false ∨ mmoves g ≠ fourway → (computeh g goal goal).1 = (0, 0).
Proof.
  intros Hg Hgo Hcase. unfold computeh.
  assert (Hms : mmoves g = fourway ∨ length (mmoves g) = 8%nat).
  { destruct Hg as [_ [-> | [-> | ->]]]; auto. }
  assert (Hman : manhattan g goal goal = 0) by (unfold manhattan; lia).
  assert (Hoct : (octiledist g goal goal).1 = (0, 0)) by (unfold octiledist; by rewrite !Z.sub_diag).
  assert (H8 : (life8cheap g goal goal).1 = (0, 0)).
  { destruct (life8_is g goal goal Hgo Hgo) as [H8 H80].
    assert (Hz : bound8 (lev g goal) (lev g goal) (across g goal goal) = 0).
    { unfold bound8, across. rewrite Z.sub_diag, Z.min_id. pose proof (lev_nonneg g goal Hgo).
      change (Z.abs 0) with 0. rewrite Z.min_l by lia. rewrite half_even by lia. lia. }
    rewrite Hz in H8. destruct (life8cheap g goal goal).1 as [u s]. simpl in *. f_equal; lia. }
  destruct Hms as [Hf|Hlen].
  - destruct Hcase as [Hu|]; [|done]. rewrite Hf, Hu. simpl. by rewrite Hman.
  - rewrite Hlen. simpl. destruct (mlife g); simpl; done.
Qed.

(** With life costs on a four-way map the value is -1 exactly at the cells of the highest row when
    the goal is in the highest row or in the one below it - so also at the goal itself - whatever
    the size of the map; everywhere else it is not negative. *)
Theorem C57_negative_on_top_row g l goal : good_map g → mmoves g = fourway → mlife g = true →
  inside g l → inside g goal →
  (ycoord g l = mh g - 2 → mh g - 3 ≤ ycoord g goal → (computeh g l goal).1 = (-1, 0)) ∧
  (¬ (ycoord g l = mh g - 2 ∧ mh g - 3 ≤ ycoord g goal) → 0 ≤ (computeh g l goal).1.1).
Proof.
  intros Hg Hf Hlife Hl Hgo. unfold computeh. rewrite Hf, Hlife. simpl.
  destruct (life4_is g l goal Hl Hgo) as [H1 H2]. pose proof (lev_nonneg g l Hl). pose proof (lev_nonneg g goal Hgo).
  assert (0 ≤ across g l goal) by (unfold across; lia).
  destruct (life4cheap g l goal).1 as [u s]. simpl in *. subst s. split.
  - intros Hy Hgy. assert (Ha : lev g l = 0) by (unfold lev; lia). assert (Hb : lev g goal = 0 ∨ lev g goal = 1) by (unfold lev in *; lia).
    f_equal. destruct Hb as [Hb|Hb]; rewrite Ha, Hb in H1; simpl in H1; lia.
  - intros Hno. assert (Hc : 1 ≤ lev g l ∨ 2 ≤ lev g goal).
    { pose proof (inside_coords g l Hl). pose proof (inside_coords g goal Hgo). unfold lev. lia. }
    set (m := Z.min (lev g l) (lev g goal)) in *.
    assert (Hmm : 2 * m * m ≤ lev g l * (lev g l + 1) + lev g goal * (lev g goal - 1)).
    { destruct (Z.le_ge_cases (lev g goal) (lev g l)).
      - assert (m = lev g goal) as -> by (unfold m; lia). nia.
      - assert (m = lev g l) as -> by (unfold m; lia). nia. }
    assert (H22 : 2 ≤ lev g l * (lev g l + 1) + lev g goal * (lev g goal - 1)).
    { assert (0 ≤ lev g goal * (lev g goal - 1)) by (destruct (Z.eq_dec (lev g goal) 0) as [->|]; nia).
      destruct Hc; nia. }
    assert (0 ≤ 2 * across g l goal * m) by nia. lia.
Qed.

(** All other heuristic values are never negative. *)
Theorem C57_nonnegative_elsewhere g l goal : good_map g → inside g l → inside g goal →
  mlife g = false ∨ mmoves g ≠ fourway → 0 ≤ (computeh g l goal).1.1 ∧ 0 ≤ (computeh g l goal).1.2.
Proof.
  intros Hg Hl Hgo Hcase. unfold computeh.
  assert (Hms : mmoves g = fourway ∨ length (mmoves g) = 8%nat).
  { destruct Hg as [_ [-> | [-> | ->]]]; auto. }
  destruct Hms as [Hf|Hlen].
  - destruct Hcase as [Hu|]; [|done]. rewrite Hf, Hu. simpl. unfold manhattan. lia.
  - rewrite Hlen. simpl. destruct (mlife g); simpl.
    + destruct (life8_is g l goal Hl Hgo) as [H8 ->]. split; [|done].
      pose proof (lev_nonneg g l Hl) as Ha. pose proof (lev_nonneg g goal Hgo) as Hb.
      set (a := lev g l) in *. set (b := lev g goal) in *.
      assert (half (Z.min (2 * Z.min a b) (a + b - across g l goal)) ≤ half (2 * Z.min a b)) by (apply half_mono; lia).
      rewrite half_even in H by lia. unfold bound8 in H8.
      assert (Hmm : 2 * Z.min a b * Z.min a b ≤ a * (a + 1) + b * (b - 1)).
      { destruct (Z.le_ge_cases b a); [rewrite Z.min_r by lia|rewrite Z.min_l by lia]; nia. }
      lia.
    + unfold octiledist. simpl. case_match; lia.
Qed.

(** ** Examples *)
Example ex_h : computeh ex_map (locof ex_map 0 0) (locof ex_map 2 2) = ((0, 2), 2).
Proof. done. Qed.
Lemma ex_goal_inside : inside ex_map (locof ex_map 0 1).
Proof. exists 1, 2. simpl. done. Qed.
Example ex_path : path ex_map (locof ex_map 0 0) [5] (locof ex_map 0 1) (1, 0).
Proof.
  apply (path_cons ex_map _ [1; 5] 5 (Edge 13 (1, 0) 2 (1, 0)) [] _ (0, 0)); [done|set_solver|done|]. apply path_nil.
Qed.
(** A life-cost map: the value at a goal in the highest row. *)
Example ex_life : computeh ex_uniform (locof ex_uniform 2 2) (locof ex_uniform 2 2) = ((-1, 0), 0).
Proof. done. Qed.
Lemma ex_life_inside : inside ex_uniform (locof ex_uniform 2 2).
Proof. exists 3, 3. simpl. done. Qed.
Definition ex_life8 : gridmap := GridMap 5 5 (mflags ex_uniform) true eightway.
Example ex_life8_h : computeh ex_life8 (locof ex_life8 0 0) (locof ex_life8 2 0) = ((3, 0), 2).
Proof. done. Qed.

Print Assumptions C56_heuristics_admissible.
Print Assumptions C56_four_way_admissible.
Print Assumptions C56_zero_at_goal.
Print Assumptions C57_negative_on_top_row.
Print Assumptions C57_nonnegative_elsewhere.
