(** Theorems about the platform game (C86-C90). *)
From stdpp Require Import prelude.
From Coq Require Import ZArith Lia ZifyBool ZifyNat.
From Verif Require Import Plat2d.Model Plat2d.Motion Plat2d.Start.
Local Open Scope Z_scope.

(** ** C86: the player stays in the level *)
Lemma start_cell l gx gy x0 y0 : complete l → scanlvl l = Found gx gy x0 y0 → ∃ t, cell l x0 y0 t ∧ t ≠ Wall.
Proof.
  intros Hc Hs. apply C71_accepted in Hs as (_ & (Hu1 & Hu2 & Hu3) & _); [|done]. destruct (cell_some l x0 y0 Hc Hu1 Hu2) as (t & _ & Hcell).
  exists t. split; [done|]. assert (up t = true) as Hu by (by apply (Hu3 x0 y0 t Hcell)). by intros ->.
Qed.
Lemma gravity_any (l : level) x y t v : cell l x y t → (10 | v) → v < maxdy → (10 | gravity t) ∧ v + gravity t <= 490.
Proof. intros _ [q ->] Hv. unfold gravity. destruct (water t); (split; [|units; lia]); [by exists 1|by exists 2]. Qed.
Lemma play_ok l u top p acts : complete l → enclosed l → (u | px) → 0 <= top →
  (∀ x y t v, cell l x y t → (u | v) → v < maxdy → (u | gravity t) ∧ v + gravity t <= top) →
  fits l (bbx (pbody p)) → paced u top p → ∃ q, play l p acts = Some q ∧ fits l (bbx (pbody q)) ∧ paced u top q.
Proof.
  intros Hc He Hu Ht Hg. revert p. induction acts as [|a acts IH]; intros p Hf Hp; cbn [play]; [by exists p|].
  destruct (act_ok l p a u top Hc He Hf Hp Hu Hg Ht) as (p' & -> & Hf' & Hp' & _). by apply IH.
Qed.

(** Whatever the player does from the start: every move ends and reads tiles of the level only, the player is never in
    a wall and never leaves the space within the outer walls, and a single action moves by 3.25 pixels horizontally and
    12.25 vertically at most. *)
Theorem C86_never_in_walls l gx gy x0 y0 acts : complete l → enclosed l → scanlvl l = Found gx gy x0 y0 →
  ∃ p, play l (initialstate x0 y0) acts = Some p ∧ player_sized (bbx (pbody p)) ∧ inside l (bbx (pbody p)) ∧ outside_walls l (bbx (pbody p)) ∧
    ∀ a, ∃ q, act l p a = Some q ∧ Z.abs (minx (bbx (pbody q)) - minx (bbx (pbody p))) <= 130 ∧ Z.abs (miny (bbx (pbody q)) - miny (bbx (pbody p))) <= 490.
Proof.
  intros Hc He Hs. destruct (start_cell l gx gy x0 y0 Hc Hs) as (t & Hcell & Hw). destruct (initial_fits l x0 y0 t He Hcell Hw) as (Hf & _ & Hp).
  destruct (play_ok l 10 490 (initialstate x0 y0) acts Hc He) as (p & Hplay & Hfp & Hpp); try done; [by exists 4|apply gravity_any|].
  exists p. split; [done|]. pose proof Hfp as (? & ? & ?). split; [done|]. split; [done|]. split; [done|].
  intros a. destruct (act_ok l p a 10 490 Hc He Hfp Hpp) as (q & Hq & _ & _ & D1 & D2); [by exists 4|apply gravity_any|done|]. exists q. split; [done|]. split; [done|]. units. lia.
Qed.
(** The goal test never reads outside of the level, and tells whether the center of the player is in the goal tile. *)
Definition center_in (b : bbox) (x y : Z) : Prop := 2 * x * tilew <= minx b + maxx b < 2 * (x + 1) * tilew ∧ 2 * y * tileh <= miny b + maxy b < 2 * (y + 1) * tileh.
Theorem C86_goal l gx gy x0 y0 acts p : complete l → enclosed l → scanlvl l = Found gx gy x0 y0 → play l (initialstate x0 y0) acts = Some p →
  isgoal l gx gy p = Some (bool_decide (center_in (bbx (pbody p)) gx gy)).
Proof.
  intros Hc He Hs Hplay. destruct (C86_never_in_walls l gx gy x0 y0 acts Hc He Hs) as (p' & Hplay' & Hsz & Hin & _). rewrite Hplay in Hplay'. injection Hplay' as <-.
  unfold isgoal, majorblk, tounsigned. set (b := bbx (pbody p)) in *. clearbody b. destruct Hsz as [Hw Hh]. destruct Hin as (H1 & H2 & H3 & H4).
  rewrite !Z.quot_div_nonneg by (units; lia). set (x := (minx b + maxx b) / (2 * tilew)). set (y := (miny b + maxy b) / (2 * tileh)).
  assert (0 <= x < lw l) as Hx by (unfold x; units; lia). assert (0 <= y < lh l) as Hy by (unfold y; units; lia).
  rewrite !bool_decide_false by lia. cbn [mbind option_bind]. destruct (cell_some l x y Hc Hx Hy) as (t & -> & _). cbn [mbind option_bind fst snd].
  f_equal. apply bool_decide_ext. unfold center_in, x, y. units. lia.
Qed.

(** ** C87: the assertions of the edges *)
Fixpoint walk (l : level) (p : player) (acts : list controls) : option player :=
  match acts with [] => Some p | a :: acts => match edge l p a with Some (p, _) => walk l p acts | None => None end end.
Definition dry (l : level) : Prop := ∀ x y t, cell l x y t → water t = false.
Lemma gravity_dry l x y t v : dry l → cell l x y t → (20 | v) → v < maxdy → (20 | gravity t) ∧ v + gravity t <= 480.
Proof. intros Hd Hcell [q ->] Hv. unfold gravity. rewrite (Hd x y t Hcell). split; [by exists 1|units; lia]. Qed.
Lemma edge_dry l p a : complete l → enclosed l → dry l → fits l (bbx (pbody p)) → paced 20 480 p →
  ∃ q r, edge l p a = Some (q, r) ∧ act l p a = Some q ∧ fits l (bbx (pbody q)) ∧ paced 20 480 q.
Proof.
  intros Hc He Hd Hf Hp. destruct (act_ok l p a 20 480 Hc He Hf Hp) as (q & Hq & Hf' & Hp' & D1 & D2); [by exists 2|intros; by eapply gravity_dry|done|].
  unfold edge. rewrite Hq. cbn [mbind option_bind]. rewrite (bool_decide_true (_ ∧ _ <= maxdy)) by (units; lia). eauto 10.
Qed.
(** In a level without water no assertion ever fails: the edges lead where the player's actions do. *)
Theorem C87_dry_levels l gx gy x0 y0 acts : complete l → enclosed l → dry l → scanlvl l = Found gx gy x0 y0 →
  walk l (initialstate x0 y0) acts = play l (initialstate x0 y0) acts ∧ ∃ p, walk l (initialstate x0 y0) acts = Some p ∧ ∀ a, is_Some (edge l p a).
Proof.
  intros Hc He Hd Hs. destruct (start_cell l gx gy x0 y0 Hc Hs) as (t & Hcell & Hw). destruct (initial_fits l x0 y0 t He Hcell Hw) as (Hf & Hp & _).
  generalize dependent (initialstate x0 y0). intros p. revert p. induction acts as [|a acts IH]; intros p Hf Hp; cbn [walk play].
  - split; [done|]. exists p. split; [done|]. intros a. destruct (edge_dry l p a Hc He Hd Hf Hp) as (q & r & -> & _). done.
  - destruct (edge_dry l p a Hc He Hd Hf Hp) as (q & r & -> & -> & Hf' & Hp'). by apply IH.
Qed.
(** With water they can fail: falling out of water into air gives the player a speed of 12.25 pixels, which is more than
    the assertion allows. *)
Definition waterfall : level :=
  Lvl 14 14 (repeat Wall 14 ++ (Wall :: UpWater :: repeat Water 8 ++ [Air; Air; Down; Wall]) ++ concat (repeat (repeat Wall 14) 12)).
Definition completeb (l : level) : bool := bool_decide (0 <= lw l ∧ 0 <= lh l ∧ Z.of_nat (length (blks l)) = lw l * lh l).
Definition enclosedb (l : level) : bool :=
  forallb (λ xy : Z * Z, negb (bool_decide (xy.1 = 0 ∨ xy.1 = lw l - 1 ∨ xy.2 = 0 ∨ xy.2 = lh l - 1)) || bool_decide (tileat l xy.1 xy.2 = Some Wall)) (zonetiles (0, 0, lw l - 1, lh l - 1)).
Lemma enclosedb_ok l : enclosedb l = true → enclosed l.
Proof.
  intros H x y Hx Hy Hb. unfold enclosedb in H. rewrite forallb_forall in H. specialize (H (x, y)). cbn [fst snd] in H.
  rewrite (bool_decide_true (x = 0 ∨ _)) in H by done. cbn [negb orb] in H. apply bool_decide_eq_true in H; [done|]. apply elem_of_list_In, elem_of_zonetiles. lia.
Qed.
Definition splash : player := Eval vm_compute in default (initialstate 1 1) (walk waterfall (initialstate 1 1) (left :: repeat jump 47)).
Theorem C87_speed_refuted : ∃ l gx gy x0 y0 acts p, complete l ∧ enclosed l ∧ scanlvl l = Found gx gy x0 y0 ∧
  walk l (initialstate x0 y0) acts = Some p ∧ jump ∈ ops p ∧ is_Some (act l p jump) ∧ edge l p jump = None.
Proof.
  exists waterfall, 1, 12, 1, 1, (left :: repeat jump 47), splash.
  split; [by apply (bool_decide_eq_true_1 (complete waterfall)); vm_compute|]. split; [by apply enclosedb_ok; vm_compute|].
  split; [by vm_compute|]. split; [by vm_compute|].
  assert (ops splash = [left; right; jump]) as -> by (vm_compute; reflexivity). split; [right; right; left|].
  destruct (act waterfall splash jump) as [q|] eqn:E; [|vm_compute in E; discriminate E]. split; [by exists q|]. clear E. by vm_compute.
Qed.

(** ** C88: the operators *)
(** Steering left or right, with or without jumping, is always available, if not by the operator of that name then by
    one with the same effect; and so is doing nothing while falling. *)
Lemma cannot_jump l p a b c : 0 <= jframes p → canjump p = false → act l p (Ctl a b c) = act l p (Ctl a b false).
Proof.
  intros Hj Hcan. destruct c; [|done]. unfold canjump in Hcan. apply orb_false_elim in Hcan as [Hcan H3]. apply orb_false_elim in Hcan as [H1 H2].
  apply negb_false_iff in H1. apply bool_decide_eq_false in H3. assert (jframes p = 0) as E by lia. rewrite E in H2. cbn [andb] in H2. rewrite (bool_decide_true (0 = 0)) in H2 by done. cbn [andb] in H2. apply bool_decide_eq_false in H2.
  assert (chngjmp p (Ctl a b true) = p) as E1. { unfold chngjmp. cbn [cjump]. rewrite H1. done. }
  assert (chngjmp p (Ctl a b false) = p) as E2. { unfold chngjmp. cbn [cjump]. rewrite H1. cbn [negb andb]. rewrite bool_decide_false by lia. destruct p as [pb j]. cbn [pbody jframes] in *. by subst j. }
  unfold act. rewrite E1, E2. done.
Qed.
Theorem C88_operators l gx gy x0 y0 acts p a : complete l → enclosed l → scanlvl l = Found gx gy x0 y0 → play l (initialstate x0 y0) acts = Some p →
  cleft a ≠ cright a ∨ cjump a = true ∨ canjump p = false → ∃ o, o ∈ ops p ∧ act l p o = act l p a.
Proof.
  intros Hc He Hs Hplay Ha. destruct (start_cell l gx gy x0 y0 Hc Hs) as (t & Hcell & Hw). destruct (initial_fits l x0 y0 t He Hcell Hw) as (Hf & _ & Hp).
  destruct (play_ok l 10 490 (initialstate x0 y0) acts Hc He) as (p' & Hplay' & _ & (_ & _ & Hj)); try done; [by exists 4|apply gravity_any|]. rewrite Hplay in Hplay'. injection Hplay' as <-.
  assert (∀ c, act l p (Ctl true true c) = act l p (Ctl false false c)) as Hboth. { intros c. done. }
  unfold ops. destruct (canjump p) eqn:Ecan.
  - destruct a as [[] [] []]; cbn [cleft cright cjump] in *; try (by destruct Ha as [?|[?|?]]).
    + exists jump. split; [set_solver|]. symmetry. apply Hboth.
    + exists leftjump. split; [set_solver|done].
    + exists left. split; [set_solver|done].
    + exists rightjump. split; [set_solver|done].
    + exists right. split; [set_solver|done].
    + exists jump. split; [set_solver|done].
  - destruct Hj as [Hj _]. destruct a as [[] [] c].
    + exists jump. split; [set_solver|]. rewrite Hboth. unfold jump. rewrite (cannot_jump l p _ _ true), (cannot_jump l p _ _ c) by done. done.
    + exists left. split; [set_solver|]. unfold left. by rewrite (cannot_jump l p _ _ c).
    + exists right. split; [set_solver|]. unfold right. by rewrite (cannot_jump l p _ _ c).
    + exists jump. split; [set_solver|]. unfold jump. rewrite (cannot_jump l p _ _ true), (cannot_jump l p _ _ c) by done. done.
Qed.
Definition corridor : level :=
  Lvl 6 3 ([Wall; Wall; Wall] ++ [Wall; Up; Wall] ++ [Wall; Air; Wall] ++ [Wall; Air; Wall] ++ [Wall; Down; Wall] ++ [Wall; Wall; Wall]).
Lemma corridor_ok : complete corridor ∧ enclosed corridor ∧ dry corridor ∧ scanlvl corridor = Found 4 1 1 1.
Proof.
  split; [by apply (bool_decide_eq_true_1 (complete corridor)); vm_compute|]. split; [by apply enclosedb_ok; vm_compute|]. split; [|by vm_compute].
  intros x y t (Hx & Hy & Ht). unfold tileat in Ht. rewrite bool_decide_false in Ht by lia. apply elem_of_list_lookup_2 in Ht. apply elem_of_list_In in Ht. cbn in Ht.
  repeat destruct Ht as [<-|Ht]; done.
Qed.
(** Letting go of the jump button without steering is missing while rising: no operator has its effect. *)
Theorem C88_let_go_refuted : ∃ l gx gy x0 y0 acts p, complete l ∧ enclosed l ∧ scanlvl l = Found gx gy x0 y0 ∧ play l (initialstate x0 y0) acts = Some p ∧
  ∀ o, o ∈ ops p → act l p o ≠ act l p (Ctl false false false).
Proof.
  destruct corridor_ok as (H1 & H2 & _ & H3).
  pose (p := default (initialstate 1 1) (play corridor (initialstate 1 1) [left; jump; jump; jump])). vm_compute in p.
  exists corridor, 4, 1, 1, 1, [left; jump; jump; jump], p.
  split; [done|]. split; [done|]. split; [done|]. split; [by vm_compute|]. assert (ops p = [left; right; jump; leftjump; rightjump]) as -> by by vm_compute.
  intros o Ho. apply elem_of_list_In in Ho. cbn in Ho. repeat (destruct Ho as [<-|Ho]; [vm_compute; intros E; discriminate E|]). destruct Ho.
Qed.
(** The reverse operator of an edge does not always lead back, so not following it loses states: here is one step left
    and then right, as the first actions of a game. *)
Theorem C88_reverse_refuted : ∃ l gx gy x0 y0 q r v, complete l ∧ enclosed l ∧ scanlvl l = Found gx gy x0 y0 ∧
  edge l (initialstate x0 y0) left = Some (q, Some right) ∧ edge l q right = Some (r, v) ∧ pack r ≠ pack (initialstate x0 y0).
Proof.
  destruct corridor_ok as (H1 & H2 & _ & H3).
  exists corridor, 4, 1, 1, 1, (Player (Body (Box 1430 1360 2270 2520) 20 true) 0), (Player (Body (Box 1560 1380 2400 2540) 40 true) 0), None.
  split; [done|]. split; [done|]. split; [done|]. split; [by vm_compute|]. split; [by vm_compute|]. intros E. by vm_compute in E.
Qed.

(** ** C89: packed states *)
(** In all states of a game packing loses nothing. *)
Theorem C89_packing l gx gy x0 y0 acts p : complete l → enclosed l → scanlvl l = Found gx gy x0 y0 → play l (initialstate x0 y0) acts = Some p → unpack (pack p) = p.
Proof.
  intros Hc He Hs Hplay. destruct (start_cell l gx gy x0 y0 Hc Hs) as (t & Hcell & Hw). destruct (initial_fits l x0 y0 t He Hcell Hw) as (Hf & _ & Hp).
  destruct (play_ok l 10 490 (initialstate x0 y0) acts Hc He) as (p' & Hplay' & (Hsz & _) & (_ & _ & Hj)); try done; [by exists 4|apply gravity_any|]. rewrite Hplay in Hplay'. injection Hplay' as <-.
  destruct p as [[b dy fl] j]. cbn [pbody jframes bbx bdy] in *. unfold maxjframes in Hj.
  assert (j = 0 ∨ j = 1 ∨ j = 2 ∨ j = 3 ∨ j = 4 ∨ j = 5 ∨ j = 6 ∨ j = 7 ∨ j = 8) as Hj' by lia.
  unfold pack, unpack. cbn [pbody jframes bbx bdy fall kx ky kdy kj]. destruct Hsz as [E1 E2]. rewrite <-E1, <-E2. destruct b as [a1 a2 a3 a4]. cbn [minx miny maxx maxy].
  destruct fl; repeat destruct Hj' as [->|Hj']; try subst j; reflexivity.
Qed.
Corollary C89_distinct l gx gy x0 y0 acts1 acts2 p q : complete l → enclosed l → scanlvl l = Found gx gy x0 y0 →
  play l (initialstate x0 y0) acts1 = Some p → play l (initialstate x0 y0) acts2 = Some q → (pack p = pack q ↔ p = q).
Proof.
  intros Hc He Hs Hp Hq. split; [|by intros ->]. intros E. rewrite <-(C89_packing l gx gy x0 y0 acts1 p), <-(C89_packing l gx gy x0 y0 acts2 q) by done. by rewrite E.
Qed.

(** ** C90: level files *)
(** A picture of a level: its rows, one character for each tile. *)
Definition picture (w h : nat) (rows : list (list Z)) : Prop := length rows = h ∧ ∀ r, r ∈ rows → length r = w ∧ ∀ c, c ∈ r → is_Some (readtile c).
Definition drawn (rows : list (list Z)) : list Z := concat (map (λ r, r ++ [10]) rows).
Definition shows (l : level) (w h : nat) (rows : list (list Z)) : Prop :=
  lw l = Z.of_nat w ∧ lh l = Z.of_nat h ∧ complete l ∧ ∀ x y r c, rows !! y = Some r → r !! x = Some c → ∃ t, readtile c = Some t ∧ cell l (Z.of_nat x) (Z.of_nat y) t.

Lemma concat_lookup {A} (h : nat) (ls : list (list A)) i j : (∀ l, l ∈ ls → length l = h) → (j < h)%nat → concat ls !! (i * h + j)%nat = ls !! i ≫= λ l, l !! j.
Proof.
  intros Hl Hj. revert i. induction ls as [|l ls IH]; intros i; cbn [concat]; [by rewrite !lookup_nil|].
  assert (length l = h) as El by (apply Hl; left). destruct i as [|i].
  - cbn [Nat.mul Nat.add]. rewrite lookup_app_l by lia. done.
  - rewrite lookup_app_r by lia. cbn [lookup list_lookup]. rewrite <-IH by (intros; apply Hl; by right). f_equal. lia.
Qed.
Lemma concat_length {A} (h : nat) (ls : list (list A)) : (∀ l, l ∈ ls → length l = h) → length (concat ls) = (length ls * h)%nat.
Proof.
  intros Hl. induction ls as [|l ls IH]; [done|]. cbn [concat length Nat.mul]. rewrite app_length, IH by (intros; apply Hl; by right). by rewrite (Hl l) by left.
Qed.

Lemma readrow_iff n f ts g : readrow n f = Some (ts, g) ↔ ∃ r, f = r ++ 10 :: g ∧ length r = n ∧ map readtile r = map Some ts.
Proof.
  revert f ts. induction n as [|n IH]; intros f ts; cbn [readrow].
  - split.
    + intros H. destruct f as [|c f]; [done|]. destruct (decide (c = 10)) as [->|Hc].
      * injection H as <- ->. by exists [].
      * exfalso. repeat (case_match; try done).
    + intros (r & -> & Hr & Hm). destruct r; [|done]. cbn in *. destruct ts; done.
  - split.
    + destruct f as [|c f]; [done|]. destruct (readtile c) as [t|] eqn:Et; [|done]. destruct (readrow n f) as [[ts' g']|] eqn:E; [|done]. intros [= <- <-].
      apply IH in E as (r & -> & Hr & Hm). exists (c :: r). cbn. rewrite Et, Hm, Hr. done.
    + intros ([|c r] & -> & Hr & Hm); [done|]. destruct ts as [|t ts]; [done|]. cbn in *. injection Hm as Ht Hm. rewrite Ht.
      assert (readrow n (r ++ 10 :: g) = Some (ts, g)) as ->; [|done]. apply IH. exists r. split_and!; [done|lia|done].
Qed.
Lemma readrows_iff w h f rs : readrows w h f = Some rs ↔ ∃ rows rest, f = drawn rows ++ rest ∧ length rows = h ∧ (∀ r, r ∈ rows → length r = w) ∧ map (map readtile) rows = map (map Some) rs.
Proof.
  revert f rs. induction h as [|h IH]; intros f rs; cbn [readrows].
  - split.
    + intros [= <-]. exists [], f. split_and!; try done. intros r Hr. by apply elem_of_nil in Hr.
    + intros (rows & rest & _ & Hl & _ & Hm). destruct rows; [|done]. destruct rs; done.
  - split.
    + destruct (readrow w f) as [[ts g]|] eqn:E1; [|done]. destruct (readrows w h g) as [rs'|] eqn:E2; [|done]. intros [= <-].
      apply readrow_iff in E1 as (r & -> & Hr & Hm). apply IH in E2 as (rows & rest & -> & Hl & Hw & Hms). exists (r :: rows), rest. unfold drawn. cbn.
      split; [rewrite <-!app_assoc; done|]. split; [by rewrite Hl|]. split; [|by rewrite Hm, Hms]. intros r' [->|Hr']%elem_of_cons; [done|by apply Hw].
    + intros ([|r rows] & rest & -> & Hl & Hw & Hm); [done|]. destruct rs as [|ts rs]; [done|]. cbn in Hm, Hl. injection Hm as Hm Hms.
      assert (readrow w (drawn (r :: rows) ++ rest) = Some (ts, drawn rows ++ rest)) as ->.
      { apply readrow_iff. exists r. split; [unfold drawn; cbn; by rewrite <-!app_assoc|]. split; [apply Hw; left|done]. }
      assert (readrows w h (drawn rows ++ rest) = Some rs) as ->; [|done]. apply IH. exists rows, rest. split_and!; [done|lia| |done]. intros; apply Hw; by right.
Qed.
Lemma columns_shows w h rows rs : length rows = h → (∀ r, r ∈ rows → length r = w) → map (map readtile) rows = map (map Some) rs → shows (Lvl (Z.of_nat w) (Z.of_nat h) (columns w rs)) w h rows.
Proof.
  intros Hl Hw Hm. assert (length rs = h) as Hl'. { rewrite <-Hl. apply (f_equal length) in Hm. by rewrite !map_length in Hm. }
  assert (∀ l, l ∈ map (λ x, map (λ r : list tile, default Air (r !! x)) rs) (seq 0 w) → length l = h) as Hu.
  { intros l Hin. apply elem_of_list_In, in_map_iff in Hin as (x & <- & _). by rewrite map_length. }
  split; [done|]. split; [done|]. split.
  - split; [cbn; lia|]. split; [cbn; lia|]. cbn [lw lh blks]. unfold columns. rewrite (concat_length h) by done. rewrite map_length, seq_length. lia.
  - intros x y r c Hy Hx. assert (length r = w) as Hr by (apply Hw; by eapply elem_of_list_lookup_2).
    assert (x < w)%nat as Hxw by (rewrite <-Hr; by eapply lookup_lt_Some). assert (y < h)%nat as Hyh by (rewrite <-Hl; by eapply lookup_lt_Some).
    assert (∃ ts, rs !! y = Some ts ∧ map readtile r = map Some ts) as (ts & Hts & Em).
    { apply (f_equal (lookup y)) in Hm. change (map (map readtile) rows) with (map readtile <$> rows) in Hm. change (map (map (@Some tile)) rs) with (map (@Some tile) <$> rs) in Hm.
      rewrite !list_lookup_fmap, Hy in Hm. destruct (rs !! y) as [ts|]; [|done]. exists ts. split; [done|]. by injection Hm. }
    assert (∃ t, ts !! x = Some t ∧ readtile c = Some t) as (t & Ht & Ec).
    { apply (f_equal (lookup x)) in Em. change (map readtile r) with (readtile <$> r) in Em. change (map (@Some tile) ts) with (@Some tile <$> ts) in Em.
      rewrite !list_lookup_fmap, Hx in Em. destruct (ts !! x) as [t|]; [|done]. exists t. split; [done|]. by injection Em. }
    exists t. split; [done|]. unfold cell, tileat. cbn [lw lh blks]. split; [lia|]. split; [lia|]. rewrite bool_decide_false by lia.
    replace (Z.to_nat _) with (x * h + y)%nat by lia. unfold columns. rewrite (concat_lookup h) by done.
    change (map (λ x, map (λ r : list tile, default Air (r !! x)) rs) (seq 0 w)) with ((λ x, map (λ r : list tile, default Air (r !! x)) rs) <$> seq 0 w).
    rewrite list_lookup_fmap, lookup_seq_lt by done. cbn [fmap option_fmap option_map mbind option_bind Nat.add].
    change (map (λ r : list tile, default Air (r !! x)) rs) with ((λ r : list tile, default Air (r !! x)) <$> rs). rewrite list_lookup_fmap, Hts. cbn [fmap option_fmap option_map]. by rewrite Ht.
Qed.

(** A picture of the size announced is read as it is drawn ... *)
Theorem C90_read w h rows rest : Z.of_nat w * Z.of_nat h < 2 ^ 32 → picture w h rows → ∃ l, readlvl 1 w h (10 :: drawn rows ++ rest) = Some l ∧ shows l w h rows.
Proof.
  intros Hsz [Hl Hr]. unfold readlvl. rewrite bool_decide_true by done. rewrite bool_decide_false by lia. cbn [negb orb].
  assert (∃ rs, map (map readtile) rows = map (map Some) rs) as [rs Hrs].
  { clear Hl Hsz. induction rows as [|r rows IH]; [by exists []|]. destruct IH as [rs Hrs]; [intros; apply Hr; by right|].
    assert (∃ ts, map readtile r = map Some ts) as [ts Hts].
    { destruct (Hr r) as [_ Hc]; [left|]. clear -Hc. induction r as [|c r IH]; [by exists []|]. destruct IH as [ts Hts]; [intros; apply Hc; by right|]. destruct (Hc c) as [t Ht]; [left|]. exists (t :: ts). cbn. by rewrite Ht, Hts. }
    exists (ts :: rs). cbn. by rewrite Hts, Hrs. }
  assert (readrows w h (drawn rows ++ rest) = Some rs) as ->. { apply readrows_iff. exists rows, rest. split_and!; try done. intros r Hin. by apply Hr. }
  eexists. split; [done|]. apply columns_shows; [done| |done]. intros r Hin. by apply Hr.
Qed.
(** ... and nothing else is accepted. *)
Theorem C90_only_pictures d w h f l : readlvl d w h f = Some l → d = 1%nat ∧ Z.of_nat w * Z.of_nat h < 2 ^ 32 ∧ ∃ rows rest, f = 10 :: drawn rows ++ rest ∧ picture w h rows ∧ shows l w h rows.
Proof.
  unfold readlvl. intros H. destruct (decide (d = 1%nat)) as [->|Hd]; [|rewrite bool_decide_false in H by done; done]. rewrite bool_decide_true in H by done. cbn [negb orb] in H.
  case_bool_decide as Hsz; [done|]. split; [done|]. split; [lia|]. destruct f as [|c f]; [done|].
  destruct (decide (c = 10)) as [->|Hc]; [|exfalso; repeat (case_match; try done)].
  destruct (readrows w h f) as [rs|] eqn:E; [|done]. injection H as <-. apply readrows_iff in E as (rows & rest & -> & Hl & Hw & Hm). exists rows, rest. split; [done|].
  split; [|by apply columns_shows]. split; [done|]. intros r Hr. split; [by apply Hw|]. intros c Hc. clear -Hm Hr Hc. revert rs Hm. induction rows as [|r' rows IH]; intros rs Hm; [by apply elem_of_nil in Hr|].
  destruct rs as [|ts rs]; [done|]. cbn in Hm. injection Hm as Hm Hms. apply elem_of_cons in Hr as [->|Hr]; [|by eapply IH].
  clear -Hm Hc. revert ts Hm. induction r' as [|c' r' IH]; intros ts Hm; [by apply elem_of_nil in Hc|]. destruct ts as [|t ts]; [done|]. cbn in Hm. injection Hm as Ht Hm.
  apply elem_of_cons in Hc as [->|Hc]; [by exists t|by eapply IH].
Qed.

(** What the seven characters mean: ' ' air, '#' wall, 'w' water, 'd' the goal, 'u' the start, 'D' and 'U' goal and start
    in water.  No other character is read. *)
Theorem C90_letters c :
  (is_Some (readtile c) ↔ c ∈ [32; 35; 119; 100; 68; 117; 85]) ∧
  ∀ t, readtile c = Some t → (collide t ↔ c = 35) ∧ (water t ↔ c = 119 ∨ c = 68 ∨ c = 85) ∧ (down t ↔ c = 100 ∨ c = 68) ∧ (up t ↔ c = 117 ∨ c = 85).
Proof.
  unfold readtile. split.
  - rewrite !elem_of_cons, elem_of_nil. repeat match goal with |- context [?a =? ?b] => destruct (Z.eqb_spec a b); [split; [lia|eauto]|] end.
    split; [by intros []|lia].
  - intros t. repeat match goal with |- context [?a =? ?b] => destruct (Z.eqb_spec a b) as [->|]; [intros [= <-]; cbn; repeat split; intros; try done; lia|] end. done.
Qed.
(** So the file decides what is where. *)
Corollary C90_letters_shown l w h rows x y r c : shows l w h rows → rows !! y = Some r → r !! x = Some c →
  ∃ t, cell l (Z.of_nat x) (Z.of_nat y) t ∧ (collide t ↔ c = 35) ∧ (water t ↔ c = 119 ∨ c = 68 ∨ c = 85) ∧
    (down t ↔ c = 100 ∨ c = 68) ∧ (up t ↔ c = 117 ∨ c = 85).
Proof.
  intros (_ & _ & _ & Hs) Hy Hx. destruct (Hs x y r c Hy Hx) as (t & Ht & Hc). exists t. split; [done|]. by apply C90_letters.
Qed.

(** ** Examples *)
(** The corridor as a file: "\n######\n#u  d#\n######\n" *)
Example corridor_file : readlvl 1 6 3 (10 :: drawn [[35; 35; 35; 35; 35; 35]; [35; 117; 32; 32; 100; 35]; [35; 35; 35; 35; 35; 35]]) = Some corridor.
Proof. by vm_compute. Qed.
(** The hypotheses of C71, C86-C89 are met by it, and the game can be won. *)
Example corridor_won : ∃ p, play corridor (initialstate 1 1) (repeat right 40) = Some p ∧ isgoal corridor 4 1 p = Some true.
Proof. eexists. split; [vm_compute; reflexivity|]. by vm_compute. Qed.
Example corridor_meets : complete corridor ∧ enclosed corridor ∧ dry corridor ∧ scanlvl corridor = Found 4 1 1 1.
Proof. exact corridor_ok. Qed.
(** A level that is refused although it has one start and one goal *)
Definition shaft : level := Lvl 3 6 (repeat Wall 6 ++ [Wall; Up; Air; Air; Down; Wall] ++ repeat Wall 6).
Example shaft_refused : complete shaft ∧ enclosed shaft ∧ scanlvl shaft = ManyStarts.
Proof. split; [by apply (bool_decide_eq_true_1 (complete shaft)); vm_compute|]. split; [by apply enclosedb_ok; vm_compute|by vm_compute]. Qed.

Print Assumptions C86_never_in_walls.
Print Assumptions C86_goal.
Print Assumptions C87_dry_levels.
Print Assumptions C87_speed_refuted.
Print Assumptions C88_operators.
Print Assumptions C88_let_go_refuted.
Print Assumptions C88_reverse_refuted.
Print Assumptions C89_packing.
Print Assumptions C89_distinct.
Print Assumptions C90_read.
Print Assumptions C90_only_pictures.
Print Assumptions C90_letters.
Print Assumptions C90_letters_shown.
