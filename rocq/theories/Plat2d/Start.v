(** Players and the start of a level (C71). *)
From stdpp Require Import prelude.
From Coq Require Import ZArith Lia ZifyBool ZifyNat.
From Verif Require Import Plat2d.Model Plat2d.Motion.
Local Open Scope Z_scope.

(** ** Players *)
(** The speeds a player can have.  [u] is 10, and 20 in levels without water. *)
Definition paced (u top : Z) (p : player) : Prop := - jmpspeed <= bdy (pbody p) <= top ∧ (u | bdy (pbody p)) ∧ 0 <= jframes p <= maxjframes.
Lemma chngjmp_ok p a u top : (u | px) → 0 <= top → paced u top p → paced u top (chngjmp p a) ∧ bbx (pbody (chngjmp p a)) = bbx (pbody p).
Proof.
  intros [k Hk] Htop (H1 & [q Hq] & H3). unfold chngjmp, paced. unfold maxjframes in *.
  destruct (negb (cjump a) && fall (pbody p)).
  - cbn [pbody jframes]. case_bool_decide as Hneg; [|split; [|done]; split; [lia|]; split; [by exists q|lia]]. cbn [bbx bdy]. split; [|done]. case_bool_decide.
    + split; [units; lia|]. split; [by exists 0|lia].
    + split; [units; lia|]. split; [|lia]. exists (q + (8 - jframes p) * k). rewrite Hq, Hk. lia.
  - destruct (cjump a && negb (fall (pbody p))); cbn [pbody jframes bbx bdy]; (split; [|done]).
    + split; [units; lia|]. split; [|lia]. exists (-8 * k). unfold jmpspeed. rewrite Hk. lia.
    + split; [lia|]. split; [by exists q|lia].
Qed.

Lemma act_ok l p a u top : complete l → enclosed l → fits l (bbx (pbody p)) → paced u top p → (u | px) →
  (∀ x y t v, cell l x y t → (u | v) → v < maxdy → (u | gravity t) ∧ v + gravity t <= top) → 0 <= top → 
  ∃ p', act l p a = Some p' ∧ fits l (bbx (pbody p')) ∧ paced u top p' ∧
    Z.abs (minx (bbx (pbody p')) - minx (bbx (pbody p))) <= 130 ∧ Z.abs (miny (bbx (pbody p')) - miny (bbx (pbody p))) <= Z.max jmpspeed top.
Proof.
  intros Hc He Hf Hp Hu Hg Htop. unfold act. cbn zeta. destruct (chngjmp_ok p a u top Hu Htop Hp) as [Hp1 Eb]. set (p1 := chngjmp p a) in *. clearbody p1. rewrite <-Eb in *.
  unfold xvel. cbn zeta. destruct Hf as (Hsz & Hin & Hout). destruct (majorblk_ok l (bbx (pbody p1)) Hc Hin Hsz) as (t & x & y & -> & _ & _). cbn [mbind option_bind fst].
  set (dx := if bool_decide (_ = 0) then _ else _). assert (Z.abs dx <= 130) as Hdx.
  { unfold dx, speed. repeat case_bool_decide; destruct (water t), (cleft a), (cright a); lia. }
  destruct (move_ok l (pbody p1) dx Hc He) as (b' & -> & Hf' & D1 & D2 & D3); [by split_and!|]. cbn [mbind option_bind]. eexists. split; [done|]. cbn [pbody jframes].
  destruct Hp1 as (P1 & P2 & P3). split; [done|]. split; [|split; [lia|]].
  - unfold paced. cbn [pbody jframes]. split; [split|split; [|case_bool_decide; lia]].
    + destruct D3 as [->|[->|(x' & y' & t' & _ & [[-> _]| ->])]]; [lia|units; lia| |]; unfold gravity; destruct (water t'); units; lia.
    + destruct D3 as [->|[->|(x' & y' & t' & Hcell & [[-> Hlt]| ->])]]; [lia|lia|by eapply Hg|]. destruct (Hg x' y' t' 0 Hcell) as [_ ?]; [by exists 0|units; lia|]. lia.
    + destruct D3 as [->|[->|(x' & y' & t' & Hcell & [[-> Hlt]| ->])]]; [done|by exists 0| |].
      * apply Z.divide_add_r; [done|]. by eapply Hg.
      * destruct (Hg x' y' t' 0 Hcell) as [? _]; [by exists 0|units; lia|]. done.
  - units. lia.
Qed.

(** A sequence of actions *)
Fixpoint play (l : level) (p : player) (acts : list controls) : option player :=
  match acts with [] => Some p | a :: acts => match act l p a with Some p => play l p acts | None => None end end.

(** Where a player may stand at the start: at the offsets within a tile that is no wall. *)
Lemma initial_fits l x0 y0 t : enclosed l → cell l x0 y0 t → t ≠ Wall → fits l (bbx (pbody (initialstate x0 y0))) ∧ paced 20 480 (initialstate x0 y0) ∧ paced 10 490 (initialstate x0 y0).
Proof.
  intros He (Hx & Hy & Ht) Hw.
  assert (x0 ≠ 0 ∧ x0 ≠ lw l - 1 ∧ y0 ≠ 0 ∧ y0 ≠ lh l - 1) as (B1 & B2 & B3 & B4).
  { split_and!; intros E; rewrite (He x0 y0 Hx Hy) in Ht; [by injection Ht as <-|tauto|by injection Ht as <-|tauto|by injection Ht as <-|tauto|by injection Ht as <-|tauto]. }
  unfold initialstate. cbn [pbody bbx]. split; [|split; split; cbn [pbody bdy jframes]; [units; lia|split; [by exists 0|done]|units; lia|split; [by exists 0|done]]].
  split; [|split].
  - unfold player_sized. cbn [minx maxx miny maxy]. done.
  - unfold inside. cbn [minx maxx miny maxy]. units. lia.
  - intros x y (Hx' & Hy' & HW) Ho. unfold overlap in Ho. cbn [minx maxx miny maxy] in Ho.
    assert (x = x0 ∧ y = y0) as [-> ->] by (units; lia). rewrite Ht in HW. injection HW as ->. done.
Qed.

(** ** C71: start and goal *)
Definition isdown (l : level) (xy : Z * Z) : Prop := ∃ t, tileat l xy.1 xy.2 = Some t ∧ down t = true.
Definition isup (l : level) (xy : Z * Z) : Prop := ∃ t, tileat l xy.1 xy.2 = Some t ∧ up t = true.
Definition scan_inv (l : level) (zs : list (Z * Z)) (r : scan) : Prop :=
  match r with
  | Found gx gy x0 y0 =>
      ((gx = lw l ∧ gy = lh l ∧ ∀ xy, xy ∈ zs → ¬ isdown l xy) ∨ ((gx, gy) ∈ zs ∧ isdown l (gx, gy) ∧ ∀ xy, xy ∈ zs → isdown l xy → xy = (gx, gy))) ∧
      ((x0 = lw l ∧ y0 = lh l ∧ ∀ xy, xy ∈ zs → ¬ isup l xy) ∨ ((x0, y0) ∈ zs ∧ isup l (x0, y0) ∧ lh l <= lw l ∧ ∀ xy, xy ∈ zs → isup l xy → xy = (x0, y0)))
  | ManyGoals => ∃ a b, a ∈ zs ∧ b ∈ zs ∧ a ≠ b ∧ isdown l a ∧ isdown l b
  | ManyStarts => (∃ a b, a ∈ zs ∧ b ∈ zs ∧ a ≠ b ∧ isup l a ∧ isup l b) ∨ (lw l < lh l ∧ ∃ a, a ∈ zs ∧ isup l a)
  | _ => False
  end.
Lemma scan_fold l zs : NoDup zs → (∀ xy, xy ∈ zs → 0 <= xy.1 < lw l ∧ 0 <= xy.2 < lh l ∧ ∃ t, tileat l xy.1 xy.2 = Some t) →
  scan_inv l zs (foldl (λ r xy, scantile l xy r) (Found (lw l) (lh l) (lw l) (lh l)) zs).
Proof.
  induction zs as [|xy zs IH] using rev_ind; intros Hnd Hz.
  - cbn. split; left; (split_and!; [done..|]); intros xy H; by apply elem_of_nil in H.
  - rewrite foldl_app. cbn [foldl]. apply NoDup_app in Hnd as (Hnd & Hdis & _). assert (xy ∉ zs) as Hnin. { intros Hin. apply (Hdis xy Hin). left. }
    assert (∀ z, z ∈ zs → z ∈ zs ++ [xy]) as Hin by (intros; apply elem_of_app; by left).
    assert (xy ∈ zs ++ [xy]) as Hlast by (apply elem_of_app; right; left).
    specialize (IH Hnd (λ z H, Hz z (Hin z H))). destruct (Hz xy Hlast) as (Hx & Hy & t & Ht). destruct (foldl _ _ zs) as [gx gy x0 y0| | | | |]; cbn [scantile scan_inv] in *; try done.
    + rewrite Ht. destruct IH as [HG HU].
      assert (∀ z, z ∈ zs ++ [xy] → z ∈ zs ∨ z = xy) as Hcase. { intros z [?|?%elem_of_list_singleton]%elem_of_app; tauto. }
      assert (isdown l xy ↔ down t = true) as Hd. { split; [intros (t' & E & ?); rewrite Ht in E; by injection E as ->|intros; by exists t]. }
      assert (isup l xy ↔ up t = true) as Hu. { split; [intros (t' & E & ?); rewrite Ht in E; by injection E as ->|intros; by exists t]. }
      destruct (down t) eqn:Ed; cbn [andb].
      * assert (up t = false) as Eu by (destruct t; done). rewrite Eu in *. cbn [andb]. destruct HG as [(-> & -> & HG)|(HG1 & HG2 & HG3)].
        -- rewrite bool_decide_false by lia. cbn [scan_inv]. split.
           ++ right. destruct xy as [x y]. cbn [fst snd] in *. split; [done|]. split; [by apply Hd|]. intros z [Hzin| ->]%Hcase Hzd; [|done]. by destruct (HG z Hzin).
           ++ destruct HU as [(-> & -> & HU)|(HU1 & HU2 & HU3 & HU4)]; [left|right].
              ** split_and!; [done..|]. intros z [?| ->]%Hcase; [by apply HU|]. rewrite Hu. done.
              ** split_and!; [by apply Hin|done..|]. intros z [?| ->]%Hcase Hzu; [by apply HU4|]. by apply Hu in Hzu.
        -- destruct (Hz _ (Hin _ HG1)) as (HG1x & HG1y & _). cbn [fst snd] in *. rewrite bool_decide_true by lia. cbn [scan_inv]. exists (gx, gy), xy. split_and!; try done; [by apply Hin|intros E; by rewrite <-E in Hnin|by apply Hd].
      * assert (¬ isdown l xy) as Hnd'. { by rewrite Hd. }
        assert ((gx = lw l ∧ gy = lh l ∧ ∀ z, z ∈ zs ++ [xy] → ¬ isdown l z) ∨ ((gx, gy) ∈ zs ++ [xy] ∧ isdown l (gx, gy) ∧ ∀ z, z ∈ zs ++ [xy] → isdown l z → z = (gx, gy))) as HG'.
        { destruct HG as [(-> & -> & HG)|(HG1 & HG2 & HG3)]; [left|right].
          - split_and!; [done..|]. intros z [?| ->]%Hcase; [by apply HG|done].
          - split_and!; [by apply Hin|done|]. intros z [?| ->]%Hcase Hzd; [by apply HG3|done]. }
        destruct (up t) eqn:Eu; cbn [andb].
        -- destruct HU as [(-> & -> & HU)|(HU1 & HU2 & HU3 & HU4)].
           ++ case_bool_decide as Hwh; cbn [scan_inv].
              ** right. split; [lia|]. exists xy. split; [done|by apply Hu].
              ** split; [done|]. right. destruct xy as [x y]. cbn [fst snd] in *. split; [done|]. split; [by apply Hu|]. split; [lia|]. intros z [Hzin| ->]%Hcase Hzu; [|done]. by destruct (HU z Hzin).
           ++ destruct (Hz _ (Hin _ HU1)) as (HU1x & HU1y & _). cbn [fst snd] in *. rewrite bool_decide_true by lia. cbn [scan_inv]. left. exists (x0, y0), xy. split_and!; try done; [by apply Hin|intros E; by rewrite <-E in Hnin|by apply Hu].
        -- cbn [scan_inv]. split; [done|]. destruct HU as [(-> & -> & HU)|(HU1 & HU2 & HU3 & HU4)]; [left|right].
           ++ split_and!; [done..|]. intros z [?| ->]%Hcase; [by apply HU|]. by rewrite Hu.
           ++ split_and!; [by apply Hin|done..|]. intros z [?| ->]%Hcase Hzu; [by apply HU4|]. by apply Hu in Hzu.
    + destruct IH as (a & b & ? & ? & ? & ? & ?). exists a, b. split_and!; try done; by apply Hin.
    + destruct IH as [(a & b & ? & ? & ? & ? & ?)|[? (a & ? & ?)]]; [left|right].
      * exists a, b. split_and!; try done; by apply Hin.
      * split; [done|]. exists a. split; [by apply Hin|done].
Qed.
Lemma NoDup_zonetiles z : NoDup (zonetiles z).
Proof.
  destruct z as [[[x0 y0] x1] y1]. unfold zonetiles.
  assert (∀ a b, NoDup (zrange a b)) as Hr. { intros a b. unfold zrange. apply NoDup_fmap_2_strong; [|apply NoDup_ListNoDup, seq_NoDup]. intros i j _ _ E. lia. }
  assert (∀ xs : list Z, NoDup xs → NoDup (x ← xs; map (λ y, (x, y)) (zrange y0 y1))) as H; [|by apply H].
  induction xs as [|x xs IH]; intros Hnd; [constructor|]. apply NoDup_cons in Hnd as [Hx Hnd]. cbn [mbind list_bind]. apply NoDup_app. split; [|split].
  - apply NoDup_fmap_2_strong; [|apply Hr]. intros i j _ _ E. by injection E.
  - intros [a b] Hab Hab'. apply elem_of_list_In, in_map_iff in Hab as (y & [= <- <-] & _). apply elem_of_list_bind in Hab' as (x' & Hin & Hx').
    apply elem_of_list_In, in_map_iff in Hin as (y' & [= <- <-] & _). done.
  - by apply IH.
Qed.

(** A tile of a kind at one place only *)
Definition only (l : level) (k : tile → bool) (x y : Z) : Prop :=
  0 <= x < lw l ∧ 0 <= y < lh l ∧ ∀ x' y' t, cell l x' y' t → (k t = true ↔ x' = x ∧ y' = y).

Lemma scan_cells l : complete l → scan_inv l (zonetiles (0, 0, lw l - 1, lh l - 1)) (foldl (λ r xy, scantile l xy r) (Found (lw l) (lh l) (lw l) (lh l)) (zonetiles (0, 0, lw l - 1, lh l - 1))) ∧
  ∀ x y, (x, y) ∈ zonetiles (0, 0, lw l - 1, lh l - 1) ↔ 0 <= x < lw l ∧ 0 <= y < lh l.
Proof.
  intros Hc. assert (∀ x y, (x, y) ∈ zonetiles (0, 0, lw l - 1, lh l - 1) ↔ 0 <= x < lw l ∧ 0 <= y < lh l) as Hin by (intros x y; rewrite elem_of_zonetiles; lia).
  split; [|done]. apply scan_fold; [apply NoDup_zonetiles|]. intros [x y] [Hx Hy]%Hin. cbn [fst snd]. split; [done|]. split; [done|]. destruct (cell_some l x y Hc Hx Hy) as (t & ? & _). by exists t.
Qed.
(** A level is accepted exactly if it has one goal tile, one start tile and is not taller than wide. *)
Theorem C71_accepted l gx gy x0 y0 : complete l →
  (scanlvl l = Found gx gy x0 y0 ↔ only l down gx gy ∧ only l up x0 y0 ∧ lh l <= lw l).
Proof.
  intros Hc. destruct (scan_cells l Hc) as [HI Hin]. unfold scanlvl. set (zs := zonetiles (0, 0, lw l - 1, lh l - 1)) in *. split.
  - destruct (foldl _ _ zs) as [gx' gy' x0' y0'| | | | |]; try done. cbn [scan_inv] in HI. destruct HI as [HG HU].
    case_bool_decide as B1; [done|]. case_bool_decide as B2; [done|]. intros [= -> -> -> ->].
    destruct HG as [(-> & -> & _)|(HG1 & (tg & Htg & Hdg) & HG3)]; [lia|]. destruct HU as [(-> & -> & _)|(HU1 & (tu & Htu & Huu) & HU3 & HU4)]; [lia|].
    apply Hin in HG1, HU1. cbn [fst snd] in *. split; [|split; [|done]].
    + split; [lia|]. split; [lia|]. intros x' y' t (Hx & Hy & Ht). split.
      * intros Hd. assert ((x', y') = (gx, gy)) as [= -> ->]; [|done]. apply HG3; [by apply Hin|]. by exists t.
      * intros [-> ->]. rewrite Htg in Ht. by injection Ht as <-.
    + split; [lia|]. split; [lia|]. intros x' y' t (Hx & Hy & Ht). split.
      * intros Hd. assert ((x', y') = (x0, y0)) as [= -> ->]; [|done]. apply HU4; [by apply Hin|]. by exists t.
      * intros [-> ->]. rewrite Htu in Ht. by injection Ht as <-.
  - intros ((Hg1 & Hg2 & Hg3) & (Hu1 & Hu2 & Hu3) & Hle).
    destruct (cell_some l gx gy Hc Hg1 Hg2) as (tg & Htg & Hcg). destruct (cell_some l x0 y0 Hc Hu1 Hu2) as (tu & Htu & Hcu).
    assert (isdown l (gx, gy)) as Hdg. { exists tg. split; [done|]. by apply (Hg3 gx gy tg Hcg). }
    assert (isup l (x0, y0)) as Huu. { exists tu. split; [done|]. by apply (Hu3 x0 y0 tu Hcu). }
    assert (∀ z, z ∈ zs → isdown l z → z = (gx, gy)) as Hod. { intros [x y] [Hx Hy]%Hin (t & Ht & Hd). cbn [fst snd] in *. apply (Hg3 x y t) in Hd as [-> ->]; [done|split; [done|split; done]]. }
    assert (∀ z, z ∈ zs → isup l z → z = (x0, y0)) as Hou. { intros [x y] [Hx Hy]%Hin (t & Ht & Hd). cbn [fst snd] in *. apply (Hu3 x y t) in Hd as [-> ->]; [done|split; [done|split; done]]. }
    assert ((gx, gy) ∈ zs) as Hgin by (by apply Hin). assert ((x0, y0) ∈ zs) as Huin by (by apply Hin).
    destruct (foldl _ _ zs) as [gx' gy' x0' y0'| | | | |]; cbn [scan_inv] in HI; try done.
    + destruct HI as [HG HU]. destruct HG as [(_ & _ & HG)|(HG1 & HG2 & _)]; [by destruct (HG (gx, gy) Hgin)|]. destruct HU as [(_ & _ & HU)|(HU1 & HU2 & _)]; [by destruct (HU (x0, y0) Huin)|].
      apply Hod in HG2 as [= -> ->]; [|done]. apply Hou in HU2 as [= -> ->]; [|done]. rewrite !bool_decide_false by lia. done.
    + destruct HI as (a & b & Ha & Hb & Hne & Hda & Hdb). apply Hod in Hda, Hdb; [|done..]. congruence.
    + destruct HI as [(a & b & Ha & Hb & Hne & Hda & Hdb)|[? _]]; [|lia]. apply Hou in Hda, Hdb; [|done..]. congruence.
Qed.
(** So a level with one goal and one start that is taller than wide is refused, as having several starts. *)
Theorem C71_narrow_refuted l gx gy x0 y0 : complete l → only l down gx gy → only l up x0 y0 → lw l < lh l → scanlvl l = ManyStarts.
Proof.
  intros Hc (Hg1 & Hg2 & Hg3) (Hu1 & Hu2 & Hu3) Hlt. destruct (scan_cells l Hc) as [HI Hin]. unfold scanlvl. set (zs := zonetiles (0, 0, lw l - 1, lh l - 1)) in *.
  assert (∀ z, z ∈ zs → isdown l z → z = (gx, gy)) as Hod. { intros [x y] [Hx Hy]%Hin (t & Ht & Hd). cbn [fst snd] in *. apply (Hg3 x y t) in Hd as [-> ->]; [done|split; [done|split; done]]. }
  destruct (cell_some l x0 y0 Hc Hu1 Hu2) as (tu & Htu & Hcu).
  assert (isup l (x0, y0)) as Huu. { exists tu. split; [done|]. by apply (Hu3 x0 y0 tu Hcu). }
  destruct (foldl _ _ zs) as [gx' gy' x0' y0'| | | | |]; cbn [scan_inv] in HI; try done.
  - destruct HI as [_ [(_ & _ & HU)|(_ & _ & ? & _)]]; [|lia]. by destruct (HU (x0, y0)); [by apply Hin|].
  - destruct HI as (a & b & Ha & Hb & Hne & Hda & Hdb). apply Hod in Hda, Hdb; [|done..]. congruence.
Qed.

Print Assumptions C71_accepted.
Print Assumptions C71_narrow_refuted.
