(** C117 - C119: the heuristic of the platform game, plat2d.cc:62-127 and plat2d.hpp:94-98 and 229-281.

    Points of the map are exact rationals, in frames ("squished" coordinates): pixels divided by the speeds Maxx = 3.25
    and Maxy = 12.  The length that VisGraph keeps with an edge is not used there, it is [tt] here.  savemap, which
    draws a picture, and the timing are left out. *)
From stdpp Require Import prelude.
From Coq Require Import ZArith Lia ZifyBool ZifyNat QArith Qround Lqa.
From Verif.BinHeap Require Model.
From Verif.Geom Require Model Basics Map Grid.
From Verif.Visnav Require Model Graph Props.
From Verif.Grid2poly Require Model Components Inside Props.
From Verif Require Import Plat2d.Model Plat2d.Motion Plat2d.Start Plat2d.Props.
From Verif Require Plat2d.Dijkstra.
Local Open Scope Z_scope.

Notation pt := Geom.Model.pt.
Notation Pt := Geom.Model.Pt.
Notation px_ := Geom.Model.x.
Notation py_ := Geom.Model.y.
Notation graph := (Visnav.Model.graph unit).
Notation locof := (Visnav.Model.loc).

(** plat2d.hpp:29 and 32: the size of a tile in frames *)
Definition W : Q := 128 # 13.
Definition H : Q := 8 # 3.
Definition qmax (a b : Q) : Q := if Qle_bool a b then b else a.
Definition qabs (a : Q) : Q := if Qle_bool 0 a then a else (- a)%Q.
(** The larger one of the horizontal and the vertical distance. *)
Definition span (p q : pt) : Q := qmax (qabs (px_ p - px_ q)) (qabs (py_ p - py_ q)).
Definition nolength (p q : pt) : unit := tt.

(** plat2d.cc:76-78 *)
Definition middle (a : Z * Z) : pt := Pt (inject_Z a.1 + (1 # 2)) (inject_Z a.2 + (1 # 2)).
(** plat2d.cc:75-83; -1 is [None] *)
Fixpoint addcenters (g : graph) (cells : list (Z * Z)) : option (graph * list (option nat)) :=
  match cells with
  | [] => Some (g, [])
  | a :: cells =>
      if Geom.Model.obstructed (Visnav.Model.gmap g) (middle a) then
        '(g, cs) ← addcenters g cells; Some (g, None :: cs)
      else
        '(g, i) ← Visnav.Model.add nolength g (middle a); '(g, cs) ← addcenters g cells; Some (g, Some i :: cs)
  end.
Definition cellsof (l : level) : list (Z * Z) := map (λ i, (Z.of_nat i / lh l, Z.of_nat i `mod` lh l)) (seq 0 (Z.to_nat (lw l * lh l))).
(** plat2d.cc:106-113: the edges of a vertex with their costs; the third number of the maximum there, the diagonal by the
    root of two, is never more than the others (C116_diagonal). *)
Definition outgoing (g : graph) (v : Visnav.Model.vert unit) : option (list (nat * Q)) :=
  mapM (λ e, a ← Visnav.Model.gverts g !! Visnav.Model.src e; b ← Visnav.Model.gverts g !! Visnav.Model.dst e;
             Some (Visnav.Model.dst e, span (locof a) (locof b))) (Visnav.Model.edges v).

(** plat2d.hpp:288-292 *)
Record vismap := Vis { vg : graph; centers : list (option nat); gcenter : nat; togoal : Dijkstra.paths }.
(** plat2d.cc:62-125.  blkd is filled in the order of the tiles of the level.  The edges of all vertices are computed
    before the distances here. *)
Definition initvg (l : level) (gx gy : Z) (n fuel : nat) : option vismap :=
  pm ← Geom.Grid.gridmap (Z.to_nat (lw l)) (Z.to_nat (lh l)) (map collide (blks l)) n fuel;
  g ← Visnav.Model.build nolength pm;
  '(g, cs) ← addcenters g (cellsof l);
  g ← Visnav.Model.scale nolength W H g;
  es ← mapM (outgoing g) (Visnav.Model.gverts g);
  c ← mjoin (cs !! Z.to_nat (gx * lh l + gy));
  t ← Dijkstra.dijkstra (λ v, default [] (es !! v)) (S (length es)) c;
  Some (Vis g cs c t).

(** plat2d.hpp:234-236: the center of the box; both units are a 40th of a pixel. *)
Definition frames (b : bbox) : pt := Pt (inject_Z (minx b + maxx b) / inject_Z 260) (inject_Z (miny b + maxy b) / inject_Z 960).
(** plat2d.cc:40-43, plat2d.hpp:266-281 *)
Definition goalpt (gx gy bx by_ : Z) (loc : pt) : pt :=
  Pt (if bool_decide (bx = gx) then px_ loc else (inject_Z (if bool_decide (bx < gx)%Z then gx else (gx + 1)%Z) * W)%Q)
     (if bool_decide (by_ = gy) then py_ loc else (inject_Z (if bool_decide (by_ < gy)%Z then gy else (gy + 1)%Z) * H)%Q).
(** plat2d.hpp:229-262, for a tile that is not the goal.  An infinite distance is [None]. *)
Definition atleast1 (h : Z) : Z := if bool_decide (h <= 0) then 1 else h.
Definition insight (v : vismap) (c : nat) (loc g : pt) : bool :=
  bool_decide (Dijkstra.prev (togoal v) c = Some (gcenter v)) || Geom.Model.isvisible (Visnav.Model.gmap (vg v)) loc g.
Definition hvis (l : level) (gx gy : Z) (v : vismap) (p : player) : option Z :=
  '(_, bx, by_) ← majorblk l (bbx (pbody p));
  if bool_decide (bx = gx ∧ by_ = gy) then Some 0
  else
    let loc := frames (bbx (pbody p)) in
    c ← mjoin (centers v !! Z.to_nat (bx * lh l + by_));
    u ← Visnav.Model.gverts (vg v) !! c;
    let g := goalpt gx gy bx by_ loc in
    if insight v c loc g then Some (atleast1 (Qfloor (span g loc)))
    else
      d ← BinHeap.Model.key (Dijkstra.queue (togoal v)) c;
      let h := (d - span loc (locof u) - qmax (W * (1 # 2)) (H * (1 # 2)))%Q in
      let h := if Qle_bool h 0 then 1%Q else h in
      Some (atleast1 (Qfloor h)).

(** ** Specification: the rooms of a level *)
Definition free (l : level) (a : Z * Z) : Prop := ∃ t, cell l a.1 a.2 t ∧ t ≠ Wall.
(** One can get from one tile to the other over tiles that are not walls. *)
Definition joined (l : level) : Z * Z → Z * Z → Prop := rtc (λ a b, free l a ∧ free l b ∧ Z.abs (a.1 - b.1) + Z.abs (a.2 - b.2) = 1).
(** The rightmost tile that is not a wall in the topmost row with one. *)
Definition topmost (l : level) (e : Z * Z) : Prop :=
  free l e ∧ ∀ a, free l a → e.2 < a.2 ∨ e.2 = a.2 ∧ a.1 <= e.1.
Definition tileof (b : bbox) : Z * Z := ((minx b + maxx b) / (2 * tilew), (miny b + maxy b) / (2 * tileh)).

Section rooms.
Context (l : level) (Hc : complete l) (He : enclosed l).
Notation w := (Z.to_nat (lw l)).
Notation h := (Z.to_nat (lh l)).
Notation blkd := (map collide (blks l)).
Notation inrange := (Grid2poly.Components.inrange w h).
Notation blk := (Grid2poly.Model.blocked w h blkd).

Lemma inrange_iff a : inrange a ↔ 0 <= a.1 < lw l ∧ 0 <= a.2 < lh l.
Proof using Hc. destruct Hc as (? & ? & _). unfold Grid2poly.Components.inrange. lia. Qed.
Lemma blk_wall a : blk a.1 a.2 = true ↔ cell l a.1 a.2 Wall.
Proof using Hc.
  pose proof Hc as (H1 & H2 & H3). unfold Grid2poly.Model.blocked, cell, tileat, Grid2poly.Model.idx. rewrite !andb_true_iff, !bool_decide_eq_true, !Z2Nat.id by done. split.
  - intros [[Ha Hb] Hd]. split; [done|]. split; [done|]. rewrite bool_decide_false by lia. rewrite Z2Nat.inj_add, Z2Nat.inj_mul in * by nia.
    rewrite list_lookup_fmap in Hd. destruct (blks l !! _) as [t|]; [|done]. cbn in Hd. by destruct t.
  - intros (Ha & Hb & Hd). split; [done|]. rewrite bool_decide_false in Hd by lia. rewrite Z2Nat.inj_add, Z2Nat.inj_mul in * by nia. rewrite list_lookup_fmap, Hd. done.
Qed.
Lemma free_iff a : free l a ↔ inrange a ∧ blk a.1 a.2 = false.
Proof using Hc.
  rewrite inrange_iff. split.
  - intros (t & Ht & Hw). pose proof Ht as (? & ? & Hat). split; [done|]. apply not_true_iff_false. intros Hb%blk_wall. destruct Hb as (_ & _ & Hb). congruence.
  - intros [[Ha Hb] Hn]. destruct (cell_some l a.1 a.2 Hc Ha Hb) as (t & _ & Ht). exists t. split; [done|]. intros ->. apply not_true_iff_false in Hn. apply Hn. by apply blk_wall.
Qed.
Lemma border_wall a : 0 <= a.1 < lw l → 0 <= a.2 < lh l → a.1 = 0 ∨ a.1 = lw l - 1 ∨ a.2 = 0 ∨ a.2 = lh l - 1 → cell l a.1 a.2 Wall.
Proof using Hc He. intros Ha Hb Hd. split; [done|]. split; [done|]. by apply He. Qed.
Lemma free_inner a : free l a → 0 < a.1 < lw l - 1 ∧ 0 < a.2 < lh l - 1.
Proof using Hc He.
  intros (t & Ht & Hw). pose proof Ht as (Ha & Hb & Hat). destruct (decide (a.1 = 0 ∨ a.1 = lw l - 1 ∨ a.2 = 0 ∨ a.2 = lh l - 1)) as [Hd|Hd]; [|lia].
  destruct (border_wall a Ha Hb Hd) as (_ & _ & Hx). congruence.
Qed.
Lemma region_joined e a : free l e → Grid2poly.Inside.region blk e a ↔ joined l e a.
Proof using Hc He.
  intros Hfe. split.
  - intros Hr. assert (free l a ∧ joined l e a) as [_ ?]; [|done]. revert Hfe. induction Hr as [e|e b a (H1 & H2 & H3) _ IH]; intros Hfe; [split; [done|apply rtc_refl]|].
    assert (free l b) as Hfb. { apply free_iff. pose proof (free_inner e Hfe) as Hin. split; [apply inrange_iff; lia|done]. }
    destruct (IH Hfb) as [Hfa Hj]. split; [done|]. eapply rtc_l; [|done]. done.
  - induction 1 as [e|e b a (H1 & H2 & H3) _ IH]; [apply rtc_refl|]. eapply rtc_l; [|by apply IH]. apply free_iff in H1 as [_ H1], H2 as [_ H2]. done.
Qed.
Lemma framed_level : 0 < lw l → 0 < lh l → Grid2poly.Props.framed w h blkd.
Proof using Hc He.
  intros Hw Hh. split; [lia|]. split; [lia|]. intros a Ha Hd. apply blk_wall. apply inrange_iff in Ha as [Ha Hb]. rewrite !Z2Nat.id in Hd by lia. by apply border_wall.
Qed.
Lemma middle_in a : Geom.Grid.incell a (middle a).
Proof using. assert (Geom.Model.Threshold < 1 # 2)%Q as Ht by reflexivity. unfold Geom.Grid.incell, middle. cbn [Geom.Model.x Geom.Model.y]. split_and!; lra. Qed.

(** The polygon map of the level: what it leaves free is one room. *)
Lemma level_map gx gy : free l (gx, gy) → ∃ k pm e, (∀ n fuel, (k ≤ n)%nat → (k ≤ fuel)%nat → Geom.Grid.gridmap w h blkd n fuel = Some pm) ∧ Geom.Map.wellmap pm ∧
  topmost l e ∧ ∀ a, Geom.Model.obstructed pm (middle a) = false ↔ joined l e a.
Proof using Hc He.
  intros Hfg. pose proof (free_inner _ Hfg) as Hin. cbn [fst snd] in Hin. destruct (Geom.Grid.C112_free_space w h blkd) as (kn & kf & pm & Hpm & Hwm & Hcase); [apply framed_level; lia|].
  destruct Hcase as [[Hall _]|(e & Hre & Hwe & Hlow & Hreg)].
  { exfalso. apply free_iff in Hfg as [Hr Hb]. apply Hall in Hr. unfold Grid2poly.Components.wall in Hr. congruence. }
  assert (free l e) as Hfe. { apply free_iff. split; [done|]. by apply not_true_iff_false. }
  exists (kn + kf)%nat, pm, e. split; [intros; apply Hpm; lia|]. split; [done|]. split.
  - split; [done|]. intros a Ha. apply free_iff in Ha as [Ha Hb]. destruct (decide (a.2 < e.2 ∨ a.2 = e.2 ∧ e.1 < a.1)) as [Hd|Hd]; [|lia].
    apply (Hlow a Ha) in Hd. unfold Grid2poly.Components.wall in Hd. congruence.
  - intros a. rewrite (Hreg a (middle a) (middle_in a)). by apply region_joined.
Qed.
End rooms.

(** ** The graph *)
Lemma nolength_sym (p q : pt) : nolength p q = nolength q p.
Proof. done. Qed.
Lemma nolength_trans dx dy (p q : pt) : nolength (Geom.Model.translatept dx dy p) (Geom.Model.translatept dx dy q) = nolength p q.
Proof. done. Qed.
Notation reach := (Visnav.Props.reach nolength).
Notation place := Visnav.Props.place.
Lemma addcenters_spec cells : ∀ g, reach g → ∃ g' cs, addcenters g cells = Some (g', cs) ∧ reach g' ∧ Visnav.Model.gmap g' = Visnav.Model.gmap g ∧
  (∀ i p, place g i = Some p → place g' i = Some p) ∧ length cs = length cells ∧
  ∀ i a, cells !! i = Some a → (Geom.Model.obstructed (Visnav.Model.gmap g) (middle a) = true ∧ cs !! i = Some None) ∨
    (Geom.Model.obstructed (Visnav.Model.gmap g) (middle a) = false ∧ ∃ c, cs !! i = Some (Some c) ∧ place g' c = Some (middle a)).
Proof.
  induction cells as [|a cells IH]; intros g Hr; cbn [addcenters].
  - exists g, []. split_and!; try done.
  - destruct (Geom.Model.obstructed (Visnav.Model.gmap g) (middle a)) eqn:Eo.
    + destruct (IH g Hr) as (g' & cs & -> & Hr' & Hm & Hp & Hl & Hcs). cbn [mbind option_bind]. exists g', (None :: cs). split_and!; try done; [cbn; lia|].
      intros [|i] b Hi; [|by apply Hcs]. injection Hi as <-. by left.
    + destruct (Visnav.Props.C113_add_defined nolength nolength_sym nolength_trans g (middle a) Hr) as (g1 & E1).
      rewrite E1. cbn [mbind option_bind]. destruct (Visnav.Props.C114_added nolength nolength_sym nolength_trans g (middle a) g1 _ Hr E1) as (_ & Hl1 & Hm1 & _ & Hp1 & Ho1 & _).
      assert (reach g1) as Hr1 by by eapply Visnav.Props.reach_add.
      destruct (IH g1 Hr1) as (g' & cs & -> & Hr' & Hm & Hp & Hl & Hcs). cbn [mbind option_bind]. exists g', (Some (length (Visnav.Model.gverts g)) :: cs).
      split; [done|]. split; [done|]. split; [by rewrite Hm|]. split.
      { intros i p Hi. apply Hp. rewrite Ho1; [done|]. unfold Visnav.Props.place in Hi. apply fmap_Some in Hi as (? & Hi & _). by apply lookup_lt_Some in Hi. }
      split; [cbn; lia|]. rewrite Hm1 in Hcs. intros [|i] b Hi; [|by apply Hcs]. injection Hi as <-. right. split; [done|]. eexists. split; [done|]. by apply Hp.
Qed.

(** A walk in the graph and its length. *)
Inductive gwalk (g : graph) (i : nat) : nat → Q → Prop :=
| gwalk_nil u : Visnav.Model.gverts g !! i = Some u → gwalk g i i 0
| gwalk_snoc j x u e v : gwalk g i j x → Visnav.Model.gverts g !! j = Some u → e ∈ Visnav.Model.edges u → Visnav.Model.gverts g !! Visnav.Model.dst e = Some v →
    gwalk g i (Visnav.Model.dst e) (x + span (locof u) (locof v)).

Lemma span_pos p q : (0 <= span p q)%Q.
Proof.
  unfold span, qmax, qabs. destruct (Qle_bool 0 (px_ p - px_ q)) eqn:E1; destruct (Qle_bool 0 (py_ p - py_ q)) eqn:E2;
  match goal with |- context [Qle_bool ?a ?b] => destruct (Qle_bool a b) end;
  try apply Qle_bool_iff in E1; try apply Qle_bool_iff in E2;
  try (apply not_true_iff_false in E1; rewrite Qle_bool_iff in E1; apply Qnot_le_lt in E1); try (apply not_true_iff_false in E2; rewrite Qle_bool_iff in E2; apply Qnot_le_lt in E2); lra.
Qed.
Lemma cellsof_at l a : complete l → 0 <= a.1 < lw l → 0 <= a.2 < lh l → cellsof l !! Z.to_nat (a.1 * lh l + a.2) = Some a.
Proof.
  intros (H1 & H2 & H3) Ha Hb. unfold cellsof. rewrite list_lookup_fmap, lookup_seq_lt by nia. cbn. rewrite Z2Nat.id by nia. f_equal.
  replace (a.1 * lh l + a.2) with (a.2 + a.1 * lh l) by lia. rewrite Z.div_add, Z.mod_add by lia. rewrite Z.div_small, Z.mod_small by lia. by destruct a.
Qed.
Lemma mapM_all {A B} (f : A → option B) xs : (∀ i x, xs !! i = Some x → is_Some (f x)) → ∃ ys, mapM f xs = Some ys ∧ length ys = length xs ∧ ∀ i x, xs !! i = Some x → ∃ y, ys !! i = Some y ∧ f x = Some y.
Proof.
  intros Hf. assert (∃ ys, mapM f xs = Some ys) as [ys Hys].
  { induction xs as [|x xs IH]; [by exists []|]. destruct (Hf 0%nat x eq_refl) as [y Hy]. destruct IH as [ys Hys]; [intros i; apply (Hf (S i))|].
    exists (y :: ys). cbn [mapM]. rewrite Hy. cbn [mbind option_bind]. by rewrite Hys. }
  exists ys. split; [done|]. apply mapM_Some in Hys. split; [symmetry; by eapply Forall2_length|]. intros i x Hx. by destruct (Forall2_lookup_l _ _ _ _ _ Hys Hx) as (y & ? & ?); exists y.
Qed.
Lemma outgoing_spec g i v : reach g → Visnav.Model.gverts g !! i = Some v → ∃ es, outgoing g v = Some es ∧
  ∀ j c, (j, c) ∈ es ↔ ∃ e u, e ∈ Visnav.Model.edges v ∧ j = Visnav.Model.dst e ∧ Visnav.Model.gverts g !! j = Some u ∧ c = span (locof v) (locof u).
Proof.
  intros Hr Hv. destruct (Visnav.Props.C113_edges nolength nolength_sym nolength_trans g i v Hr Hv) as [_ Hes].
  unfold outgoing. match goal with |- context [mapM ?f0 _] => set (f := f0) end.
  assert (∀ e, e ∈ Visnav.Model.edges v → ∃ u, Visnav.Model.gverts g !! Visnav.Model.dst e = Some u ∧ f e = Some (Visnav.Model.dst e, span (locof v) (locof u))) as Hf.
  { intros e Hin. destruct (Hes e Hin) as (E1 & _ & u & Hu & _). exists u. split; [done|]. unfold f. rewrite E1, Hv. cbn [mbind option_bind]. by rewrite Hu. }
  destruct (mapM_all f (Visnav.Model.edges v)) as (es & E & Hl & Hy). { intros k e He. destruct (Hf e) as (u & _ & ->); [by eapply elem_of_list_lookup_2|done]. }
  exists es. split; [done|]. intros j c. split.
  - intros (k & Hk)%elem_of_list_lookup. destruct (lookup_lt_is_Some_2 (Visnav.Model.edges v) k) as [e He]; [rewrite <-Hl; by eapply lookup_lt_Some|].
    destruct (Hy k e He) as (y & Hk' & Hfe). rewrite Hk in Hk'. injection Hk' as <-. pose proof (elem_of_list_lookup_2 _ _ _ He) as Hin. destruct (Hf e Hin) as (u & Hu & Hfe').
    rewrite Hfe in Hfe'. injection Hfe' as -> ->. by exists e, u.
  - intros (e & u & Hin & -> & Hu & ->). destruct (Hf e Hin) as (u' & Hu' & Hfe). rewrite Hu in Hu'. injection Hu' as <-.
    apply elem_of_list_lookup in Hin as [k Hk]. destruct (Hy k e Hk) as (y & Hky & Hfe'). rewrite Hfe in Hfe'. injection Hfe' as <-. by eapply elem_of_list_lookup_2.
Qed.

(** The tile's center on the map. *)
Definition spot (a : Z * Z) : pt := Geom.Model.scalept W H (middle a).
Definition atile (l : level) (a : Z * Z) : Prop := 0 <= a.1 < lw l ∧ 0 <= a.2 < lh l.
(** The vertex of a tile. *)
Definition vertexof (l : level) (v : vismap) (a : Z * Z) (c : nat) : Prop :=
  centers v !! Z.to_nat (a.1 * lh l + a.2) = Some (Some c) ∧ place (vg v) c = Some (spot a).

Record sound (l : level) (e g : Z * Z) (v : vismap) : Prop := {
  s_room : ∀ a, atile l a → joined l e a → ∃ c, vertexof l v a c;
  s_else : ∀ a, atile l a → ¬ joined l e a → centers v !! Z.to_nat (a.1 * lh l + a.2) = Some None;
  s_goal : vertexof l v g (gcenter v);
  s_some : ∀ c d, BinHeap.Model.key (Dijkstra.queue (togoal v)) c = Some d → gwalk (vg v) (gcenter v) c d ∧ ∀ x, gwalk (vg v) (gcenter v) c x → (d <= x)%Q;
  s_none : ∀ c, BinHeap.Model.key (Dijkstra.queue (togoal v)) c = None → ∀ x, ¬ gwalk (vg v) (gcenter v) c x }.

Lemma initvg_sound l gx gy : complete l → enclosed l → free l (gx, gy) → ∃ k e, topmost l e ∧
  ((joined l e (gx, gy) ∧ ∃ v, (∀ n fuel, (k ≤ n)%nat → (k ≤ fuel)%nat → initvg l gx gy n fuel = Some v) ∧ sound l e (gx, gy) v) ∨
   (¬ joined l e (gx, gy) ∧ ∀ n fuel, (k ≤ n)%nat → (k ≤ fuel)%nat → initvg l gx gy n fuel = None)).
Proof.
  intros Hc He Hfg. pose proof (free_inner l Hc He _ Hfg) as Hin. cbn [fst snd] in Hin.
  destruct (level_map l Hc He gx gy Hfg) as (k & pm & e & Hpm & Hwm & Htop & Hobs). exists k, e. split; [done|].
  destruct (Visnav.Props.C114_built nolength nolength_sym pm) as (g0 & _ & E0 & Hm0 & _).
  assert (reach g0) as Hr0 by by eapply Visnav.Props.reach_build.
  destruct (addcenters_spec (cellsof l) g0 Hr0) as (g1 & cs & E1 & Hr1 & Hm1 & _ & Hl1 & Hcs). rewrite Hm0 in Hm1, Hcs.
  destruct (Geom.Map.C109_map_scaled W H pm) as (pm' & Esc & _); [reflexivity|reflexivity|done|].
  destruct (Visnav.Props.C113_scaled nolength nolength_sym nolength_trans g1 W H Hr1) as [Hsc1 Hsc2]. rewrite Hm1 in Hsc1.
  destruct (Hsc1 pm' Esc) as (g2 & E2). destruct (Hsc2 g2 E2) as (_ & Hpl & _ & _). assert (reach g2) as Hr2 by by eapply Visnav.Props.reach_scale.
  destruct (mapM_all (outgoing g2) (Visnav.Model.gverts g2)) as (es & Ees & Hles & Hes). { intros i v Hv. destruct (outgoing_spec g2 i v Hr2 Hv) as (? & -> & _). done. }
  assert (∀ a, atile l a → (¬ joined l e a ∧ cs !! Z.to_nat (a.1 * lh l + a.2) = Some None) ∨ (joined l e a ∧ ∃ c, cs !! Z.to_nat (a.1 * lh l + a.2) = Some (Some c) ∧ place g2 c = Some (spot a))) as Hcell.
  { intros a [Ha Hb]. destruct (Hcs _ _ (cellsof_at l a Hc Ha Hb)) as [[Ho ?]|[Ho (c & ? & Hp)]].
    - left. split; [|done]. intros Hj%Hobs. congruence.
    - right. split; [by apply Hobs|]. exists c. split; [done|]. rewrite Hpl, Hp. done. }
  assert (∀ n fuel, (k ≤ n)%nat → (k ≤ fuel)%nat → initvg l gx gy n fuel =
    (c ← mjoin (cs !! Z.to_nat (gx * lh l + gy)); t ← Dijkstra.dijkstra (λ v, default [] (es !! v)) (S (length es)) c; Some (Vis g2 cs c t))) as Eini.
  { intros n fuel Hn Hf. unfold initvg. rewrite Hpm by done. cbn [mbind option_bind]. rewrite E0. cbn [mbind option_bind]. rewrite E1. cbn [mbind option_bind]. rewrite E2. cbn [mbind option_bind]. by rewrite Ees. }
  assert (atile l (gx, gy)) as Hta by (split; cbn; lia). destruct (Hcell _ Hta) as [[Hnj Hg]|[Hj (c & Hg & Hpc)]]; cbn [fst snd] in Hg.
  { right. split; [done|]. intros n fuel Hn Hf. rewrite Eini by done. by rewrite Hg. }
  left. split; [done|]. set (adj := λ v, default [] (es !! v)) in *.
  assert (∀ v j x, (j, x) ∈ adj v ↔ ∃ u e' t, Visnav.Model.gverts g2 !! v = Some u ∧ e' ∈ Visnav.Model.edges u ∧ j = Visnav.Model.dst e' ∧ Visnav.Model.gverts g2 !! j = Some t ∧ x = span (locof u) (locof t)) as Hadj.
  { intros v j x. unfold adj. destruct (Visnav.Model.gverts g2 !! v) as [u|] eqn:Hu.
    - destruct (Hes v u Hu) as (y & Hy & Ho). rewrite Hy. cbn [default]. destruct (outgoing_spec g2 v u Hr2 Hu) as (y' & Ho' & Hin'). rewrite Ho in Ho'. injection Ho' as <-.
      unfold default, id. rewrite Hin'. split; [intros (e' & t & ? & ? & ? & ?); by exists u, e', t|]. intros (u' & e' & t & [= <-] & ? & ? & ? & ?). by exists e', t.
    - rewrite lookup_ge_None_2 by (rewrite Hles; by apply lookup_ge_None_1). cbn. rewrite elem_of_nil. split; [done|]. by intros (u & e' & t & ? & _). }
  assert (c < length es)%nat as Hcn. { rewrite Hles. unfold Visnav.Props.place in Hpc. apply fmap_Some in Hpc as (? & Hx & _). by apply lookup_lt_Some in Hx. }
  destruct (Dijkstra.C116_distances adj (length es) c Hcn) with (fuel := S (length es)) as (t & Ed & Hsome & Hnone); [|lia|].
  { intros v j x Hv (u & e' & t & _ & _ & _ & Ht & ->)%Hadj. split; [|apply span_pos]. rewrite Hles. by apply lookup_lt_Some in Ht. }
  exists (Vis g2 cs c t). split. { intros n fuel Hn Hf. rewrite Eini by done. rewrite Hg. cbn [mjoin option_join mbind option_bind]. by rewrite Ed. }
  assert (∀ i x, gwalk g2 c i x ↔ Dijkstra.walk adj c i x) as Hwalk.
  { intros i x. split.
    - induction 1 as [u Hu|j x u e' v _ IH Hu He' Hv]; [constructor|]. econstructor; [done|]. apply Hadj. by exists u, e', v.
    - induction 1 as [|j x i y _ IH Hi]; [|].
      + unfold Visnav.Props.place in Hpc. apply fmap_Some in Hpc as (u & Hx & _). by econstructor.
      + apply Hadj in Hi as (u & e' & v & Hu & He' & -> & Hv & ->). by econstructor. }
  constructor; cbn [vg centers gcenter togoal].
  - intros a Ha Hja. destruct (Hcell a Ha) as [[? _]|[_ (c' & ? & ?)]]; [done|]. by exists c'.
  - intros a Ha Hja. by destruct (Hcell a Ha) as [[_ ?]|[? _]].
  - by split.
  - intros i d Hd. destruct (Hsome i d Hd) as (_ & Hw & Hmin). split; [by apply Hwalk|]. intros x Hx. by apply Hmin, Hwalk.
  - intros i Hd x Hx. by apply (Hnone i Hd x), Hwalk.
Qed.

(** More fuel changes nothing. *)
Lemma trace_mono B fuel fuel' mx my cur pts r : Grid2poly.Model.trace B fuel mx my cur pts = Some r → (fuel ≤ fuel')%nat → Grid2poly.Model.trace B fuel' mx my cur pts = Some r.
Proof.
  revert fuel' cur pts. induction fuel as [|fuel IH]; intros [|fuel'] cur pts Ht Hle; [done|done|lia|]. cbn [Grid2poly.Model.trace] in *.
  destruct (decide _); [apply IH; [done|lia]|]. destruct (decide _); [done|]. apply IH; [done|lia].
Qed.
Lemma mapM_mono {A B} (f f' : A → option B) xs ys : (∀ x y, f x = Some y → f' x = Some y) → mapM f xs = Some ys → mapM f' xs = Some ys.
Proof.
  intros Hf. revert ys. induction xs as [|x xs IH]; intros ys Hm; [done|]. cbn [mapM] in *. destruct (f x) as [y|] eqn:E; [|done]. cbn [mbind option_bind] in *. rewrite (Hf x y E). cbn [mbind option_bind].
  destruct (mapM f xs) as [zs|]; [|done]. by rewrite (IH zs).
Qed.
Lemma gridmap_mono w h blkd n fuel n' fuel' pm : Geom.Grid.gridmap w h blkd n fuel = Some pm → (n ≤ n')%nat → (fuel ≤ fuel')%nat → Geom.Grid.gridmap w h blkd n' fuel' = Some pm.
Proof.
  unfold Geom.Grid.gridmap, Grid2poly.Model.polymap. intros E Hn Hf. destruct (Grid2poly.Model.components w h blkd n) as [cs|] eqn:Ec; [|done]. rewrite (Grid2poly.Props.components_mono w h blkd n n' cs Ec Hn).
  cbn [mbind option_bind] in *. destruct cs as [|c cs]; [done|]. assert (∀ c pts, Grid2poly.Model.comppoly w h fuel c = Some pts → Grid2poly.Model.comppoly w h fuel' c = Some pts) as Hmono by (intros ? ? ?; by eapply trace_mono).
  destruct (Grid2poly.Model.comppoly w h fuel _) as [b|] eqn:Eb; [|done]. rewrite (Hmono _ _ Eb). cbn [mbind option_bind] in *.
  destruct (mapM (Grid2poly.Model.comppoly w h fuel) cs) as [ps|] eqn:Eps; [|done]. by rewrite (mapM_mono _ _ _ _ Hmono Eps).
Qed.
Lemma initvg_mono l gx gy n fuel n' fuel' v : initvg l gx gy n fuel = Some v → (n ≤ n')%nat → (fuel ≤ fuel')%nat → initvg l gx gy n' fuel' = Some v.
Proof.
  unfold initvg. intros E Hn Hf. destruct (Geom.Grid.gridmap _ _ _ n fuel) as [pm|] eqn:Ep; [|done]. by rewrite (gridmap_mono _ _ _ _ _ n' fuel' pm Ep Hn Hf).
Qed.

(** ** C117 *)
Lemma goal_free l gx gy x0 y0 : complete l → scanlvl l = Found gx gy x0 y0 → free l (gx, gy).
Proof.
  intros Hc Hs. apply C71_accepted in Hs as ((Hu1 & Hu2 & Hu3) & _ & _); [|done]. destruct (cell_some l gx gy Hc Hu1 Hu2) as (t & _ & Hcell).
  exists t. split; [done|]. assert (down t = true) as Hu by (by apply (Hu3 gx gy t Hcell)). by intros ->.
Qed.
(** The map of the heuristic is one of the rooms of the level, that of the rightmost free tile in the topmost row.  If the goal is in that
    room the map gets built: the tiles of the room have vertices in the middle of them, other tiles have none, and the distance of a vertex is the
    length of the shortest walk to the goal in the graph.  If it is not, the constructor fails (the assertion in plat2d.cc:96). *)
Theorem C117_map l gx gy x0 y0 : complete l → enclosed l → scanlvl l = Found gx gy x0 y0 → ∃ e, topmost l e ∧
  (joined l e (gx, gy) → ∃ k v, ∀ n fuel, (k ≤ n)%nat → (k ≤ fuel)%nat → initvg l gx gy n fuel = Some v) ∧
  (∀ n fuel v, initvg l gx gy n fuel = Some v → sound l e (gx, gy) v) ∧
  (¬ joined l e (gx, gy) → ∀ n fuel, initvg l gx gy n fuel = None).
Proof.
  intros Hc He Hs. destruct (initvg_sound l gx gy Hc He) as (k & e & Htop & Hcase); [by eapply goal_free|]. exists e. split; [done|].
  assert (∀ n fuel v, initvg l gx gy n fuel = Some v → initvg l gx gy (n + k) (fuel + k) = Some v) as Hmono. { intros n fuel v Hv. eapply initvg_mono; [done|lia|lia]. }
  destruct Hcase as [[Hj (v & Hv & Hsd)]|[Hj Hout]].
  - split; [intros _; by exists k, v|]. split; [|by intros ?]. intros n fuel v' Hv'%Hmono. rewrite Hv in Hv' by lia. by injection Hv' as <-.
  - split; [by intros ?|]. split.
    + intros n fuel v' Hv'%Hmono. rewrite Hout in Hv' by lia. done.
    + intros _ n fuel. destruct (initvg l gx gy n fuel) as [v|] eqn:E; [|done]. apply Hmono in E. rewrite Hout in E by lia. done.
Qed.

(** The tiles that a player's box touches are free, and those of a box are all joined. *)
Lemma joined_sym l a b : joined l a b → joined l b a.
Proof. unfold joined. induction 1 as [|a b c (H1 & H2 & H3) _ IH]; [apply rtc_refl|]. eapply rtc_r; [done|]. split_and!; [done|done|lia]. Qed.
Lemma touched_free l b a : complete l → fits l b → overlap b a.1 a.2 → free l a.
Proof.
  intros Hc (Hsz & Hin & Hout) Ho. destruct Hin as (H1 & H2 & H3 & H4). pose proof Ho as (O1 & O2 & O3 & O4).
  destruct (cell_some l a.1 a.2 Hc) as (t & _ & Ht); [units; lia|units; lia|]. exists t. split; [done|]. intros ->. by apply (Hout a.1 a.2 Ht).
Qed.
Lemma touched_joined l b a a' : complete l → fits l b → overlap b a.1 a.2 → overlap b a'.1 a'.2 → joined l a a'.
Proof.
  intros Hc Hf Ha Ha'. pose proof (touched_free l b a Hc Hf Ha) as Fa. pose proof (touched_free l b a' Hc Hf Ha') as Fa'.
  destruct a as [x y], a' as [x' y']. pose proof Hf as ((S1 & S2) & _ & _). unfold overlap in Ha, Ha'. cbn [fst snd] in *.
  assert (free l (x', y)) as Fm. { apply (touched_free l b); [done|done|]. unfold overlap. cbn [fst snd]. lia. }
  assert (Z.abs (x - x') <= 1 ∧ Z.abs (y - y') <= 1) as [Hdx Hdy] by (units; lia).
  assert (joined l (x, y) (x', y)) as J1.
  { destruct (decide (x = x')) as [->|Hne]; [apply rtc_refl|]. apply rtc_once. split_and!; [done|done|cbn; lia]. }
  assert (joined l (x', y) (x', y')) as J2.
  { destruct (decide (y = y')) as [->|Hne]; [apply rtc_refl|]. apply rtc_once. split_and!; [done|done|cbn; lia]. }
  unfold joined in *. by etransitivity.
Qed.
Lemma tileof_touched b : player_sized b → overlap b (tileof b).1 (tileof b).2.
Proof. intros [H1 H2]. unfold overlap, tileof. cbn [fst snd]. rewrite H1, H2. units. lia. Qed.
Lemma tileof_next b b' : player_sized b → player_sized b' → Z.abs (minx b' - minx b) <= 130 → Z.abs (miny b' - miny b) <= 490 → overlap b (tileof b').1 (tileof b').2.
Proof. intros [H1 H2] [H1' H2'] D1 D2. unfold overlap, tileof. cbn [fst snd]. rewrite H1, H2, H1', H2'. units. lia. Qed.
Lemma play_snoc l p acts a : play l p (acts ++ [a]) = q ← play l p acts; act l q a.
Proof. revert p. induction acts as [|b acts IH]; intros p; cbn [play app]; [cbn; by destruct (act l p a)|]. destruct (act l p b); [apply IH|done]. Qed.
Lemma majorblk_tile l b : complete l → fits l b → ∃ t, majorblk l b = Some (t, (tileof b).1, (tileof b).2) ∧ cell l (tileof b).1 (tileof b).2 t.
Proof.
  intros Hc ((Hw & Hh) & (H1 & H2 & H3 & H4) & _).
  unfold majorblk, tounsigned, tileof. cbn [fst snd]. rewrite !Z.quot_div_nonneg by (units; lia). set (x := (minx b + maxx b) / (2 * tilew)). set (y := (miny b + maxy b) / (2 * tileh)).
  assert (0 <= x < lw l) as Hx by (unfold x; units; lia). assert (0 <= y < lh l) as Hy by (unfold y; units; lia).
  rewrite !bool_decide_false by lia. cbn [mbind option_bind]. destruct (cell_some l x y Hc Hx Hy) as (t & -> & ?). by exists t.
Qed.
(** The player never leaves the room of the start. *)
Theorem C117_stays l gx gy x0 y0 acts p : complete l → enclosed l → scanlvl l = Found gx gy x0 y0 → play l (initialstate x0 y0) acts = Some p →
  joined l (x0, y0) (tileof (bbx (pbody p))) ∧ ∃ t, majorblk l (bbx (pbody p)) = Some (t, (tileof (bbx (pbody p))).1, (tileof (bbx (pbody p))).2).
Proof.
  intros Hc He Hs Hp. split.
  - revert p Hp. induction acts as [|a acts IH] using rev_ind; intros p Hp.
    + cbn in Hp. injection Hp as <-. replace (tileof _) with (x0, y0); [apply rtc_refl|]. unfold tileof. cbn [initialstate bbx pbody minx miny maxx maxy]. units. f_equal; lia.
    + rewrite play_snoc in Hp. destruct (C86_never_in_walls l gx gy x0 y0 acts Hc He Hs) as (q & Hq & Hsz & Hi & Hw & Hact). rewrite Hq in Hp. cbn [mbind option_bind] in Hp.
      destruct (Hact a) as (p' & Hp' & D1 & D2). rewrite Hp in Hp'. injection Hp' as <-.
      destruct (C86_never_in_walls l gx gy x0 y0 (acts ++ [a]) Hc He Hs) as (p' & Hp' & Hsz' & _). rewrite play_snoc, Hq in Hp'. cbn [mbind option_bind] in Hp'. rewrite Hp in Hp'. injection Hp' as <-.
      pose proof (IH q Hq) as HJ. unfold joined in *. etransitivity; [exact HJ|]. apply (touched_joined l (bbx (pbody q))); [done|done|by apply tileof_touched|by apply tileof_next].
  - destruct (C86_never_in_walls l gx gy x0 y0 acts Hc He Hs) as (p' & Hp' & Hsz & Hi & Ho & _). rewrite Hp in Hp'. injection Hp' as <-.
    destruct (majorblk_tile l (bbx (pbody p)) Hc) as (t & Ht & _); [done|]. by exists t.
Qed.
Lemma free_atile l a : free l a → atile l a.
Proof. intros (t & (? & ? & _) & _). by split. Qed.
Lemma joined_free l a b : joined l a b → free l a → free l b.
Proof. induction 1 as [|a b c (H1 & H2 & H3) _ IH]; [done|]. intros _. by apply IH. Qed.
(** While the start is in the room of the map too, the heuristic is defined in all states of all games, except where the graph has no walk from
    the goal to the player's tile. *)
Theorem C117_defined l gx gy x0 y0 e v acts p : complete l → enclosed l → scanlvl l = Found gx gy x0 y0 → free l e → sound l e (gx, gy) v → joined l e (x0, y0) →
  play l (initialstate x0 y0) acts = Some p →
  (∃ h, hvis l gx gy v p = Some h) ∨ ∃ c, vertexof l v (tileof (bbx (pbody p))) c ∧ ∀ x, ¬ gwalk (vg v) (gcenter v) c x.
Proof.
  intros Hc He Hs Hfe Hv Hj Hp. destruct (C117_stays l gx gy x0 y0 acts p Hc He Hs Hp) as (Hst & t & Ht).
  set (a := tileof (bbx (pbody p))) in *. assert (joined l e a) as Hja by (unfold joined in *; by etransitivity).
  assert (atile l a) as Ha. { apply free_atile. by apply (joined_free l e). }
  destruct (s_room _ _ _ _ Hv a Ha Hja) as (c & Hcv). pose proof Hcv as (Hcen & Hpl). unfold Visnav.Props.place in Hpl. apply fmap_Some in Hpl as (u & Hu & _).
  unfold hvis. rewrite Ht. cbn [mbind option_bind]. case_bool_decide; [left; by exists 0|]. rewrite Hcen. cbn [mjoin option_join mbind option_bind]. rewrite Hu. cbn [mbind option_bind].
  destruct (insight _ _ _ _); [left; by eexists|]. destruct (BinHeap.Model.key _ c) as [d|] eqn:Ed; [left; by eexists|]. right. exists c. split; [done|]. by apply (s_none _ _ _ _ Hv).
Qed.
(** If the goal is in the room of the map but the start is not, the heuristic is defined in no state (it reads before the start of a vector). *)
Theorem C117_start_elsewhere l gx gy x0 y0 e v acts p : complete l → enclosed l → scanlvl l = Found gx gy x0 y0 → free l e → sound l e (gx, gy) v → ¬ joined l e (x0, y0) → joined l e (gx, gy) →
  play l (initialstate x0 y0) acts = Some p → hvis l gx gy v p = None.
Proof.
  intros Hc He Hs Hfe Hv Hj Hg Hp. destruct (C117_stays l gx gy x0 y0 acts p Hc He Hs Hp) as (Hst & t & Ht).
  set (a := tileof (bbx (pbody p))) in *. assert (¬ joined l e a) as Hja. { intros Hja. apply Hj. apply joined_sym in Hst. unfold joined in *. by etransitivity. }
  destruct (start_cell l gx gy x0 y0 Hc Hs) as (t0 & Hcell & Hw0).
  assert (atile l a) as Ha. { apply free_atile. apply (joined_free l (x0, y0)); [done|]. by exists t0. }
  unfold hvis. rewrite Ht. cbn [mbind option_bind]. rewrite bool_decide_false; [|intros [E1 E2]; apply Hja; replace a with (gx, gy); [done|rewrite <-E1, <-E2; by destruct a]].
  by rewrite (s_else _ _ _ _ Hv a Ha Hja).
Qed.

(** ** C118 *)
Theorem C118_zero_at_goal l gx gy v p h : hvis l gx gy v p = Some h → (isgoal l gx gy p = Some true → h = 0) ∧ (isgoal l gx gy p = Some false → 1 <= h) .
Proof.
  unfold hvis, isgoal. destruct (majorblk l _) as [[[t bx] by_]|]; [|done]. cbn [mbind option_bind fst snd]. case_bool_decide as E; cbn [bool_decide].
  - intros [= <-]. by split.
  - intros Hh. split; [done|]. intros _. destruct (mjoin _) as [c|]; [|done]. cbn [mbind option_bind] in Hh. destruct (Visnav.Model.gverts (vg v) !! c) as [u|]; [|done]. cbn [mbind option_bind] in Hh.
    destruct (insight _ _ _ _); [injection Hh as <-; unfold atleast1; case_bool_decide; lia|]. destruct (BinHeap.Model.key _ c); [|done]. cbn [mbind option_bind] in Hh. injection Hh as <-. unfold atleast1; case_bool_decide; lia.
Qed.

(** Ways on the map that keep clear of the walls. *)
Definition between (t a b : Q) : Q := (a + t * (b - a))%Q.
Definition insquare (x y : Z) (p : pt) : Prop :=
  (inject_Z x * W <= px_ p)%Q ∧ (px_ p <= inject_Z (x + 1) * W)%Q ∧ (inject_Z y * H <= py_ p)%Q ∧ (py_ p <= inject_Z (y + 1) * H)%Q.
Definition clearline (l : level) (p q : pt) : Prop :=
  ∀ t x y, (0 <= t <= 1)%Q → cell l x y Wall → ¬ insquare x y (Pt (between t (px_ p) (px_ q)) (between t (py_ p) (py_ q))).
Fixpoint clearway (l : level) (p : pt) (ps : list pt) : Prop :=
  match ps with [] => True | q :: ps => clearline l p q ∧ clearway l q ps end.
Fixpoint wayspan (p : pt) (ps : list pt) : Q := match ps with [] => 0 | q :: ps => (span p q + wayspan q ps)%Q end.

Ltac qcase := repeat match goal with |- context [Qle_bool ?a ?b] => let E := fresh "E" in destruct (Qle_bool a b) eqn:E; [apply Qle_bool_iff in E|apply not_true_iff_false in E; rewrite Qle_bool_iff in E; apply Qnot_le_lt in E] end.
Lemma qabs_le a b : (qabs a <= b)%Q ↔ (- b <= a)%Q ∧ (a <= b)%Q.
Proof. unfold qabs. qcase; split; intros; repeat match goal with H : _ ∧ _ |- _ => destruct H end; try split; lra. Qed.
Lemma qmax_le a b c : (qmax a b <= c)%Q ↔ (a <= c)%Q ∧ (b <= c)%Q.
Proof. unfold qmax. qcase; split; intros; repeat match goal with H : _ ∧ _ |- _ => destruct H end; try split; lra. Qed.
Lemma span_le p q c : (span p q <= c)%Q ↔ (- c <= px_ p - px_ q)%Q ∧ (px_ p - px_ q <= c)%Q ∧ (- c <= py_ p - py_ q)%Q ∧ (py_ p - py_ q <= c)%Q.
Proof. unfold span. rewrite qmax_le, !qabs_le. tauto. Qed.
Lemma span_triangle p q r : (span p r <= span p q + span q r)%Q.
Proof.
  pose proof (proj1 (span_le p q _) (Qle_refl _)) as (A1 & A2 & A3 & A4). pose proof (proj1 (span_le q r _) (Qle_refl _)) as (B1 & B2 & B3 & B4). apply span_le. split_and!; lra.
Qed.
Lemma span_sym p q : (span p q == span q p)%Q.
Proof.
  apply Qle_antisym; apply span_le;
  [pose proof (proj1 (span_le q p _) (Qle_refl _)) as (A1 & A2 & A3 & A4)|pose proof (proj1 (span_le p q _) (Qle_refl _)) as (A1 & A2 & A3 & A4)]; split_and!; lra.
Qed.
Lemma span_refl p : (span p p == 0)%Q.
Proof. apply Qle_antisym; [apply span_le; split_and!; lra|apply span_pos]. Qed.
Lemma span_way p ps q : last (p :: ps) = Some q → (span p q <= wayspan p ps)%Q.
Proof.
  revert p. induction ps as [|r ps IH]; intros p Hl; cbn [wayspan].
  - injection Hl as <-. rewrite span_refl. lra.
  - specialize (IH r Hl). pose proof (span_triangle p r q). lra.
Qed.
Lemma between_mid t a b : (0 <= t <= 1)%Q → (a <= b → a <= between t a b <= b)%Q ∧ (b <= a → b <= between t a b <= a)%Q.
Proof. unfold between. intros [H1 H2]. split; intros; split; nra. Qed.

Lemma frames_x b : (px_ (frames b) == inject_Z (minx b + maxx b) * (1 # 260))%Q.
Proof. unfold frames. cbn [Geom.Model.x]. unfold Qdiv. reflexivity. Qed.
Lemma frames_y b : (py_ (frames b) == inject_Z (miny b + maxy b) * (1 # 960))%Q.
Proof. unfold frames. cbn [Geom.Model.y]. unfold Qdiv. reflexivity. Qed.
Lemma inj_le (a b : Z) : (inject_Z a <= inject_Z b)%Q → a <= b.
Proof. by rewrite <-Zle_Qle. Qed.
Lemma inj_le_1 n : 1 <= n → (1 <= inject_Z n)%Q.
Proof. by rewrite Zle_Qle. Qed.
(** Around the center of a player's box there are no walls. *)
Lemma center_clear l b x y m : fits l b → cell l x y Wall →
  (px_ (frames b) - 1 <= px_ m)%Q → (px_ m <= px_ (frames b) + 1)%Q → (py_ (frames b) - 1 <= py_ m)%Q → (py_ m <= py_ (frames b) + 1)%Q → ¬ insquare x y m.
Proof.
  intros ((S1 & S2) & _ & Hout) Hw M1 M2 M3 M4 (Q1 & Q2 & Q3 & Q4). apply (Hout x y Hw). rewrite frames_x in M1, M2. rewrite frames_y in M3, M4. unfold W, H in *.
  rewrite inject_Z_plus in Q2, Q4. change (inject_Z 1) with 1%Q in *.
  assert (inject_Z (minx b + maxx b) <= inject_Z ((x + 1) * 2560 + 260))%Q as I1%inj_le. { rewrite !inject_Z_plus, inject_Z_mult, !inject_Z_plus in *. change (inject_Z 2560) with 2560%Q. change (inject_Z 260) with 260%Q. change (inject_Z 1) with 1%Q. lra. }
  assert (inject_Z (x * 2560 - 260) <= inject_Z (minx b + maxx b))%Q as I2%inj_le. { unfold Z.sub. rewrite !inject_Z_plus, inject_Z_mult in *. change (inject_Z 2560) with 2560%Q. change (inject_Z (- (260))) with (- (260))%Q. lra. }
  assert (inject_Z (miny b + maxy b) <= inject_Z ((y + 1) * 2560 + 960))%Q as I3%inj_le. { rewrite !inject_Z_plus, inject_Z_mult, !inject_Z_plus in *. change (inject_Z 2560) with 2560%Q. change (inject_Z 960) with 960%Q. change (inject_Z 1) with 1%Q. lra. }
  assert (inject_Z (y * 2560 - 960) <= inject_Z (miny b + maxy b))%Q as I4%inj_le. { unfold Z.sub. rewrite !inject_Z_plus, inject_Z_mult in *. change (inject_Z 2560) with 2560%Q. change (inject_Z (- (960))) with (- (960))%Q. lra. }
  unfold overlap. rewrite S1, S2 in *. units. lia.
Qed.
Lemma near_clear l b q : fits l b → (span (frames b) q <= 1)%Q → clearline l (frames b) q.
Proof.
  intros Hf (D1 & D2 & D3 & D4)%span_le t x y Ht Hw. set (p := frames b) in *.
  pose proof (between_mid t (px_ p) (px_ q) Ht) as [X1 X2]. pose proof (between_mid t (py_ p) (py_ q) Ht) as [Y1 Y2].
  assert ((px_ p - 1 <= between t (px_ p) (px_ q))%Q ∧ (between t (px_ p) (px_ q) <= px_ p + 1)%Q) as [? ?].
  { destruct (Qlt_le_dec (px_ p) (px_ q)) as [Hl|Hl]; [destruct X1; [lra|]|destruct X2; [lra|]]; split; lra. }
  assert ((py_ p - 1 <= between t (py_ p) (py_ q))%Q ∧ (between t (py_ p) (py_ q) <= py_ p + 1)%Q) as [? ?].
  { destruct (Qlt_le_dec (py_ p) (py_ q)) as [Hl|Hl]; [destruct Y1; [lra|]|destruct Y2; [lra|]]; split; lra. }
  by apply (center_clear l b).
Qed.
Lemma frames_step b b' : player_sized b → player_sized b' → Z.abs (minx b - minx b') <= 130 → Z.abs (miny b - miny b') <= 480 → (span (frames b) (frames b') <= 1)%Q.
Proof.
  intros [S1 S2] [S1' S2'] D1 D2. apply span_le. rewrite !frames_x, !frames_y.
  assert (inject_Z (minx b + maxx b) <= inject_Z (minx b' + maxx b' + 260))%Q as I1 by (rewrite <-Zle_Qle; units; lia).
  assert (inject_Z (minx b' + maxx b') <= inject_Z (minx b + maxx b + 260))%Q as I2 by (rewrite <-Zle_Qle; units; lia).
  assert (inject_Z (miny b + maxy b) <= inject_Z (miny b' + maxy b' + 960))%Q as I3 by (rewrite <-Zle_Qle; units; lia).
  assert (inject_Z (miny b' + maxy b') <= inject_Z (miny b + maxy b + 960))%Q as I4 by (rewrite <-Zle_Qle; units; lia).
  rewrite (inject_Z_plus _ 260) in I1. rewrite (inject_Z_plus _ 260) in I2. rewrite (inject_Z_plus _ 960) in I3. rewrite (inject_Z_plus _ 960) in I4. change (inject_Z 260) with 260%Q in *. change (inject_Z 960) with 960%Q in *. split; [lra|]. split; [lra|]. split; lra.
Qed.
Lemma way_of_walk l acts : complete l → enclosed l → ∀ p q, fits l (bbx (pbody p)) → paced 10 490 p → walk l p acts = Some q →
  fits l (bbx (pbody q)) ∧ ∃ ps, last (frames (bbx (pbody p)) :: ps) = Some (frames (bbx (pbody q))) ∧ clearway l (frames (bbx (pbody p))) ps ∧
    (wayspan (frames (bbx (pbody p))) ps <= inject_Z (Z.of_nat (length acts)))%Q.
Proof.
  intros Hc He. induction acts as [|a acts IH]; intros p q Hf Hp Hw; cbn [walk] in Hw.
  - injection Hw as <-. split; [done|]. exists []. split_and!; try done.
  - destruct (edge l p a) as [[p' r]|] eqn:Ee; [|done]. unfold edge in Ee. destruct (act_ok l p a 10 490 Hc He Hf Hp) as (p1 & Ea & Hf1 & Hp1 & _); [by exists 4|apply gravity_any|done|].
    rewrite Ea in Ee. cbn [mbind option_bind] in Ee. case_bool_decide as Hb; [|done].
    injection Ee as <- _. destruct (IH p1 q Hf1 Hp1 Hw) as (Hfq & ps & Hl & Hcl & Hsp). split; [done|].
    assert (span (frames (bbx (pbody p))) (frames (bbx (pbody p1))) <= 1)%Q as H1. { destruct Hb as [B1 B2]. unfold maxdy, px in B2. apply frames_step; [apply Hf|apply Hf1|done|lia]. }
    exists (frames (bbx (pbody p1)) :: ps). split; [done|]. split; [split; [by apply near_clear|done]|].
    cbn [wayspan length]. rewrite Nat2Z.inj_succ, <-Z.add_1_r, inject_Z_plus. change (inject_Z 1) with 1%Q. lra.
Qed.

(** The graph knows a way that is not longer than any way clear of the walls: for each tile with a vertex and each way from its center to that of the goal. *)
Definition shortcuts (l : level) (g : Z * Z) (v : vismap) : Prop :=
  ∀ a c ps, vertexof l v a c → clearway l (spot a) ps → last (spot a :: ps) = Some (spot g) → ∃ x, gwalk (vg v) (gcenter v) c x ∧ (x <= wayspan (spot a) ps)%Q.

Lemma floor_le (a : Q) (n : Z) : (a <= inject_Z n)%Q → 1 <= n → atleast1 (Qfloor a) <= n.
Proof.
  intros Ha Hn. assert (Qfloor a <= n). { apply inj_le. pose proof (Qfloor_le a). lra. } unfold atleast1. case_bool_decide; lia.
Qed.
Lemma tileof_frames b : let a := tileof b in (inject_Z a.1 * W <= px_ (frames b))%Q ∧ (px_ (frames b) < inject_Z (a.1 + 1) * W)%Q ∧ (inject_Z a.2 * H <= py_ (frames b))%Q ∧ (py_ (frames b) < inject_Z (a.2 + 1) * H)%Q.
Proof.
  intros a. rewrite frames_x, frames_y. unfold W, H. assert (a.1 * 2560 <= minx b + maxx b < (a.1 + 1) * 2560) as [I1 I2] by (unfold a, tileof; cbn [fst snd]; units; lia).
  assert (a.2 * 2560 <= miny b + maxy b < (a.2 + 1) * 2560) as [I3 I4] by (unfold a, tileof; cbn [fst snd]; units; lia).
  rewrite Zle_Qle, inject_Z_mult in I1, I3. rewrite Zlt_Qlt, inject_Z_mult in I2, I4. change (inject_Z 2560) with 2560%Q in *. split_and!; lra.
Qed.
Lemma spot_frames b : (span (frames b) (spot (tileof b)) <= qmax (W * (1 # 2)) (H * (1 # 2)))%Q.
Proof.
  pose proof (tileof_frames b) as (I1 & I2 & I3 & I4). set (a := tileof b) in *. rewrite inject_Z_plus in I2, I4. change (inject_Z 1) with 1%Q in *.
  apply span_le. unfold spot, middle, Geom.Model.scalept. cbn [Geom.Model.x Geom.Model.y]. assert (qmax (W * (1 # 2)) (H * (1 # 2)) == 64 # 13)%Q as -> by reflexivity. unfold W, H in *. split_and!; lra.
Qed.
Lemma clearline_sym l p q : clearline l p q → clearline l q p.
Proof.
  intros Hcl t x y Ht Hw (I1 & I2 & I3 & I4). apply (Hcl (1 - t)%Q x y); [split; lra|done|]. unfold insquare, between in *. cbn [Geom.Model.x Geom.Model.y] in *. split_and!; lra.
Qed.
Lemma between_low t a b lo : (0 <= t <= 1)%Q → (lo < a)%Q → (lo <= b)%Q → (lo <= between t a b)%Q ∧ (between t a b <= lo → t == 1)%Q.
Proof.
  unfold between. intros [T1 T2] Ha Hb. split; [nra|]. intros Hle. destruct (Qlt_le_dec t 1) as [Hlt|?]; [|lra]. exfalso.
  assert (0 < (1 - t) * (a - lo))%Q by nra. assert (0 <= t * (b - lo))%Q by nra. lra.
Qed.
Lemma between_high t a b hi : (0 <= t <= 1)%Q → (a < hi)%Q → (b < hi)%Q → (between t a b < hi)%Q.
Proof. unfold between. intros [T1 T2] Ha Hb. destruct (Qlt_le_dec t 1) as [Hlt|?]; [|assert (t == 1)%Q as -> by lra; lra]. assert (0 < (1 - t) * (hi - a))%Q by nra. assert (0 <= t * (hi - b))%Q by nra. lra. Qed.
Lemma within_tile l b : fits l b → free l (tileof b) → clearline l (spot (tileof b)) (frames b).
Proof.
  intros Hf (ty & Hty & Hnw) t x y Ht Hw Hsq. pose proof Hsq as (I1 & I2 & I3 & I4). cbn [Geom.Model.x Geom.Model.y] in I1, I2, I3, I4.
  pose proof (tileof_frames b) as (F1 & F2 & F3 & F4). set (a := tileof b) in *.
  assert (0 < W)%Q as HW by reflexivity. assert (0 < H)%Q as HH by reflexivity.
  assert (px_ (spot a) == inject_Z a.1 * W + (1 # 2) * W)%Q as Sx by (unfold spot, middle, Geom.Model.scalept; cbn [Geom.Model.x]; ring).
  assert (py_ (spot a) == inject_Z a.2 * H + (1 # 2) * H)%Q as Sy by (unfold spot, middle, Geom.Model.scalept; cbn [Geom.Model.y]; ring).
  assert (inject_Z (a.1 + 1) * W == inject_Z a.1 * W + W)%Q as Nx by (rewrite inject_Z_plus; change (inject_Z 1) with 1%Q; ring).
  assert (inject_Z (a.2 + 1) * H == inject_Z a.2 * H + H)%Q as Ny by (rewrite inject_Z_plus; change (inject_Z 1) with 1%Q; ring).
  destruct (between_low t (px_ (spot a)) (px_ (frames b)) (inject_Z a.1 * W) Ht) as [LX LX1]; [lra|lra|].
  destruct (between_low t (py_ (spot a)) (py_ (frames b)) (inject_Z a.2 * H) Ht) as [LY LY1]; [lra|lra|].
  pose proof (between_high t (px_ (spot a)) (px_ (frames b)) (inject_Z (a.1 + 1) * W) Ht ltac:(lra) ltac:(lra)) as HX.
  pose proof (between_high t (py_ (spot a)) (py_ (frames b)) (inject_Z (a.2 + 1) * H) Ht ltac:(lra) ltac:(lra)) as HY.
  assert (¬ (t == 1)%Q) as Hne.
  { intros Ht1. apply (center_clear l b x y (Pt (between t (px_ (spot a)) (px_ (frames b))) (between t (py_ (spot a)) (py_ (frames b)))) Hf Hw); try done; cbn [Geom.Model.x Geom.Model.y]; unfold between; rewrite Ht1; lra. }
  assert (x = a.1) as Ex.
  { destruct (Z_lt_le_dec x a.1) as [Hl|Hl].
    - exfalso. apply Hne, LX1. assert (inject_Z (x + 1) <= inject_Z a.1)%Q as Hl' by (rewrite <-Zle_Qle; lia). nra.
    - destruct (decide (x = a.1)); [done|]. exfalso. assert (inject_Z (a.1 + 1) <= inject_Z x)%Q as Hl' by (rewrite <-Zle_Qle; lia). nra. }
  assert (y = a.2) as Ey.
  { destruct (Z_lt_le_dec y a.2) as [Hl|Hl].
    - exfalso. apply Hne, LY1. assert (inject_Z (y + 1) <= inject_Z a.2)%Q as Hl' by (rewrite <-Zle_Qle; lia). nra.
    - destruct (decide (y = a.2)); [done|]. exfalso. assert (inject_Z (a.2 + 1) <= inject_Z y)%Q as Hl' by (rewrite <-Zle_Qle; lia). nra. }
  subst x y. destruct Hty as (_ & _ & T1), Hw as (_ & _ & T2). congruence.
Qed.

Lemma clearway_app l p ps q r : clearway l p ps → last (p :: ps) = Some q → clearline l q r → clearway l p (ps ++ [r]).
Proof.
  revert p. induction ps as [|s ps IH]; intros p Hc Hl Hq; cbn [app clearway].
  - injection Hl as ->. done.
  - destruct Hc as [H1 H2]. split; [done|]. by apply IH.
Qed.
Lemma wayspan_app p ps q r : last (p :: ps) = Some q → (wayspan p (ps ++ [r]) == wayspan p ps + span q r)%Q.
Proof.
  revert p. induction ps as [|s ps IH]; intros p Hl; cbn [app wayspan].
  - injection Hl as ->. ring.
  - rewrite IH by done. ring.
Qed.

Lemma nearest_goal b b' gx gy : tileof b' = (gx, gy) → (span (goalpt gx gy (tileof b).1 (tileof b).2 (frames b)) (frames b) <= span (frames b) (frames b'))%Q.
Proof.
  intros Eg. pose proof (tileof_frames b) as (F1 & F2 & F3 & F4). pose proof (tileof_frames b') as (G1 & G2 & G3 & G4). rewrite Eg in G1, G2, G3, G4. cbn [fst snd] in *.
  set (a := tileof b) in *. pose proof (proj1 (span_le (frames b) (frames b') _) (Qle_refl _)) as (A1 & A2 & A3 & A4). pose proof (span_pos (frames b) (frames b')) as Hpos. set (s := span (frames b) (frames b')) in *. clearbody s.
  assert (∀ i j, i <= j → (inject_Z i * W <= inject_Z j * W)%Q) as MW. { intros i j Hij. apply Qmult_le_compat_r; [by rewrite <-Zle_Qle|discriminate]. }
  assert (∀ i j, i <= j → (inject_Z i * H <= inject_Z j * H)%Q) as MH. { intros i j Hij. apply Qmult_le_compat_r; [by rewrite <-Zle_Qle|discriminate]. }
  apply span_le. unfold goalpt. cbn [Geom.Model.x Geom.Model.y].
  assert ((- s <= (if bool_decide (a.1 = gx) then px_ (frames b) else (inject_Z (if bool_decide (a.1 < gx)%Z then gx else (gx + 1)%Z) * W)%Q) - px_ (frames b))%Q ∧
    ((if bool_decide (a.1 = gx) then px_ (frames b) else (inject_Z (if bool_decide (a.1 < gx)%Z then gx else (gx + 1)%Z) * W)%Q) - px_ (frames b) <= s)%Q) as [X1 X2].
  { case_bool_decide; [split; lra|]. case_bool_decide.
    - pose proof (MW (a.1 + 1) gx ltac:(lia)). split; lra.
    - pose proof (MW (gx + 1) a.1 ltac:(lia)). split; lra. }
  assert ((- s <= (if bool_decide (a.2 = gy) then py_ (frames b) else (inject_Z (if bool_decide (a.2 < gy)%Z then gy else (gy + 1)%Z) * H)%Q) - py_ (frames b))%Q ∧
    ((if bool_decide (a.2 = gy) then py_ (frames b) else (inject_Z (if bool_decide (a.2 < gy)%Z then gy else (gy + 1)%Z) * H)%Q) - py_ (frames b) <= s)%Q) as [Y1 Y2].
  { clear X1 X2. case_bool_decide; [split; lra|]. case_bool_decide.
    - pose proof (MH (a.2 + 1) gy ltac:(lia)). split; lra.
    - pose proof (MH (gy + 1) a.2 ltac:(lia)). split; lra. }
  done.
Qed.

(** The goal is in sight of the player: from the middle of the player's tile the graph leads straight to the goal, or nothing is between the
    player and the goal tile. *)
Definition sighted (l : level) (gx gy : Z) (v : vismap) (p : player) : Prop :=
  let b := bbx (pbody p) in ∃ c, centers v !! Z.to_nat ((tileof b).1 * lh l + (tileof b).2) = Some (Some c) ∧
  (Dijkstra.prev (togoal v) c = Some (gcenter v) ∨
   Geom.Model.isvisible (Visnav.Model.gmap (vg v)) (frames b) (goalpt gx gy (tileof b).1 (tileof b).2 (frames b)) = true).
Lemma admissible l gx gy x0 y0 e v acts0 p acts q h : complete l → enclosed l → scanlvl l = Found gx gy x0 y0 → sound l e (gx, gy) v →
  play l (initialstate x0 y0) acts0 = Some p → walk l p acts = Some q → isgoal l gx gy q = Some true → hvis l gx gy v p = Some h →
  sighted l gx gy v p ∨ shortcuts l (gx, gy) v → h <= Z.of_nat (length acts).
Proof.
  intros Hc He Hs Hv Hp Hw Hg Hh Hor.
  destruct (start_cell l gx gy x0 y0 Hc Hs) as (t0 & Hcell0 & Hw0). destruct (initial_fits l x0 y0 t0 He Hcell0 Hw0) as (Hf0 & _ & Hp0).
  destruct (play_ok l 10 490 (initialstate x0 y0) acts0 Hc He) as (p' & Hp' & Hf & Hpa); try done; [by exists 4|apply gravity_any|]. rewrite Hp in Hp'. injection Hp' as <-.
  destruct (way_of_walk l acts Hc He p q Hf Hpa Hw) as (Hfq & ps & Hl & Hcl & Hsp).
  destruct (majorblk_tile l (bbx (pbody p)) Hc Hf) as (t & Hm & Hct). destruct (majorblk_tile l (bbx (pbody q)) Hc Hfq) as (tq & Hmq & Hctq).
  assert (tileof (bbx (pbody q)) = (gx, gy)) as Eq. { unfold isgoal in Hg. rewrite Hmq in Hg. cbn [mbind option_bind fst snd] in Hg. injection Hg as [E1 E2]%bool_decide_eq_true. rewrite <-E1, <-E2. done. }
  unfold hvis in Hh. rewrite Hm in Hh. cbn [mbind option_bind] in Hh. case_bool_decide as Eg; [injection Hh as <-; lia|].
  assert (1 <= Z.of_nat (length acts)) as Hn. { destruct acts; [|cbn; lia]. exfalso. cbn in Hw. injection Hw as <-. apply Eg. by rewrite Eq. }
  destruct (centers v !! _) as [[c|]|] eqn:Ecen; try done. cbn [mjoin option_join mbind option_bind] in Hh. destruct (Visnav.Model.gverts (vg v) !! c) as [u|] eqn:Eu; [|done]. cbn [mbind option_bind] in Hh.
  destruct (insight v c _ _) eqn:Ei.
  { injection Hh as <-. apply floor_le; [|done]. pose proof (nearest_goal (bbx (pbody p)) (bbx (pbody q)) gx gy Eq) as Hng. pose proof (span_way _ _ _ Hl) as Hsw. eapply Qle_trans; [exact Hng|]. eapply Qle_trans; [exact Hsw|exact Hsp]. }
  destruct Hor as [(c' & Hc' & Hi)|Hsh]; [rewrite Ecen in Hc'; injection Hc' as <-; unfold insight in Ei; apply orb_false_iff in Ei as [E1 E2]; apply bool_decide_eq_false in E1; destruct Hi; congruence|].
  destruct (BinHeap.Model.key _ c) as [d|] eqn:Ed; [|done]. cbn [mbind option_bind] in Hh. injection Hh as <-.
  destruct (decide (atleast1 (Qfloor (if Qle_bool (d - span (frames (bbx (pbody p))) (locof u) - qmax (W * (1 # 2)) (H * (1 # 2))) 0 then 1%Q else (d - span (frames (bbx (pbody p))) (locof u) - qmax (W * (1 # 2)) (H * (1 # 2)))%Q)) <= Z.of_nat (length acts))) as [?|Hnot]; [done|]. exfalso.
  set (a := tileof (bbx (pbody p))) in *. assert (atile l a) as Ha by (destruct Hct as (? & ? & _); by split).
  assert (¬ ¬ joined l e a) as Hnn. { intros Hnj. pose proof (s_else _ _ _ _ Hv a Ha Hnj) as E. congruence. } apply Hnn. intros Hj. apply Hnot. clear Hnn Hnot.
  destruct (s_room _ _ _ _ Hv a Ha Hj) as (c' & Hc' & Hpl). rewrite Ecen in Hc'. injection Hc' as <-.
  assert (locof u = spot a) as El. { unfold Visnav.Props.place in Hpl. rewrite Eu in Hpl. by injection Hpl. }
  assert (∀ b ty, fits l b → cell l (tileof b).1 (tileof b).2 ty → free l (tileof b)) as Hfree. { intros b ty Hb Hty. eapply touched_free; [done|done|]. apply tileof_touched. apply Hb. }
  pose proof (within_tile l (bbx (pbody p)) Hf (Hfree _ _ Hf Hct)) as C1. fold a in C1.
  pose proof (clearline_sym _ _ _ (within_tile l (bbx (pbody q)) Hfq (Hfree _ _ Hfq Hctq))) as C2. rewrite Eq in C2.
  destruct (Hsh a c (frames (bbx (pbody p)) :: ps ++ [spot (gx, gy)])) as (x & Hx & Hle); [by split| | |].
  { split; [done|]. by eapply clearway_app. }
  { rewrite !app_comm_cons. apply last_snoc. }
  cbn [wayspan] in Hle. rewrite (wayspan_app _ _ _ _ Hl) in Hle. destruct (s_some _ _ _ _ Hv c d Ed) as [_ Hmin]. specialize (Hmin x Hx).
  pose proof (spot_frames (bbx (pbody q))) as Hd. rewrite Eq in Hd. rewrite El. pose proof (span_sym (spot a) (frames (bbx (pbody p)))) as Es. rewrite Es in Hle.
  apply floor_le; [|done]. apply inj_le_1 in Hn. match goal with |- context [Qle_bool ?b 0] => destruct (Qle_bool b 0); [done|] end. lra.
Qed.

(** The estimate is never more than the number of actions to the goal while the goal is in sight. *)
Theorem C118_in_sight l gx gy x0 y0 e v acts0 p acts q h : complete l → enclosed l → scanlvl l = Found gx gy x0 y0 → sound l e (gx, gy) v →
  play l (initialstate x0 y0) acts0 = Some p → walk l p acts = Some q → isgoal l gx gy q = Some true → hvis l gx gy v p = Some h →
  sighted l gx gy v p → h <= Z.of_nat (length acts).
Proof. intros. by eapply (admissible l gx gy x0 y0 e v acts0); try done; left. Qed.
(** Full statement: the same without [sighted] and without [shortcuts].  Missing: that the graph of reflex corners and
    centers has a way not longer than any way clear of the walls ([shortcuts]), for the sight lines that the code draws,
    a thousandth short at both ends and with the tolerances of geom2d. *)
Theorem C119_admissible_partial l gx gy x0 y0 e v acts0 p acts q h : complete l → enclosed l → scanlvl l = Found gx gy x0 y0 → sound l e (gx, gy) v → shortcuts l (gx, gy) v →
  play l (initialstate x0 y0) acts0 = Some p → walk l p acts = Some q → isgoal l gx gy q = Some true → hvis l gx gy v p = Some h →
  h <= Z.of_nat (length acts).
Proof. intros. by eapply (admissible l gx gy x0 y0 e v acts0); try done; right. Qed.

(** ** Examples *)
(** Straight to the goal from everywhere. *)
Lemma straight_shortcuts l g v : vertexof l v g (gcenter v) →
  (∀ c, (c < length (Visnav.Model.gverts (vg v)))%nat → c = gcenter v ∨ ∃ u e, Visnav.Model.gverts (vg v) !! gcenter v = Some u ∧ e ∈ Visnav.Model.edges u ∧ Visnav.Model.dst e = c) → shortcuts l g v.
Proof.
  intros [_ Hg] Hall a c ps [_ Hp] _ Hl. pose proof (span_way _ _ _ Hl) as Hs. unfold Visnav.Props.place in *. apply fmap_Some in Hg as (ug & Hug & Eg), Hp as (u & Hu & Eu).
  destruct (Hall c) as [->|(u' & e & Hu' & He & <-)]; [by eapply lookup_lt_Some| |].
  - exists 0%Q. split; [by econstructor|]. pose proof (span_pos (spot a) (spot g)). lra.
  - rewrite Hug in Hu'. injection Hu' as <-. eexists. split; [eapply gwalk_snoc; [by econstructor|done|done|done]|]. rewrite <-Eg, <-Eu, span_sym. lra.
Qed.
(** The corridor: 24 frames at least; 25 are needed. *)
Example corridor_heuristic : ∃ v, initvg corridor 4 1 60 60 = Some v ∧ shortcuts corridor (4, 1) v ∧ hvis corridor 4 1 v (initialstate 1 1) = Some 24 ∧
  (walk corridor (initialstate 1 1) (repeat right 25) ≫= isgoal corridor 4 1) = Some true.
Proof.
  destruct (initvg corridor 4 1 60 60) as [v|] eqn:E; [|vm_compute in E; discriminate E]. exists v. split; [reflexivity|].
  destruct corridor_ok as (H1 & H2 & _ & H3). destruct (C117_map corridor 4 1 1 1 H1 H2 H3) as (e & _ & _ & Hs & _). specialize (Hs _ _ _ E).
  split; [|split; [|vm_compute; reflexivity]].
  - apply straight_shortcuts; [apply Hs|].
    assert ((λ v, (gcenter v, length (Visnav.Model.gverts (vg v)), (λ u, Visnav.Model.dst <$> Visnav.Model.edges u) <$> Visnav.Model.gverts (vg v) !! gcenter v)) <$> initvg corridor 4 1 60 60 = Some (3, 4, Some [0; 1; 2])%nat) as Ev by (vm_compute; reflexivity).
    rewrite E in Ev. cbn in Ev. injection Ev as E1 E2 E3. rewrite E2. apply fmap_Some in E3 as (u & Hu & Ed). clear -Hu Ed E1. intros c Hc. destruct (decide (c = 3%nat)) as [->|Hne]; [left; done|]. right.
    assert (c ∈ Visnav.Model.dst <$> Visnav.Model.edges u) as (e' & -> & He')%elem_of_list_fmap; [|by exists u, e'].
    rewrite <-Ed. destruct c as [|[|[|c]]]; [left|right; left|right; right; left|exfalso; lia].
  - assert ((v ← initvg corridor 4 1 60 60; hvis corridor 4 1 v (initialstate 1 1)) = Some 24) as Eh by (vm_compute; reflexivity). rewrite E in Eh. exact Eh.
Qed.
(** Around a corner: the goal is not in sight of the start. *)
Definition bend : level :=
  Lvl 5 5 (repeat Wall 5 ++ [Wall; Up; Air; Air; Wall] ++ [Wall; Wall; Wall; Air; Wall] ++ [Wall; Down; Air; Air; Wall] ++ repeat Wall 5).
Example bend_heuristic : scanlvl bend = Found 3 1 1 1 ∧
  (v ← initvg bend 3 1 100 100; Some (Qred <$> BinHeap.Model.key (Dijkstra.queue (togoal v)) 2, Dijkstra.prev (togoal v) 2)) = Some (Some (256 # 13), Some 0%nat) ∧
  (v ← initvg bend 3 1 100 100; hvis bend 3 1 v (initialstate 1 1)) = Some 14.
Proof. split; [vm_compute; reflexivity|]. split; vm_compute; reflexivity. Qed.
(** A free tile that belongs to no room of the game, above it: the level cannot be played although start and goal are next to each other. *)
Definition pocket : level := Lvl 5 5 (repeat Wall 5 ++ [Wall; Wall; Wall; Up; Wall] ++ [Wall; Wall; Wall; Down; Wall] ++ [Wall; Air; Wall; Wall; Wall] ++ repeat Wall 5).
Lemma pocket_free a : free pocket a → a = (1, 3) ∨ a = (2, 3) ∨ a = (3, 1).
Proof.
  intros (t & (Hx & Hy & Ht) & Hw). destruct a as [x y]. cbn [fst snd lw lh pocket] in *.
  assert (x = 0 ∨ x = 1 ∨ x = 2 ∨ x = 3 ∨ x = 4) as Cx by lia. assert (y = 0 ∨ y = 1 ∨ y = 2 ∨ y = 3 ∨ y = 4) as Cy by lia.
  destruct Cx as [->|[->|[->|[->| ->]]]], Cy as [->|[->|[->|[->| ->]]]]; vm_compute in Ht; injection Ht as <-; try done; tauto.
Qed.
Lemma pocket_alone e a : joined pocket e a → e = (3, 1) → a = (3, 1).
Proof.
  induction 1 as [|e b a (F1 & F2 & Hd) _ IH]; [done|]. intros ->. apply IH. apply pocket_free in F2 as [->|[->| ->]]; [cbn in Hd; lia|cbn in Hd; lia|done].
Qed.
Theorem C117_pocket_refuted : ∃ l gx gy x0 y0, complete l ∧ enclosed l ∧ scanlvl l = Found gx gy x0 y0 ∧ joined l (x0, y0) (gx, gy) ∧
  (∃ acts p, play l (initialstate x0 y0) acts = Some p ∧ isgoal l gx gy p = Some true) ∧ ∀ n fuel, initvg l gx gy n fuel = None.
Proof.
  exists pocket, 2, 3, 1, 3. assert (complete pocket) as Hc by by apply (bool_decide_eq_true_1 (complete pocket)); vm_compute. assert (enclosed pocket) as He by by apply enclosedb_ok; vm_compute.
  assert (scanlvl pocket = Found 2 3 1 3) as Hs by (vm_compute; reflexivity). split; [done|]. split; [done|]. split; [done|]. split; [|split].
  - apply rtc_once. split_and!; [exists Up; by split|exists Down; by split|done].
  - destruct (play pocket (initialstate 1 3) (repeat right 8)) as [p|] eqn:E; [|vm_compute in E; discriminate E]. exists (repeat right 8), p. split; [exact E|].
    assert ((play pocket (initialstate 1 3) (repeat right 8) ≫= isgoal pocket 2 3) = Some true) as Eg by (vm_compute; reflexivity). rewrite E in Eg. exact Eg.
  - destruct (C117_map pocket 2 3 1 3 Hc He Hs) as (e & (Hfe & Htop) & _ & _ & Hout). apply Hout. assert (e = (3, 1)) as ->.
    { assert (free pocket (3, 1)) as Hf by (exists Air; by split). apply Htop in Hf. apply pocket_free in Hfe as [->|[->| ->]]; cbn in Hf; [lia|lia|done]. }
    intros Hj. by apply pocket_alone in Hj.
Qed.
(** Start and goal in different rooms. *)
Definition apart : level := Lvl 5 5 (repeat Wall 5 ++ [Wall; Wall; Wall; Up; Wall] ++ [Wall; Wall; Wall; Wall; Wall] ++ [Wall; Down; Wall; Wall; Wall] ++ repeat Wall 5).
Example apart_undefined : scanlvl apart = Found 3 1 1 3 ∧ ∃ v, initvg apart 3 1 60 60 = Some v ∧ hvis apart 3 1 v (initialstate 1 3) = None.
Proof.
  split; [vm_compute; reflexivity|]. destruct (initvg apart 3 1 60 60) as [v|] eqn:E; [|vm_compute in E; discriminate E]. exists v. split; [reflexivity|].
  assert ((v ← initvg apart 3 1 60 60; hvis apart 3 1 v (initialstate 1 3)) = None) as Eh by (vm_compute; reflexivity). rewrite E in Eh. exact Eh.
Qed.

Print Assumptions C117_map.
Print Assumptions C117_stays.
Print Assumptions C117_defined.
Print Assumptions C117_start_elsewhere.
Print Assumptions C117_pocket_refuted.
Print Assumptions C118_zero_at_goal.
Print Assumptions C118_in_sight.
Print Assumptions C119_admissible_partial.
