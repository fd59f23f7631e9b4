(** C113, C114: the visibility graph of a polygon map. *)
From stdpp Require Import prelude sorting.
From Coq Require Import ZArith Lia ZifyBool ZifyNat QArith.
From Verif.Geom Require Import Model Basics Polygon Map.
From Verif.Visnav Require Import Model Graph.
Local Open Scope nat_scope.

(** ** Preliminaries *)
Lemma mapmap_length f pm pm' : mapmap f pm = Some pm' → length (polys pm') = length (polys pm).
Proof.
  unfold mapmap. intros H. apply bind_Some in H as (ps & Hps & H). apply mapM_length in Hps.
  destruct (bound pm); [apply bind_Some in H as (bd & _ & H)|]; injection H as <-; cbn; lia.
Qed.
Lemma numbered_mapmap f pm pm' pn : mapmap f pm = Some pm' → numbered pm pn → numbered pm' pn.
Proof. intros E. unfold numbered. by rewrite (mapmap_length f pm pm'). Qed.
Lemma allnos_length qs : ∀ k, length (allnos k qs) = length (allpts qs).
Proof. induction qs as [|q qs IH]; intros k; [done|]. cbn. unfold cornerpts. by rewrite !app_length, replicate_length, fmap_length, IH. Qed.
Lemma mapM_defined {A B} (f : A → option B) l : (∀ a, a ∈ l → ∃ b, f a = Some b) → ∃ k, mapM f l = Some k.
Proof.
  induction l as [|a l IH]; intros H; [by exists []|]. destruct (H a (elem_of_list_here _ _)) as [b Hb].
  destruct IH as [k Hk]; [intros; apply H; by apply elem_of_list_further|]. exists (b :: k). cbn [mapM]. rewrite Hb. cbn [mbind option_bind]. by rewrite Hk.
Qed.
(** Corner [j] of polygon [k]. *)
Definition before (a b : nat * nat) : Prop := a.1 < b.1 ∨ a.1 = b.1 ∧ a.2 < b.2.
Fixpoint labels (k : nat) (qs : list poly) : list (nat * nat) :=
  match qs with [] => [] | q :: qs => (pair k <$> corners q) ++ labels (S k) qs end.
Lemma labels_length k qs : length (labels k qs) = length (allpts qs).
Proof. revert k. induction qs as [|q qs IH]; intros k; [done|]. cbn. unfold cornerpts. by rewrite !app_length, !fmap_length, IH. Qed.
Lemma elem_of_labels k qs k' j : (k', j) ∈ labels k qs ↔ k ≤ k' ∧ ∃ q, qs !! (k' - k) = Some q ∧ isreflex (verts q) j = Some true.
Proof.
  revert k. induction qs as [|q qs IH]; intros k; cbn [labels].
  - split; [by intros ?%elem_of_nil|]. by intros (_ & q & ? & _).
  - rewrite elem_of_app, elem_of_list_fmap, IH. split.
    + intros [(j' & [= -> ->] & Hj)|(Hk & q' & Hq & Hr)].
      * split; [lia|]. rewrite Nat.sub_diag. exists q. split; [done|]. by apply elem_of_corners.
      * split; [lia|]. exists q'. split; [|done]. replace (k' - k) with (S (k' - S k)) by lia. done.
    + intros (Hk & q' & Hq & Hr). destruct (decide (k' = k)) as [->|Hne].
      * rewrite Nat.sub_diag in Hq. injection Hq as <-. left. exists j. split; [done|]. by apply elem_of_corners.
      * right. split; [lia|]. exists q'. split; [|done]. replace (k' - k) with (S (k' - S k)) in Hq by lia. done.
Qed.
Lemma labels_sorted k qs : StronglySorted before (labels k qs).
Proof.
  revert k. induction qs as [|q qs IH]; intros k; [constructor|]. cbn [labels].
  assert (∀ l, StronglySorted lt l → StronglySorted before ((pair k <$> l) ++ labels (S k) qs)) as H.
  { induction 1 as [|j l Hl IHl Hj]; [apply IH|]. cbn [fmap list_fmap app]. constructor; [done|]. apply Forall_app. split.
    - apply Forall_fmap. apply (Forall_impl _ _ _ Hj). intros a Ha. right. cbn. done.
    - apply Forall_forall. intros [k' j'] (Hk & _)%elem_of_labels. left. cbn. lia. }
  apply H. unfold corners. generalize 0. induction (length (verts q)) as [|n IHn]; intros a; [constructor|]. cbn [seq]. rewrite filter_cons.
  destruct (decide _); [|apply IHn]. constructor; [apply IHn|]. apply Forall_forall. intros j [_ Hj%elem_of_seq]%elem_of_list_filter. lia.
Qed.
Lemma labels_pts k qs i k' j : labels k qs !! i = Some (k', j) → ∃ q p, k ≤ k' ∧ qs !! (k' - k) = Some q ∧ verts q !! j = Some p ∧ allpts qs !! i = Some p.
Proof.
  revert k i. induction qs as [|q qs IH]; intros k i; [done|]. cbn [labels allpts].
  assert (length (cornerpts q) = length (pair k <$> corners q)) as Hlen by (unfold cornerpts; by rewrite !fmap_length).
  intros [H|[Hi H]]%lookup_app_Some.
  - rewrite lookup_app_l by (rewrite Hlen; by eapply lookup_lt_Some). unfold cornerpts. rewrite list_lookup_fmap in H. rewrite list_lookup_fmap.
    apply fmap_Some in H as (j' & Hj & [= -> ->]). rewrite Hj. cbn. apply elem_of_list_lookup_2 in Hj. apply elem_of_list_filter in Hj as [_ Hj%elem_of_seq].
    destruct (lookup_lt_is_Some_2 (verts q) j') as [p Hp]; [lia|]. exists q, p. rewrite Nat.sub_diag. split; [lia|]. split; [done|]. split; [done|]. by rewrite (at_Some _ _ p).
  - destruct (IH _ _ H) as (q' & p & Hk & Hq & Hp & Ha). exists q', p. split; [lia|]. replace (k' - k) with (S (k' - S k)) by lia. split; [done|]. split; [done|].
    rewrite lookup_app_r by lia. by rewrite Hlen.
Qed.
Lemma labels_no k qs i k' j : labels k qs !! i = Some (k', j) → allnos k qs !! i = Some k'.
Proof.
  revert k i. induction qs as [|q qs IH]; intros k i; [done|]. cbn [labels allnos]. intros [H|[Hi H]]%lookup_app_Some.
  - rewrite list_lookup_fmap in H. apply fmap_Some in H as (j' & Hj & [= -> ->]). apply lookup_lt_Some in Hj.
    rewrite lookup_app_l by (by rewrite replicate_length). apply lookup_replicate. done.
  - rewrite fmap_length in *. rewrite lookup_app_r by (by rewrite replicate_length). rewrite replicate_length. eauto.
Qed.
Lemma labels_app k qs qs' : labels k (qs ++ qs') = labels k qs ++ labels (k + length qs) qs'.
Proof. revert k. induction qs as [|q qs IH]; intros k; cbn; [by rewrite Nat.add_0_r|]. rewrite IH, app_assoc. f_equal. f_equal. lia. Qed.
Lemma alllinks_spec k n qs i j a b ka kb : labels k qs !! i = Some (ka, a) → labels k qs !! j = Some (kb, b) → i < j →
  (n + i, n + j) ∈ alllinks n qs ↔ ka = kb ∧ ∃ q, qs !! (ka - k) = Some q ∧ beside (length (verts q)) a b.
Proof.
  revert k n i j. induction qs as [|q qs IH]; intros k n i j; [done|]. cbn [labels alllinks]. intros Hi Hj Hij.
  assert (∀ x y n, (x, y) ∈ alllinks n qs → n ≤ x) as Hge.
  { clear. induction qs as [|q qs IH]; intros x y n; [by intros ?%elem_of_nil|]. cbn [alllinks].
    intros [(ij & [= -> ->] & _)%elem_of_list_fmap|H]%elem_of_app; [cbn; lia|]. apply IH in H. lia. }
  assert (∀ x y, (n + x, n + y) ∈ shift n <$> sidepairs q ↔ (x, y) ∈ sidepairs q) as Hsh.
  { intros x y. rewrite elem_of_list_fmap. split; [|by exists (x, y)]. intros ([x' y'] & E & Hin). unfold shift in E. cbn in E. injection E as E1 E2.
    by replace x with x' by lia; replace y with y' by lia. }
  rewrite elem_of_app, Hsh. assert (∀ x y, (x, y) ∈ sidepairs q → y < length (corners q)) as Hsp. { intros x y [_ H%elem_of_pairs]%elem_of_list_filter. lia. }
  apply lookup_app_Some in Hi as [Hi|[Hi0 Hi]].
  - rewrite list_lookup_fmap in Hi. apply fmap_Some in Hi as (a' & Ha & [= -> ->]). pose proof (lookup_lt_Some _ _ _ Ha) as Hia.
    apply lookup_app_Some in Hj as [Hj|[Hj0 Hj]].
    + rewrite list_lookup_fmap in Hj. apply fmap_Some in Hj as (b' & Hb & [= -> ->]). pose proof (lookup_lt_Some _ _ _ Hb) as Hjb.
      rewrite Nat.sub_diag. unfold sidepairs. rewrite elem_of_list_filter. cbn [fst snd]. rewrite Ha, Hb, bool_decide_eq_true, elem_of_pairs. cbn [default]. split.
      * intros [[Hbs _]|Hl%Hge]; [|lia]. split; [done|]. by exists q.
      * intros (_ & q' & [= <-] & Hbs). left. split; [done|lia].
    + rewrite fmap_length in *. apply elem_of_list_lookup_2, elem_of_labels in Hj as (Hk & _). split.
      * intros [H%Hsp|H%Hge]; lia.
      * intros [-> _]. lia.
  - rewrite fmap_length in *. apply lookup_app_Some in Hj as [Hj|[_ Hj]]; [apply lookup_lt_Some in Hj; rewrite fmap_length in Hj; lia|]. rewrite fmap_length in *.
    pose proof (IH (S k) (n + length (corners q)) _ _ Hi Hj ltac:(lia)) as IH'.
    replace (n + length (corners q) + (i - length (corners q))) with (n + i) in IH' by lia.
    replace (n + length (corners q) + (j - length (corners q))) with (n + j) in IH' by lia. rewrite IH'.
    apply elem_of_list_lookup_2, elem_of_labels in Hi as (Hk & _). replace (ka - k) with (S (ka - S k)) by lia. cbn [lookup list_lookup]. split.
    + intros [H%Hsp|H]; [lia|done].
    + by right.
Qed.
Lemma alllinks_NoDup qs : ∀ n, NoDup (alllinks n qs).
Proof.
  induction qs as [|q qs IH]; intros n; [constructor|]. cbn [alllinks]. apply NoDup_app. split; [|split; [|apply IH]].
  - apply NoDup_fmap_2; [|apply NoDup_filter, pairs_NoDup]. intros [x y] [x' y'] E. unfold shift in E. cbn in E. injection E as E1 E2. f_equal; lia.
  - intros [x y] (ij & E & [_ Hij]%elem_of_list_filter)%elem_of_list_fmap H.
    assert (∀ n x y, (x, y) ∈ alllinks n qs → n ≤ x) as Hge.
    { clear. induction qs as [|q qs IH]; intros n x y; [by intros ?%elem_of_nil|]. cbn [alllinks].
      intros [(ij & [= -> ->] & _)%elem_of_list_fmap|H]%elem_of_app; [cbn; lia|]. apply IH in H. lia. }
    apply Hge in H. destruct ij as [i j]. apply elem_of_pairs in Hij. unfold shift in E. cbn in E. injection E as -> ->. lia.
Qed.
Lemma filter_one (L : list (nat * nat)) n i j : NoDup L → links n L → i < j →
  length (filter (λ ab : nat * nat, ab = (i, j) ∨ ab = (j, i)) L) = if decide ((i, j) ∈ L) then 1 else 0.
Proof.
  intros Hnd HL Hij. induction Hnd as [|[a b] L Hin Hnd IH]; [done|]. rewrite filter_cons.
  pose proof (HL a b (elem_of_list_here _ _)) as Hab. specialize (IH ltac:(intros ? ? ?; apply HL; by apply elem_of_list_further)).
  destruct (decide ((a, b) = (i, j) ∨ (a, b) = (j, i))) as [[E|E]|Hne].
  - injection E as -> ->. cbn [length]. rewrite IH, decide_False by done. rewrite decide_True by apply elem_of_list_here. done.
  - injection E as -> ->. lia.
  - rewrite IH. destruct (decide ((i, j) ∈ L)) as [H|H].
    + rewrite decide_True by by apply elem_of_list_further. done.
    + rewrite decide_False; [done|]. intros [E|?]%elem_of_cons; [|done]. apply Hne. by left.
Qed.
Lemma filter_none {A} (P : A → Prop) `{∀ a, Decision (P a)} l : (∀ a, a ∈ l → ¬ P a) → filter P l = [].
Proof. induction l as [|a l IH]; intros Hl; [done|]. rewrite filter_cons, decide_False by (apply Hl; apply elem_of_list_here). apply IH. intros b Hb. apply Hl. by apply elem_of_list_further. Qed.
Lemma links_sub n L L' : (∀ ab, ab ∈ L → ab ∈ L') → links n L' → links n L.
Proof. intros H HL a b Hab. apply HL, H, Hab. Qed.

Section graphs.
Context {C : Type} (distance : pt → pt → C) (Hsym : ∀ p q, distance p q = distance q p)
  (Htrans : ∀ dx dy p q, distance (translatept dx dy p) (translatept dx dy q) = distance p q).

(** The graphs a user can get. *)
Inductive reach : graph C → Prop :=
| reach_build pm g : build distance pm = Some g → reach g
| reach_add g p g' i : reach g → add distance g p = Some (g', i) → reach g'
| reach_scale g sx sy g' : reach g → scale distance sx sy g = Some g' → reach g'
| reach_translate g dx dy g' : reach g → translate dx dy g = Some g' → reach g'.

(** The point of a vertex, and how many edges lead from one vertex to another. *)
Definition place (g : graph C) (i : nat) : option pt := loc <$> gverts g !! i.
Definition count (g : graph C) (i j : nat) : nat :=
  match gverts g !! i with Some v => length (filter (λ e, dst e = j) (edges v)) | None => 0 end.

Definition shape (g : graph C) : Prop := ∃ pts L pm pn, g = mkgraph distance pts L pm pn ∧ links (length pts) L ∧ numbered pm pn ∧ length pn ≤ length pts.


Lemma reach_shape g : reach g → shape g.
Proof using Hsym Htrans.
  induction 1 as [pm g E|g p g' i _ (pts & L & pm & pn & -> & HL & Hn & Hl) E|g sx sy g' _ (pts & L & pm & pn & -> & HL & Hn & Hl) E|g dx dy g' _ (pts & L & pm & pn & -> & HL & Hn & Hl) E].
  - destruct (build_mk distance Hsym pm) as (E' & HL & Hn). pose proof (eq_trans (eq_sym E') E) as E2. injection E2 as <-. do 4 eexists; split_and!; try done.
    rewrite allnos_length. unfold fences. rewrite allpts_app, app_length. lia.
  - destruct (add_mk distance Hsym pts L pm pn p HL Hn) as (E' & HL'). pose proof (eq_trans (eq_sym E') E) as E2. injection E2 as <- _. do 4 eexists; split_and!; try done.
    rewrite app_length. lia.
  - destruct (scale_mk distance sx sy pts L pm pn g' HL E) as (pm' & Em & ->). do 4 eexists; split_and!; try done; rewrite ?fmap_length; try done. by eapply numbered_mapmap.
  - destruct (translate_mk distance Hsym Htrans dx dy pts L pm pn g' HL E) as (pm' & Em & ->). do 4 eexists; split_and!; try done; rewrite ?fmap_length; try done. by eapply numbered_mapmap.
Qed.

(** ** C113: shape of the graph *)
(** The vertices carry their index; every edge of a vertex starts there, ends at another vertex and costs their distance. *)
Theorem C113_edges g i v : reach g → gverts g !! i = Some v → id v = i ∧
  ∀ e, e ∈ edges v → src e = i ∧ dst e ≠ i ∧ ∃ u, gverts g !! dst e = Some u ∧ dist e = distance (loc v) (loc u).
Proof using Hsym Htrans.
  intros (pts & L & pm & pn & -> & HL & Hn & Hl)%reach_shape. cbn [gverts mkgraph]. rewrite mkverts_lookup. intros (p & Hp & ->)%fmap_Some. cbn [id edges loc].
  split; [done|]. intros e He. destruct (edgesat_dst distance pts L _ i e HL He) as (Es & Hd & Hlt & Ed). split; [done|]. split; [done|].
  destruct (lookup_lt_is_Some_2 pts (dst e) Hlt) as [q Hq]. rewrite mkverts_lookup, Hq. eexists. split; [done|]. cbn [loc].
  by rewrite Ed, (at_Some pts i p), (at_Some pts (dst e) q).
Qed.

Lemma edgesat_count pts L n i j : links n L →
  length (filter (λ e : edge C, dst e = j) (edgesat distance pts L i)) = length (filter (λ ab : nat * nat, ab = (i, j) ∨ ab = (j, i)) L).
Proof using.
  intros HL. unfold edgesat. induction L as [|[a b] L IH]; [done|]. cbn [mbind list_bind]. rewrite filter_app, app_length.
  rewrite IH by (intros ? ? ?; apply HL; by apply elem_of_list_further). specialize (HL a b (elem_of_list_here _ _)). rewrite filter_cons.
  unfold ends. cbn [fst snd]. destruct (decide (a = i)) as [->|Ha], (decide (b = i)) as [->|Hb]; try lia; cbn [app]; rewrite ?filter_cons, ?filter_nil; unfold mkedge; cbn [dst].
  - destruct (decide (b = j)) as [->|]; [rewrite decide_True by (by left); done|]. rewrite decide_False by (intros [?|?]; simplify_eq; lia). done.
  - destruct (decide (a = j)) as [->|]; [rewrite decide_True by (by right); done|]. rewrite decide_False by (intros [?|?]; simplify_eq; lia). done.
  - rewrite decide_False by (intros [?|?]; simplify_eq; lia). done.
Qed.
Lemma count_mk pts L pm pn i j : links (length pts) L →
  count (mkgraph distance pts L pm pn) i j = length (filter (λ ab : nat * nat, ab = (i, j) ∨ ab = (j, i)) L).
Proof using.
  intros HL. unfold count. cbn [gverts mkgraph]. rewrite mkverts_lookup. destruct (pts !! i) as [p|] eqn:Ep; cbn [fmap option_fmap option_map edges].
  - by eapply edgesat_count.
  - assert (filter (λ ab : nat * nat, ab = (i, j) ∨ ab = (j, i)) L = []) as ->; [|done]. apply lookup_ge_None in Ep.
    induction L as [|[a b] L IH]; [done|]. rewrite filter_cons. rewrite IH by (intros ? ? ?; apply HL; by apply elem_of_list_further).
    specialize (HL a b (elem_of_list_here _ _)). rewrite decide_False; [done|]. intros [?|?]; simplify_eq; lia.
Qed.
Lemma place_mk pts L pm pn i : place (mkgraph distance pts L pm pn) i = pts !! i.
Proof using. unfold place. cbn [gverts mkgraph]. rewrite mkverts_lookup. by destruct (pts !! i). Qed.

(** There are as many edges one way as the other. *)
Theorem C113_mirror g i j : reach g → count g i j = count g j i.
Proof using Hsym Htrans.
  intros (pts & L & pm & pn & -> & HL & Hn & Hl)%reach_shape. rewrite !count_mk by done. f_equal. apply list_filter_iff. intros ab. tauto.
Qed.

(** Adding a vertex always works; moving and (positive) scaling work for maps of wellformed polygons. *)
Theorem C113_add_defined g p : reach g → ∃ g', add distance g p = Some (g', length (gverts g)).
Proof using Hsym Htrans.
  intros (pts & L & pm & pn & -> & HL & Hn & Hl)%reach_shape. destruct (add_mk distance Hsym pts L pm pn p HL Hn) as (-> & _). cbn [gverts mkgraph]. rewrite mkverts_length. eauto.
Qed.

Lemma scale_defined sx sy pts L pm pn pm' : links (length pts) L → scalemap sx sy pm = Some pm' →
  ∃ g, scale distance sx sy (mkgraph distance pts L pm pn) = Some g.
Proof using.
  intros HL E. unfold scale. change (gmap (mkgraph distance pts L pm pn)) with pm. rewrite E. cbn [mbind option_bind].
  change (gverts (mkgraph distance pts L pm pn)) with (mkverts distance pts L).
  set (vs := (λ v, Vert (id v) (scalept sx sy (loc v)) (edges v)) <$> mkverts distance pts L).
  destruct (mapM_defined (redist distance vs) vs) as [k ->]; [|cbn [mbind option_bind]; eauto].
  intros v (i & Hi)%elem_of_list_lookup. unfold vs in Hi. rewrite list_lookup_fmap, mkverts_lookup in Hi.
  destruct (pts !! i) as [p|] eqn:Ep; [|done]. cbn in Hi. injection Hi as <-. unfold redist. cbn [edges loc id].
  destruct (mapM_defined (λ e : edge C, u ← vs !! dst e; Some (Edge (src e) (dst e) (distance (scalept sx sy p) (loc u)))) (edgesat distance pts L i)) as [k ->]; [|cbn [mbind option_bind]; eauto].
  intros e He. destruct (edgesat_dst distance pts L _ i e HL He) as (_ & _ & Hlt & _). destruct (lookup_lt_is_Some_2 pts (dst e) Hlt) as [q Hq].
  unfold vs. rewrite list_lookup_fmap, mkverts_lookup, Hq. cbn. eauto.
Qed.

(** Scaling moves the points and keeps who is linked to whom.  It works whenever the map can be scaled. *)
Theorem C113_scaled g sx sy : reach g →
  (∀ pm', scalemap sx sy (gmap g) = Some pm' → ∃ g', scale distance sx sy g = Some g') ∧
  ∀ g', scale distance sx sy g = Some g' → scalemap sx sy (gmap g) = Some (gmap g') ∧
    (∀ i, place g' i = scalept sx sy <$> place g i) ∧ (∀ i j, count g' i j = count g i j) ∧ polyno g' = polyno g.
Proof using Hsym Htrans.
  intros (pts & L & pm & pn & -> & HL & Hn & Hl)%reach_shape. split; [intros pm'; by apply scale_defined|]. intros g' E.
  destruct (scale_mk distance sx sy pts L pm pn g' HL E) as (pm' & Em & ->). split; [done|].
  split; [|split; [|done]].
  - intros i. by rewrite !place_mk, list_lookup_fmap.
  - intros i j. rewrite !count_mk; [done|done|by rewrite fmap_length].
Qed.
Theorem C113_translated g dx dy : reach g →
  (∀ pm', translatemap dx dy (gmap g) = Some pm' → ∃ g', translate dx dy g = Some g') ∧
  ∀ g', translate dx dy g = Some g' → translatemap dx dy (gmap g) = Some (gmap g') ∧
    (∀ i, place g' i = translatept dx dy <$> place g i) ∧ (∀ i j, count g' i j = count g i j) ∧ polyno g' = polyno g.
Proof using Hsym Htrans.
  intros (pts & L & pm & pn & -> & HL & Hn & Hl)%reach_shape. split.
  { intros pm' E. unfold translate. rewrite E. cbn [mbind option_bind]. eauto. }
  intros g' E.
  destruct (translate_mk distance Hsym Htrans dx dy pts L pm pn g' HL E) as (pm' & Em & ->). split; [done|].
  split; [|split; [|done]].
  - intros i. by rewrite !place_mk, list_lookup_fmap.
  - intros i j. rewrite !count_mk; [done|done|by rewrite fmap_length].
Qed.

(** ** C114: what the vertices and edges are *)


(** The vertices are the reflex corners of all polygons in order, the bound last; two of them are linked once for being next to each
    other on the same polygon and once for seeing each other. *)
Theorem C114_built pm : ∃ g lab, build distance pm = Some g ∧ gmap g = pm ∧ length (gverts g) = length lab ∧ StronglySorted before lab ∧
  (∀ k j, (k, j) ∈ lab ↔ ∃ q, fences pm !! k = Some q ∧ isreflex (verts q) j = Some true) ∧
  (∀ i k j, lab !! i = Some (k, j) → ∃ q p, fences pm !! k = Some q ∧ verts q !! j = Some p ∧ place g i = Some p ∧
     (k < length (polys pm) → polyno g !! i = Some k) ∧ (length (polys pm) ≤ k → polyno g !! i = None)) ∧
  (∀ i i' k k' j j' q p p', i < i' → lab !! i = Some (k, j) → lab !! i' = Some (k', j') →
     fences pm !! k = Some q → place g i = Some p → place g i' = Some p' →
     count g i i' = (if decide (k = k' ∧ beside (length (verts q)) j j') then 1 else 0) +
                    (if sees pm (polys pm !! k) (polys pm !! k') p p' then 1 else 0)).
Proof using Hsym.
  destruct (build_mk distance Hsym pm) as (E & HL & Hn). eexists _, (labels 0 (fences pm)). split; [exact E|]. split; [done|].
  assert (∀ i k j, labels 0 (fences pm) !! i = Some (k, j) →
    (k < length (polys pm) → allnos 0 (polys pm) !! i = Some k) ∧ (length (polys pm) ≤ k → allnos 0 (polys pm) !! i = None)) as Hno.
  { intros i k j Hi. unfold fences in Hi. rewrite labels_app in Hi. cbn [Nat.add] in Hi. apply lookup_app_Some in Hi as [Hi|[Hge Hi]].
    - pose proof (labels_no _ _ _ _ _ Hi) as Hk. split; [done|]. intros Hlen. apply elem_of_list_lookup_2, elem_of_labels in Hi as (_ & q & Hq & _).
      apply lookup_lt_Some in Hq. lia.
    - apply elem_of_list_lookup_2, elem_of_labels in Hi as (Hk & _). split; [lia|]. intros _. apply lookup_ge_None. rewrite allnos_length. by rewrite labels_length in Hge. }
  assert (∀ i k j, labels 0 (fences pm) !! i = Some (k, j) → obstacle pm (allnos 0 (polys pm)) i = polys pm !! k) as Hob.
  { intros i k j Hi. destruct (Hno i k j Hi) as [H1 H2]. unfold obstacle. destruct (decide (k < length (polys pm))) as [Hk|Hk].
    - by rewrite H1.
    - rewrite H2 by lia. cbn. symmetry. apply lookup_ge_None. lia. }
  split; [cbn [gverts mkgraph]; by rewrite mkverts_length, labels_length|]. split; [apply labels_sorted|]. split; [|split].
  - intros k j. rewrite elem_of_labels, Nat.sub_0_r. split; [by intros [_ ?]|]. split; [lia|done].
  - intros i k j Hi. destruct (labels_pts _ _ _ _ _ Hi) as (q & p & _ & Hq & Hp & Ha). rewrite Nat.sub_0_r in Hq. exists q, p. split; [done|]. split; [done|].
    rewrite place_mk. split; [done|]. cbn [polyno mkgraph]. by apply (Hno i k j).
  - intros i i' k k' j j' q p p' Hii Hi Hi' Hq Hp Hp'. rewrite place_mk in Hp, Hp'. rewrite count_mk by done. rewrite filter_app, app_length. f_equal.
    + rewrite (filter_one _ (length (allpts (fences pm)))) by first [apply alllinks_NoDup|done|eapply links_sub; [|exact HL]; intros; apply elem_of_app; by left].
      pose proof (alllinks_spec 0 0 (fences pm) i i' j j' k k' Hi Hi' Hii) as Hs. cbn [Nat.add] in Hs. rewrite Nat.sub_0_r in Hs.
      apply decide_ext. rewrite Hs. split; [intros [-> (q' & Hq' & Hb)]; split; [done|]; by simplify_eq|]. intros [-> Hb]. split; [done|]. by exists q.
    + rewrite (filter_one _ (length (allpts (fences pm)))) by first [apply NoDup_filter, pairs_NoDup|done|eapply links_sub; [|exact HL]; intros; apply elem_of_app; by right].
      unfold vispairs. pose proof (lookup_lt_Some _ _ _ Hp') as Hlt.
      destruct (sees pm (polys pm !! k) (polys pm !! k') p p') eqn:Es.
      * rewrite decide_True; [done|]. apply elem_of_list_filter. rewrite elem_of_pairs. split; [|lia]. unfold seen. cbn [fst snd].
        by rewrite (Hob i k j), (Hob i' k' j'), (at_Some _ i p), (at_Some _ i' p').
      * rewrite decide_False; [done|]. intros [Hv _]%elem_of_list_filter. unfold seen in Hv. cbn [fst snd] in Hv.
        rewrite (Hob i k j), (Hob i' k' j'), (at_Some _ i p), (at_Some _ i' p') in Hv by done. congruence.
Qed.

(** A new vertex is linked to exactly those it sees; nothing else changes. *)
Theorem C114_added g p g' n : reach g → add distance g p = Some (g', n) →
  n = length (gverts g) ∧ length (gverts g') = S n ∧ gmap g' = gmap g ∧ polyno g' = polyno g ∧ place g' n = Some p ∧
  (∀ i, i < n → place g' i = place g i) ∧ (∀ i j, i < n → j < n → count g' i j = count g i j) ∧
  (∀ i u, i < n → place g i = Some u → count g' i n = if sees (gmap g) (obstacle (gmap g) (polyno g) i) None u p then 1 else 0).
Proof using Hsym Htrans.
  intros (pts & L & pm & pn & -> & HL & Hn & Hl)%reach_shape E. destruct (add_mk distance Hsym pts L pm pn p HL Hn) as (E' & HL').
  pose proof (eq_trans (eq_sym E') E) as E2. injection E2 as <- <-. cbn [gverts gmap polyno mkgraph]. rewrite !mkverts_length, app_length. cbn [length].
  split; [done|]. split; [lia|]. split; [done|]. split; [done|]. split; [by rewrite place_mk, list_lookup_middle|]. split; [|split].
  - intros i Hi. rewrite !place_mk. by rewrite lookup_app_l.
  - intros i j Hi Hj. rewrite !count_mk by done. rewrite filter_app, app_length.
    assert (filter (λ ab : nat * nat, ab = (i, j) ∨ ab = (j, i)) (filter (λ ij, seen pm pn (pts ++ [p]) ij = true) ((λ i, (i, length pts)) <$> seq 0 (length pts))) = []) as ->; [|cbn; lia].
    apply filter_none. intros ab [_ (x & -> & _)%elem_of_list_fmap]%elem_of_list_filter [[= E1 E3]|[= E1 E3]]; lia.
  - intros i u Hi Hu. rewrite place_mk in Hu. rewrite count_mk by done. rewrite filter_app, app_length.
    assert (filter (λ ab : nat * nat, ab = (i, length pts) ∨ ab = (length pts, i)) L = []) as ->.
    { apply filter_none. intros [a b] Hin. specialize (HL a b Hin). intros [[= -> ->]|[= -> ->]]; lia. }
    cbn [length Nat.add]. rewrite (filter_one _ (length (pts ++ [p]))).
    2:{ apply NoDup_filter, NoDup_fmap_2; [congruence|apply NoDup_seq]. } 2:{ eapply links_sub; [|exact HL']; intros; apply elem_of_app; by right. } 2:done.
    assert (seen pm pn (pts ++ [p]) (i, length pts) = sees pm (obstacle pm pn i) None u p) as Hs.
    { unfold seen. cbn [fst snd]. rewrite (at_Some _ i u) by (by rewrite lookup_app_l). rewrite (at_Some _ (length pts) p) by (by apply list_lookup_middle).
      f_equal. unfold obstacle. by rewrite lookup_ge_None_2. }
    rewrite <-Hs. destruct (seen pm pn (pts ++ [p]) (i, length pts)) eqn:Es.
    + rewrite decide_True; [done|]. apply elem_of_list_filter. split; [done|]. apply elem_of_list_fmap. exists i. split; [done|]. apply elem_of_seq. lia.
    + rewrite decide_False; [done|]. intros [Hv _]%elem_of_list_filter. congruence.
Qed.
End graphs.

(** What a link for sight means: the line between points a thousandth of the way from either end meets no polygon, its start is in the
    bound, and neither of these points is inside the obstacle of its vertex. *)
Definition onway (f : Q) (p q : pt) : pt := Pt (x p + f * (x q - x p)) (y p + f * (y q - y p)).
Theorem C114_sight pm o o' p q : wellmap pm → sees pm o o' p q = true →
  let p' := onway (1 # 1000) p q in let q' := onway (999 # 1000) p q in
  (∀ b, o = Some b → contains b p' = false) ∧ (∀ b, o' = Some b → contains b q' = false) ∧
  (∀ b, bound pm = Some b → contains b p' = true) ∧
  ∀ b e r, fence pm b → e ∈ around (verts b) → clear p' q' e.1 e.2 → on p' q' r → on e.1 e.2 r → False.
Proof.
  intros Hw Hs p' q'. unfold sees in Hs. change (along (mkseg p q) (1 # 1000)) with p' in Hs. change (along (mkseg p q) (1 - (1 # 1000))) with q' in Hs.
  apply andb_true_iff in Hs as [[H1%negb_true_iff H2%negb_true_iff]%andb_true_iff Hv].
  split; [intros b ->; done|]. split; [intros b ->; done|]. by apply C110_visible.
Qed.
Theorem C114_no_sight pm o o' p q : wellmap pm → sees pm o o' p q = false →
  let p' := onway (1 # 1000) p q in let q' := onway (999 # 1000) p q in
  (∀ b e, fence pm b → e ∈ around (verts b) → clear p' q' e.1 e.2) →
  (∃ b, o = Some b ∧ contains b p' = true) ∨ (∃ b, o' = Some b ∧ contains b q' = true) ∨ (∃ b, bound pm = Some b ∧ contains b p' = false) ∨
  ∃ b e r, fence pm b ∧ e ∈ around (verts b) ∧ near p' q' r ∧ near e.1 e.2 r.
Proof.
  intros Hw Hs p' q' Hc. unfold sees in Hs. change (along (mkseg p q) (1 # 1000)) with p' in Hs. change (along (mkseg p q) (1 - (1 # 1000))) with q' in Hs.
  destruct (covers o p') eqn:E1. { left. destruct o as [b|]; [|done]. by exists b. }
  destruct (covers o' q') eqn:E2. { right; left. destruct o' as [b|]; [|done]. by exists b. }
  cbn [negb andb] in Hs. right; right. by apply C110_hidden.
Qed.

(** ** Examples *)
(** The distance squared, which can be computed. *)
Definition square (p q : pt) : Q := Qred ((x p - x q) * (x p - x q) + (y p - y q) * (y p - y q)).
Example square_symmetric p q : square p q = square q p.
Proof. apply Qred_complete. ring. Qed.
Example square_translated dx dy p q : square (translatept dx dy p) (translatept dx dy q) = square p q.
Proof. apply Qred_complete. unfold translatept. cbn [x y]. ring. Qed.

Definition P (a b : Z) : pt := Pt (inject_Z a) (inject_Z b).
Definition yard : option polymap :=
  b ← mkpoly [P 10 10; P 10 20; P 20 20; P 20 10];
  Some (PolyMap [b] None).
(** A square obstacle: four vertices, linked around but not across. *)
Definition summary (g : graph Q) : list (pt * list (nat * Q)) := (λ v, (loc v, (λ e, (dst e, dist e)) <$> edges v)) <$> gverts g.
Definition yardgraph : option (graph Q) := pm ← yard; build square pm.
Example yard_built : summary <$> yardgraph = Some
  [(P 10 10, [(1, inject_Z 100); (3, inject_Z 100); (3, inject_Z 100)]);
   (P 10 20, [(0, inject_Z 100); (2, inject_Z 100)]);
   (P 20 20, [(1, inject_Z 100); (3, inject_Z 100); (3, inject_Z 100)]);
   (P 20 10, [(0, inject_Z 100); (2, inject_Z 100); (0, inject_Z 100); (2, inject_Z 100)])].
Proof. vm_compute. reflexivity. Qed.
(** Two more points on opposite sides of it: each sees the two corners on its side. *)
Example yard_added : ('(g, i) ← (g ← yardgraph; add square g (P 0 15)); '(g, j) ← add square g (P 30 15); Some (i, j, drop 4 (summary g))) = Some
  (4, 5, [(P 0 15, [(0, inject_Z 125); (1, inject_Z 125)]); (P 30 15, [(2, inject_Z 125); (3, inject_Z 125)])]).
Proof. vm_compute. reflexivity. Qed.
Example yard_reached : ∃ pm g, yard = Some pm ∧ wellmap pm ∧ build square pm = Some g ∧ reach square g ∧ count g 0 1 = 1 ∧ count g 0 2 = 0 ∧ count g 3 0 = 2 ∧
  ∃ g', scale square (2 # 1) (2 # 1) g = Some g' ∧ reach square g' ∧ count g' 3 0 = 2.
Proof.
  destruct yard as [pm|] eqn:Ey; [|by vm_compute in Ey]. destruct (C114_built square square_symmetric pm) as (g & _ & E & Em & _).
  exists pm, g. assert (yardgraph = Some g) as Eg by (unfold yardgraph; by rewrite Ey).
  assert (reach square g) as Hr by by eapply reach_build.
  assert ((λ g, (count g 0 1, count g 0 2, count g 3 0)) <$> yardgraph = Some (1, 0, 2)) as Hc by (vm_compute; reflexivity). rewrite Eg in Hc. injection Hc as H1 H2 H3.
  assert (wellmap pm) as Hw.
  { unfold yard in Ey. apply bind_Some in Ey as (b & Hb & [= <-]). split; [|done]. intros q ->%elem_of_list_singleton. by eapply C109_built. }
  split; [done|]. split; [done|]. split; [done|]. split; [done|]. split; [done|]. split; [done|]. split; [done|].
  destruct (C113_scaled square square_symmetric square_translated g (2 # 1) (2 # 1) Hr) as [Hd Hs]. rewrite Em in Hd.
  destruct (C109_map_scaled (2 # 1) (2 # 1) pm) as (pm' & Epm & _); [done|done|done|]. destruct (Hd pm' Epm) as [g' Eg']. exists g'. split; [done|].
  split; [by eapply reach_scale|]. destruct (Hs g' Eg') as (_ & _ & -> & _). done.
Qed.

Print Assumptions C113_edges.
Print Assumptions C113_mirror.
Print Assumptions C113_add_defined.
Print Assumptions C113_scaled.
Print Assumptions C113_translated.
Print Assumptions C114_built.
Print Assumptions C114_added.
Print Assumptions C114_sight.
Print Assumptions C114_no_sight.
