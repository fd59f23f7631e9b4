(** Visibility graphs: proofs about visnav/visgraph.cc. *)
From stdpp Require Import prelude.
From Coq Require Import ZArith Lia ZifyBool ZifyNat QArith.
From Verif.Geom Require Import Model Polygon.
From Verif.Visnav Require Import Model.
Local Open Scope nat_scope.

Section graph.
Context {C : Type} (distance : pt → pt → C) (Hsym : ∀ p q, distance p q = distance q p).
Notation addedge := (addedge distance).
Notation consideredge := (consideredge distance).
Notation addpoly := (addpoly distance).

(** ** A graph as its points and the pairs linked, in order *)
Definition at_ (pts : list pt) (i : nat) : pt := default (Pt 0 0) (pts !! i).
Definition mkedge (pts : list pt) (i j : nat) : edge C := Edge i j (distance (at_ pts i) (at_ pts j)).
Definition ends (pts : list pt) (i : nat) (ab : nat * nat) : list (edge C) :=
  (if decide (ab.1 = i) then [mkedge pts i ab.2] else []) ++ (if decide (ab.2 = i) then [mkedge pts i ab.1] else []).
Definition edgesat (pts : list pt) (L : list (nat * nat)) (i : nat) : list (edge C) := L ≫= ends pts i.
Definition mkverts (pts : list pt) (L : list (nat * nat)) : list (vert C) := imap (λ i p, Vert i p (edgesat pts L i)) pts.
Definition mkgraph (pts : list pt) (L : list (nat * nat)) (pm : polymap) (pn : list nat) : graph C := Graph (mkverts pts L) pm pn.
Definition links (n : nat) (L : list (nat * nat)) : Prop := ∀ a b, (a, b) ∈ L → a < b < n.

Lemma links_app n L L' : links n L → links n L' → links n (L ++ L').
Proof. intros H H' a b [?|?]%elem_of_app; auto. Qed.
Lemma links_mono n m L : n ≤ m → links n L → links m L.
Proof. intros Hm H a b Hab. specialize (H a b Hab). lia. Qed.

Lemma edgesat_app pts L L' i : edgesat pts (L ++ L') i = edgesat pts L i ++ edgesat pts L' i.
Proof. apply bind_app. Qed.
Lemma mkverts_lookup pts L i : mkverts pts L !! i = (λ p, Vert i p (edgesat pts L i)) <$> pts !! i.
Proof. unfold mkverts. by rewrite list_lookup_imap. Qed.
Lemma mkverts_length pts L : length (mkverts pts L) = length pts.
Proof. apply imap_length. Qed.
Lemma at_Some pts i p : pts !! i = Some p → at_ pts i = p.
Proof. intros H. unfold at_. by rewrite H. Qed.

Lemma addedge_mk pts L pm pn i j : i < j < length pts →
  addedge (mkgraph pts L pm pn) i j = Some (mkgraph pts (L ++ [(i, j)]) pm pn).
Proof.
  intros Hij. destruct (lookup_lt_is_Some_2 pts i) as [p Hp]; [lia|]. destruct (lookup_lt_is_Some_2 pts j) as [q Hq]; [lia|].
  unfold Model.addedge, mkgraph. cbn [gverts gmap polyno]. rewrite !mkverts_lookup, Hp, Hq. cbn [fmap option_fmap option_map mbind option_bind loc].
  f_equal. f_equal. apply list_eq. intros k. rewrite mkverts_lookup, edgesat_app.
  assert (edgesat pts [(i, j)] k = ends pts k (i, j)) as -> by apply app_nil_r.
  unfold ends, mkedge. cbn [fst snd]. destruct (decide (k = j)) as [->|Hkj].
  - rewrite list_lookup_alter, list_lookup_alter_ne by lia. rewrite mkverts_lookup, Hq. cbn. f_equal. unfold pushedge. cbn [id loc edges].
    rewrite decide_False by lia. rewrite decide_True by done. cbn [app]. rewrite (at_Some pts i p), (at_Some pts j q) by done. by rewrite Hsym.
  - rewrite list_lookup_alter_ne by lia. destruct (decide (k = i)) as [->|Hki].
    + rewrite list_lookup_alter. rewrite mkverts_lookup, Hp. cbn. f_equal. unfold pushedge. cbn [id loc edges].
      rewrite decide_True by done. rewrite decide_False by lia. cbn [app]. rewrite (at_Some pts i p), (at_Some pts j q) by done. done.
    + rewrite list_lookup_alter_ne by lia. rewrite mkverts_lookup. rewrite !decide_False by lia. cbn [app]. by rewrite app_nil_r.
Qed.

Lemma edgesat_grow pts ps L i : links (length pts) L → edgesat (pts ++ ps) L i = edgesat pts L i.
Proof.
  intros HL. unfold edgesat. induction L as [|[a b] L IH]; [done|]. cbn [mbind list_bind]. rewrite IH by (intros ? ? ?; apply HL; by apply elem_of_list_further).
  f_equal. specialize (HL a b (elem_of_list_here _ _)). unfold ends, mkedge, at_. cbn [fst snd].
  destruct (decide (a = i)) as [->|]; [rewrite !lookup_app_l by lia|]; (destruct (decide (b = i)) as [->|]; [rewrite ?lookup_app_l by lia|]); done.
Qed.
Lemma edgesat_none pts L i : links i L → edgesat pts L i = [].
Proof.
  intros HL. unfold edgesat. induction L as [|[a b] L IH]; [done|]. cbn [mbind list_bind]. rewrite IH by (intros ? ? ?; apply HL; by apply elem_of_list_further).
  specialize (HL a b (elem_of_list_here _ _)). unfold ends. cbn [fst snd]. rewrite !decide_False by lia. done.
Qed.
Lemma mkverts_grow pts ps L : links (length pts) L →
  mkverts (pts ++ ps) L = mkverts pts L ++ imap (λ k p, Vert (length pts + k) p []) ps.
Proof.
  intros HL. unfold mkverts at 1. rewrite imap_app. f_equal.
  - apply imap_ext. intros i p Hi. by rewrite edgesat_grow.
  - apply imap_ext. intros i p Hi. cbn. rewrite edgesat_none; [done|]. eapply links_mono; [|done]. lia.
Qed.

(** ** Loops over pairs *)
Lemma overpairs_mk (f : graph C → nat → nat → option (graph C)) pts pm pn (t : nat * nat → bool) (m : nat * nat → nat * nat) l L :
  (∀ L i j, (i, j) ∈ l → links (length pts) L →
     f (mkgraph pts L pm pn) i j = Some (mkgraph pts (L ++ (if t (i, j) then [m (i, j)] else [])) pm pn)) →
  (∀ ij, ij ∈ l → (m ij).1 < (m ij).2 < length pts) → links (length pts) L →
  overpairs f (mkgraph pts L pm pn) l = Some (mkgraph pts (L ++ (m <$> filter (λ ij, t ij = true) l)) pm pn).
Proof.
  revert L. induction l as [|[i j] l IH]; intros L Hf Hm HL; [cbn; by rewrite app_nil_r|]. cbn [overpairs].
  rewrite Hf by first [done|apply elem_of_list_here]. cbn [mbind option_bind]. rewrite IH.
  - rewrite <-app_assoc. f_equal. f_equal. f_equal. rewrite filter_cons. destruct (t (i, j)) eqn:Et.
    + rewrite decide_True by done. done.
    + rewrite decide_False by congruence. done.
  - intros L' i' j' Hin. apply Hf. by apply elem_of_list_further.
  - intros ij Hij. apply Hm. by apply elem_of_list_further.
  - apply links_app; [done|]. destruct (t (i, j)); [|by intros ? ? ?%elem_of_nil]. intros a b Hab%elem_of_list_singleton.
    pose proof (Hm (i, j) (elem_of_list_here _ _)) as H. by rewrite <-Hab in H.
Qed.
Lemma filter_links n (t : nat * nat → bool) (m : nat * nat → nat * nat) l : (∀ ij, ij ∈ l → (m ij).1 < (m ij).2 < n) →
  links n (m <$> filter (λ ij, t ij = true) l).
Proof. intros H a b (ij & E & [_ Hij]%elem_of_list_filter)%elem_of_list_fmap. specialize (H ij Hij). by rewrite <-E in H. Qed.

Lemma elem_of_pairs n i j : (i, j) ∈ pairs n ↔ i < j < n.
Proof.
  unfold pairs. rewrite elem_of_list_bind. split.
  - intros (i' & (j' & [= -> ->] & Hj%elem_of_seq)%elem_of_list_fmap & Hi%elem_of_seq). lia.
  - intros Hij. exists i. rewrite elem_of_list_fmap, elem_of_seq. split; [|lia]. exists j. rewrite elem_of_seq. split; [done|lia].
Qed.
Lemma pairs_NoDup n : NoDup (pairs n).
Proof.
  unfold pairs. assert (∀ l, NoDup l → NoDup (i ← l; (λ j, (i, j)) <$> seq (S i) (n - S i))) as H; [|apply H, NoDup_seq].
  induction 1 as [|i l Hi Hnd IH]; [apply NoDup_nil_2|]. cbn [mbind list_bind]. apply NoDup_app. split; [|split; [|done]].
  - apply NoDup_fmap_2; [congruence|apply NoDup_seq].
  - intros [a b] (j & [= -> ->] & _)%elem_of_list_fmap Hin. apply elem_of_list_bind in Hin as (i' & (j' & [= -> ->] & _)%elem_of_list_fmap & Hi'). done.
Qed.

(** ** The test for an edge *)
Definition obstacle (pm : polymap) (pn : list nat) (i : nat) : option poly := k ← pn !! i; polys pm !! k.
Definition covers (o : option poly) (p : pt) : bool := match o with Some q => contains q p | None => false end.
(** Between points [p] and [q], corners of the given obstacles (if any): nothing in the way. *)
Definition sees (pm : polymap) (o o' : option poly) (p q : pt) : bool :=
  let p' := along (mkseg p q) (1 # 1000) in let q' := along (mkseg p q) (1 - (1 # 1000)) in
  negb (covers o p') && negb (covers o' q') && isvisible pm p' q'.
Definition seen (pm : polymap) (pn : list nat) (pts : list pt) (ij : nat * nat) : bool :=
  sees pm (obstacle pm pn ij.1) (obstacle pm pn ij.2) (at_ pts ij.1) (at_ pts ij.2).

Definition numbered (pm : polymap) (pn : list nat) : Prop := Forall (λ k, k < length (polys pm)) pn.

Lemma blockedat_covers pts L pm pn i p : numbered pm pn → blockedat (mkgraph pts L pm pn) i p = Some (covers (obstacle pm pn i) p).
Proof.
  intros Hn. unfold blockedat, obstacle. cbn [polyno gmap mkgraph]. destruct (decide (i < length pn)) as [Hi|Hi].
  - destruct (lookup_lt_is_Some_2 pn i Hi) as [k Hk]. rewrite Hk. cbn [mbind option_bind].
    destruct (lookup_lt_is_Some_2 (polys pm) k) as [q Hq]; [exact (proj1 (Forall_lookup _ _) Hn i k Hk)|]. by rewrite Hq.
  - rewrite lookup_ge_None_2 by lia. done.
Qed.
Lemma consideredge_mk pts L pm pn i j : numbered pm pn → i < j < length pts →
  consideredge (mkgraph pts L pm pn) i j = Some (mkgraph pts (L ++ (if seen pm pn pts (i, j) then [(i, j)] else [])) pm pn).
Proof.
  intros Hn Hij. destruct (lookup_lt_is_Some_2 pts i) as [p Hp]; [lia|]. destruct (lookup_lt_is_Some_2 pts j) as [q Hq]; [lia|].
  unfold Model.consideredge, seen, sees. cbn [fst snd]. rewrite (at_Some pts i p), (at_Some pts j q) by done.
  change (gverts (mkgraph pts L pm pn)) with (mkverts pts L). rewrite !mkverts_lookup, Hp, Hq. cbn [fmap option_fmap option_map mbind option_bind loc].
  rewrite !blockedat_covers by done. cbn [mbind option_bind].
  destruct (covers (obstacle pm pn i) _); cbn [negb andb]; [by rewrite app_nil_r|].
  destruct (covers (obstacle pm pn j) _); cbn [negb andb]; [by rewrite app_nil_r|].
  change (gmap (mkgraph pts L pm pn)) with pm. destruct (isvisible pm _ _); [by apply addedge_mk|by rewrite app_nil_r].
Qed.

(** ** Corners of one polygon *)
Definition reflexb (vs : list pt) (j : nat) : bool := default false (isreflex vs j).
Lemma isreflex_defined vs j : j < length vs → isreflex vs j = Some (reflexb vs j).
Proof.
  intros Hj. unfold reflexb. destruct (neighbours vs j Hj) as (u & v & w & Hu & Hv & Hw).
  unfold isreflex. rewrite (turn_some vs j u v w) by done. done.
Qed.
Lemma reflexes_spec vs : reflexes vs = Some (filter (λ j, reflexb vs j = true) (seq 0 (length vs))).
Proof.
  unfold reflexes. assert (∀ l, (∀ j, j ∈ l → j < length vs) → mapM (λ j, b ← isreflex vs j; Some (j, b)) l = Some ((λ j, (j, reflexb vs j)) <$> l)) as H.
  { induction l as [|j l IH]; intros Hl; [done|]. cbn [mapM]. rewrite isreflex_defined by (apply Hl; apply elem_of_list_here). cbn [mbind option_bind].
    rewrite IH by (intros i Hi; apply Hl; by apply elem_of_list_further). done. }
  rewrite H by (intros j Hj%elem_of_seq; lia). cbn [mbind option_bind]. f_equal. clear H.
  induction (seq 0 (length vs)) as [|j l IH]; [done|]. cbn [fmap list_fmap]. rewrite !filter_cons. cbn [snd].
  destruct (decide (reflexb vs j = true)); cbn [fmap list_fmap fst]; by rewrite IH.
Qed.
Definition corners (q : poly) : list nat := filter (λ j, reflexb (verts q) j = true) (seq 0 (length (verts q))).
Lemma elem_of_corners q j : j ∈ corners q ↔ isreflex (verts q) j = Some true.
Proof.
  unfold corners. rewrite elem_of_list_filter, elem_of_seq. split.
  - intros [Hr Hj]. rewrite isreflex_defined by lia. by rewrite Hr.
  - intros H. unfold reflexb. rewrite H. split; [done|]. split; [lia|]. unfold isreflex, turn in H.
    destruct (verts q !! (if decide (j = 0) then _ else _)); [|done]. cbn [mbind option_bind] in H.
    destruct (verts q !! j) eqn:E; [|done]. by apply lookup_lt_Some in E.
Qed.
Lemma corners_NoDup q : NoDup (corners q).
Proof. apply NoDup_filter, NoDup_seq. Qed.

(** The point of corner [j]. *)
Definition cornerpts (q : poly) : list pt := (λ j, at_ (verts q) j) <$> corners q.
Definition beside (n a b : nat) : Prop := (a + 1) mod n = b ∨ (b + 1) mod n = a.
Global Instance beside_dec n a b : Decision (beside n a b).
Proof. unfold beside. apply _. Defined.
(** The pairs of corners of a polygon that are next to each other, by their place among the corners. *)
Definition sidepairs (q : poly) : list (nat * nat) :=
  filter (λ ij, (bool_decide (beside (length (verts q)) (default 0 (corners q !! ij.1)) (default 0 (corners q !! ij.2)))) = true) (pairs (length (corners q))).
Definition shift (k : nat) (ij : nat * nat) : nat * nat := (k + ij.1, k + ij.2).

Lemma addpoly_mk pts L pm pn q : links (length pts) L →
  addpoly (mkgraph pts L pm pn) q (corners q) =
    Some (mkgraph (pts ++ cornerpts q) (L ++ (shift (length pts) <$> sidepairs q)) pm pn) ∧
  links (length (pts ++ cornerpts q)) (L ++ (shift (length pts) <$> sidepairs q)).
Proof.
  intros HL. unfold Model.addpoly. change (gverts (mkgraph pts L pm pn)) with (mkverts pts L). rewrite mkverts_length.
  assert (∀ l, (∀ j, j ∈ l → j < length (verts q)) → mapM (λ j, verts q !! j) l = Some ((λ j, at_ (verts q) j) <$> l)) as Hm.
  { induction l as [|j l IH]; intros Hl; [done|]. cbn [mapM]. destruct (lookup_lt_is_Some_2 (verts q) j) as [p Hp]; [apply Hl; apply elem_of_list_here|].
    rewrite Hp. cbn [mbind option_bind]. rewrite IH by (intros i Hi; apply Hl; by apply elem_of_list_further). cbn [fmap list_fmap]. by rewrite (at_Some _ _ p). }
  rewrite Hm. 2:{ intros j [_ Hj%elem_of_seq]%elem_of_list_filter. lia. }
  cbn [mbind option_bind]. fold (cornerpts q). rewrite <-mkverts_grow by done.
  change (Graph (mkverts (pts ++ cornerpts q) L) (gmap (mkgraph pts L pm pn)) (polyno (mkgraph pts L pm pn))) with (mkgraph (pts ++ cornerpts q) L pm pn).
  assert (links (length (pts ++ cornerpts q)) L) as HL'. { eapply links_mono; [|done]. rewrite app_length. lia. }
  assert (length (cornerpts q) = length (corners q)) as Hlen by apply fmap_length.
  assert (∀ ij, ij ∈ pairs (length (corners q)) → (shift (length pts) ij).1 < (shift (length pts) ij).2 < length (pts ++ cornerpts q)) as Hs.
  { intros [i j] Hij%elem_of_pairs. unfold shift. cbn [fst snd]. rewrite app_length. lia. }
  split.
  - rewrite (overpairs_mk _ (pts ++ cornerpts q) pm pn
      (λ ij, bool_decide (beside (length (verts q)) (default 0 (corners q !! ij.1)) (default 0 (corners q !! ij.2)))) (shift (length pts))).
    + done.
    + intros L' i j Hij%elem_of_pairs HL''. destruct (lookup_lt_is_Some_2 (corners q) i) as [a Ha]; [lia|]. destruct (lookup_lt_is_Some_2 (corners q) j) as [b Hb]; [lia|].
      cbn [fst snd]. rewrite Ha, Hb. cbn [mbind option_bind default]. unfold beside.
      destruct (decide ((a + 1) mod length (verts q) = b ∨ (b + 1) mod length (verts q) = a)) as [Hd|Hd].
      * rewrite bool_decide_eq_true_2 by done. apply addedge_mk. rewrite app_length. lia.
      * rewrite bool_decide_eq_false_2 by done. by rewrite app_nil_r.
    + done.
    + done.
  - apply links_app; [done|]. apply filter_links. done.
Qed.

(** ** The whole graph *)
Fixpoint allpts (qs : list poly) : list pt := match qs with [] => [] | q :: qs => cornerpts q ++ allpts qs end.
Fixpoint alllinks (n : nat) (qs : list poly) : list (nat * nat) :=
  match qs with [] => [] | q :: qs => (shift n <$> sidepairs q) ++ alllinks (n + length (corners q)) qs end.
Fixpoint allnos (k : nat) (qs : list poly) : list nat := match qs with [] => [] | q :: qs => replicate (length (corners q)) k ++ allnos (S k) qs end.

Lemma allpts_app qs qs' : allpts (qs ++ qs') = allpts qs ++ allpts qs'.
Proof. induction qs as [|q qs IH]; [done|]. cbn. by rewrite IH, app_assoc. Qed.
Lemma alllinks_app n qs qs' : alllinks n (qs ++ qs') = alllinks n qs ++ alllinks (n + length (allpts qs)) qs'.
Proof.
  revert n. induction qs as [|q qs IH]; intros n; cbn; [by rewrite Nat.add_0_r|]. rewrite IH, app_assoc, app_length. unfold cornerpts. rewrite fmap_length.
  by rewrite Nat.add_assoc.
Qed.

Lemma addpolys_mk pts L pm pn k qs : links (length pts) L →
  addpolys distance (mkgraph pts L pm pn) k qs =
    Some (mkgraph (pts ++ allpts qs) (L ++ alllinks (length pts) qs) pm (pn ++ allnos k qs)) ∧
  links (length (pts ++ allpts qs)) (L ++ alllinks (length pts) qs).
Proof.
  revert pts L pn k. induction qs as [|q qs IH]; intros pts L pn k HL; cbn [addpolys allpts alllinks allnos]; [by rewrite !app_nil_r|].
  rewrite reflexes_spec. fold (corners q). cbn [mbind option_bind]. destruct (addpoly_mk pts L pm pn q HL) as [-> HL']. cbn [mbind option_bind].
  change (Graph _ _ _) with (mkgraph (pts ++ cornerpts q) (L ++ (shift (length pts) <$> sidepairs q)) pm (pn ++ replicate (length (corners q)) k)).
  destruct (IH (pts ++ cornerpts q) _ (pn ++ replicate (length (corners q)) k) (S k) HL') as [-> HL''].
  assert (length (pts ++ cornerpts q) = length pts + length (corners q)) as Hlen by (unfold cornerpts; by rewrite app_length, fmap_length).
  rewrite Hlen in HL'' |- *. rewrite <-!app_assoc in HL'' |- *. rewrite <-app_assoc. done.
Qed.

(** All polygons, the bound last. *)
Definition fences (pm : polymap) : list poly := polys pm ++ match bound pm with Some q => [q] | None => [] end.

Lemma populateverts_mk pm :
  populateverts distance (Graph [] pm []) = Some (mkgraph (allpts (fences pm)) (alllinks 0 (fences pm)) pm (allnos 0 (polys pm))) ∧
  links (length (allpts (fences pm))) (alllinks 0 (fences pm)).
Proof.
  unfold populateverts. change (Graph [] pm []) with (mkgraph [] [] pm []). change (gmap (mkgraph [] [] pm [])) with pm.
  destruct (addpolys_mk [] [] pm [] 0 (polys pm)) as [-> HL]; [by intros ? ? ?%elem_of_nil|]. cbn [mbind option_bind app length] in *.
  change (gmap (mkgraph _ _ _ _)) with pm. unfold fences. rewrite allpts_app, alllinks_app. cbn [Nat.add].
  destruct (bound pm) as [q|] eqn:Eq; [|cbn [allpts alllinks]; by rewrite !app_nil_r].
  rewrite reflexes_spec. fold (corners q). cbn [mbind option_bind allpts alllinks].
  destruct (addpoly_mk (allpts (polys pm)) (alllinks 0 (polys pm)) pm (allnos 0 (polys pm)) q HL) as [-> HL'].
  rewrite !app_nil_r. done.
Qed.

Lemma allnos_numbered pm k qs : k + length qs ≤ length (polys pm) → numbered pm (allnos k qs).
Proof.
  revert k. induction qs as [|q qs IH]; intros k Hk; [constructor|]. cbn [allnos length] in *. apply Forall_app. split; [|apply IH; lia].
  apply Forall_forall. intros x [-> _]%elem_of_replicate. lia.
Qed.

Definition vispairs (pm : polymap) (pn : list nat) (pts : list pt) : list (nat * nat) := filter (λ ij, seen pm pn pts ij = true) (pairs (length pts)).

Lemma build_mk pm : let pts := allpts (fences pm) in let pn := allnos 0 (polys pm) in
  build distance pm = Some (mkgraph pts (alllinks 0 (fences pm) ++ vispairs pm pn pts) pm pn) ∧
  links (length pts) (alllinks 0 (fences pm) ++ vispairs pm pn pts) ∧ numbered pm pn.
Proof.
  intros pts pn. unfold build. destruct (populateverts_mk pm) as [-> HL]. cbn [mbind option_bind]. fold pts in HL |- *. fold pn.
  assert (numbered pm pn) as Hn by (by apply allnos_numbered). unfold visedges. change (gverts (mkgraph _ _ _ _)) with (mkverts pts (alllinks 0 (fences pm))).
  rewrite mkverts_length.
  assert (∀ ij : nat * nat, ij ∈ pairs (length pts) → ((λ ij, ij) ij).1 < ((λ ij : nat * nat, ij) ij).2 < length pts) as Hp. { intros [i j] Hij%elem_of_pairs. done. }
  rewrite (overpairs_mk _ pts pm pn (seen pm pn pts) (λ ij, ij)).
  - rewrite list_fmap_id. split; [done|]. split; [|done]. apply links_app; [done|]. intros a b [_ Hab%elem_of_pairs]%elem_of_list_filter. done.
  - intros L i j Hij%elem_of_pairs HL'. by apply consideredge_mk.
  - done.
  - done.
Qed.

Lemma add_mk pts L pm pn p : links (length pts) L → numbered pm pn → let n := length pts in
  add distance (mkgraph pts L pm pn) p =
    Some (mkgraph (pts ++ [p]) (L ++ filter (λ ij, seen pm pn (pts ++ [p]) ij = true) ((λ i, (i, n)) <$> seq 0 n)) pm pn, n) ∧
  links (length (pts ++ [p])) (L ++ filter (λ ij, seen pm pn (pts ++ [p]) ij = true) ((λ i, (i, n)) <$> seq 0 n)).
Proof.
  intros HL Hn n. unfold add. change (gverts (mkgraph pts L pm pn)) with (mkverts pts L). rewrite mkverts_length. fold n.
  assert (mkverts pts L ++ [Vert n p []] = mkverts (pts ++ [p]) L) as ->. { rewrite mkverts_grow by done. cbn. by rewrite Nat.add_0_r. }
  change (Graph _ _ _) with (mkgraph (pts ++ [p]) L pm pn).
  assert (links (length (pts ++ [p])) L) as HL'. { eapply links_mono; [|done]. rewrite app_length. lia. }
  assert (∀ ij : nat * nat, ij ∈ ((λ i, (i, n)) <$> seq 0 n) → ij.1 < ij.2 < length (pts ++ [p])) as Hp.
  { intros ij (i & -> & Hi%elem_of_seq)%elem_of_list_fmap. cbn [fst snd]. rewrite app_length. cbn. lia. }
  rewrite (overpairs_mk _ (pts ++ [p]) pm pn (seen pm pn (pts ++ [p])) (λ ij, ij)).
  - rewrite list_fmap_id. split; [done|]. apply links_app; [done|]. intros a b [_ Hab]%elem_of_list_filter. by apply (Hp (a, b)).
  - intros L' i j Hij HL''. apply consideredge_mk; [done|]. by apply (Hp (i, j)).
  - done.
  - done.
Qed.

(** ** Scaling and translating *)
Lemma edgesat_dst pts L n i e : links n L → e ∈ edgesat pts L i → src e = i ∧ dst e ≠ i ∧ (dst e < n) ∧ dist e = distance (at_ pts i) (at_ pts (dst e)).
Proof.
  intros HL ([a b] & He & Hab)%elem_of_list_bind. specialize (HL a b Hab). unfold ends in He. cbn [fst snd] in He.
  apply elem_of_app in He as [He|He].
  - destruct (decide (a = i)) as [->|]; [|by apply elem_of_nil in He]. apply elem_of_list_singleton in He as ->. cbn. split_and!; done || lia.
  - destruct (decide (b = i)) as [->|]; [|by apply elem_of_nil in He]. apply elem_of_list_singleton in He as ->. cbn. split_and!; done || lia.
Qed.

Lemma mapM_spec {A B} (f : A → option B) (g : A → B) l : (∀ a, a ∈ l → f a = Some (g a)) → mapM f l = Some (g <$> l).
Proof.
  induction l as [|a l IH]; intros H; [done|]. cbn [mapM]. rewrite H by apply elem_of_list_here. cbn [mbind option_bind].
  rewrite IH by (intros; apply H; by apply elem_of_list_further). done.
Qed.

Lemma redist_edges pts pts' L i p (vs : list (vert C)) : links (length pts') L → (∀ j, loc <$> vs !! j = pts' !! j) → pts' !! i = Some p →
  mapM (λ e, u ← vs !! dst e; Some (Edge (src e) (dst e) (distance p (loc u)))) (edgesat pts L i) = Some (edgesat pts' L i).
Proof.
  intros HL Hvs Hp. rewrite (mapM_spec _ (λ e, Edge (src e) (dst e) (distance p (at_ pts' (dst e))))).
  - f_equal. unfold edgesat. clear HL. induction L as [|[a b] L IH]; [done|]. cbn [mbind list_bind]. rewrite fmap_app, IH. f_equal.
    unfold ends. cbn [fst snd]. rewrite fmap_app. unfold mkedge. rewrite (at_Some pts' i p) by done.
    destruct (decide (a = i)), (decide (b = i)); done.
  - intros e He. apply (edgesat_dst _ _ _ _ _ HL) in He as (_ & _ & Hd & _). pose proof (Hvs (dst e)) as Hv.
    destruct (lookup_lt_is_Some_2 pts' (dst e) Hd) as [q Hq]. rewrite Hq in Hv. apply fmap_Some in Hv as (u & Hu & ->). rewrite Hu. cbn [mbind option_bind].
    by rewrite (at_Some pts' (dst e) (loc u)).
Qed.

Lemma scale_mk sx sy pts L pm pn g : links (length pts) L → scale distance sx sy (mkgraph pts L pm pn) = Some g →
  ∃ pm', scalemap sx sy pm = Some pm' ∧ g = mkgraph (scalept sx sy <$> pts) L pm' pn.
Proof.
  intros HL. unfold scale. change (gmap (mkgraph pts L pm pn)) with pm. destruct (scalemap sx sy pm) as [pm'|]; [|done]. cbn [mbind option_bind].
  change (gverts (mkgraph pts L pm pn)) with (mkverts pts L). change (polyno (mkgraph pts L pm pn)) with pn.
  set (vs := (λ v, Vert (id v) (scalept sx sy (loc v)) (edges v)) <$> mkverts pts L). intros E.
  assert (∀ j, loc <$> vs !! j = (scalept sx sy <$> pts) !! j) as Hvs.
  { intros j. unfold vs. rewrite !list_lookup_fmap, mkverts_lookup. by destruct (pts !! j). }
  assert (mapM (redist distance vs) vs = Some (mkverts (scalept sx sy <$> pts) L)) as Hm.
  { assert (∀ v, v ∈ vs → redist distance vs v = Some (Vert (id v) (loc v) (edgesat (scalept sx sy <$> pts) L (id v)))) as Hr.
    { intros v (i & Hi)%elem_of_list_lookup. pose proof (Hvs i) as Hl. rewrite Hi in Hl. cbn in Hl. symmetry in Hl.
      unfold vs in Hi. rewrite list_lookup_fmap, mkverts_lookup in Hi. destruct (pts !! i) as [p|] eqn:Ep; [|done]. cbn in Hi. injection Hi as <-.
      unfold redist. cbn [loc id edges] in *. rewrite (redist_edges pts (scalept sx sy <$> pts) L i) by (try done; by rewrite fmap_length). done. }
    rewrite (mapM_spec _ (λ v, Vert (id v) (loc v) (edgesat (scalept sx sy <$> pts) L (id v)))) by done. f_equal.
    apply list_eq. intros i. unfold vs. rewrite !list_lookup_fmap, !mkverts_lookup, list_lookup_fmap. by destruct (pts !! i). }
  rewrite Hm in E. cbn [mbind option_bind] in E. injection E as <-. by exists pm'.
Qed.

Context (Htrans : ∀ dx dy p q, distance (translatept dx dy p) (translatept dx dy q) = distance p q).
Lemma translate_mk dx dy pts L pm pn g : links (length pts) L → translate dx dy (mkgraph pts L pm pn) = Some g →
  ∃ pm', translatemap dx dy pm = Some pm' ∧ g = mkgraph (translatept dx dy <$> pts) L pm' pn.
Proof.
  intros HL. unfold translate. change (gmap (mkgraph pts L pm pn)) with pm. destruct (translatemap dx dy pm) as [pm'|]; [|done]. cbn [mbind option_bind].
  change (gverts (mkgraph pts L pm pn)) with (mkverts pts L). change (polyno (mkgraph pts L pm pn)) with pn. intros [= <-].
  exists pm'. split; [done|]. unfold mkgraph. f_equal. apply list_eq. intros i. rewrite list_lookup_fmap, !mkverts_lookup, list_lookup_fmap.
  destruct (pts !! i) as [p|] eqn:Ep; [|done]. cbn. f_equal. f_equal. unfold edgesat.
  assert (∀ j, j < length pts → at_ (translatept dx dy <$> pts) j = translatept dx dy (at_ pts j)) as Hat.
  { intros j Hj. unfold at_. rewrite list_lookup_fmap. by destruct (lookup_lt_is_Some_2 pts j Hj) as [q ->]. }
  apply lookup_lt_Some in Ep. induction L as [|[a b] L IH]; [done|]. cbn [mbind list_bind]. rewrite IH by (intros ? ? ?; apply HL; by apply elem_of_list_further).
  f_equal. specialize (HL a b (elem_of_list_here _ _)). unfold ends, mkedge. cbn [fst snd]. rewrite !Hat by lia. by rewrite !Htrans.
Qed.
End graph.
