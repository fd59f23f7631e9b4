(** The vacuum cleaning domain: C58, C59, C75. *)
From stdpp Require Import prelude list_numbers.
From Coq Require Import ZArith Lia ZifyBool.
From Verif Require Import Gridnav.Model Gridnav.Props Gridnav.Heur Vacuum.Model.
Local Open Scope Z_scope.

(** ** Specification *)

(** An instance as it is loaded: a bordered four-way map, and a numbering of its dirty cells. *)
Record good_vacuum (v : vacuum) : Prop := {
  gv_map : good_map (vmap v);
  gv_four : mmoves (vmap v) = fourway;
  gv_dlen : Z.of_nat (length (vdirt v)) = size (vmap v);
  gv_clen : Z.of_nat (length (vchg v)) = size (vmap v);
  gv_dirt l d : rd (vdirt v) l = Some d → 0 ≤ d →
    ∃ x y, vlocs v !! Z.to_nat d = Some (x, y) ∧ l = x + y * mw (vmap v) ∧
      0 < x < mw (vmap v) - 1 ∧ 0 < y < mh (vmap v) - 1;
  gv_locs i x y : vlocs v !! i = Some (x, y) →
    rd (vdirt v) (x + y * mw (vmap v)) = Some (Z.of_nat i) ∧
    0 < x < mw (vmap v) - 1 ∧ 0 < y < mh (vmap v) - 1;
  gv_start : inside (vmap v) (index (mw (vmap v)) (vx0 v) (vy0 v));
}.

(** How much dirt is left. *)
Definition left_over (bits : list bool) : Z := Z.of_nat (length (filter Is_true bits)).

(** States as they arise. *)
Record good_state (v : vacuum) (s : vstate) : Prop := {
  gs_in : inside (vmap v) (vloc s);
  gs_energy : venergy s = -1;
  gs_len : length (vbits s) = length (vlocs v);
  gs_left : vndirt s = left_over (vbits s);
}.

(** Executing a sequence of applicable operators. *)
Inductive plan (v : vacuum) : vstate → list Z → vstate → Prop :=
  | plan_nil s : plan v s [] s
  | plan_cons s os op e rest s' :
      operators v s = Some os → op ∈ os → mkedge v s op = Some e → plan v (e_state e) rest s' →
      plan v s (op :: rest) s'.

(** ** Loading *)
Lemma wr_bordered w h fs i fs' x y : bordered w h fs → i = x + y * w → 0 < x < w - 1 → 0 < y < h - 1 →
  wr fs i OutOfBounds = Some fs' → bordered w h fs'.
Proof.
  intros [Hw Hh Hlen Hb Hk] -> Hx Hy Hfs. split; [done|done|by rewrite (wr_length _ _ _ _ Hfs)| |].
  - intros x' y' Hx' Hy' Hxy. rewrite (rd_wr _ _ _ _ _ Hfs). case_decide; [done|]. by apply Hb.
  - intros j f. rewrite (rd_wr _ _ _ _ _ Hfs). case_decide; [intros [= <-]; set_solver|]. apply Hk.
Qed.

(** What holds while loading, before the start is known; [todo] are the cells still to be read. *)
Record loading (todo : list (Z * Z)) (v : vacuum) : Prop := {
  ld_map : good_map (vmap v);
  ld_four : mmoves (vmap v) = fourway;
  ld_dlen : Z.of_nat (length (vdirt v)) = size (vmap v);
  ld_clen : Z.of_nat (length (vchg v)) = size (vmap v);
  ld_dirt l d : rd (vdirt v) l = Some d → 0 ≤ d →
    ∃ x y, vlocs v !! Z.to_nat d = Some (x, y) ∧ l = x + y * mw (vmap v) ∧
      0 < x < mw (vmap v) - 1 ∧ 0 < y < mh (vmap v) - 1;
  ld_locs i x y : vlocs v !! i = Some (x, y) →
    rd (vdirt v) (x + y * mw (vmap v)) = Some (Z.of_nat i) ∧
    0 < x < mw (vmap v) - 1 ∧ 0 < y < mh (vmap v) - 1 ∧ (x, y) ∉ todo;
  ld_start : (vx0 v = -1 ∧ vy0 v = -1) ∨ (0 < vx0 v < mw (vmap v) - 1 ∧ 0 < vy0 v < mh (vmap v) - 1);
}.

Lemma loadcell_spec v x y c v' todo : loading ((x, y) :: todo) v → (x, y) ∉ todo →
  0 < x < mw (vmap v) - 1 → 0 < y < mh (vmap v) - 1 →
  loadcell v x y c = Some v' →
  loading todo v' ∧ mw (vmap v') = mw (vmap v) ∧ mh (vmap v') = mh (vmap v).
Proof.
  intros [Hm Hf Hd Hc Hdirt Hlocs Hst] Hnin Hx Hy. unfold loadcell. cbv zeta.
  assert (Hi : index (mw (vmap v)) x y = x + y * mw (vmap v)) by (unfold index; lia). rewrite Hi.
  assert (Hlocs' : ∀ i x' y', vlocs v !! i = Some (x', y') →
    rd (vdirt v) (x' + y' * mw (vmap v)) = Some (Z.of_nat i) ∧
    0 < x' < mw (vmap v) - 1 ∧ 0 < y' < mh (vmap v) - 1 ∧ (x', y') ∉ todo).
  { intros i x' y' Hl. destruct (Hlocs i x' y' Hl) as (? & ? & ? & Hn). split_and!; try done; try lia.
    intros Hin. apply Hn. by right. }
  repeat case_match.
  - destruct (wr (mflags (vmap v)) _ _) as [fs|] eqn:E; cbn [mbind option_bind]; [|done]. intros [= <-]. simpl.
    split; [|done]. split; simpl; try done.
    destruct Hm as [Hb Hms]. split; simpl; [|done]. eapply wr_bordered; [done|reflexivity|..]; done.
  - destruct (wr (vdirt v) _ _) as [ds|] eqn:E; cbn [mbind option_bind]; [|done]. intros [= <-]. simpl.
    split; [|done]. split; simpl; try done.
    + by rewrite (wr_length _ _ _ _ E).
    + intros l d. rewrite (rd_wr _ _ _ _ _ E). case_decide.
      * intros [= <-] _. exists x, y. rewrite Nat2Z.id, lookup_app_r, Nat.sub_diag by done. done.
      * intros Hr Hd0. destruct (Hdirt l d Hr Hd0) as (x' & y' & Hl & ?). exists x', y'. split; [|done].
        by apply lookup_app_l_Some.
    + intros i x' y' Hl. apply lookup_app_Some in Hl as [Hl|[Hge Hl]].
      * destruct (Hlocs' i x' y' Hl) as (Hr & ? & ? & Hn). split_and!; try done; try lia.
        rewrite (rd_wr _ _ _ _ _ E). case_decide as Heq; [|done].
        exfalso. destruct (Hlocs i x' y' Hl) as (_ & _ & _ & Hn'). apply Hn'.
        assert (y = y') by nia. subst. assert (x = x') as -> by lia. left.
      * destruct (i - length (vlocs v))%nat as [|k] eqn:Ek; [|done]. injection Hl as <- <-.
        rewrite (rd_wr _ _ _ _ _ E). rewrite decide_True by done.
        assert (i = length (vlocs v)) as -> by lia. split_and!; done || lia.
  - intros [= <-]. simpl. split; [|done]. split; simpl; try done. right. lia.
  - destruct (wr (vchg v) _ _) as [cs|] eqn:E; cbn [mbind option_bind]; [|done]. intros [= <-]. simpl.
    split; [|done]. split; simpl; try done. by rewrite (wr_length _ _ _ _ E).
  - intros [= <-]. split; [|done]. split; done.
  - done.
Qed.

Lemma loadcells_spec board cells v v' : loading cells v → NoDup cells →
  (∀ x y, (x, y) ∈ cells → 0 < x < mw (vmap v) - 1 ∧ 0 < y < mh (vmap v) - 1) →
  loadcells v board cells = Some v' →
  loading [] v' ∧ mw (vmap v') = mw (vmap v) ∧ mh (vmap v') = mh (vmap v).
Proof.
  revert v. induction cells as [|[x y] cells IH]; intros v Hl Hnd Hin; cbn [loadcells].
  - intros [= <-]. done.
  - apply NoDup_cons in Hnd as [Hnin Hnd].
    destruct (loadcell v x y (board x y)) as [v1|] eqn:E; cbn [mbind option_bind]; [|done]. intros H.
    destruct (Hin x y) as [Hx Hy]; [left|].
    destruct (loadcell_spec _ _ _ _ _ _ Hl Hnin Hx Hy E) as (Hl1 & Hw1 & Hh1).
    destruct (IH v1 Hl1 Hnd) as (Hl' & Hw' & Hh'); [|done|split_and!; congruence || done].
    intros x' y' Hxy. rewrite Hw1, Hh1. apply Hin. by right.
Qed.

Lemma cells_nodup (width height : Z) : NoDup (flat_map (λ y, map (λ x, (x, y)) (seqZ 1 width)) (seqZ 1 height)).
Proof.
  generalize (NoDup_seqZ 1 height). generalize (seqZ 1 height). induction l as [|y l IH]; intros Hnd; simpl; [constructor|].
  apply NoDup_cons in Hnd as [Hy Hnd]. apply NoDup_app. split_and!; [| |by apply IH].
  - apply (NoDup_fmap_2 (λ x, (x, y))). apply NoDup_seqZ.
  - intros p (x & _ & ->)%map_elem Hin. apply flat_elem in Hin as (y' & Hy' & (x' & _ & [= -> ->])%map_elem). done.
Qed.

(** Every instance that loads is good. *)
Theorem C58_loaded_instances_good width height board v : 0 ≤ width → 0 ≤ height →
  load width height board = Some v → good_vacuum v.
Proof.
  intros Hw Hh. destruct (setsize_spec width height Hw Hh) as (fs & Hs & Hb & _).
  unfold load. rewrite Hs. cbn [mbind option_bind].
  set (v0 := Vacuum _ _ _ _ _ _). set (cells := flat_map _ _).
  destruct (loadcells v0 board cells) as [v1|] eqn:E; cbn [mbind option_bind]; [|done].
  destruct (_ || _) eqn:Est; [done|]. destruct (reverseops (vmap v1)); cbn [mbind option_bind]; [|done].
  intros [= ->].
  assert (Hl0 : loading cells v0).
  { split; simpl; try done.
    - split; [done|]. by right; right.
    - rewrite replicate_length. unfold size. simpl. nia.
    - rewrite replicate_length. unfold size. simpl. nia.
    - intros l' d. unfold rd. case_decide; [|done]. intros [-> _]%lookup_replicate. lia.
    - by left. }
  destruct (loadcells_spec board cells v0 v Hl0 (cells_nodup width height)) as (Hl & Hw' & Hh'); [|done|].
  { intros x y Hin. simpl. apply flat_elem in Hin as (y' & Hy' & (x' & Hx' & [= -> ->])%map_elem).
    apply elem_of_seqZ in Hx', Hy'. lia. }
  destruct Hl as [Hm Hf Hd Hc Hdirt Hlocs Hst]. split; try done.
  - intros i x y Hi. destruct (Hlocs i x y Hi) as (? & ? & ? & _). done.
  - assert (Hst' : 0 < vx0 v < mw (vmap v) - 1 ∧ 0 < vy0 v < mh (vmap v) - 1) by lia.
    exists (vx0 v), (vy0 v). split; [unfold index; lia|done].
Qed.

(** ** States *)
Lemma left_cons b bits : left_over (b :: bits) = (if b then 1 else 0) + left_over bits.
Proof. unfold left_over. rewrite filter_cons. destruct b; simpl; lia. Qed.
Lemma left_nonneg bits : 0 ≤ left_over bits.
Proof. unfold left_over. lia. Qed.
Lemma left_remove bits i : bits !! i = Some true → left_over (<[i := false]> bits) = left_over bits - 1.
Proof.
  revert i. induction bits as [|b bits IH]; intros [|i]; simpl; [done|done|..].
  - intros [= ->]. rewrite !left_cons. lia.
  - intros Hi. rewrite !left_cons, IH by done. lia.
Qed.
Lemma left_zero bits : left_over bits = 0 ↔ ∀ i, bits !! i ≠ Some true.
Proof.
  induction bits as [|b bits IH]; [split; [by intros _ i|done]|]. rewrite left_cons. pose proof (left_nonneg bits). split.
  - intros H0 [|i]; simpl; [destruct b; [lia|done]|]. apply IH. destruct b; lia.
  - intros Hall. destruct b; [by destruct (Hall 0%nat)|]. apply IH. intros i. apply (Hall (S i)).
Qed.
Lemma left_all n : left_over (replicate n true) = Z.of_nat n.
Proof. induction n as [|n IH]; [done|]. simpl replicate. rewrite left_cons, IH. lia. Qed.

Lemma initial_good v : good_vacuum v → good_state v (initialstate v).
Proof.
  intros Hv. split; simpl; [apply gv_start; done|done|by rewrite replicate_length|by rewrite left_all].
Qed.

(** What the operators of a state are. *)
Lemma operators_spec v s : good_vacuum v → good_state v s →
  ∃ os, operators v s = Some os ∧ ∀ op, op ∈ os ↔
    (op = Suck ∧ ∃ d, rd (vdirt v) (vloc s) = Some d ∧ 0 ≤ d ∧ vbits s !! Z.to_nat d = Some true) ∨
    (0 ≤ op ≤ 3 ∧ ∃ m, fourway !! Z.to_nat op = Some m ∧ applicable (vmap v) (vloc s) m) ∨
    (op = Charge ∧ ∃ c, rd (vchg v) (vloc s) = Some c ∧ c ≠ 0).
Proof.
  intros Hv [Hin Hen Hlen Hleft]. unfold operators. rewrite Hen. simpl.
  pose proof (inside_inrange _ _ Hin) as Hr. pose proof (gv_dlen v Hv) as Hdl. pose proof (gv_clen v Hv) as Hcl.
  destruct (rd_inrange (vdirt v) (vloc s)) as [d Hd]; [lia|]. rewrite Hd. cbn [mbind option_bind].
  destruct (rd_inrange (vchg v) (vloc s)) as [c Hc]; [lia|].
  destruct (opsloop_spec (vmap v) (vloc s) 0 (mmoves (vmap v)) (gv_map v Hv) Hin) as (mvs & Hmvs & Hmiff); [done|].
  rewrite Hmvs, Hc. cbn [mbind option_bind].
  assert (Hsuck : ∃ sk, (if 0 <=? d then b ← vbits s !! Z.to_nat d; Some (if (b : bool) then [Suck] else []) else Some []) = Some sk ∧
    ∀ op, op ∈ sk ↔ op = Suck ∧ 0 ≤ d ∧ vbits s !! Z.to_nat d = Some true).
  { destruct (Z.leb_spec 0 d).
    - destruct (gv_dirt v Hv _ _ Hd) as (x & y & Hl & _); [done|]. apply lookup_lt_Some in Hl. rewrite <-Hlen in Hl.
      destruct (lookup_lt_is_Some_2 (vbits s) (Z.to_nat d) Hl) as [b Hb]. rewrite Hb. cbn [mbind option_bind].
      eexists. split; [done|]. intros op. destruct b; set_solver.
    - eexists. split; [done|]. intros op. split; [by intros ?%elem_of_nil|lia]. }
  destruct Hsuck as (sk & -> & Hsk). cbn [mbind option_bind]. eexists. split; [done|]. intros op.
  rewrite !elem_of_app, Hsk, Hmiff, (gv_four v Hv). split.
  - intros [(-> & H0 & Hb)|[(k & m & -> & Hk & Ha)|Hch]].
    + left. split; [done|]. by exists d.
    + right; left. pose proof (lookup_lt_Some _ _ _ Hk) as Hlt. simpl in Hlt. split; [lia|]. exists m.
      rewrite Z.add_0_l, Nat2Z.id. done.
    + right; right. destruct (Z.eqb_spec c 0); [by apply elem_of_nil in Hch|]. apply elem_of_list_singleton in Hch.
      split; [done|]. by exists c.
  - intros [(-> & d' & Hd' & H0 & Hb)|[(Hop & m & Hm & Ha)|(-> & c' & Hc' & Hne)]].
    + left. assert (d' = d) as -> by congruence. done.
    + right; left. exists (Z.to_nat op), m. split; [lia|done].
    + right; right. assert (c' = c) as -> by congruence. destruct (Z.eqb_spec c 0); [done|]. left.
Qed.

(** What the edges are. *)
Lemma suck_spec v s d : good_vacuum v → good_state v s →
  rd (vdirt v) (vloc s) = Some d → 0 ≤ d → vbits s !! Z.to_nat d = Some true →
  mkedge v s Suck = Some (VEdge (VState (vloc s) (-1) (vndirt s - 1) (<[Z.to_nat d := false]> (vbits s))) 1 VNop (-1)).
Proof.
  intros Hv [_ Hen Hlen _] Hd H0 Hb. unfold mkedge. simpl. rewrite Hd. cbn [mbind option_bind].
  destruct (gv_dirt v Hv _ _ Hd H0) as (x & y & Hl & _). apply lookup_lt_Some in Hl.
  rewrite decide_True by lia. rewrite Hb. cbn [mbind option_bind]. by rewrite Hen.
Qed.
Lemma move_spec v s op m : good_vacuum v → good_state v s → 0 ≤ op ≤ 3 → fourway !! Z.to_nat op = Some m →
  ∃ r m', 0 ≤ r ≤ 3 ∧ fourway !! Z.to_nat r = Some m' ∧ mdx m' = - mdx m ∧ mdy m' = - mdy m ∧
  mkedge v s op = Some (VEdge (VState (vloc s + delta (mw (vmap v)) (mdx m, mdy m)) (-1) (vndirt s) (vbits s)) 1 r 1).
Proof.
  intros Hv [_ Hen _ _] Hop Hm. unfold mkedge.
  destruct (Z.eqb_spec op Suck); [unfold Suck in *; lia|]. destruct (Z.eqb_spec op Charge); [unfold Charge in *; lia|].
  destruct (reverseops_spec (vmap v) (gv_map v Hv)) as (rs & Hrs & Hrl & Hall). rewrite (gv_four v Hv) in *.
  destruct (Hall _ _ Hm) as (j & m' & Hj & Hm' & Hx & Hy & _). rewrite Hrs. cbn [mbind option_bind].
  exists (Z.of_nat j), m'. apply lookup_lt_Some in Hm' as Hlt. simpl in Hlt. rewrite Nat2Z.id.
  split_and!; [lia|lia|done|done|done|]. replace ((0 <=? op) && (op <=? 3)) with true by lia.
  rewrite Hj. cbn [mbind option_bind]. rewrite Hm. cbn [mbind option_bind]. by rewrite Hen.
Qed.

(** An applicable operator that is not Charge has an edge, to a good state. *)
Lemma edge_spec v s os op : good_vacuum v → good_state v s → operators v s = Some os → op ∈ os → op ≠ Charge →
  ∃ e, mkedge v s op = Some e ∧ good_state v (e_state e) ∧ e_cost e = 1 ∧
  ((op = Suck ∧ ∃ d, rd (vdirt v) (vloc s) = Some d ∧ 0 ≤ d ∧ vbits s !! Z.to_nat d = Some true ∧
      e_state e = VState (vloc s) (-1) (vndirt s - 1) (<[Z.to_nat d := false]> (vbits s)) ∧ e_revop e = VNop) ∨
   (∃ m m', 0 ≤ op ≤ 3 ∧ fourway !! Z.to_nat op = Some m ∧
      e_state e = VState (vloc s + delta (mw (vmap v)) (mdx m, mdy m)) (-1) (vndirt s) (vbits s) ∧
      0 ≤ e_revop e ≤ 3 ∧ fourway !! Z.to_nat (e_revop e) = Some m' ∧ mdx m' = - mdx m ∧ mdy m' = - mdy m)).
Proof.
  intros Hv Hs Hos Hop Hnc. destruct (operators_spec v s Hv Hs) as (os' & Hos' & Hiff).
  assert (os' = os) as -> by congruence. pose proof Hs as [Hin Hen Hlen Hleft].
  apply Hiff in Hop as [(-> & d & Hd & H0 & Hb)|[(Hr & m & Hm & Ha)|[]]]; [..|done].
  - eexists. split; [by eapply suck_spec|]. simpl. split_and!; [|done|left; split_and!; [done|by exists d]].
    split; simpl; [done|done|by rewrite insert_length|]. rewrite left_remove by done. lia.
  - destruct (move_spec v s op m Hv Hs Hr Hm) as (r & m' & Hr' & Hm' & Hx & Hy & He).
    eexists. split; [exact He|]. simpl. split_and!; [|done|right; by exists m, m'].
    split; simpl; try done. destruct (target_walkable _ _ _ Ha) as (f & Hf & Hwk).
    eapply neighbour_inside; [apply gv_map; done|done| |done|done].
    eapply mdisp_near; [apply gv_map; done|]. rewrite (gv_four v Hv). by eapply elem_of_list_lookup_2.
Qed.

Lemma plan_good v s os s' : good_vacuum v → good_state v s → plan v s os s' → good_state v s'.
Proof.
  intros Hv Hs Hp. induction Hp as [s|s os op e rest s' Hos Hop He Hp IH]; [done|]. apply IH.
  destruct (decide (op = Charge)) as [->|Hnc]; [done|].
  destruct (edge_spec v s os op Hv Hs Hos Hop Hnc) as (e' & He' & Hg & _). by assert (e' = e) as -> by congruence.
Qed.

(** ** The heuristic *)

(** The cells whose dirt is left. *)
Definition dirty (v : vacuum) (s : vstate) (p : Z * Z) : Prop :=
  ∃ i, vbits s !! i = Some true ∧ vlocs v !! i = Some p.

Lemma firstdirt_spec i bits :
  (∃ k, firstdirt i bits = (i + k)%nat ∧ bits !! k = Some true ∧ ∀ j, (j < k)%nat → bits !! j = Some false) ∨
  (firstdirt i bits = (i + length bits)%nat ∧ ∀ j, bits !! j ≠ Some true).
Proof.
  revert i. induction bits as [|b bits IH]; intros i; simpl.
  - right. split; [lia|]. by intros j.
  - destruct b.
    + left. exists 0%nat. split_and!; [lia|done|]. lia.
    + destruct (IH (S i)) as [(k & -> & Hk & Hj)|[-> Hj]].
      * left. exists (S k). split_and!; [lia|done|]. intros [|j] Hlt; [done|]. apply Hj. lia.
      * right. split; [lia|]. by intros [|j]; [|apply Hj].
Qed.

(** The loop computes the smallest box around what it has seen. *)
Lemma boxloop_spec (locs : list (Z * Z)) i bits minx maxx miny maxy :
  (i + length bits ≤ length locs)%nat → minx ≤ maxx → miny ≤ maxy →
  ∃ a b c d, boxloop (λ i, locs !! i) i bits minx maxx miny maxy = Some (a, b, c, d) ∧
    a ≤ minx ∧ maxx ≤ b ∧ c ≤ miny ∧ maxy ≤ d ∧
    (a = minx ∨ ∃ k y, bits !! k = Some true ∧ locs !! (i + k)%nat = Some (a, y)) ∧
    (b = maxx ∨ ∃ k y, bits !! k = Some true ∧ locs !! (i + k)%nat = Some (b, y)) ∧
    (c = miny ∨ ∃ k x, bits !! k = Some true ∧ locs !! (i + k)%nat = Some (x, c)) ∧
    (d = maxy ∨ ∃ k x, bits !! k = Some true ∧ locs !! (i + k)%nat = Some (x, d)).
Proof.
  revert i minx maxx miny maxy. induction bits as [|b bits IH]; intros i minx maxx miny maxy Hlen Hx Hy; simpl in Hlen; cbn [boxloop].
  - exists minx, maxx, miny, maxy. split_and!; try done; auto.
  - destruct b; simpl.
    + destruct (lookup_lt_is_Some_2 locs i) as [[x y] Hl]; [lia|]. rewrite Hl.
      destruct (IH (S i) (if x <? minx then x else minx) (if x >? maxx then x else maxx)
          (if y <? miny then y else miny) (if y >? maxy then y else maxy)) as (a & b & c & d & -> & H1 & H2 & H3 & H4 & E1 & E2 & E3 & E4);
        [lia|destruct (Z.ltb_spec x minx), (Z.gtb_spec x maxx); lia|destruct (Z.ltb_spec y miny), (Z.gtb_spec y maxy); lia|].
      exists a, b, c, d. split_and!; [done|destruct (Z.ltb_spec x minx); lia|destruct (Z.gtb_spec x maxx); lia
        |destruct (Z.ltb_spec y miny); lia|destruct (Z.gtb_spec y maxy); lia|..].
      * destruct E1 as [->|(k & y' & ? & ?)].
        -- destruct (Z.ltb_spec x minx); [right; exists 0%nat, y; rewrite Nat.add_0_r; done|by left].
        -- right. exists (S k), y'. split; [done|]. by rewrite Nat.add_succ_r.
      * destruct E2 as [->|(k & y' & ? & ?)].
        -- destruct (Z.gtb_spec x maxx); [right; exists 0%nat, y; rewrite Nat.add_0_r; done|by left].
        -- right. exists (S k), y'. split; [done|]. by rewrite Nat.add_succ_r.
      * destruct E3 as [->|(k & y' & ? & ?)].
        -- destruct (Z.ltb_spec y miny); [right; exists 0%nat, x; rewrite Nat.add_0_r; done|by left].
        -- right. exists (S k), y'. split; [done|]. by rewrite Nat.add_succ_r.
      * destruct E4 as [->|(k & y' & ? & ?)].
        -- destruct (Z.gtb_spec y maxy); [right; exists 0%nat, x; rewrite Nat.add_0_r; done|by left].
        -- right. exists (S k), y'. split; [done|]. by rewrite Nat.add_succ_r.
    + destruct (IH (S i) minx maxx miny maxy) as (a & b & c & d & -> & H1 & H2 & H3 & H4 & E1 & E2 & E3 & E4); [lia|lia|lia|].
      exists a, b, c, d. split_and!; try done.
      * destruct E1 as [->|(k & y' & ? & ?)]; [by left|]. right. exists (S k), y'. split; [done|]. by rewrite Nat.add_succ_r.
      * destruct E2 as [->|(k & y' & ? & ?)]; [by left|]. right. exists (S k), y'. split; [done|]. by rewrite Nat.add_succ_r.
      * destruct E3 as [->|(k & y' & ? & ?)]; [by left|]. right. exists (S k), y'. split; [done|]. by rewrite Nat.add_succ_r.
      * destruct E4 as [->|(k & y' & ? & ?)]; [by left|]. right. exists (S k), y'. split; [done|]. by rewrite Nat.add_succ_r.
Qed.

(** The value of a state with dirt left: the dirt and the spread between some of the dirty cells. *)
Lemma h_spec v s : good_state v s → isgoal s = false →
  ∃ x1 y1 x2 y2 x3 y3 x4 y4, dirty v s (x1, y1) ∧ dirty v s (x2, y2) ∧ dirty v s (x3, y3) ∧ dirty v s (x4, y4) ∧
    x1 ≤ x2 ∧ y3 ≤ y4 ∧
    h v s = Some (vndirt s + (x2 - x1) + (y4 - y3)).
Proof.
  intros [_ _ Hlen Hleft] Hng. unfold h, hread. unfold isgoal in Hng.
  destruct (firstdirt_spec 0 (vbits s)) as [(k & -> & Hk & Hj)|[_ Hj]].
  2: { exfalso. apply left_zero in Hj. lia. }
  rewrite Nat.add_0_l. pose proof (lookup_lt_Some _ _ _ Hk) as Hlt.
  destruct (lookup_lt_is_Some_2 (vlocs v) k) as [[x y] Hl]; [lia|]. rewrite Hl.
  destruct (boxloop_spec (vlocs v) (S k) (drop (S k) (vbits s)) x x y y) as (a & b & c & d & -> & H1 & H2 & H3 & H4 & E1 & E2 & E3 & E4);
    [rewrite drop_length; lia|lia|lia|].
  assert (Hd : ∀ p, (∃ k', drop (S k) (vbits s) !! k' = Some true ∧ vlocs v !! (S k + k')%nat = Some p) → dirty v s p).
  { intros p (k' & Hk' & Hp). rewrite lookup_drop in Hk'. by exists (S k + k')%nat. }
  assert (H0 : dirty v s (x, y)) by by exists k.
  assert (G1 : ∃ y', dirty v s (a, y')) by (destruct E1 as [->|(k' & y' & ? & ?)]; [by eexists|]; exists y'; apply Hd; eauto).
  assert (G2 : ∃ y', dirty v s (b, y')) by (destruct E2 as [->|(k' & y' & ? & ?)]; [by eexists|]; exists y'; apply Hd; eauto).
  assert (G3 : ∃ x', dirty v s (x', c)) by (destruct E3 as [->|(k' & y' & ? & ?)]; [by eexists|]; exists y'; apply Hd; eauto).
  assert (G4 : ∃ x', dirty v s (x', d)) by (destruct E4 as [->|(k' & y' & ? & ?)]; [by eexists|]; exists y'; apply Hd; eauto).
  destruct G1 as [y1 G1], G2 as [y2 G2], G3 as [x3 G3], G4 as [x4 G4].
  exists a, y1, b, y2, x3, c, x4, d. split_and!; try done; lia.
Qed.

(** A plan cleans every dirty cell, so it visits all of them. *)
Lemma plan_lower v s os t x1 y1 x2 y2 x3 y3 x4 y4 : good_vacuum v → good_state v s → plan v s os t → isgoal t = true →
  let here p := p = (xcoord (vmap v) (vloc s), ycoord (vmap v) (vloc s)) in
  (dirty v s (x1, y1) ∨ here (x1, y1)) → (dirty v s (x2, y2) ∨ here (x2, y2)) →
  (dirty v s (x3, y3) ∨ here (x3, y3)) → (dirty v s (x4, y4) ∨ here (x4, y4)) →
  vndirt s + (x2 - x1) + (y4 - y3) ≤ Z.of_nat (length os).
Proof.
  intros Hv Hs Hp Ht. revert x1 y1 x2 y2 x3 y3 x4 y4.
  induction Hp as [s|s os op e rest t Hos Hop He Hp IH]; intros x1 y1 x2 y2 x3 y3 x4 y4 here D1 D2 D3 D4.
  - unfold isgoal in Ht. pose proof Hs as [_ _ _ Hleft].
    assert (Hno : ∀ p, ¬ dirty v s p).
    { intros p (i & Hi & _). revert Hi. apply left_zero. lia. }
    destruct D1 as [D|D1]; [by apply Hno in D|]. destruct D2 as [D|D2]; [by apply Hno in D|].
    destruct D3 as [D|D3]; [by apply Hno in D|]. destruct D4 as [D|D4]; [by apply Hno in D|].
    unfold here in *. simplify_eq. simpl. lia.
  - destruct (decide (op = Charge)) as [->|Hnc]; [done|].
    destruct (edge_spec v s os op Hv Hs Hos Hop Hnc) as (e' & He' & Hg & _ & Hcase).
    assert (e' = e) as -> by congruence. specialize (IH Hg Ht). cbn [length]. rewrite Nat2Z.inj_succ.
    destruct Hcase as [(-> & d & Hd & H0 & Hb & Hst & _)|(m & m' & Hr & Hm & Hst & _)].
    + (* Suck: the dirt removed is where we are *)
      assert (Hkeep : ∀ p, dirty v s p ∨ here p →
        dirty v (e_state e) p ∨ p = (xcoord (vmap v) (vloc (e_state e)), ycoord (vmap v) (vloc (e_state e)))).
      { intros p [(i & Hi & Hl)|Hh]; [|right; rewrite Hst; simpl; exact Hh]. rewrite Hst. simpl.
        destruct (decide (i = Z.to_nat d)) as [->|Hne].
        - right. destruct (gv_dirt v Hv _ _ Hd H0) as (x & y & Hl' & Heq & Hx & Hy).
          assert (p = (x, y)) as -> by congruence. rewrite Heq.
          destruct (cell_coords (vmap v) x y) as [-> ->]; [lia|done].
        - left. exists i. simpl. rewrite list_lookup_insert_ne by done. done. }
      specialize (IH x1 y1 x2 y2 x3 y3 x4 y4 (Hkeep _ D1) (Hkeep _ D2) (Hkeep _ D3) (Hkeep _ D4)).
      rewrite Hst in IH. simpl in IH. lia.
    + (* a move: the dirt stays, one coordinate changes by one *)
      assert (Hxy : ∃ dx dy, Z.abs dx + Z.abs dy ≤ 1 ∧
        xcoord (vmap v) (vloc (e_state e)) = xcoord (vmap v) (vloc s) + dx ∧
        ycoord (vmap v) (vloc (e_state e)) = ycoord (vmap v) (vloc s) + dy).
      { assert (Hnear : Z.abs (mdx m) + Z.abs (mdy m) ≤ 1).
        { assert (Hall : Forall (λ m, Z.abs (mdx m) + Z.abs (mdy m) ≤ 1) fourway) by (unfold fourway; repeat constructor; simpl; lia).
          rewrite Forall_forall in Hall. apply Hall. by eapply elem_of_list_lookup_2. }
        exists (mdx m), (mdy m). split; [done|]. rewrite Hst. simpl.
        destruct Hs as [(x & y & -> & Hx & Hy) _ _ _]. unfold delta. simpl.
        replace (x + y * mw (vmap v) + (mdx m + mw (vmap v) * mdy m)) with ((x + mdx m) + (y + mdy m) * mw (vmap v)) by lia.
        destruct (cell_coords (vmap v) (x + mdx m) (y + mdy m)) as [-> ->]; [lia|].
        destruct (cell_coords (vmap v) x y) as [-> ->]; [lia|done]. }
      destruct Hxy as (dx & dy & Hd & Hx & Hy).
      assert (Hkeep : ∀ x y, dirty v s (x, y) ∨ here (x, y) →
        ∃ x' y', (dirty v (e_state e) (x', y') ∨ (x', y') = (xcoord (vmap v) (vloc (e_state e)), ycoord (vmap v) (vloc (e_state e)))) ∧
          ((x' = x ∧ y' = y) ∨ (x' = x + dx ∧ y' = y + dy))).
      { intros x y [(i & Hi & Hl)|Hh].
        - exists x, y. split; [|by left]. left. exists i. rewrite Hst. done.
        - unfold here in Hh. injection Hh as -> ->. eexists _, _. split; [by right|]. right. done. }
      destruct (Hkeep _ _ D1) as (x1' & y1' & K1 & C1), (Hkeep _ _ D2) as (x2' & y2' & K2 & C2),
        (Hkeep _ _ D3) as (x3' & y3' & K3 & C3), (Hkeep _ _ D4) as (x4' & y4' & K4 & C4).
      specialize (IH _ _ _ _ _ _ _ _ K1 K2 K3 K4). rewrite Hst in IH. simpl in IH. lia.
Qed.

(** ** Theorems *)

(** In every state that can arise and has dirt left, the heuristic is defined and is at most the
    number of actions of any plan that cleans everything. *)
Theorem C58_heuristic_admissible v s0 os0 s : good_vacuum v → s0 = initialstate v → plan v s0 os0 s →
  isgoal s = false →
  ∃ n, h v s = Some n ∧ 0 ≤ n ∧ ∀ os t, plan v s os t → isgoal t = true → n ≤ Z.of_nat (length os).
Proof.
  intros Hv -> Hp Hng. pose proof (plan_good v _ _ _ Hv (initial_good v Hv) Hp) as Hs.
  destruct (h_spec v s Hs Hng) as (x1 & y1 & x2 & y2 & x3 & y3 & x4 & y4 & D1 & D2 & D3 & D4 & Hx & Hy & ->).
  eexists. split; [done|]. split.
  - pose proof (gs_left v s Hs). pose proof (left_nonneg (vbits s)). lia.
  - intros os t Hpl Ht. apply (plan_lower v s os t x1 y1 x2 y2 x3 y3 x4 y4); auto.
Qed.

(** At every goal state the heuristic reads past the end of the vector of dirt locations... *)
Theorem C59_heuristic_reads_past_end v s0 os0 s : good_vacuum v → s0 = initialstate v → plan v s0 os0 s →
  isgoal s = true → firstdirt 0 (vbits s) = length (vlocs v) ∧ h v s = None.
Proof.
  intros Hv -> Hp Hg. pose proof (plan_good v _ _ _ Hv (initial_good v Hv) Hp) as [_ _ Hlen Hleft].
  unfold isgoal in Hg. assert (Hf : firstdirt 0 (vbits s) = length (vlocs v)).
  { destruct (firstdirt_spec 0 (vbits s)) as [(k & _ & Hk & _)|[-> _]]; [|lia].
    exfalso. revert Hk. apply left_zero. lia. }
  split; [done|]. unfold h, hread. rewrite Hf. by rewrite lookup_ge_None_2.
Qed.

(** ... and the value read does not matter: if the read does not crash, the result is zero. *)
Theorem C59_value_cancels v s0 os0 s read : good_vacuum v → s0 = initialstate v → plan v s0 os0 s →
  isgoal s = true → read (length (vlocs v)) ≠ None → hread read s = Some 0.
Proof.
  intros Hv -> Hp Hg Hr. pose proof (plan_good v _ _ _ Hv (initial_good v Hv) Hp) as [_ _ Hlen Hleft].
  unfold isgoal in Hg. unfold hread.
  assert (Hf : firstdirt 0 (vbits s) = length (vlocs v)).
  { destruct (firstdirt_spec 0 (vbits s)) as [(k & _ & Hk & _)|[-> _]]; [|lia].
    exfalso. revert Hk. apply left_zero. lia. }
  rewrite Hf. destruct (read (length (vlocs v))) as [[x y]|]; [|done].
  rewrite drop_ge by lia. simpl. f_equal. lia.
Qed.

(** No plan ever contains the Charge operator, although every charger cell offers it: making its
    edge ends the program. *)
Theorem C75_charge_aborts v s0 os0 s : good_vacuum v → s0 = initialstate v → plan v s0 os0 s →
  ∃ os, operators v s = Some os ∧
    (Charge ∈ os ↔ ∃ c, rd (vchg v) (vloc s) = Some c ∧ c ≠ 0) ∧
    ∀ op, op ∈ os → (mkedge v s op = None ↔ op = Charge).
Proof.
  intros Hv -> Hp. pose proof (plan_good v _ _ _ Hv (initial_good v Hv) Hp) as Hs.
  destruct (operators_spec v s Hv Hs) as (os & Hos & Hiff). exists os. split; [done|]. split.
  - rewrite Hiff. unfold Suck, Charge. split; [|naive_solver].
    intros [[? _]|[[? _]|[_ ?]]]; [lia|lia|done].
  - intros op Hop. split.
    + intros Hn. destruct (decide (op = Charge)) as [->|Hnc]; [done|].
      destruct (edge_spec v s os op Hv Hs Hos Hop Hnc) as (e & He & _). congruence.
    + intros ->. done.
Qed.

(** ** Examples *)

(** Two rows: start, a wall and dirt above; dirt, a free cell and a charger below. *)
Definition ex_chars (x y : Z) : Z :=
  default 95 ([[64; 35; 42]; [42; 95; 58]] !! Z.to_nat (y - 1) ≫= λ r, r !! Z.to_nat (x - 1)).
Definition ex_vac : vacuum := default (Vacuum (GridMap 0 0 [] false []) 0 0 [] [] []) (load 3 2 ex_chars).
Lemma ex_loads : load 3 2 ex_chars = Some ex_vac.
Proof. done. Qed.
Lemma ex_vac_good : good_vacuum ex_vac.
Proof. apply (C58_loaded_instances_good 3 2 ex_chars); [lia|lia|exact ex_loads]. Qed.
Example ex_vac_h : h ex_vac (initialstate ex_vac) = Some 5.
Proof. done. Qed.
Fixpoint run (v : vacuum) (s : vstate) (os : list Z) : option vstate :=
  match os with
  | [] => Some s
  | op :: os =>
    av ← operators v s;
    if decide (op ∈ av) then e ← mkedge v s op; run v (e_state e) os else None
  end.
Lemma run_plan v os : ∀ s t, run v s os = Some t → plan v s os t.
Proof.
  induction os as [|op os IH]; intros s t; cbn [run]; [intros [= ->]; constructor|].
  destruct (operators v s) as [av|] eqn:E1; cbn [mbind option_bind]; [|done]. case_decide; [|done].
  destruct (mkedge v s op) as [e|] eqn:E2; cbn [mbind option_bind]; [|done]. intros H'. eapply plan_cons; eauto.
Qed.
Lemma ex_plan : plan ex_vac (initialstate ex_vac) [0; Suck; 3; 3; 1; Suck] (VState 8 (-1) 0 [false; false]).
Proof.
  apply run_plan. vm_compute. done.
Qed.
Example ex_goal_h : h ex_vac (VState 8 (-1) 0 [false; false]) = None.
Proof. done. Qed.
(** In front of the charger. *)
Example ex_charger : operators ex_vac (VState 13 (-1) 1 [true; false]) = Some [1; 2; Charge].
Proof. done. Qed.

Print Assumptions C58_loaded_instances_good.
Print Assumptions C58_heuristic_admissible.
Print Assumptions C59_heuristic_reads_past_end.
Print Assumptions C59_value_cancels.
Print Assumptions C75_charge_aborts.
