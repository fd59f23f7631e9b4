(** Grid navigation: C54 and C55. *)
From stdpp Require Import prelude list_numbers.
From Coq Require Import ZArith Lia ZifyBool.
From Verif Require Import Gridnav.Model.
Local Open Scope Z_scope.

(** ** Specification *)

(** The cell with column [x] and row [y] of a map whose rows have [w] cells. *)
Definition at_cell (w x y loc : Z) : Prop := loc = x + y * w ∧ 0 ≤ x < w.

(** The border of a map: first and last row, first and last column. *)
Definition on_border (w h x y : Z) : Prop := x = 0 ∨ x = w - 1 ∨ y = 0 ∨ y = h - 1.

(** A map whose flags form a [w] by [h] rectangle with an out-of-bounds border. *)
Record bordered (w h : Z) (fs : list Z) : Prop := {
  b_w : 2 ≤ w;
  b_h : 2 ≤ h;
  b_len : Z.of_nat (length fs) = w * h;
  b_edge x y : 0 ≤ x < w → 0 ≤ y < h → on_border w h x y → rd fs (x + y * w) = Some OutOfBounds;
  b_kind i f : rd fs i = Some f → f ∈ [Passable; OutOfBounds; Tree; Swamp; Water];
}.

(** The cells inside the border. *)
Definition inside (g : gridmap) (loc : Z) : Prop :=
  ∃ x y, loc = x + y * mw g ∧ 0 < x < mw g - 1 ∧ 0 < y < mh g - 1.

(** Terrain one may stand on. *)
Definition walkable (f : Z) : Prop :=
  Z.testbit f 1 = false ∧ Z.testbit f 2 = false ∧
  (Z.testbit f 0 = true ∨ Z.testbit f 3 = true ∨ Z.testbit f 4 = true).

(** The maps the loaders make. *)
Definition good_map (g : gridmap) : Prop :=
  bordered (mw g) (mh g) (mflags g) ∧
  (mmoves g = octile ∨ mmoves g = eightway ∨ mmoves g = fourway).

(** The cells reached by sequences of applicable operators, with the operators and their costs. *)
Inductive path (g : gridmap) : Z → list Z → Z → gcost → Prop :=
  | path_nil l : path g l [] l (0, 0)
  | path_cons l os op e rest l' c :
      operators g l = Some os → op ∈ os → mkedge g l op = Some e → path g (e_loc e) rest l' c →
      path g l (op :: rest) l' ((e_cost e).1 + c.1, (e_cost e).2 + c.2).

(** ** Arrays *)
Lemma rd_wr l i v l' j : wr l i v = Some l' → rd l' j = if decide (j = i) then Some v else rd l j.
Proof.
  unfold wr, rd. case_decide as Hi; [|done]. intros [= <-]. case_decide; case_decide; try done.
  - subst. rewrite list_lookup_insert; [done|]. lia.
  - rewrite list_lookup_insert_ne; [done|]. lia.
  - lia.
Qed.
Lemma wr_length l i v l' : wr l i v = Some l' → length l' = length l.
Proof. unfold wr. case_decide; [|done]. intros [= <-]. by rewrite insert_length. Qed.
Lemma wrs_length l ws l' : wrs l ws = Some l' → length l' = length l.
Proof.
  revert l. induction ws as [|[i [v|]] ws IH]; intros l; simpl; [by intros [= <-]| |done].
  destruct (wr l i v) eqn:E; [|done]. intros H. rewrite (IH _ H). by eapply wr_length.
Qed.
Lemma wrs_app l ws ws' : wrs l (ws ++ ws') = match wrs l ws with Some l => wrs l ws' | None => None end.
Proof.
  revert l. induction ws as [|[i [v|]] ws IH]; intros l; simpl; [done| |done]. by destruct (wr l i v).
Qed.
(** Writes succeed when all indices are in range and all values exist. *)
Lemma wrs_some l ws :
  (∀ i v, (i, v) ∈ ws → 0 ≤ i < Z.of_nat (length l) ∧ v ≠ None) → ∃ l', wrs l ws = Some l'.
Proof.
  revert l. induction ws as [|[i v] ws IH]; intros l Hws; simpl; [by eexists|].
  destruct (Hws i v) as [Hi Hv]; [left|]. destruct v as [v|]; [|done].
  destruct (wr l i v) eqn:E.
  - apply IH. intros i' v' Hin. rewrite (wr_length _ _ _ _ E). apply Hws. by right.
  - unfold wr in E. rewrite decide_True in E by done. done.
Qed.
Lemma wrs_vals l ws l' i v : wrs l ws = Some l' → (i, v) ∈ ws → v ≠ None.
Proof.
  revert l. induction ws as [|[i' [v'|]] ws IH]; intros l H Hin; simpl in H; [by apply elem_of_nil in Hin| |done].
  destruct (wr l i' v') eqn:E; [|done]. apply elem_of_cons in Hin as [[= -> ->]|Hin]; [done|]. by eapply IH.
Qed.
Lemma wrs_other l ws l' j : wrs l ws = Some l' → (∀ v, (j, v) ∉ ws) → rd l' j = rd l j.
Proof.
  revert l. induction ws as [|[i [v|]] ws IH]; intros l; simpl; [by intros [= <-]| |done].
  destruct (wr l i v) eqn:E; [|done]. intros H Hj. rewrite (IH _ H).
  - rewrite (rd_wr _ _ _ _ _ E). case_decide; [|done]. subst. destruct (Hj (Some v)). left.
  - intros v' Hin. apply (Hj v'). by right.
Qed.
Lemma wrs_written l ws l' j v : wrs l ws = Some l' → (j, Some v) ∈ ws →
  (∀ v', (j, v') ∈ ws → v' = Some v) → rd l' j = Some v.
Proof.
  revert l. induction ws as [|[i [w|]] ws IH]; intros l; simpl; [by intros _ ?%elem_of_nil| |done].
  destruct (wr l i w) as [l1|] eqn:E; [|done]. intros H Hin Hall.
  destruct (decide ((j, Some v) ∈ ws)) as [Hw|Hw].
  - apply (IH _ H); [done|]. intros v' Hv'. apply Hall. by right.
  - apply elem_of_cons in Hin as [[= -> ->]|Hin]; [|done].
    rewrite (wrs_other _ _ _ _ H).
    + rewrite (rd_wr _ _ _ _ _ E). by rewrite decide_True.
    + intros v' Hv'. pose proof (Hall v' (elem_of_list_further _ _ _ Hv')) as ->. done.
Qed.
Lemma wrs_from l ws l' j v : wrs l ws = Some l' → rd l' j = Some v → rd l j = Some v ∨ (j, Some v) ∈ ws.
Proof.
  revert l. induction ws as [|[i [w|]] ws IH]; intros l; simpl; [intros [= <-]; by left| |done].
  destruct (wr l i w) as [l1|] eqn:E; [|done]. intros H Hv. destruct (IH _ H Hv) as [H1|H1]; [|by right; right].
  rewrite (rd_wr _ _ _ _ _ E) in H1. case_decide; [|by left]. injection H1 as <-. subst. right. left.
Qed.
Lemma rd_replicate n v i : 0 ≤ i < Z.of_nat n → rd (replicate n v) i = Some v.
Proof. intros Hi. unfold rd. rewrite decide_True by lia. apply lookup_replicate. split; [done|lia]. Qed.

(** ** Maps *)
Lemma flat_elem {A B} (f : A → list B) l b : b ∈ flat_map f l ↔ ∃ a, a ∈ l ∧ b ∈ f a.
Proof.
  rewrite elem_of_list_In, in_flat_map. setoid_rewrite <-elem_of_list_In. done.
Qed.
Lemma map_elem {A B} (f : A → B) l b : b ∈ map f l ↔ ∃ a, a ∈ l ∧ b = f a.
Proof. rewrite elem_of_list_fmap. naive_solver. Qed.

Lemma setsize_spec width height : 0 ≤ width → 0 ≤ height →
  ∃ fs, setsize width height = (width + 2, height + 2, Some fs) ∧
    bordered (width + 2) (height + 2) fs ∧
    ∀ x y, 0 < x < width + 1 → 0 < y < height + 1 → rd fs (x + y * (width + 2)) = Some Passable.
Proof.
  intros Hw Hh. unfold setsize. set (w := width + 2). set (h := height + 2).
  set (ws := flat_map (λ i, [(index w i 0, Some OutOfBounds); (index w i (h - 1), Some OutOfBounds)]) (seqZ 0 w) ++
     flat_map (λ i, [(index w 0 i, Some OutOfBounds); (index w (w - 1) i, Some OutOfBounds)]) (seqZ 0 h)).
  assert (Hws : ∀ i v, (i, v) ∈ ws ↔ v = Some OutOfBounds ∧ ∃ x y, i = x + y * w ∧ 0 ≤ x < w ∧ 0 ≤ y < h ∧ on_border w h x y).
  { intros i v. unfold ws, on_border, index. rewrite elem_of_app, !flat_elem. setoid_rewrite elem_of_seqZ. split.
    - intros [(a & Ha & Hin)|(a & Ha & Hin)]; rewrite !elem_of_cons, elem_of_nil in Hin;
        destruct Hin as [[= -> ->]|[[= -> ->]|[]]]; (split; [done|]).
      + exists a, 0. lia.
      + exists a, (h - 1). lia.
      + exists 0, a. lia.
      + exists (w - 1), a. lia.
    - intros (-> & x & y & -> & Hx & Hy & [->|[->|[->| ->]]]).
      + right. exists y. split; [lia|]. rewrite !elem_of_cons. left. f_equal. lia.
      + right. exists y. split; [lia|]. rewrite !elem_of_cons. right. left. f_equal. lia.
      + left. exists x. split; [lia|]. rewrite !elem_of_cons. left. f_equal. lia.
      + left. exists x. split; [lia|]. rewrite !elem_of_cons. right. left. f_equal. lia. }
  assert (Hlen : Z.of_nat (length (replicate (Z.to_nat (w * h)) Passable)) = w * h) by (rewrite replicate_length; lia).
  destruct (wrs_some (replicate (Z.to_nat (w * h)) Passable) ws) as [fs Hfs].
  { intros i v (-> & x & y & -> & Hx & Hy & _)%Hws. rewrite Hlen. split; [nia|done]. }
  exists fs. split; [by rewrite Hfs|]. split.
  - split; [lia|lia|by rewrite (wrs_length _ _ _ Hfs)| |].
    + intros x y Hx Hy Hb. apply (wrs_written _ _ _ _ _ Hfs).
      * apply Hws. split; [done|]. by exists x, y.
      * by intros v' [-> _]%Hws.
    + intros i f Hf. destruct (wrs_from _ _ _ _ _ Hfs Hf) as [H|[[= ->] _]%Hws]; [|set_solver].
      unfold rd in H. case_decide; [|done]. apply lookup_replicate in H as [-> _]. left.
  - intros x y Hx Hy. rewrite (wrs_other _ _ _ _ Hfs).
    + apply rd_replicate. nia.
    + intros v (_ & x' & y' & Heq & Hx' & Hy' & Hb)%Hws. unfold on_border in Hb.
      assert (y = y') by nia. subst. assert (x = x') by lia. lia.
Qed.

(** Filling the inside of a map, one write per cell. *)
Lemma fill_spec w h fs ws (val : Z → Z → option Z) :
  bordered w h fs →
  (∀ x y v, val x y = Some v → v ∈ [Passable; OutOfBounds; Tree; Swamp; Water]) →
  (∀ i v, (i, v) ∈ ws ↔ ∃ x y, i = x + y * w ∧ 0 < x < w - 1 ∧ 0 < y < h - 1 ∧ v = val x y) →
  ((∀ x y, 0 < x < w - 1 → 0 < y < h - 1 → val x y ≠ None) → ∃ fs', wrs fs ws = Some fs') ∧
  ∀ fs', wrs fs ws = Some fs' → bordered w h fs' ∧
    ∀ x y, 0 < x < w - 1 → 0 < y < h - 1 → val x y ≠ None ∧ rd fs' (x + y * w) = val x y.
Proof.
  intros [Hw Hh Hlen Hb Hk] Hvk Hws. split.
  - intros Hval. apply wrs_some. intros i v (x & y & -> & Hx & Hy & ->)%Hws.
    split; [rewrite Hlen; nia|by apply Hval].
  - intros fs' Hfs. split.
    + split; [done|done|by rewrite (wrs_length _ _ _ Hfs)| |].
      { intros x y Hx Hy Hxy. rewrite (wrs_other _ _ _ _ Hfs); [by apply Hb|].
        intros v (x' & y' & Heq & Hx' & Hy' & _)%Hws. unfold on_border in Hxy.
        assert (y = y') by nia. subst. assert (x = x') by lia. lia. }
      intros i f Hf. destruct (wrs_from _ _ _ _ _ Hfs Hf) as [H|(x & y & _ & _ & _ & H)%Hws]; [by eapply Hk|].
      by eapply Hvk.
    + intros x y Hx Hy.
      assert (Hin : (x + y * w, val x y) ∈ ws) by (apply Hws; by exists x, y).
      pose proof (wrs_vals _ _ _ _ _ Hfs Hin) as Hv. split; [done|].
      destruct (val x y) as [v|] eqn:E; [|done]. apply (wrs_written _ _ _ _ _ Hfs Hin).
      intros v' (x' & y' & Heq & Hx' & Hy' & ->)%Hws.
      assert (y = y') by nia. subst. assert (x = x') as -> by lia. done.
Qed.

(** ** Moves *)
Lemma land_bit f k : 0 ≤ k → Z.land f (2 ^ k) = 0 ↔ Z.testbit f k = false.
Proof.
  intros Hk. split.
  - intros H. assert (Hb : Z.testbit (Z.land f (2^k)) k = false) by (rewrite H; apply Z.testbit_0_l).
    rewrite Z.land_spec, Z.pow2_bits_true, andb_true_r in Hb; done.
  - intros H. apply Z.bits_inj'. intros n Hn. rewrite Z.land_spec, Z.testbit_0_l.
    destruct (decide (n = k)) as [->|Hne]; [by rewrite H|]. rewrite Z.pow2_bits_false, andb_false_r by lia. done.
Qed.
Lemma land_bits f j k : 0 ≤ j → 0 ≤ k →
  Z.land f (Z.lor (2 ^ j) (2 ^ k)) = 0 ↔ Z.testbit f j = false ∧ Z.testbit f k = false.
Proof.
  intros Hj Hk. rewrite Z.land_lor_distr_r, Z.lor_eq_0_iff, !land_bit by done. done.
Qed.

(** A move may enter a cell with terrain [f1] from a cell with terrain [f0]. *)
Definition may_enter (f0 f1 : Z) : Prop :=
  Z.testbit f1 1 = false ∧ Z.testbit f1 2 = false ∧
  if Z.testbit f0 4 then Z.testbit f1 4 = true else Z.testbit f1 0 = true ∨ Z.testbit f1 3 = true.

Lemma may_enter_walkable f0 f1 : may_enter f0 f1 → walkable f1.
Proof. intros (? & ? & H). destruct (Z.testbit f0 4); unfold walkable; naive_solver. Qed.

Lemma flagsok_spec g l0 l1 f0 f1 : rd (mflags g) l0 = Some f0 → rd (mflags g) l1 = Some f1 →
  ∃ b : bool, flagsok g l0 l1 = Some b ∧ (b = true ↔ may_enter f0 f1).
Proof.
  intros H0 H1. unfold flagsok. rewrite H0, H1. cbn [mbind option_bind]. eexists. split; [reflexivity|].
  unfold may_enter.
  change OutOfBounds with (2^1). change Tree with (2^2). change Water with (2^4).
  change Passable with (2^0). change Swamp with (2^3).
  destruct (decide (Z.land f1 (Z.lor (2 ^ 1) (2 ^ 2)) ≠ 0)) as [H|H].
  { rewrite land_bits in H by lia. split; [done|]. intros (? & ? & _). destruct H. done. }
  apply dec_stable in H. rewrite land_bits in H by lia. destruct H as [Ha Hb].
  destruct (decide (Z.land f0 (2 ^ 4) ≠ 0)) as [H|H].
  - rewrite land_bit in H by lia. apply not_false_is_true in H. rewrite H, bool_decide_eq_true, land_bit by lia.
    rewrite not_false_iff_true. naive_solver.
  - apply dec_stable in H. rewrite land_bit in H by lia. rewrite H, bool_decide_eq_true, land_bits by lia.
    destruct (Z.testbit f1 0), (Z.testbit f1 3); naive_solver.
Qed.

(** Displacements to a neighbouring cell. *)
Definition near (c : Z * Z) : Prop := -1 ≤ c.1 ≤ 1 ∧ -1 ≤ c.2 ≤ 1.
Lemma moves_near g m c : good_map g → m ∈ mmoves g → c ∈ chks m → near c.
Proof.
  intros [_ Hm] Hin Hc.
  assert (Hall : Forall (λ m, Forall near (chks m)) (mmoves g)).
  { destruct Hm as [-> | [-> | ->]]; unfold octile, eightway, fourway, chks, near; simpl; repeat constructor; simpl; lia. }
  rewrite Forall_forall in Hall. specialize (Hall m Hin). rewrite Forall_forall in Hall. by apply Hall.
Qed.
Lemma mdisp_near g m : good_map g → m ∈ mmoves g → near (mdx m, mdy m).
Proof. intros Hg Hm. eapply moves_near; [done..|]. left. Qed.
Lemma moves_not_still g m : good_map g → m ∈ mmoves g → ¬ (mdx m = 0 ∧ mdy m = 0).
Proof.
  intros [_ Hm] Hin.
  assert (Hall : Forall (λ m, ¬ (mdx m = 0 ∧ mdy m = 0)) (mmoves g)).
  { destruct Hm as [-> | [-> | ->]]; unfold octile, eightway, fourway, chks, near; simpl; repeat constructor; simpl; lia. }
  rewrite Forall_forall in Hall. by apply Hall.
Qed.

Lemma rd_inrange fs i : 0 ≤ i < Z.of_nat (length fs) → ∃ f, rd fs i = Some f.
Proof. intros Hi. unfold rd. rewrite decide_True by lia. apply lookup_lt_is_Some_2. lia. Qed.

Lemma near_inrange g l c : good_map g → inside g l → near c →
  0 ≤ l + delta (mw g) c < size g.
Proof.
  intros _ (x & y & -> & Hx & Hy) [H1 H2]. destruct c as [dx dy]. unfold delta, size. simpl in *. nia.
Qed.
Lemma inside_inrange g l : inside g l → 0 ≤ l < size g.
Proof. intros (x & y & -> & Hx & Hy). unfold size. nia. Qed.

Lemma okloop_spec g l f0 cs : good_map g → inside g l → rd (mflags g) l = Some f0 → Forall near cs →
  ∃ b : bool, okloop g l cs = Some b ∧
    (b = true ↔ Forall (λ c, ∃ f1, rd (mflags g) (l + delta (mw g) c) = Some f1 ∧ may_enter f0 f1) cs).
Proof.
  intros Hg Hl Hf0. induction 1 as [|c cs Hc Hcs IH]; cbn [okloop].
  - exists true. split; [done|]. split; [constructor|done].
  - destruct (rd_inrange (mflags g) (l + delta (mw g) c)) as [f1 Hf1].
    { pose proof (near_inrange g l c Hg Hl Hc) as Hr. destruct Hg as [[_ _ Hlen _ _] _]. unfold size in Hr. lia. }
    destruct (flagsok_spec g _ _ _ _ Hf0 Hf1) as (b & -> & Hb). cbn [mbind option_bind]. destruct b.
    + destruct IH as (b & Hb1 & Hb2). exists b. split; [done|]. rewrite Hb2, Forall_cons. split; [|naive_solver].
      intros H. split; [|done]. exists f1. split; [done|]. by apply Hb.
    + exists false. split; [done|]. rewrite Forall_cons. split; [done|]. intros [(f & Hf & He) _].
      assert (f = f1) as -> by congruence. by apply Hb in He.
Qed.

(** What an applicable move does. *)
Definition applicable (g : gridmap) (l : Z) (m : move) : Prop :=
  ∃ f0, rd (mflags g) l = Some f0 ∧
  Forall (λ c, ∃ f1, rd (mflags g) (l + delta (mw g) c) = Some f1 ∧ may_enter f0 f1) (chks m).

Lemma ok_spec g l m : good_map g → inside g l → m ∈ mmoves g →
  ∃ b : bool, ok g l m = Some b ∧ (b = true ↔ applicable g l m).
Proof.
  intros Hg Hl Hm. destruct (rd_inrange (mflags g) l) as [f0 Hf0].
  { pose proof (inside_inrange g l Hl) as Hr. destruct Hg as [[_ _ Hlen _ _] _]. unfold size in Hr. lia. }
  destruct (okloop_spec g l f0 (chks m) Hg Hl Hf0) as (b & Hb & Hiff).
  { apply Forall_forall. intros c Hc. by eapply moves_near. }
  exists b. split; [exact Hb|]. rewrite Hiff. unfold applicable. split; [eauto|].
  intros (f & Hf & H). by assert (f = f0) as -> by congruence.
Qed.

Lemma opsloop_spec g l i ms : good_map g → inside g l → (∀ m, m ∈ ms → m ∈ mmoves g) →
  ∃ os, opsloop g l i ms = Some os ∧
    ∀ op, op ∈ os ↔ ∃ k m, op = i + Z.of_nat k ∧ ms !! k = Some m ∧ applicable g l m.
Proof.
  intros Hg Hl. revert i. induction ms as [|m ms IH]; intros i Hms; cbn [opsloop].
  - exists []. split; [done|]. intros op. split; [by intros ?%elem_of_nil|]. by intros (k & m & _ & Hk & _).
  - destruct (ok_spec g l m Hg Hl) as (b & -> & Hb); [apply Hms; left|]. cbn [mbind option_bind].
    destruct (IH (i + 1)) as (os & -> & Hos); [intros m' ?; apply Hms; by right|]. cbn [mbind option_bind].
    eexists. split; [reflexivity|]. intros op.
    assert (Hrest : op ∈ os ↔ ∃ k m', op = i + Z.of_nat (S k) ∧ (m :: ms) !! S k = Some m' ∧ applicable g l m').
    { rewrite Hos. split; intros (k & m' & -> & H & H'); exists k, m'; (split; [lia|done]). }
    destruct b.
    + rewrite elem_of_cons, Hrest. split.
      * intros [->|(k & m' & ? & ? & ?)]; [|by exists (S k), m']. exists 0%nat, m. split; [lia|]. split; [done|]. by apply Hb.
      * intros ([|k] & m' & -> & H & H'); [left; lia|]. right. by exists k, m'.
    + rewrite Hrest. split.
      * intros (k & m' & ? & ? & ?). by exists (S k), m'.
      * intros ([|k] & m' & -> & H & H'); [injection H as <-; by apply Hb in H'|]. by exists k, m'.
Qed.

Lemma operators_spec g l : good_map g → inside g l →
  ∃ os, operators g l = Some os ∧
    ∀ op, op ∈ os ↔ 0 ≤ op ∧ ∃ m, mmoves g !! Z.to_nat op = Some m ∧ applicable g l m.
Proof.
  intros Hg Hl. destruct (opsloop_spec g l 0 (mmoves g) Hg Hl) as (os & Hos & Hiff); [done|].
  exists os. split; [done|]. intros op. rewrite Hiff. split.
  - intros (k & m & -> & Hk & Ha). split; [lia|]. exists m. by rewrite Z.add_0_l, Nat2Z.id.
  - intros (Hop & m & Hm & Ha). exists (Z.to_nat op), m. split; [lia|done].
Qed.

(** ** Reverse operators *)
Lemma reverseops_spec g : good_map g →
  ∃ rs, reverseops g = Some rs ∧ length rs = length (mmoves g) ∧
    ∀ i m, mmoves g !! i = Some m → ∃ j m', rs !! i = Some (Z.of_nat j) ∧ mmoves g !! j = Some m' ∧
      mdx m' = - mdx m ∧ mdy m' = - mdy m ∧
      (∀ c, c ∈ mchk m' ↔ (c.1 + mdx m, c.2 + mdy m) ∈ mchk m) ∧ rs !! j = Some (Z.of_nat i).
Proof.
  intros [_ Hm].
  assert (H : ∀ ms, ms = octile ∨ ms = eightway ∨ ms = fourway →
    ∃ rs, mapM (λ m, findrev m 0 ms) ms = Some rs ∧ length rs = length ms ∧
    Forall (λ i : nat, (rs !! i ≫= λ r, rs !! Z.to_nat r) = Some (Z.of_nat i)) (seq 0 (length rs)) ∧
    Forall2 (λ m r, ∃ m', ms !! Z.to_nat r = Some m' ∧ 0 ≤ r ∧ mdx m' = - mdx m ∧ mdy m' = - mdy m ∧
      map (λ c : Z * Z, (c.1 + mdx m, c.2 + mdy m)) (mchk m') ≡ₚ mchk m) ms rs).
  { intros ms [->|[->| ->]]; (eexists; split; [reflexivity|split; [done|split; [by repeat constructor|]]]);
      repeat (apply Forall2_cons; split; [eexists; split; [reflexivity|]; simpl; split_and!; [done..|]; done || by apply Permutation_swap|]);
      by apply Forall2_nil. }
  destruct (H _ Hm) as (rs & Hrs & Hlen & Hinv & Hall). exists rs. split; [exact Hrs|]. split; [done|].
  intros i m Hi. destruct (Forall2_lookup_l _ _ _ _ _ Hall Hi) as (r & Hr & m' & Hm' & Hr0 & Hx & Hy & Hp).
  exists (Z.to_nat r), m'. rewrite Z2Nat.id by done. split_and!; [done..| |].
  2: { rewrite Forall_forall in Hinv. assert (Hin : i ∈ seq 0 (length rs)).
       { apply elem_of_seq. apply lookup_lt_Some in Hi. lia. }
       specialize (Hinv i Hin). by rewrite Hr in Hinv. }
  intros c. rewrite <-Hp, map_elem. split.
  - intros Hc. by exists c.
  - intros ([a b] & Hc & Heq). destruct c as [c d]. simpl in *. injection Heq. intros.
    by assert (c = a) as -> by lia; assert (d = b) as -> by lia.
Qed.

Lemma mkedge_spec g l op m : good_map g → inside g l → 0 ≤ op → mmoves g !! Z.to_nat op = Some m →
  ∃ e, mkedge g l op = Some e ∧ e_loc e = l + delta (mw g) (mdx m, mdy m) ∧
    e_cost e = (if decide (mdx m ≠ 0 ∧ mdy m ≠ 0) then (0, mul g l) else (mul g l, 0)) ∧
    e_revcost e = e_cost e ∧
    ∃ m', 0 ≤ e_revop e ∧ mmoves g !! Z.to_nat (e_revop e) = Some m' ∧ mdx m' = - mdx m ∧ mdy m' = - mdy m ∧
      (∀ c, c ∈ mchk m' ↔ (c.1 + mdx m, c.2 + mdy m) ∈ mchk m) ∧
      ∃ rs, reverseops g = Some rs ∧ rs !! Z.to_nat (e_revop e) = Some op.
Proof.
  intros Hg Hl Hop Hm. unfold mkedge.
  pose proof (inside_inrange g l Hl). rewrite (decide_True (P := 0 ≤ l < size g)) by done.
  assert (Hlen : (length (mmoves g) ≤ 8)%nat).
  { destruct Hg as [_ [-> | [-> | ->]]]; simpl; lia. }
  pose proof (lookup_lt_Some _ _ _ Hm).
  rewrite (decide_False (P := op = Ident)) by (unfold Ident; lia).
  rewrite (decide_True (P := 0 ≤ op)) by done.
  rewrite Hm. cbn [mbind option_bind].
  destruct (reverseops_spec g Hg) as (rs & Hrev & _ & Hrs). rewrite Hrev. cbn [mbind option_bind].
  destruct (Hrs _ _ Hm) as (j & m' & -> & Hm' & Hx & Hy & Hc & Hj). cbn [mbind option_bind].
  pose proof (near_inrange g l _ Hg Hl (mdisp_near g m Hg (elem_of_list_lookup_2 _ _ _ Hm))).
  rewrite (decide_True (P := 0 ≤ l + delta (mw g) (mdx m, mdy m) < size g)) by done.
  eexists. split; [reflexivity|]. simpl. split_and!; [done..|].
  exists m'. rewrite Nat2Z.id. split_and!; [lia|done..|]. exists rs. split; [done|]. by rewrite Hj, Z2Nat.id.
Qed.

Lemma target_walkable g l m : applicable g l m →
  ∃ f, rd (mflags g) (l + delta (mw g) (mdx m, mdy m)) = Some f ∧ walkable f.
Proof.
  intros (f0 & Hf0 & Hall). unfold chks in Hall. apply Forall_cons in Hall as [(f & Hf & Hm) _].
  exists f. split; [done|]. by eapply may_enter_walkable.
Qed.

(** A neighbour that is not out of bounds is inside. *)
Lemma neighbour_inside g l c f : good_map g → inside g l → near c →
  rd (mflags g) (l + delta (mw g) c) = Some f → walkable f → inside g (l + delta (mw g) c).
Proof.
  intros [Hb _] (x & y & -> & Hx & Hy) [H1 H2] Hf Hw. destruct c as [dx dy]. simpl in *.
  exists (x + dx), (y + dy). split; [unfold delta; simpl; lia|].
  replace (x + y * mw g + delta (mw g) (dx, dy)) with ((x + dx) + (y + dy) * mw g) in Hf by (unfold delta; simpl; lia).
  assert (¬ on_border (mw g) (mh g) (x + dx) (y + dy)).
  { intros Hbo. rewrite (b_edge _ _ _ Hb) in Hf by (done || lia). injection Hf as <-. destruct Hw as [Hw _]. done. }
  unfold on_border in *. lia.
Qed.

(** ** Theorems *)

(** Every map made by one of the loaders is a rectangle with an out-of-bounds border; its inside
    is as the input says.  None of the writes is out of range. *)
Theorem C54_uniform_maps_bordered width height blocked : 0 ≤ width → 0 ≤ height →
  ∃ fs, uniform width height blocked = Some fs ∧ bordered (width + 2) (height + 2) fs ∧
    ∀ x y, 1 ≤ x ≤ width → 1 ≤ y ≤ height →
      rd fs (x + y * (width + 2)) = Some (if blocked x y then OutOfBounds else Passable).
Proof.
  intros Hw Hh. destruct (setsize_spec width height Hw Hh) as (fs & Hs & Hb & _).
  unfold uniform. rewrite Hs. cbn [mbind option_bind].
  destruct (fill_spec _ _ fs (flat_map (λ x, map (λ y, (index (width + 2) x y, Some (if blocked x y then OutOfBounds else Passable)))
    (seqZ 1 height)) (seqZ 1 width)) (λ x y, Some (if blocked x y then OutOfBounds else Passable)) Hb) as [Hex Hsp].
  { intros x y v [= <-]. destruct (blocked x y); set_solver. }
  { intros i v. rewrite flat_elem. setoid_rewrite elem_of_seqZ. setoid_rewrite map_elem. setoid_rewrite elem_of_seqZ.
    unfold index. split.
    - intros (x & Hx & y & Hy & [= -> ->]). exists x, y. split_and!; done || lia.
    - intros (x & y & -> & Hx & Hy & ->). exists x. split; [lia|]. exists y. split; [lia|]. f_equal. lia. }
  destruct Hex as [fs' Hfs]; [done|]. destruct (Hsp fs' Hfs) as [Hb' Hin].
  exists fs'. split_and!; [done..|]. intros x y Hx Hy. by apply Hin; lia.
Qed.

Theorem C54_ruml_maps_bordered width height board fs : 0 ≤ width → 0 ≤ height →
  load_ruml width height board = Some fs →
  bordered (width + 2) (height + 2) fs ∧
  ∀ x y, 1 ≤ x ≤ width → 1 ≤ y ≤ height →
    (board x (height + 1 - y) = 32 ∧ rd fs (x + y * (width + 2)) = Some Passable) ∨
    (board x (height + 1 - y) = 35 ∧ rd fs (x + y * (width + 2)) = Some OutOfBounds).
Proof.
  intros Hw Hh. destruct (setsize_spec width height Hw Hh) as (fs0 & Hs & Hb & _).
  unfold load_ruml. rewrite Hs. cbn [mbind option_bind]. intros Hfs.
  destruct (fill_spec _ _ fs0 (flat_map (λ y, map (λ x, ((height + 2 - y - 1) * (width + 2) + x, rumlflag (board x y)))
    (seqZ 1 (width + 2 - 2))) (seqZ 1 (height + 2 - 2))) (λ x y, rumlflag (board x (height + 1 - y))) Hb) as [_ Hsp].
  { intros x y v. unfold rumlflag. repeat case_match; intros [= <-]; set_solver. }
  { intros i v. rewrite flat_elem. setoid_rewrite elem_of_seqZ. setoid_rewrite map_elem. setoid_rewrite elem_of_seqZ. split.
    - intros (y & Hy & x & Hx & [= -> ->]). exists x, (height + 1 - y). split_and!; try lia. do 2 f_equal. lia.
    - intros (x & y & -> & Hx & Hy & ->). exists (height + 1 - y). split; [lia|]. exists x. split; [lia|]. f_equal. lia. }
  destruct (Hsp fs Hfs) as [Hb' Hin]. split; [done|]. intros x y Hx Hy.
  destruct (Hin x y) as [Hv Hr]; [lia..|]. unfold rumlflag in Hv, Hr.
  destruct (Z.eqb_spec (board x (height + 1 - y)) 32); [by left|].
  destruct (Z.eqb_spec (board x (height + 1 - y)) 35); [by right|]. done.
Qed.

Theorem C54_sturtevant_maps_bordered width height board fs : 0 ≤ width → 0 ≤ height →
  load_sturtevant width height board = Some fs →
  bordered (width + 2) (height + 2) fs ∧
  ∀ x y, 1 ≤ x ≤ width → 1 ≤ y ≤ height →
    ∃ f, terrain (board x y) = Some f ∧ rd fs (x + y * (width + 2)) = Some f.
Proof.
  intros Hw Hh. destruct (setsize_spec width height Hw Hh) as (fs0 & Hs & Hb & _).
  unfold load_sturtevant. rewrite Hs. cbn [mbind option_bind]. intros Hfs.
  destruct (fill_spec _ _ fs0 (flat_map (λ y, map (λ x, (y * (width + 2) + x, terrain (board x y)))
    (seqZ 1 (width + 2 - 2))) (seqZ 1 (height + 2 - 2))) (λ x y, terrain (board x y)) Hb) as [_ Hsp].
  { intros x y v. unfold terrain. repeat case_match; intros [= <-]; set_solver. }
  { intros i v. rewrite flat_elem. setoid_rewrite elem_of_seqZ. setoid_rewrite map_elem. setoid_rewrite elem_of_seqZ. split.
    - intros (y & Hy & x & Hx & [= -> ->]). exists x, y. split_and!; done || lia.
    - intros (x & y & -> & Hx & Hy & ->). exists y. split; [lia|]. exists x. split; [lia|]. f_equal. lia. }
  destruct (Hsp fs Hfs) as [Hb' Hin]. split; [done|]. intros x y Hx Hy.
  destruct (Hin x y) as [Hv Hr]; [lia..|]. destruct (terrain (board x y)) as [f|] eqn:E; [|done]. by exists f.
Qed.

(** Inside the map the operators can be computed and every one of them can be applied: no array
    access is out of range and no assertion fails. *)
Theorem C54_no_access_out_of_range g l : good_map g → inside g l →
  ∃ os, operators g l = Some os ∧ ∀ op, op ∈ os → ∃ e, mkedge g l op = Some e.
Proof.
  intros Hg Hl. destruct (operators_spec g l Hg Hl) as (os & Hos & Hiff). exists os. split; [done|].
  intros op (H0 & m & Hm & _)%Hiff. destruct (mkedge_spec g l op m Hg Hl H0 Hm) as (e & He & _). eauto.
Qed.

(** One step. *)
Lemma step_spec g l os op e : good_map g → inside g l → operators g l = Some os → op ∈ os →
  mkedge g l op = Some e →
  inside g (e_loc e) ∧ ∃ m, 0 ≤ op ∧ mmoves g !! Z.to_nat op = Some m ∧ applicable g l m ∧
    e_loc e = l + delta (mw g) (mdx m, mdy m).
Proof.
  intros Hg Hl Hos Hop He. destruct (operators_spec g l Hg Hl) as (os' & Hos' & Hiff).
  assert (os' = os) as -> by congruence. apply Hiff in Hop as (H0 & m & Hm & Ha).
  destruct (mkedge_spec g l op m Hg Hl H0 Hm) as (e' & He' & Hloc & _).
  assert (e' = e) as -> by congruence. split; [|by exists m].
  destruct (target_walkable _ _ _ Ha) as (f & Hf & Hw). rewrite Hloc.
  eapply neighbour_inside; [done..| |done|done]. eapply mdisp_near; [done|]. by eapply elem_of_list_lookup_2.
Qed.

(** From a cell inside the border, every sequence of applicable operators stays inside, and every
    cell it enters is one that can be walked on (so never out of bounds and never a tree). *)
Theorem C54_stays_on_map g l os l' c : good_map g → inside g l → path g l os l' c →
  inside g l' ∧ (os ≠ [] → ∃ f, rd (mflags g) l' = Some f ∧ walkable f).
Proof.
  intros Hg Hl Hp. induction Hp as [|l os op e rest l' c Hos Hop He Hp IH]; [done|].
  destruct (step_spec g l os op e Hg Hl Hos Hop He) as (Hi & m & _ & _ & Ha & Hloc).
  destruct (IH Hi) as [Hi' Hwalk]. split; [done|]. intros _.
  destruct rest as [|o rest]; [|by apply Hwalk]. inversion Hp; subst. rewrite Hloc. by apply target_walkable.
Qed.

(** The table of reverse operators has an entry for every operator (its assertion holds), the
    opposite move. *)
Theorem C55_reverse_is_opposite g : good_map g →
  ∃ rs, reverseops g = Some rs ∧ length rs = length (mmoves g) ∧
    ∀ i m, mmoves g !! i = Some m →
      ∃ j m', rs !! i = Some (Z.of_nat j) ∧ mmoves g !! j = Some m' ∧ mdx m' = - mdx m ∧ mdy m' = - mdy m.
Proof.
  intros Hg. destruct (reverseops_spec g Hg) as (rs & H1 & H2 & H3). exists rs. split_and!; [done..|].
  intros i m Hi. destruct (H3 i m Hi) as (j & m' & ? & ? & ? & ? & _). by exists j, m'.
Qed.

(** Applying an operator and then the reverse operator of its edge leads back to the same cell,
    and the reverse of the reverse operator is the operator; the reverse operator is applicable
    whenever the first cell is one that can be walked on. *)
Lemma may_enter_back g l l' f f' : bordered (mw g) (mh g) (mflags g) →
  rd (mflags g) l = Some f → rd (mflags g) l' = Some f' → walkable f → may_enter f f' →
  may_enter f' f ∧ Z.testbit f' 4 = Z.testbit f 4.
Proof.
  intros Hb Hf Hf' Hw He. pose proof (b_kind _ _ _ Hb _ _ Hf) as Hk. pose proof (b_kind _ _ _ Hb _ _ Hf') as Hk'.
  rewrite !elem_of_cons, elem_of_nil in Hk, Hk'. unfold may_enter, walkable in *.
  destruct Hk as [->|[->|[->|[->|[->|[]]]]]]; destruct Hk' as [->|[->|[->|[->|[->|[]]]]]]; naive_solver.
Qed.

Theorem C55_reverse_undoes g l os op e : good_map g → inside g l → operators g l = Some os → op ∈ os →
  mkedge g l op = Some e →
  ∃ e', mkedge g (e_loc e) (e_revop e) = Some e' ∧ e_loc e' = l ∧ e_revop e' = op ∧
    ((∃ f, rd (mflags g) l = Some f ∧ walkable f) →
     ∃ os', operators g (e_loc e) = Some os' ∧ e_revop e ∈ os').
Proof.
  intros Hg Hl Hos Hop He. destruct (step_spec g l os op e Hg Hl Hos Hop He) as (Hi & m & H0 & Hm & Ha & Hloc).
  destruct (mkedge_spec g l op m Hg Hl H0 Hm) as (e1 & He1 & _ & _ & _ & m' & Hr & Hm' & Hx & Hy & Hc & rs & Hrs & Hback).
  assert (e1 = e) as -> by congruence.
  destruct (mkedge_spec g (e_loc e) (e_revop e) m' Hg Hi Hr Hm') as (e' & He' & Hloc' & _).
  exists e'. split_and!; [done| | |].
  - rewrite Hloc', Hloc, Hx, Hy. unfold delta. simpl. lia.
  - revert He'. unfold mkedge. repeat (case_decide; [|done]). case_decide.
    { apply lookup_lt_Some in Hm'. exfalso. assert ((length (mmoves g) ≤ 8)%nat) by (destruct Hg as [_ [-> | [-> | ->]]]; simpl; lia).
      unfold Ident in *. lia. }
    repeat (case_decide; [|done]). rewrite Hm', Hrs. cbn [mbind option_bind]. rewrite Hback. cbn [mbind option_bind].
    case_decide; [|done]. by intros [= <-].
  - intros (f & Hf & Hw). destruct (operators_spec g (e_loc e) Hg Hi) as (os' & Hos' & Hiff).
    exists os'. split; [done|]. apply Hiff. split; [done|]. exists m'. split; [done|].
    destruct Ha as (f0 & Hf0 & Hall). assert (f0 = f) as -> by congruence.
    rewrite Forall_forall in Hall.
    destruct (Hall (mdx m, mdy m)) as (f' & Hf' & Hen); [left|]. rewrite <-Hloc in Hf'.
    destruct Hg as [Hb Hms].
    destruct (may_enter_back g _ _ _ _ Hb Hf Hf' Hw Hen) as [Hen' H4].
    exists f'. split; [done|]. apply Forall_forall. intros c Hcin.
    unfold chks in Hcin. apply elem_of_cons in Hcin as [->|Hcin].
    + exists f. split; [|done]. rewrite Hloc, Hx, Hy. rewrite <-Hf. f_equal. unfold delta. simpl. lia.
    + destruct (Hall (c.1 + mdx m, c.2 + mdy m)) as (f1 & Hf1 & Hen1); [right; by apply Hc|].
      exists f1. split; [rewrite <-Hf1; f_equal; rewrite Hloc; unfold delta; simpl; lia|].
      unfold may_enter in *. by rewrite H4.
Qed.

(** The cost an edge reports for its reverse operator is the cost of that operator where it is
    applied, except on life-cost maps: there it is wrong for every move that changes the row. *)
Theorem C55_reverse_cost g l os op e m : good_map g → inside g l → operators g l = Some os → op ∈ os →
  mkedge g l op = Some e → mmoves g !! Z.to_nat op = Some m →
  ∃ e', mkedge g (e_loc e) (e_revop e) = Some e' ∧
    (e_revcost e = e_cost e' ↔ mlife g = false ∨ mdy m = 0).
Proof.
  intros Hg Hl Hos Hop He Hm. destruct (step_spec g l os op e Hg Hl Hos Hop He) as (Hi & m1 & H0 & Hm1 & Ha & Hloc).
  assert (m1 = m) as -> by congruence.
  destruct (mkedge_spec g l op m Hg Hl H0 Hm) as (e1 & He1 & _ & Hcost & Hrc & m' & Hr & Hm' & Hx & Hy & _).
  assert (e1 = e) as -> by congruence.
  destruct (mkedge_spec g (e_loc e) (e_revop e) m' Hg Hi Hr Hm') as (e' & He' & Hloc' & Hcost' & _).
  exists e'. split; [done|]. rewrite Hrc, Hcost, Hcost', Hx, Hy.
  assert (Hmul : mul g l = mul g (e_loc e) ↔ mlife g = false ∨ mdy m = 0).
  { unfold mul. destruct (mlife g); [|naive_solver].
    assert (Hyc : ycoord g (e_loc e) = ycoord g l + mdy m).
    { pose proof (mdisp_near g m Hg (elem_of_list_lookup_2 _ _ _ Hm)) as [H1 H2]. simpl in H1, H2.
      destruct Hl as (x & y & -> & Hxr & Hyr). rewrite Hloc. unfold ycoord, delta. simpl.
      replace (x + y * mw g + (mdx m + mw g * mdy m)) with ((x + mdx m) + (y + mdy m) * mw g) by lia.
      rewrite !Z.div_add by lia. rewrite !Z.div_small by lia. lia. }
    rewrite Hyc. split; [intros; right; lia|]. intros [?|?]; [done|lia]. }
  rewrite <-Hmul.
  assert (Hd : (- mdx m ≠ 0 ∧ - mdy m ≠ 0) ↔ (mdx m ≠ 0 ∧ mdy m ≠ 0)) by lia.
  destruct (decide (mdx m ≠ 0 ∧ mdy m ≠ 0)); destruct (decide (- mdx m ≠ 0 ∧ - mdy m ≠ 0)); try tauto.
  all: split; [intros [=]; done|intros ->; done].
Qed.

(** ** Examples *)

(** A Sturtevant map with a tree and a lake. *)
Definition ex_board (x y : Z) : Z :=
  default 46 ([[46; 46; 46; 87]; [46; 84; 46; 87]; [46; 46; 83; 87]] !! Z.to_nat (y - 1) ≫= λ r, r !! Z.to_nat (x - 1)).
Definition ex_map : gridmap :=
  GridMap 6 5 (default [] (load_sturtevant 4 3 ex_board)) false octile.
Lemma ex_loaded : load_sturtevant 4 3 ex_board = Some (mflags ex_map).
Proof. done. Qed.
Lemma ex_good : good_map ex_map.
Proof.
  split; [|by left]. apply (C54_sturtevant_maps_bordered 4 3 ex_board); [lia|lia|exact ex_loaded].
Qed.
(** From the top left corner one can go right or down, but not over the corner of the tree. *)
Example ex_corner : operators ex_map (locof ex_map 0 0) = Some [1; 5].
Proof. done. Qed.
Lemma ex_inside : inside ex_map (locof ex_map 0 0).
Proof. exists 1, 1. simpl. done. Qed.
Example ex_step : ∃ e, mkedge ex_map (locof ex_map 0 0) 5 = Some e ∧ e_loc e = locof ex_map 0 1 ∧ e_revop e = 2.
Proof. eexists. split; [reflexivity|done]. Qed.
(** A random map and one in Ruml's format. *)
Definition ex_uniform : gridmap :=
  GridMap 5 5 (default [] (uniform 3 3 (λ x y, (x =? 2) && (y <? 3)))) true fourway.
Lemma ex_uniform_good : good_map ex_uniform.
Proof.
  destruct (C54_uniform_maps_bordered 3 3 (λ x y, (x =? 2) && (y <? 3))) as (fs & Hfs & Hb & _); [lia..|].
  split; [|by right; right]. unfold ex_uniform. rewrite Hfs. done.
Qed.
Example ex_ruml : load_ruml 3 2 (λ x y, if (x =? 2) && (y =? 1) then 35 else 32) =
  Some [2; 2; 2; 2; 2;  2; 1; 1; 1; 2;  2; 1; 2; 1; 2;  2; 2; 2; 2; 2].
Proof. done. Qed.
(** A wrong reverse cost: going up from the lowest row costs 2, coming back costs 1. *)
Example ex_revcost : ∃ e e', mkedge ex_uniform (locof ex_uniform 0 0) 0 = Some e ∧
  mkedge ex_uniform (e_loc e) (e_revop e) = Some e' ∧ e_revcost e = (2, 0) ∧ e_cost e' = (1, 0).
Proof. do 2 eexists. split_and!; reflexivity. Qed.

Print Assumptions C54_uniform_maps_bordered.
Print Assumptions C54_ruml_maps_bordered.
Print Assumptions C54_sturtevant_maps_bordered.
Print Assumptions C54_no_access_out_of_range.
Print Assumptions C54_stays_on_map.
Print Assumptions C55_reverse_is_opposite.
Print Assumptions C55_reverse_undoes.
Print Assumptions C55_reverse_cost.
