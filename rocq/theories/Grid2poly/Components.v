(** The components computed by visnav/grid2poly.cc. *)
From stdpp Require Import prelude.
From Coq Require Import ZArith Lia ZifyBool ZifyNat Relation_Operators Sorted.
From Verif.Djset Require Import Model Proofs Props.
From Verif.Grid2poly Require Import Model.
Local Open Scope Z_scope.

Section comps.
Context (w h : nat).
Notation W := (Z.of_nat w).
Notation H := (Z.of_nat h).
Notation idx := (idx h).

Definition inrange (c : Z * Z) : Prop := 0 ≤ c.1 < W ∧ 0 ≤ c.2 < H.
Definition ix (c : Z * Z) : nat := idx c.1 c.2.

Lemma ix_inj a b : inrange a → inrange b → ix a = ix b → a = b.
Proof.
  destruct a as [x y], b as [x' y']. unfold inrange, ix, Model.idx. cbn [fst snd]. intros Ha Hb E.
  assert (x * H + y = x' * H + y') as E' by nia. assert (x = x') as -> by nia. f_equal. lia.
Qed.
Lemma ix_lt a : inrange a → (ix a < w * h)%nat.
Proof. destruct a as [x y]. unfold inrange, ix, Model.idx. cbn [fst snd]. intros Ha. nia. Qed.

Lemma blocked_true l x y : blocked w h l x y = true ↔ inrange (x, y) ∧ l !! ix (x, y) = Some true.
Proof.
  unfold blocked, inrange, ix. cbn [fst snd]. rewrite !andb_true_iff, !bool_decide_eq_true.
  destruct (l !! idx x y) as [b|]; cbn; naive_solver.
Qed.

Context (blkd : list bool).

(** ** Specification: 8-connected blocked cells *)
Definition wall (c : Z * Z) : Prop := blocked w h blkd c.1 c.2 = true.
Definition adj (a b : Z * Z) : Prop :=
  wall a ∧ wall b ∧ Z.abs (a.1 - b.1) ≤ 1 ∧ Z.abs (a.2 - b.2) ≤ 1.

Lemma adj_sym a b : adj a b → adj b a.
Proof. intros (? & ? & ? & ?). split_and!; try done; lia. Qed.
Lemma rtc_adj_sym a b : rtc adj a b → rtc adj b a.
Proof.
  induction 1 as [|a b c Hab _ IH]; [done|]. transitivity b; [done|]. by apply rtc_once, adj_sym.
Qed.
Lemma rtc_adj_wall a b : rtc adj a b → wall a → wall b.
Proof. induction 1 as [|a b c Hab _ IH]; [done|]. intros _. apply IH. apply Hab. Qed.

Lemma wall_in a : wall a → inrange a.
Proof. destruct a. intros [? _]%blocked_true. done. Qed.
Lemma wall_default a : inrange a → default false (blkd !! ix a) = true ↔ wall a.
Proof.
  destruct a as [x y]. intros Ha. unfold wall. cbn [fst snd]. rewrite blocked_true.
  destruct (blkd !! ix (x, y)) as [[]|]; cbn; naive_solver.
Qed.

Lemma scan_elem c : c ∈ scan w h ↔ inrange c.
Proof.
  unfold scan, inrange. destruct c as [x y]. cbn [fst snd]. split.
  - intros (x' & (y' & Hy & Hy')%elem_of_list_bind & Hx')%elem_of_list_bind.
    apply elem_of_list_singleton in Hy. injection Hy as -> ->.
    apply elem_of_list_fmap in Hx' as (i & -> & Hi%elem_of_seq).
    apply elem_of_list_fmap in Hy' as (j & -> & Hj%elem_of_seq). lia.
  - intros [Hx Hy]. apply elem_of_list_bind. exists x. split.
    + apply elem_of_list_bind. exists y. split; [by apply elem_of_list_singleton|].
      apply elem_of_list_fmap. exists (Z.to_nat y). split; [lia|]. apply elem_of_seq. lia.
    + apply elem_of_list_fmap. exists (Z.to_nat x). split; [lia|]. apply elem_of_seq. lia.
Qed.

(** The partners of a cell: half of its neighbours. *)
Lemma joins_elem a j : inrange a → j ∈ joins w h blkd a.1 a.2 ↔
  ∃ b, wall a ∧ wall b ∧ j = ix b ∧
       (b.1 = a.1 + 1 ∧ b.2 = a.2 ∨ b.2 = a.2 + 1 ∧ Z.abs (a.1 - b.1) ≤ 1).
Proof.
  intros Ha. destruct a as [x y]. pose proof Ha as [Hx Hy]. cbn [fst snd] in Hx, Hy.
  pose proof (wall_default (x, y) Ha) as Hw. unfold ix in Hw. cbn [fst snd] in *. unfold joins.
  assert (∀ x' y', (∃ p : bool, p = true ∧ inrange (x', y')) →
    default false (blkd !! idx x' y') = true ↔ wall (x', y')) as Hw'.
  { intros x' y' (p & _ & Hr). by apply (wall_default (x', y')). }
  destruct (default false (blkd !! idx x y)) eqn:E0.
  2:{ split; [by intros ?%elem_of_nil|]. intros (b & Hwa & _). by apply Hw in Hwa. }
  assert (wall (x, y)) as Hwa by (by apply Hw).
  assert (∀ (g : bool) x' y', (g = true → inrange (x', y')) →
    j ∈ (if g && default false (blkd !! idx x' y') then [idx x' y'] else []) ↔ g = true ∧ wall (x', y') ∧ j = ix (x', y')) as Hif.
  { intros g x' y' Hg. destruct g; cbn [andb].
    - pose proof (wall_default (x', y') (Hg eq_refl)) as Hd. unfold ix in Hd. cbn [fst snd] in Hd.
      destruct (default false (blkd !! idx x' y')).
      + rewrite elem_of_list_singleton. unfold ix. cbn [fst snd]. intuition.
      + split; [by intros ?%elem_of_nil|]. intros (_ & Hc & _). by apply Hd in Hc.
    - split; [by intros ?%elem_of_nil|]. by intros (? & _). }
  rewrite !elem_of_app, !Hif.
  - rewrite !andb_true_iff, !bool_decide_eq_true. split.
    + intros [(G & Hb & ->)|[(G & Hb & ->)|[(G & Hb & ->)|(G & Hb & ->)]]]; eexists; (split; [done|]; split; [exact Hb|]; split; [done|]); cbn; lia.
    + intros ([x' y'] & _ & Hb & -> & Hor). cbn [fst snd] in Hor. pose proof (wall_in _ Hb) as [Hbx Hby]. cbn [fst snd] in Hbx, Hby.
      destruct Hor as [[-> ->]|[-> Hab]]; [left; split; [lia|done]|right].
      assert (x' = x ∨ x' = x - 1 ∨ x' = x + 1) as [Hc|[Hc|Hc]] by lia; subst x'.
      * left. split; [lia|done].
      * right. left. split; [lia|done].
      * right. right. split; [lia|done].
  - rewrite !andb_true_iff, !bool_decide_eq_true. unfold inrange. cbn. lia.
  - rewrite !andb_true_iff, !bool_decide_eq_true. unfold inrange. cbn. lia.
  - rewrite !bool_decide_eq_true. unfold inrange. cbn. lia.
  - rewrite !bool_decide_eq_true. unfold inrange. cbn. lia.
Qed.

(** ** The forest *)
Lemma joinall_spec s i js all : reach s js → ∃ k s' js', (∀ n, (k ≤ n)%nat → joinall n s i all = Some s') ∧ reach s' js' ∧
  ∀ p, p ∈ js' ↔ p ∈ js ∨ (p.1 = i ∧ p.2 ∈ all).
Proof.
  revert s js. induction all as [|j all IH]; intros s js Hr.
  - exists 0%nat, s, js. split; [done|]. split; [done|]. intros p. rewrite elem_of_nil. naive_solver.
  - destruct (C07_find_and_join_terminate s js Hr) as [_ Hj]. destruct (Hj i j) as [k1 Hk1].
    destruct (Hk1 k1 ltac:(lia)) as [s1 E1].
    pose proof (reach_join _ _ _ _ _ _ Hr E1) as Hr1.
    destruct (IH s1 _ Hr1) as (k2 & s' & js' & Hk2 & Hr' & Hp).
    exists (k1 + k2)%nat, s', js'. split; [|split; [done|]].
    + intros n Hn. cbn [joinall]. rewrite (join_mono k1 n _ _ _ s1 E1) by lia. cbn [mbind option_bind]. apply Hk2. lia.
    + intros [p1 p2]. rewrite Hp, !elem_of_cons. cbn [fst snd]. naive_solver.
Qed.

Lemma forest_spec s js cs : reach s js → ∃ k s' js', (∀ n, (k ≤ n)%nat → forest w h blkd n s cs = Some s') ∧ reach s' js' ∧
  ∀ p, p ∈ js' ↔ p ∈ js ∨ ∃ c, c ∈ cs ∧ p.1 = ix c ∧ p.2 ∈ joins w h blkd c.1 c.2.
Proof.
  revert s js. induction cs as [|[x y] cs IH]; intros s js Hr.
  - exists 0%nat, s, js. split; [done|]. split; [done|]. intros p. setoid_rewrite elem_of_nil. naive_solver.
  - destruct (joinall_spec s (idx x y) js (joins w h blkd x y) Hr) as (k1 & s1 & js1 & Hk1 & Hr1 & Hp1).
    destruct (IH s1 js1 Hr1) as (k2 & s' & js' & Hk2 & Hr' & Hp).
    exists (k1 + k2)%nat, s', js'. split; [|split; [done|]].
    + intros n Hn. cbn [forest]. rewrite Hk1 by lia. cbn [mbind option_bind]. apply Hk2. lia.
    + intros p. rewrite Hp, Hp1. setoid_rewrite elem_of_cons. unfold ix at 2. split.
      * intros [[?|?]|(c & ? & ?)]; [by left|right; exists (x, y); naive_solver|right; exists c; naive_solver].
      * intros [?|(c & [->|?] & ?)]; [by left; left|left; right; done|right; by exists c].
Qed.

(** The joins made connect two cells exactly if a chain of neighbouring walls does. *)
Lemma connected_adj js : (∀ p, p ∈ js ↔ ∃ c, c ∈ scan w h ∧ p.1 = ix c ∧ p.2 ∈ joins w h blkd c.1 c.2) →
  ∀ a b, wall a → wall b → connected js (ix a) (ix b) ↔ rtc adj a b.
Proof.
  intros Hjs a b Ha Hb. split.
  - assert (∀ i j, connected js i j → i = j ∨ ∃ a b, i = ix a ∧ j = ix b ∧ wall a ∧ wall b ∧ rtc adj a b) as Hc.
    { intros i j Hc. induction Hc as [i j Hp|i|i j _ IH|i j k _ IH1 _ IH2].
      - right. apply Hjs in Hp as (c & Hs & E & Hj). cbn [fst snd] in E, Hj. apply scan_elem in Hs.
        apply joins_elem in Hj as (d & Hwc & Hwd & -> & Hn); [|done]. exists c, d. split_and!; try done.
        apply rtc_once. split_and!; try done; lia.
      - by left.
      - destruct IH as [->|(c & d & -> & -> & Hwc & Hwd & Hr)]; [by left|right].
        exists d, c. split_and!; try done. by apply rtc_adj_sym.
      - destruct IH1 as [->|(c & d & -> & -> & Hwc & Hwd & Hr)]; [done|].
        destruct IH2 as [<-|(c' & d' & E & -> & Hwc' & Hwd' & Hr')]; [right; by exists c, d|].
        right. apply ix_inj in E; [|by apply wall_in|by apply wall_in]. subst c'.
        exists c, d'. split_and!; try done. by transitivity d. }
    intros [E|(c & d & E1 & E2 & Hwc & Hwd & Hr)]%Hc.
    + apply ix_inj in E; [by subst|by apply wall_in|by apply wall_in].
    + apply ix_inj in E1; [|by apply wall_in|by apply wall_in].
      apply ix_inj in E2; [|by apply wall_in|by apply wall_in]. by subst.
  - intros Hr. clear Ha Hb. induction Hr as [a|a b c (Hwa & Hwb & Hx & Hy) _ IH]; [apply rst_refl|].
    eapply rst_trans; [|exact IH].
    assert (∀ a b, wall a → wall b → (b.1 = a.1 + 1 ∧ b.2 = a.2 ∨ b.2 = a.2 + 1 ∧ Z.abs (a.1 - b.1) ≤ 1) →
      connected js (ix a) (ix b)) as Hs.
    { clear -Hjs. intros a b Ha Hb Hn. apply rst_step. apply Hjs. exists a. cbn [fst snd]. split; [by apply scan_elem, wall_in|].
      split; [done|]. apply joins_elem; [by apply wall_in|]. by exists b. }
    destruct (decide (a = b)) as [->|Hne]; [apply rst_refl|].
    assert (b.1 = a.1 + 1 ∧ b.2 = a.2 ∨ b.2 = a.2 + 1 ∧ Z.abs (a.1 - b.1) ≤ 1 ∨
            a.1 = b.1 + 1 ∧ a.2 = b.2 ∨ a.2 = b.2 + 1 ∧ Z.abs (b.1 - a.1) ≤ 1) as Hor.
    { destruct a as [x y], b as [x' y']. cbn [fst snd] in *. assert (x ≠ x' ∨ y ≠ y') as Hxy; [|lia].
      destruct (decide (x = x')) as [->|]; [|by left]. right. congruence. }
    destruct Hor as [?|[?|[?|?]]].
    + apply Hs; auto.
    + apply Hs; auto.
    + apply rst_sym, Hs; auto.
    + apply rst_sym, Hs; auto.
Qed.

(** ** Sorting the walls into components *)

(** The order of the scan. *)
Definition lle (a b : Z * Z) : Prop := a.1 < b.1 ∨ a.1 = b.1 ∧ a.2 ≤ b.2.

Lemma scan_sorted : StronglySorted lle (scan w h).
Proof.
  unfold scan.
  assert (∀ a, StronglySorted lle (x ← Z.of_nat <$> seq a w; y ← Z.of_nat <$> seq 0 h; [(x, y)])) as Hg; [|apply Hg].
  induction w as [|n IH]; intros a; [constructor|].
  cbn [seq fmap list_fmap mbind list_bind].
  assert (∀ m b, StronglySorted lle ((Z.of_nat <$> seq b m) ≫= λ y, [(Z.of_nat a, y)])) as Hcol.
  { clear. induction m as [|m IH]; intros b; [constructor|]. cbn. constructor; [apply IH|].
    apply Forall_forall. intros c (y & Hy & Hin)%elem_of_list_bind. apply elem_of_list_singleton in Hy as ->.
    apply elem_of_list_fmap in Hin as (i & -> & Hi%elem_of_seq). right. cbn. lia. }
  assert (∀ l1 l2 : list (Z * Z), StronglySorted lle l1 → StronglySorted lle l2 → (∀ c d, c ∈ l1 → d ∈ l2 → lle c d) →
    StronglySorted lle (l1 ++ l2)) as Happ.
  { clear. induction l1 as [|c l1 IH]; intros l2 H1 H2 Hle; [done|]. inversion H1 as [|? ? Hs Hf]; subst. cbn. constructor.
    - apply IH; [done|done|]. intros; apply Hle; [by apply elem_of_list_further|done].
    - apply Forall_app. split; [done|]. apply Forall_forall. intros d Hd. apply Hle; [apply elem_of_list_here|done]. }
  apply Happ; [apply Hcol|apply IH|].
  intros c d (y & Hy & _)%elem_of_list_bind (x & (y' & Hy' & _)%elem_of_list_bind & Hx)%elem_of_list_bind.
  apply elem_of_list_singleton in Hy as ->. apply elem_of_list_singleton in Hy' as ->.
  apply elem_of_list_fmap in Hx as (i & -> & Hi%elem_of_seq). left. cbn. lia.
Qed.

(** What is known of the component of the walls in [P]: it marks exactly these,
    and its start is the lowest of its leftmost cells. *)
Definition iscomp (P : Z * Z → Prop) (c : comp) : Prop :=
  length (cells c) = (w * h)%nat ∧
  (∀ a, inrange a → cells c !! ix a = Some true ↔ P a) ∧
  (P (minx c, miny c)) ∧
  (∀ a, P a → minx c < a.1 ∨ minx c = a.1 ∧ miny c ≤ a.2).

Lemma iscomp_ext P Q c : (∀ a, P a ↔ Q a) → iscomp P c → iscomp Q c.
Proof. intros HPQ (H1 & H2 & H3 & H4). unfold iscomp. setoid_rewrite <-HPQ. done. Qed.

Lemma add_new a : inrange a → ∃ c, add h (newcomp w h) a.1 a.2 = Some c ∧ num c = 1%nat ∧ iscomp (λ b, b = a) c.
Proof.
  intros Ha. destruct a as [x y]. pose proof (ix_lt _ Ha) as Hlt. unfold add, newcomp. cbn [fst snd num minx miny cells].
  rewrite (bool_decide_eq_true_2 (0%nat = 0%nat)) by done. cbn [orb].
  rewrite (bool_decide_eq_true_2 (x = x)) by done. rewrite (bool_decide_eq_false_2 (y < y)) by lia. cbn [andb].
  rewrite decide_True by (rewrite replicate_length; exact Hlt).
  eexists. split; [done|]. split; [done|]. unfold iscomp. cbn [cells minx miny]. split_and!.
  - by rewrite insert_length, replicate_length.
  - intros b Hb. change (idx x y) with (ix (x, y)). destruct (decide (b = (x, y))) as [->|Hne].
    + rewrite list_lookup_insert by (by rewrite replicate_length). done.
    + rewrite list_lookup_insert_ne by (intros E; apply Hne; symmetry; by apply ix_inj).
      rewrite lookup_replicate. naive_solver.
  - done.
  - intros b ->. cbn. lia.
Qed.

Lemma add_old P c a : inrange a → iscomp P c → (0 < num c)%nat → ∃ c', add h c a.1 a.2 = Some c' ∧ (0 < num c')%nat ∧ iscomp (λ b, P b ∨ b = a) c'.
Proof.
  intros Ha (H1 & H2 & H3 & H4) Hn. destruct a as [x y]. pose proof (ix_lt _ Ha) as Hlt. unfold add. cbn [fst snd].
  rewrite (bool_decide_eq_false_2 (num c = 0%nat)) by lia. cbn [orb].
  assert (∀ b, inrange b → <[idx x y:=true]> (cells c) !! ix b = Some true ↔ P b ∨ b = (x, y)) as Hc.
  { intros b Hb. change (idx x y) with (ix (x, y)). destruct (decide (b = (x, y))) as [->|Hne].
    + rewrite list_lookup_insert by (by rewrite H1). naive_solver.
    + rewrite list_lookup_insert_ne by (intros E; apply Hne; symmetry; by apply ix_inj).
      rewrite H2 by done. naive_solver. }
  assert ((if bool_decide (x < minx c) then (x, y) else (minx c, miny c)) = (if decide (x < minx c) then x else minx c, if decide (x < minx c) then y else miny c)) as ->.
  { case_bool_decide; [by rewrite !decide_True|by rewrite !decide_False]. }
  rewrite decide_True by (rewrite H1; exact Hlt).
  eexists. split; [done|]. split; [cbn; lia|]. unfold iscomp. cbn [cells minx miny]. split; [by rewrite insert_length|]. split; [done|].
  destruct (decide (x < minx c)) as [E1|E1].
  - rewrite (bool_decide_eq_false_2 (y < y)) by lia. rewrite andb_false_r. split; [by right|].
    intros b [Hb| ->]; [specialize (H4 _ Hb); left; lia|right; cbn; lia].
  - destruct (decide (x = minx c)) as [E2|E2].
    2:{ rewrite (bool_decide_eq_false_2 (x = _)) by done. cbn [andb]. split; [by left|].
        intros b [Hb| ->]; [by apply H4|left; cbn; lia]. }
    rewrite (bool_decide_eq_true_2 (x = _)) by done. cbn [andb]. case_bool_decide.
    + split; [right; by f_equal|]. intros b [Hb| ->]; [specialize (H4 _ Hb); lia|cbn; lia].
    + split; [by left|]. intros b [Hb| ->]; [by apply H4|cbn; lia].
Qed.

Section sorting.
Context (s0 : dj).
Notation rt := (root (parent s0)).
Context (rt_total : total (parent s0)).

Definition sorted (cs : list (Z * Z)) (st : dj * (nat → nat) * list comp) : Prop :=
  let '(s, aux, l) := st in
  total (parent s) ∧ (∀ i r, rt i r → root (parent s) i r) ∧
  ∃ rs : list nat, NoDup rs ∧ length rs = length l ∧ (∀ r k, aux r = S k ↔ rs !! k = Some r) ∧
    (∀ k r c, rs !! k = Some r → l !! k = Some c → (0 < num c)%nat ∧ iscomp (λ a, a ∈ cs ∧ wall a ∧ rt (ix a) r) c) ∧
    (∀ a r, a ∈ cs → wall a → rt (ix a) r → r ∈ rs) ∧
    (∀ a, a ∈ cs → wall a → ∃ b r, b ∈ cs ∧ wall b ∧ lle b a ∧ rs !! 0%nat = Some r ∧ rt (ix b) r).

Lemma total_of s : (∀ i r, rt i r → root (parent s) i r) → total (parent s).
Proof. intros Hs i. destruct (rt_total i) as [r Hr]. exists r. by apply Hs. Qed.

Lemma place_sorted cs st a : inrange a → (∀ b, b ∈ cs → lle b a) → sorted cs st →
  ∃ k st', (∀ n, (k ≤ n)%nat → place w h blkd n st a.1 a.2 = Some st') ∧ sorted (cs ++ [a]) st'.
Proof.
  intros Ha Hle Hst. destruct st as [[s aux] l]. destruct Hst as (Ht & Hrt & rs & Hnd & Hlen & Haux & Hc & Hall & Hfst).
  pose proof (wall_default a Ha) as Hw. unfold place. change (idx a.1 a.2) with (ix a).
  destruct (default false (blkd !! ix a)).
  2:{ exists 0%nat, (s, aux, l). split; [done|]. split; [done|]. split; [done|]. exists rs. split_and!; try done.
      - intros k r c Hk Hl. destruct (Hc k r c Hk Hl) as [? Hi]. split; [done|].
        eapply iscomp_ext; [|exact Hi]. intros b. cbn. rewrite elem_of_app, elem_of_list_singleton.
        split; [naive_solver|]. intros [[?| ->] [? ?]]; [done|]. by apply Hw in H0.
      - intros b r [?|Hb]%elem_of_app Hwb; [eauto|]. apply elem_of_list_singleton in Hb as ->. by apply Hw in Hwb.
      - intros b [Hb|Hb]%elem_of_app Hwb; [|apply elem_of_list_singleton in Hb as ->; by apply Hw in Hwb].
        destruct (Hfst b Hb Hwb) as (c & r & ? & ? & ? & ? & ?). exists c, r. rewrite elem_of_app. auto. }
  assert (wall a) as Hwa by (by apply Hw). clear Hw.
  destruct (rt_total (ix a)) as [r Hr].
  destruct (find_spec s (ix a) r Ht (Hrt _ _ Hr)) as (k & s' & Hf & _ & Hroots).
  assert (∀ i q, rt i q → root (parent s') i q) as Hrt' by eauto.
  assert (∀ q, rt (ix a) q ↔ q = r) as Hra.
  { intros q. split; [|by intros ->]. intros Hq. by eapply root_det. }
  destruct (aux r) as [|j] eqn:Ej.
  - (* a new component *)
    assert (r ∉ rs) as Hnr. { intros [j Hj]%elem_of_list_lookup. apply Haux in Hj. congruence. }
    destruct (add_new a Ha) as (c & Eadd & Hn1 & Hic).
    exists k, (s', upd aux r (S (length l)), l ++ [c]). split.
    { intros n Hn. rewrite Hf by done. cbn [mbind option_bind]. rewrite decide_True by done.
      assert (upd aux r (S (length l)) r = S (length l)) as -> by (unfold upd; by rewrite decide_True).
      replace (S (length l) - 1)%nat with (length l) by lia.
      rewrite lookup_app_r, Nat.sub_diag by lia. cbn [lookup list_lookup mbind option_bind].
      rewrite Eadd. cbn [mbind option_bind]. do 2 f_equal.
      replace (length l) with (length l + 0)%nat at 1 by lia. rewrite insert_app_r. done. }
    split; [by apply total_of|]. split; [done|]. exists (rs ++ [r]). split_and!.
    + apply NoDup_app. split; [done|]. split; [|apply NoDup_singleton]. intros q Hq ->%elem_of_list_singleton. done.
    + rewrite !app_length. cbn. lia.
    + intros q j. unfold upd. destruct (decide (q = r)) as [->|Hne].
      * split; [intros [= <-]|].
        -- rewrite lookup_app_r, <-Hlen, Nat.sub_diag by lia. done.
        -- intros Hj. destruct (decide (j < length rs)%nat).
           ++ rewrite lookup_app_l in Hj by done. apply elem_of_list_lookup_2 in Hj. done.
           ++ rewrite lookup_app_r in Hj by lia. apply lookup_lt_Some in Hj as Hl. cbn in Hl. f_equal. lia.
      * rewrite Haux. destruct (decide (j < length rs)%nat).
        -- by rewrite lookup_app_l.
        -- rewrite (lookup_ge_None_2 rs) by lia. rewrite lookup_app_r by lia. split; [done|].
           intros Hj. apply elem_of_list_lookup_2, elem_of_list_singleton in Hj. done.
    + intros j q c' Hj Hl. destruct (decide (j < length rs)%nat).
      * rewrite lookup_app_l in Hj by done. rewrite lookup_app_l in Hl by lia. destruct (Hc j q c' Hj Hl) as [? Hi].
        split; [done|]. eapply iscomp_ext; [|exact Hi]. intros b. cbn. rewrite elem_of_app, elem_of_list_singleton.
        split; [naive_solver|]. intros [[?| ->] [? Hq]]; [done|]. apply Hra in Hq as ->. exfalso. apply Hnr.
        by eapply elem_of_list_lookup_2.
      * rewrite lookup_app_r in Hj by lia. rewrite lookup_app_r in Hl by lia.
        apply lookup_lt_Some in Hj as Hl'. cbn in Hl'. rewrite <-Hlen in Hl. replace (j - length rs)%nat with 0%nat in Hj, Hl by lia.
        injection Hj as <-. injection Hl as <-. split; [lia|]. eapply iscomp_ext; [|exact Hic]. intros b. cbn.
        rewrite elem_of_app, elem_of_list_singleton. split; [intros ->; naive_solver|]. intros [[?| ->] [? Hq]]; [|done].
        exfalso. apply Hnr. by eapply Hall.
    + intros b q [?|Hb]%elem_of_app Hwb Hq; apply elem_of_app; [left; eauto|right]. apply elem_of_list_singleton in Hb as ->.
      apply Hra in Hq as ->. by apply elem_of_list_singleton.
    + intros b Hb Hwb. destruct rs as [|r0 rs].
      * assert (b = a) as ->.
        { apply elem_of_app in Hb as [Hb|Hb]; [|by apply elem_of_list_singleton in Hb].
          destruct (rt_total (ix b)) as [q Hq]. by specialize (Hall b q Hb Hwb Hq) as ?%elem_of_nil. }
        exists a, r. split; [done|]. split; [done|]. split; [right; lia|]. split; [done|]. done.
      * apply elem_of_app in Hb as [Hb|Hb].
        -- destruct (Hfst b Hb Hwb) as (e & q & ? & ? & ? & ? & ?). exists e, q. rewrite elem_of_app. auto 10.
        -- apply elem_of_list_singleton in Hb as ->.
           destruct l as [|c0 l]; [done|]. destruct (Hc 0%nat r0 c0 eq_refl eq_refl) as [_ (_ & _ & (Hin & Hw0 & Hr0) & _)].
           eexists _, r0. rewrite elem_of_app. split; [left; exact Hin|]. split; [done|]. split; [by apply Hle|]. done.
  - (* one that is there *)
    pose proof (proj1 (Haux r j) Ej) as Hj. pose proof (lookup_lt_Some _ _ _ Hj) as Hjl. rewrite Hlen in Hjl.
    destruct (lookup_lt_is_Some_2 _ _ Hjl) as [c Hl]. destruct (Hc j r c Hj Hl) as [Hn Hi].
    destruct (add_old _ c a Ha Hi Hn) as (c' & Eadd & Hn' & Hi').
    exists k, (s', aux, <[j := c']> l). split.
    { intros n Hk. rewrite Hf by done. cbn [mbind option_bind]. rewrite Ej. rewrite decide_False by done.
      rewrite Ej. replace (S j - 1)%nat with j by lia. rewrite Hl. cbn [mbind option_bind]. rewrite Eadd. done. }
    split; [by apply total_of|]. split; [done|]. exists rs. split_and!; try done.
    + by rewrite insert_length.
    + intros i q d Hi1 Hi2. destruct (decide (i = j)) as [->|Hne].
      * rewrite list_lookup_insert in Hi2 by done. injection Hi2 as <-. split; [done|].
        assert (q = r) as -> by congruence. eapply iscomp_ext; [|exact Hi']. intros b. cbn.
        rewrite elem_of_app, elem_of_list_singleton. naive_solver.
      * rewrite list_lookup_insert_ne in Hi2 by done. destruct (Hc i q d Hi1 Hi2) as [? Hd]. split; [done|].
        eapply iscomp_ext; [|exact Hd]. intros b. cbn. rewrite elem_of_app, elem_of_list_singleton.
        split; [naive_solver|]. intros [[?| ->] [? Hq]]; [done|]. apply Hra in Hq as ->. exfalso. apply Hne.
        by eapply NoDup_lookup.
    + intros b q [?|Hb]%elem_of_app Hwb Hq; [eauto|]. apply elem_of_list_singleton in Hb as ->.
      apply Hra in Hq as ->. by eapply elem_of_list_lookup_2.
    + intros b Hb Hwb. apply elem_of_app in Hb as [Hb|Hb].
      * destruct (Hfst b Hb Hwb) as (e & q & ? & ? & ? & ? & ?). exists e, q. rewrite elem_of_app. auto 10.
      * apply elem_of_list_singleton in Hb as ->. destruct rs as [|r0 rs]; [done|].
        destruct l as [|c0 l]; [done|]. destruct (Hc 0%nat r0 c0 eq_refl eq_refl) as [_ (_ & _ & (Hin & Hw0 & Hr0) & _)].
        eexists _, r0. rewrite elem_of_app. split; [left; exact Hin|]. split; [done|]. split; [by apply Hle|]. done.
Qed.

Lemma placeall_sorted more cs st : (∀ a, a ∈ more → inrange a) → StronglySorted lle more →
  (∀ a b, a ∈ cs → b ∈ more → lle a b) → sorted cs st →
  ∃ k st', (∀ n, (k ≤ n)%nat → placeall w h blkd n st more = Some st') ∧ sorted (cs ++ more) st'.
Proof.
  revert cs st. induction more as [|[x y] more IH]; intros cs st Hm Hso Hle Hst.
  - exists 0%nat, st. split; [done|]. by rewrite app_nil_r.
  - destruct (place_sorted cs st (x, y)) as (k1 & st1 & H1 & Hs1); [apply Hm, elem_of_list_here|intros b Hb; apply Hle; [done|apply elem_of_list_here]|done|].
    inversion Hso as [|? ? Hso' Hfa]; subst. rewrite Forall_forall in Hfa.
    destruct (IH (cs ++ [(x, y)]) st1) as (k2 & st2 & H2 & Hs2); [intros a Ha; by apply Hm, elem_of_list_further|done| |done|].
    { intros a b [Ha|Ha]%elem_of_app Hb; [apply Hle; [done|by apply elem_of_list_further]|].
      apply elem_of_list_singleton in Ha as ->. by apply Hfa. }
    exists (k1 + k2)%nat, st2. split; [|by rewrite <-app_assoc in Hs2].
    intros n Hn. cbn [placeall]. cbn [fst snd] in H1. rewrite H1 by lia. cbn [mbind option_bind]. apply H2. lia.
Qed.
End sorting.

(** The list of components: each is the set of the walls connected to its start,
    and each wall is in one of them. *)
Lemma components_spec : ∃ k cs, (∀ n, (k ≤ n)%nat → components w h blkd n = Some cs) ∧
  (∀ i c, cs !! i = Some c → wall (minx c, miny c) ∧ iscomp (λ a, rtc adj (minx c, miny c) a) c) ∧
  (∀ a, wall a → ∃ i c, cs !! i = Some c ∧ rtc adj (minx c, miny c) a) ∧
  (∀ i j c d, cs !! i = Some c → cs !! j = Some d → rtc adj (minx c, miny c) (minx d, miny d) → i = j) ∧
  (∀ c a, cs !! 0%nat = Some c → wall a → minx c < a.1 ∨ minx c = a.1 ∧ miny c ≤ a.2).
Proof.
  destruct (forest_spec new [] (scan w h) reach_new) as (k1 & s0 & js & Hf & Hr & Hjs).
  destruct (reach_inv s0 js Hr) as [Ht Hsr].
  assert (∀ a b, wall a → wall b → connected js (ix a) (ix b) ↔ rtc adj a b) as Hca.
  { apply connected_adj. intros p. rewrite Hjs, elem_of_nil. naive_solver. }
  destruct (placeall_sorted s0 Ht (scan w h) [] (s0, λ _, 0%nat, [])) as (k2 & [[s aux] l] & Hp & Hs).
  { intros a. by rewrite scan_elem. }
  { apply scan_sorted. }
  { by intros a b ?%elem_of_nil. }
  { split; [done|]. split; [done|]. exists []. split; [constructor|]. split; [done|]. split; [|split; [|split]].
    - intros r k. by rewrite lookup_nil.
    - intros k r c. by rewrite lookup_nil.
    - by intros a r ?%elem_of_nil.
    - by intros a ?%elem_of_nil. }
  rewrite app_nil_l in Hs. destruct Hs as (_ & Hroots & rs & Hnd & Hlen & _ & Hc & Hall & Hfst).
  assert (∀ i c, l !! i = Some c → ∃ r, rs !! i = Some r ∧ wall (minx c, miny c) ∧ root (parent s0) (ix (minx c, miny c)) r ∧
     iscomp (λ a, wall a ∧ root (parent s0) (ix a) r) c) as Hl.
  { intros i c Hi. destruct (lookup_lt_is_Some_2 rs i) as [r Hr1]; [rewrite Hlen; by eapply lookup_lt_Some|].
    destruct (Hc i r c Hr1 Hi) as [_ Hic]. exists r. split; [done|]. pose proof Hic as (_ & _ & (_ & Hw & Hrt) & _).
    split; [done|]. split; [done|]. eapply iscomp_ext; [|exact Hic]. intros a. cbn. rewrite scan_elem.
    split; [naive_solver|]. intros [? ?]. split; [by apply wall_in|done]. }
  assert (∀ a b r, wall a → root (parent s0) (ix a) r → (wall b ∧ root (parent s0) (ix b) r) ↔ rtc adj a b) as Hrr.
  { intros a b r Hwa Hra. split.
    - intros [Hwb Hrb]. apply Hca; [done|done|]. apply Hsr. by exists r.
    - intros Hab. assert (wall b) as Hwb by (by eapply rtc_adj_wall). split; [done|].
      apply Hca in Hab; [|done|done]. apply Hsr in Hab as (q & Hq1 & Hq2).
      by rewrite (root_det _ _ _ _ Hra Hq1). }
  exists (k1 + k2)%nat, l. split; [|split; [|split; [|split]]].
  - intros n Hn. unfold components. rewrite Hf by lia. cbn [mbind option_bind]. rewrite Hp by lia. done.
  - intros i c Hi. destruct (Hl i c Hi) as (r & _ & Hw & Hrt & Hic). split; [done|].
    eapply iscomp_ext; [|exact Hic]. intros a. cbn. by apply Hrr.
  - intros a Ha. destruct (Ht (ix a)) as [r Hra].
    assert (r ∈ rs) as [i Hi]%elem_of_list_lookup. { eapply Hall; [|done|done]. by apply scan_elem, wall_in. }
    destruct (lookup_lt_is_Some_2 l i) as [c Hci]; [rewrite <-Hlen; by eapply lookup_lt_Some|].
    exists i, c. split; [done|]. destruct (Hl i c Hci) as (r' & Hi' & Hw & Hrt & _). assert (r' = r) as -> by congruence.
    by eapply Hrr.
  - intros i j c d Hi Hj Hcd. destruct (Hl i c Hi) as (r & Hri & Hw & Hrt & _). destruct (Hl j d Hj) as (r' & Hrj & Hw' & Hrt' & _).
    pose proof (proj2 (Hrr _ _ r Hw Hrt) Hcd) as [_ Hq]. rewrite (root_det _ _ _ _ Hrt' Hq) in Hrj. by eapply NoDup_lookup.
  - intros c a H0 Ha. destruct (Hl _ _ H0) as (r & Hr0 & _ & _ & (_ & _ & _ & Hmin)).
    destruct (Hfst a) as (b & q & _ & Hwb & Hba & Hq & Hrb); [by apply scan_elem, wall_in|done|].
    assert (q = r) as -> by congruence. specialize (Hmin b (conj Hwb Hrb)). unfold lle in *. lia.
Qed.
End comps.
