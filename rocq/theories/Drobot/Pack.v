(** Packing states of the dock robot domain: C61. *)
From stdpp Require Import prelude sorting.
From Coq Require Import ZArith Lia ZifyBool ZifyNat.
From Verif Require Import Drobot.Model Drobot.Props.

(** ** Writes *)
Lemma wrs_spec (v : list nat) (ws : list (nat * nat)) : NoDup ws.*1 → (∀ i, i ∈ ws.*1 → i < length v) →
  ∃ v', wrs v ws = Some v' ∧ length v' = length v ∧ (∀ i x, (i, x) ∈ ws → v' !! i = Some x) ∧
    (∀ i, i ∉ ws.*1 → v' !! i = v !! i).
Proof.
  revert v. induction ws as [|[i x] ws IH]; intros v Hnd Hlt.
  { exists v. split_and!; [done|done| |done]. by intros ?? ?%elem_of_nil. }
  rewrite fmap_cons in Hnd, Hlt. simpl in Hnd, Hlt. apply NoDup_cons in Hnd as [Hi Hnd].
  cbn [wrs]. unfold wr. rewrite bool_decide_true by (apply Hlt; left). cbn [mbind option_bind].
  destruct (IH (<[i := x]> v) Hnd) as (v' & -> & Hlen & Hin & Hout).
  { intros j Hj. rewrite insert_length. apply Hlt. by right. }
  exists v'. rewrite insert_length in Hlen. split_and!; [done|done| |].
  - intros j y [[= -> ->]|Hj]%elem_of_cons; [|by apply Hin]. rewrite Hout by done.
    apply list_lookup_insert. apply Hlt. left.
  - intros j Hj. rewrite fmap_cons in Hj. apply not_elem_of_cons in Hj as [Hne Hj]. simpl in Hne.
    rewrite Hout by done. by rewrite list_lookup_insert_ne.
Qed.

(** ** Positions *)

(** The number of positions for one location, and for [j] locations from [l]. *)
Definition room (d : drobot) (l : nat) : nat := default 0 (maxcranes d !! l) + default 0 (maxpiles d !! l) * nboxes d.
Fixpoint off (d : drobot) (l j : nat) : nat := match j with 0 => 0 | S j => room d l + off d (S l) j end.

Lemma imap_fst {A} (f : nat → A → nat) (l : list A) :
  (imap (λ i x, (x, f i x)) l).*1 = l.
Proof.
  revert f. induction l as [|x l IH]; intros f; [done|]. rewrite imap_cons, fmap_cons. simpl. f_equal.
  apply (IH (λ i x, f (S i) x)).
Qed.
Lemma packlocs_spec d i cur ls : (∀ j, i ≤ j < i + length ls → is_Some (maxcranes d !! j) ∧ is_Some (maxpiles d !! j)) →
  ∃ ws, packlocs d i cur ls = Some ws ∧ ws.*1 = concat (boxes_of <$> ls) ∧
    (∀ j x c b, ls !! j = Some x → cranes x !! c = Some b → (b, cur + off d i j + c) ∈ ws) ∧
    (∀ j x p st h b, ls !! j = Some x → piles x !! p = Some st → st !! h = Some b →
      (b, cur + off d i j + default 0 (maxcranes d !! (i + j)) + h + p * nboxes d) ∈ ws).
Proof.
  revert i cur. induction ls as [|x ls IH]; intros i cur Hr.
  { exists []. split_and!; done. }
  destruct (Hr i) as [[mc Hmc] [mp Hmp]]; [simpl; lia|].
  cbn [packlocs]. rewrite Hmc, Hmp. cbn [mbind option_bind].
  destruct (IH (S i) (cur + mc + mp * nboxes d)) as (ws & -> & Hfst & Hcr & Hpl).
  { intros j Hj. apply Hr. simpl. lia. }
  cbn [mbind option_bind]. eexists. split; [done|].
  assert (Hroom : room d i = mc + mp * nboxes d) by (unfold room; by rewrite Hmc, Hmp).
  split_and!.
  - rewrite !fmap_app, Hfst. rewrite fmap_cons. simpl. unfold boxes_of at 2. rewrite <-app_assoc. f_equal; [apply imap_fst|].
    f_equal. clear. generalize 0. enough (H : ∀ k, (concat (imap (λ p st, imap (λ s box, (box, cur + mc + s + (k + p) * nboxes d)) st) (piles x))).*1 = concat (piles x)) by (intros _; apply (H 0)).
    induction (piles x) as [|st ps IHp]; intros k; [done|]. rewrite imap_cons. cbn [concat]. rewrite fmap_app. f_equal.
    + apply imap_fst.
    + rewrite <-(IHp (S k)). do 2 f_equal. apply imap_ext. intros p st' _. simpl. apply imap_ext. intros; simpl. f_equal. lia.
  - intros j y c b Hj Hc. destruct j as [|j]; simpl in Hj.
    + simplify_eq. apply elem_of_app. left. apply elem_of_lookup_imap. exists c, b. split; [|done]. f_equal. simpl. lia.
    + apply elem_of_app. right. apply elem_of_app. right. specialize (Hcr j y c b Hj Hc). cbn [off]. rewrite Hroom.
      by replace (cur + (mc + mp * nboxes d + off d (S i) j) + c) with (cur + mc + mp * nboxes d + off d (S i) j + c) by lia.
  - intros j y p st h b Hj Hp Hh. destruct j as [|j]; simpl in Hj.
    + simplify_eq. apply elem_of_app. right. apply elem_of_app. left.
      apply elem_of_list_In, in_concat. eexists. split.
      * apply elem_of_list_In, elem_of_lookup_imap. by exists p, st.
      * apply elem_of_list_In, elem_of_lookup_imap. exists h, b. split; [|done]. replace (i + 0) with i by lia. rewrite Hmc. simpl. f_equal. lia.
    + apply elem_of_app. right. apply elem_of_app. right. specialize (Hpl j y p st h b Hj Hp Hh). cbn [off]. rewrite Hroom.
      replace (i + S j) with (S i + j) by lia.
      by replace (cur + (mc + mp * nboxes d + off d (S i) j) + default 0 (maxcranes d !! (S i + j)) + h + p * nboxes d)
        with (cur + mc + mp * nboxes d + off d (S i) j + default 0 (maxcranes d !! (S i + j)) + h + p * nboxes d) by lia.
Qed.

(** ** Unpacking one box *)
Lemma unplace_crane d b ls l j x c : (∀ k, l ≤ k < l + length ls → is_Some (maxcranes d !! k) ∧ is_Some (maxpiles d !! k)) →
  ls !! j = Some x → c < default 0 (maxcranes d !! (l + j)) →
  unplace d b (off d l j + c) l ls = Some (<[j := Loc (<[c := b]> (grow (c + 1) (nboxes d + 1) (cranes x))) (piles x)]> ls).
Proof.
  revert l j. induction ls as [|y ls IH]; intros l j Hr Hj Hc; [done|].
  destruct (Hr l) as [[mc Hmc] [mp Hmp]]; [simpl; lia|].
  cbn [unplace]. rewrite Hmc. cbn [mbind option_bind]. destruct j as [|j]; simpl in Hj.
  - simplify_eq. rewrite Nat.add_0_r, Hmc in Hc. simpl in Hc. cbn [off]. rewrite bool_decide_true by lia.
    cbn [insert list_insert]. simpl. done.
  - assert (Hroom : room d l = mc + mp * nboxes d) by (unfold room; by rewrite Hmc, Hmp).
    cbn [off]. rewrite Hroom. rewrite bool_decide_false by lia. cbv zeta. rewrite Hmp. cbn [mbind option_bind].
    rewrite bool_decide_false by lia.
    replace (mc + mp * nboxes d + off d (S l) j + c - mc - mp * nboxes d) with (off d (S l) j + c) by lia.
    rewrite IH; [done| |done|].
    + intros k Hk. apply Hr. simpl. lia.
    + by replace (S l + j) with (l + S j) by lia.
Qed.
Lemma unplace_pile d b ls l j x p h st : (∀ k, l ≤ k < l + length ls → is_Some (maxcranes d !! k) ∧ is_Some (maxpiles d !! k)) →
  ls !! j = Some x → p < default 0 (maxpiles d !! (l + j)) → h < nboxes d →
  grow (p + 1) [] (piles x) !! p = Some st →
  unplace d b (off d l j + default 0 (maxcranes d !! (l + j)) + h + p * nboxes d) l ls =
    Some (<[j := Loc (cranes x) (<[p := <[h := b]> (grow (h + 1) (nboxes d + 1) st)]> (grow (p + 1) [] (piles x)))]> ls).
Proof.
  revert l j. induction ls as [|y ls IH]; intros l j Hr Hj Hp Hh Hst; [done|].
  destruct (Hr l) as [[mc Hmc] [mp Hmp]]; [simpl; lia|].
  cbn [unplace]. rewrite Hmc. cbn [mbind option_bind]. destruct j as [|j]; simpl in Hj.
  - simplify_eq. rewrite Nat.add_0_r in *. rewrite Hmc, Hmp in *. simpl in Hp. cbn [off default]. unfold id.
    rewrite bool_decide_false by lia. cbv zeta. cbn [mbind option_bind].
    replace (0 + mc + h + p * nboxes d - mc) with (h + p * nboxes d) by lia.
    rewrite bool_decide_true by nia.
    rewrite Nat.div_add, Nat.mod_add, Nat.div_small, Nat.mod_small by lia.
    rewrite Nat.add_0_l, Hst. cbn [mbind option_bind]. done.
  - assert (Hroom : room d l = mc + mp * nboxes d) by (unfold room; by rewrite Hmc, Hmp).
    cbn [off]. rewrite Hroom. rewrite bool_decide_false by lia. cbv zeta. rewrite Hmp. cbn [mbind option_bind].
    rewrite bool_decide_false by lia.
    replace (l + S j) with (S l + j) in * by lia.
    replace (mc + mp * nboxes d + off d (S l) j + default 0 (maxcranes d !! (S l + j)) + h + p * nboxes d - mc - mp * nboxes d)
      with (off d (S l) j + default 0 (maxcranes d !! (S l + j)) + h + p * nboxes d) by lia.
    rewrite IH; [done| |done..].
    intros k Hk. apply Hr. simpl. lia.
Qed.

Lemma grow_lookup {A} n (x : A) l i y : l !! i = Some y → grow n x l !! i = Some y.
Proof. intros H. unfold grow. rewrite lookup_app_l; [done|]. by eapply lookup_lt_Some. Qed.
Lemma grow_length {A} n (x : A) l : length (grow n x l) = max n (length l).
Proof. unfold grow. rewrite app_length, replicate_length. lia. Qed.

(** ** Partly unpacked locations *)

(** [v] has all elements of [w] below [b] in their places, and is not longer. *)
Record sub_list (b : nat) (w v : list nat) : Prop := {
  sub_len : length v ≤ length w;
  sub_at i x : w !! i = Some x → x < b → v !! i = Some x;
}.
Record sub_loc (b : nat) (x y : loc) : Prop := {
  sub_cranes : sub_list b (cranes x) (cranes y);
  sub_plen : length (piles y) ≤ length (piles x);
  sub_pile p st : piles x !! p = Some st → sub_list b st (default [] (piles y !! p));
}.
Definition sub_locs (b : nat) (ls ms : list loc) : Prop := Forall2 (sub_loc b) ls ms.

Lemma sub_list_insert b w v c m : sub_list b w v → w !! c = Some b → (∀ i, w !! i = Some b → i = c) →
  sub_list (S b) w (<[c := b]> (grow (c + 1) m v)).
Proof.
  intros [Hlen Hat] Hc Hu. apply lookup_lt_Some in Hc as Hlt. split.
  - rewrite insert_length, grow_length. lia.
  - intros i x Hi Hx. destruct (decide (i = c)) as [->|Hne].
    + rewrite list_lookup_insert by (rewrite grow_length; lia). congruence.
    + rewrite list_lookup_insert_ne by done. apply grow_lookup. apply Hat; [done|].
      destruct (decide (x = b)) as [->|]; [|lia]. exfalso. by apply Hne, Hu.
Qed.
Lemma sub_list_skip b w v : sub_list b w v → b ∉ w → sub_list (S b) w v.
Proof.
  intros [Hlen Hat] Hb. split; [done|]. intros i x Hi Hx. apply Hat; [done|].
  destruct (decide (x = b)) as [->|]; [|lia]. exfalso. apply Hb. by eapply elem_of_list_lookup_2.
Qed.
Lemma sub_loc_skip b x y : sub_loc b x y → b ∉ boxes_of x → sub_loc (S b) x y.
Proof.
  intros [Hc Hpl Hp] Hb. unfold boxes_of in Hb. apply not_elem_of_app in Hb as [Hb1 Hb2]. split.
  - by apply sub_list_skip.
  - done.
  - intros p st Hst. apply sub_list_skip; [by apply Hp|]. intros Hin. apply Hb2.
    apply elem_of_list_In, in_concat. exists st. split; apply elem_of_list_In; [by eapply elem_of_list_lookup_2|done].
Qed.
Lemma sub_list_full b w v : sub_list b w v → (∀ x, x ∈ w → x < b) → v = w.
Proof.
  intros [Hlen Hat] Hb. apply list_eq. intros i. destruct (w !! i) as [x|] eqn:Hi.
  - apply Hat; [done|]. apply Hb. by eapply elem_of_list_lookup_2.
  - apply lookup_ge_None in Hi. apply lookup_ge_None. lia.
Qed.
Lemma sub_loc_full b x y : sub_loc b x y → [] ∉ piles x → (∀ c, c ∈ boxes_of x → c < b) → y = x.
Proof.
  intros [Hc Hpl Hp] Hne Hb. destruct x as [cs ps], y as [cs' ps']. simpl in *. unfold boxes_of in Hb. simpl in Hb. f_equal.
  - eapply sub_list_full; [done|]. intros z Hz. apply Hb. apply elem_of_app. by left.
  - apply list_eq. intros i. destruct (ps !! i) as [st|] eqn:Hi.
    + specialize (Hp i st Hi). apply sub_list_full in Hp.
      * destruct (ps' !! i) as [st'|]; simpl in Hp; [by subst|]. subst st. exfalso. apply Hne. by eapply elem_of_list_lookup_2.
      * intros z Hz. apply Hb. apply elem_of_app. right. apply elem_of_list_In, in_concat. exists st.
        split; apply elem_of_list_In; [by eapply elem_of_list_lookup_2|done].
    + apply lookup_ge_None in Hi. apply lookup_ge_None. lia.
Qed.

(** ** All boxes *)
Section unpack.
Context (d : drobot) (Hd : good_drobot d) (ls : list loc) (rb : option nat) (rl : nat) (Hf : fits d ls rb rl).

Lemma fits_nodup : NoDup (concat (boxes_of <$> ls) ++ obox rb).
Proof. rewrite (ft_boxes _ _ _ _ Hf). apply NoDup_seq. Qed.
Lemma fits_range b : b ∈ concat (boxes_of <$> ls) ++ obox rb ↔ b < nboxes d.
Proof. rewrite (ft_boxes _ _ _ _ Hf), elem_of_seq. lia. Qed.
Lemma caps k : 0 ≤ k < 0 + length ls → is_Some (maxcranes d !! k) ∧ is_Some (maxpiles d !! k).
Proof.
  rewrite (ft_locs _ _ _ _ Hf). intros Hk. split; apply lookup_lt_is_Some_2.
  - rewrite (gd_mc d Hd). lia. - rewrite (gd_mp d Hd). lia.
Qed.

(** Each box is in one place. *)
Lemma one_place : (∀ j x c b, ls !! j = Some x → cranes x !! c = Some b →
    (∀ c', cranes x !! c' = Some b → c' = c) ∧ b ∉ concat (piles x) ∧
    (∀ j' x', ls !! j' = Some x' → b ∈ boxes_of x' → j' = j) ∧ rb ≠ Some b) ∧
  (∀ j x p st h b, ls !! j = Some x → piles x !! p = Some st → st !! h = Some b →
    b ∉ cranes x ∧ (∀ p' st', piles x !! p' = Some st' → b ∈ st' → p' = p) ∧ (∀ h', st !! h' = Some b → h' = h) ∧
    (∀ j' x', ls !! j' = Some x' → b ∈ boxes_of x' → j' = j) ∧ rb ≠ Some b ∧ length st ≤ nboxes d).
Proof.
  pose proof fits_nodup as Hnd. apply NoDup_app in Hnd as (Hnd & Hrb & _).
  assert (Hconcat : ∀ (A : Type) (ll : list (list A)) i j a b x, NoDup (concat ll) → ll !! i = Some a → ll !! j = Some b → x ∈ a → x ∈ b → i = j).
  { clear. induction ll as [|l ll IH]; intros i j a b x Hnd Hi Hj Ha Hb; [done|].
    simpl in Hnd. apply NoDup_app in Hnd as (H1 & H2 & H3).
    assert (Hin : ∀ k c, ll !! k = Some c → x ∈ c → x ∈ concat ll).
    { intros k c Hk Hc. apply elem_of_list_In, in_concat. exists c. split; apply elem_of_list_In; [by eapply elem_of_list_lookup_2|done]. }
    destruct i as [|i], j as [|j]; simpl in *; simplify_eq; [done| | |].
    - exfalso. eapply H2; [exact Ha|]. by eapply Hin.
    - exfalso. eapply H2; [exact Hb|]. by eapply Hin.
    - f_equal. by eapply IH. }
  assert (Hin : ∀ j x b, ls !! j = Some x → b ∈ boxes_of x → b ∈ concat (boxes_of <$> ls)).
  { intros j x b Hj Hb. apply elem_of_list_In, in_concat. exists (boxes_of x). split; apply elem_of_list_In; [|done].
    apply elem_of_list_fmap. exists x. split; [done|]. by eapply elem_of_list_lookup_2. }
  assert (Hone : ∀ j x b, ls !! j = Some x → b ∈ boxes_of x →
    (∀ j' x', ls !! j' = Some x' → b ∈ boxes_of x' → j' = j) ∧ rb ≠ Some b).
  { intros j x b Hj Hb. split.
    - intros j' x' Hj' Hb'. eapply (Hconcat _ _ j' j _ _ b Hnd); [by rewrite list_lookup_fmap, Hj'|by rewrite list_lookup_fmap, Hj|done|done].
    - intros Hrob. eapply Hrb; [by eapply Hin|]. by apply elem_obox. }
  assert (Hloc : ∀ j x, ls !! j = Some x → NoDup (boxes_of x)).
  { intros j x Hj. clear -Hnd Hj. revert j Hj. induction ls as [|y l IH]; intros j Hj; [done|].
    rewrite fmap_cons in Hnd. simpl in Hnd. apply NoDup_app in Hnd as (H1 & _ & H2). destruct j; simpl in Hj; [by simplify_eq|]. by eapply IH. }
  split.
  - intros j x c b Hj Hc. pose proof (Hloc j x Hj) as Hn. unfold boxes_of in Hn. apply NoDup_app in Hn as (Hn1 & Hn2 & _).
    assert (Hb : b ∈ cranes x) by by eapply elem_of_list_lookup_2.
    destruct (Hone j x b Hj) as [Ho1 Ho2]; [apply elem_of_app; by left|]. split_and!; [|by apply Hn2|done|done].
    intros c' Hc'. by eapply (NoDup_lookup _ _ _ _ Hn1).
  - intros j x p st h b Hj Hp Hh. pose proof (Hloc j x Hj) as Hn. unfold boxes_of in Hn. apply NoDup_app in Hn as (_ & Hn2 & Hn3).
    assert (Hst : ∀ c, c ∈ st → c ∈ concat (piles x)).
    { intros c Hc. apply elem_of_list_In, in_concat. exists st. split; apply elem_of_list_In; [by eapply elem_of_list_lookup_2|done]. }
    assert (Hb : b ∈ st) by by eapply elem_of_list_lookup_2.
    destruct (Hone j x b Hj) as [Ho1 Ho2]; [apply elem_of_app; right; by apply Hst|].
    assert (Hnst : NoDup st).
    { clear -Hn3 Hp. revert p Hp. induction (piles x) as [|y l IH]; intros p Hp; [done|].
      simpl in Hn3. apply NoDup_app in Hn3 as (H1 & _ & H2). destruct p; simpl in Hp; [by simplify_eq|]. by eapply IH. }
    split_and!; try done.
    + intros Hc. eapply Hn2; [exact Hc|]. by apply Hst.
    + intros p' st' Hp' Hb'. by eapply (Hconcat _ _ p' p _ _ b Hn3).
    + intros h' Hh'. by eapply (NoDup_lookup _ _ _ _ Hnst).
    + rewrite <-(seq_length (nboxes d) 0). apply submseteq_length. apply NoDup_submseteq; [done|].
      intros c Hc. apply elem_of_seq. enough (c < nboxes d) by lia. apply fits_range. apply elem_of_app. left.
      eapply Hin; [done|]. apply elem_of_app. right. by apply Hst.
Qed.

(** What [pack] stores. *)
Definition position (pos : list nat) : Prop :=
  (∀ b, rb = Some b → pos !! b = Some 0) ∧
  (∀ j x c b, ls !! j = Some x → cranes x !! c = Some b → pos !! b = Some (1 + off d 0 j + c)) ∧
  (∀ j x p st h b, ls !! j = Some x → piles x !! p = Some st → st !! h = Some b →
     pos !! b = Some (1 + off d 0 j + default 0 (maxcranes d !! j) + h + p * nboxes d)).

Lemma unplaces_spec pos n b ms :
  position pos → b + n = nboxes d → sub_locs b ls ms → 
  ∃ ms', unplaces d pos (seq b n) ((match rb with Some r => if decide (r < b) then Some r else None | None => None end), ms) = Some (rb, ms') ∧
    sub_locs (nboxes d) ls ms'.
Proof.
  intros (Hpr & Hpc & Hpp). revert b ms. induction n as [|n IH]; intros b ms Hbn Hsub.
  { exists ms. assert (b = nboxes d) as -> by lia. split; [|done]. cbn [seq unplaces]. do 2 f_equal.
    pose proof fits_range as Hrange. destruct rb as [r|] eqn:Er; [|done]. rewrite decide_True; [done|].
    apply Hrange. apply elem_of_app. right. by apply elem_obox. }
  cbn [seq unplaces].
  assert (Hb : b ∈ concat (boxes_of <$> ls) ++ obox rb) by (apply fits_range; lia).
  apply elem_of_app in Hb as [Hb|Hb].
  2: { (* on the robot *)
    apply elem_obox in Hb. rewrite (Hpr b Hb). cbn [mbind option_bind]. rewrite bool_decide_true by done.
    cbn [snd]. destruct (IH (S b) ms) as (ms' & Hrun & Hms); [lia| |].
    - apply Forall2_same_length_lookup. split; [by eapply Forall2_length|]. intros i x y Hx Hy.
      apply sub_loc_skip; [by eapply Forall2_lookup_lr|]. intros Hin.
      pose proof fits_nodup as Hnd. apply NoDup_app in Hnd as (_ & Hnd & _). apply (Hnd b); [|by apply elem_obox].
      apply elem_of_list_In, in_concat. exists (boxes_of x). split; apply elem_of_list_In; [|done].
      apply elem_of_list_fmap. exists x. split; [done|]. by eapply elem_of_list_lookup_2.
    - exists ms'. split; [|done]. rewrite Hb in Hrun. rewrite decide_True in Hrun by lia. rewrite Hb. exact Hrun. }
  assert (Hkeep : rb ≠ Some b → (match rb with Some r => if decide (r < b) then Some r else None | None => None end) =
    (match rb with Some r => if decide (r < S b) then Some r else None | None => None end)).
  { intros Hne. destruct rb as [r|]; [|done]. assert (r ≠ b) by congruence. repeat case_decide; try done; lia. }
  apply elem_of_list_In, in_concat in Hb as (bs & Hbs & Hb). apply elem_of_list_In in Hbs, Hb.
  apply elem_of_list_fmap in Hbs as (x & -> & Hx). apply elem_of_list_lookup in Hx as [j Hj].
  destruct (Forall2_lookup_l _ _ _ _ _ Hsub Hj) as (y & Hy & Hxy).
  assert (Hlen : length ms = length ls) by (symmetry; by eapply Forall2_length).
  assert (Hcaps : ∀ k, 0 ≤ k < 0 + length ms → is_Some (maxcranes d !! k) ∧ is_Some (maxpiles d !! k)).
  { rewrite Hlen. apply caps. }
  assert (Hskip : ∀ y', sub_loc (S b) x y' → (∀ j' x', ls !! j' = Some x' → b ∈ boxes_of x' → j' = j) →
    sub_locs (S b) ls (<[j := y']> ms)).
  { intros y' Hy' Hu. apply Forall2_same_length_lookup. split; [by rewrite insert_length|]. intros i x1 y1 Hx1 Hy1.
    destruct (decide (i = j)) as [->|Hne].
    - rewrite list_lookup_insert in Hy1 by (by eapply lookup_lt_Some). by simplify_eq.
    - rewrite list_lookup_insert_ne in Hy1 by done. apply sub_loc_skip; [by eapply Forall2_lookup_lr|].
      intros Hin. apply Hne. by eapply Hu. }
  apply elem_of_app in Hb as [Hb|Hb].
  - (* in a crane *)
    apply elem_of_list_lookup in Hb as [c Hc].
    destruct (proj1 one_place j x c b Hj Hc) as (Hu1 & Hu2 & Hu3 & Hu4).
    rewrite (Hpc _ _ _ _ Hj Hc). cbn [mbind option_bind]. rewrite bool_decide_false by lia.
    replace (1 + off d 0 j + c - 1) with (off d 0 j + c) by lia. cbn [fst snd].
    rewrite (unplace_crane d b ms 0 j y c); [|done..|].
    2: { simpl. destruct (Hcaps j) as [[mc Hmc] _]; [apply lookup_lt_Some in Hy; lia|]. rewrite Hmc. simpl.
         pose proof (ft_mc _ _ _ _ Hf _ _ _ Hj Hmc). apply lookup_lt_Some in Hc. lia. }
    cbn [mbind option_bind]. rewrite Hkeep by done. apply IH; [lia|]. apply Hskip; [|done].
    destruct Hxy as [Hxc Hxl Hxp]. split; cbn [cranes piles].
    + by apply sub_list_insert.
    + done.
    + intros p st Hst. apply sub_list_skip; [by apply Hxp|]. intros Hin. apply Hu2.
      apply elem_of_list_In, in_concat. exists st. split; apply elem_of_list_In; [by eapply elem_of_list_lookup_2|done].
  - (* in a pile *)
    apply elem_of_list_In, in_concat in Hb as (st & Hst & Hb). apply elem_of_list_In in Hst, Hb.
    apply elem_of_list_lookup in Hst as [p Hp]. apply elem_of_list_lookup in Hb as [h Hh].
    destruct (proj2 one_place j x p st h b Hj Hp Hh) as (Hu1 & Hu2 & Hu3 & Hu4 & Hu5 & Hu6).
    rewrite (Hpp _ _ _ _ _ _ Hj Hp Hh). cbn [mbind option_bind]. rewrite bool_decide_false by lia.
    replace (1 + off d 0 j + default 0 (maxcranes d !! j) + h + p * nboxes d - 1)
      with (off d 0 j + default 0 (maxcranes d !! (0 + j)) + h + p * nboxes d) by (simpl; lia). cbn [fst snd].
    assert (Hg : grow (p + 1) [] (piles y) !! p = Some (default [] (piles y !! p))).
    { destruct (piles y !! p) as [st'|] eqn:E; simpl; [by apply grow_lookup|].
      unfold grow. apply lookup_ge_None in E. rewrite lookup_app_r by done. apply lookup_replicate. split; [done|]. lia. }
    rewrite (unplace_pile d b ms 0 j y p h (default [] (piles y !! p))); [|done..| | |done].
    2: { simpl. destruct (Hcaps j) as [_ [mp Hmp]]; [apply lookup_lt_Some in Hy; lia|]. rewrite Hmp. simpl.
         pose proof (ft_mp _ _ _ _ Hf _ _ _ Hj Hmp). apply lookup_lt_Some in Hp. lia. }
    2: { apply lookup_lt_Some in Hh. lia. }
    cbn [mbind option_bind]. rewrite Hkeep by done. apply IH; [lia|]. apply Hskip; [|done].
    destruct Hxy as [Hxc Hxl Hxp]. apply lookup_lt_Some in Hp as Hplt. split; cbn [cranes piles].
    + by apply sub_list_skip.
    + rewrite insert_length, grow_length. lia.
    + intros p' st' Hst'. destruct (decide (p' = p)) as [->|Hne].
      * rewrite list_lookup_insert by (rewrite grow_length; lia). simplify_eq. simpl. apply sub_list_insert; [by apply Hxp|done|done].
      * rewrite list_lookup_insert_ne by done. apply sub_list_skip.
        -- specialize (Hxp p' st' Hst'). destruct (piles y !! p') as [st2|] eqn:E.
           ++ by erewrite grow_lookup.
           ++ unfold grow. apply lookup_ge_None in E. rewrite lookup_app_r by done.
              destruct (replicate _ _ !! _) eqn:Er; [|done]. apply lookup_replicate in Er as [-> _]. done.
        -- intros Hin. apply Hne. by eapply Hu2.
Qed.

Lemma unpack_spec pos : position pos → pos !! nboxes d = Some rl → unpack d pos = mkstate d ls rb rl.
Proof.
  intros Hpos Hrl. unfold unpack. rewrite Hrl. cbn [mbind option_bind].
  destruct (unplaces_spec pos (nboxes d) 0 (replicate (nlocs d) (Loc [] []))) as (ms & Hrun & Hms); [done|done| |].
  { apply Forall2_same_length_lookup. split; [by rewrite replicate_length, (ft_locs _ _ _ _ Hf)|].
    intros i x y Hx Hy. apply lookup_replicate in Hy as [-> _]. split; simpl; [|lia|].
    - split; [simpl; lia|]. intros; lia.
    - intros p st Hst. split; [simpl; lia|]. intros; lia. }
  assert (Hr0 : (match rb with Some r => if decide (r < 0) then Some r else None | None => None end) = None) by (by destruct rb).
  rewrite Hr0 in Hrun. rewrite Hrun. cbn [mbind option_bind]. f_equal.
  apply list_eq. intros i. destruct (ls !! i) as [x|] eqn:Hi.
  - destruct (Forall2_lookup_l _ _ _ _ _ Hms Hi) as (y & Hy & Hxy). rewrite Hy. f_equal.
    eapply sub_loc_full; [done|by eapply ft_full|]. intros c Hc. apply fits_range. apply elem_of_app. left.
    apply elem_of_list_In, in_concat. exists (boxes_of x). split; apply elem_of_list_In; [|done].
    apply elem_of_list_fmap. exists x. split; [done|]. by eapply elem_of_list_lookup_2.
  - apply lookup_ge_None in Hi. apply lookup_ge_None. rewrite <-(Forall2_length _ _ _ Hms). done.
Qed.

Lemma pack_spec bl h1 h2 n : ∃ pos, pack d (State ls bl rb rl h1 h2 n) = Some pos ∧ position pos ∧ pos !! nboxes d = Some rl ∧
  length pos = nboxes d + 1.
Proof.
  unfold pack. cbn [locs rbox rloc].
  destruct (packlocs_spec d 0 1 ls caps) as (ws & -> & Hfst & Hcr & Hpl). cbn [mbind option_bind].
  set (all := match rb with Some b => [(b, 0)] | None => [] end ++ ws ++ [(nboxes d, rl)]).
  assert (Hkeys : all.*1 ≡ₚ nboxes d :: seq 0 (nboxes d)).
  { unfold all. rewrite !fmap_app, Hfst. simpl. rewrite app_assoc, <-Permutation_cons_append. f_equiv.
    rewrite <-(ft_boxes _ _ _ _ Hf), Permutation_app_comm. f_equiv. by destruct rb. }
  destruct (wrs_spec (replicate (nboxes d + 1) 0) all) as (pos & -> & Hlen & Hin & _).
  { rewrite Hkeys. constructor; [rewrite elem_of_seq; lia|apply NoDup_seq]. }
  { intros i. rewrite Hkeys, elem_of_cons, elem_of_seq, replicate_length. lia. }
  exists pos. split; [done|]. rewrite replicate_length in Hlen. split; [|split; [|done]]; [split_and!|].
  - intros b Hb. apply Hin. unfold all. rewrite Hb. left.
  - intros j x c b Hj Hc. apply Hin. unfold all. rewrite !elem_of_app. right; left. by eapply Hcr.
  - intros j x p st h b Hj Hp Hh. apply Hin. unfold all. rewrite !elem_of_app. right; left. by eapply Hpl.
  - apply Hin. unfold all. rewrite !elem_of_app. right; right. left.
Qed.
End unpack.

Lemma good_fits d s : good_state d s → fits d (locs s) (rbox s) (rloc s).
Proof.
  intros Hs. split; apply Hs.
Qed.

Lemma state_eq_refl s t : locs t = locs s → rbox t = rbox s → rloc t = rloc s → nleft t = nleft s →
  state_eq s t = Some true.
Proof.
  intros H1 H2 H3 H4. unfold state_eq. rewrite H1, H2, H3, H4. rewrite bool_decide_false by naive_solver.
  unfold seq_locs. assert (H : ∀ i, i ∈ seq 0 (length (locs s)) → i < length (locs s)) by (intros i; rewrite elem_of_seq; lia).
  induction (seq 0 (length (locs s))) as [|i is IH]; [done|]. cbn [foldr]. rewrite IH by (intros; apply H; by right).
  cbn [mbind option_bind]. destruct (lookup_lt_is_Some_2 (locs s) i) as [x Hx]; [apply H; left|].
  rewrite Hx. cbn [mbind option_bind]. by rewrite bool_decide_true.
Qed.

(** A state that fits the instance packs to [nboxes + 1] numbers, and unpacking them builds the
    state anew from the same contents; the order of cranes and piles is kept, whatever it is. *)
Theorem C61_unpack_pack d s : good_drobot d → fits d (locs s) (rbox s) (rloc s) →
  ∃ pos t, pack d s = Some pos ∧ length pos = nboxes d + 1 ∧ unpack d pos = Some t ∧
    mkstate d (locs s) (rbox s) (rloc s) = Some t ∧
    locs t = locs s ∧ rbox t = rbox s ∧ rloc t = rloc s.
Proof.
  intros Hd Hf. destruct s as [ls bl rb rl h1 h2 n]. cbn [locs rbox rloc] in *.
  destruct (pack_spec d Hd ls rb rl Hf bl h1 h2 n) as (pos & Hpk & Hpos & Hrl & Hlen).
  destruct (mkstate_spec d ls rb rl Hd Hf) as (bl' & Hmk & _). eexists pos, _. split_and!; [done|done| |done|done..].
  rewrite (unpack_spec d Hd ls rb rl Hf pos Hpos Hrl). done.
Qed.

(** A good state comes back as a good state that the code's comparison takes for equal; what is
    known about the location of boxes with a goal is the same. *)
Theorem C61_good_state d s : good_drobot d → good_state d s →
  ∃ pos t, pack d s = Some pos ∧ unpack d pos = Some t ∧ good_state d t ∧ state_eq s t = Some true ∧
    locs t = locs s ∧ rbox t = rbox s ∧ rloc t = rloc s ∧ nleft t = nleft s ∧
    (∀ b g, goal d !! b = Some (Some g) → boxlocs t !! b = boxlocs s !! b) ∧
    (∀ b l, located s b l → boxlocs t !! b = Some l).
Proof.
  intros Hd Hs. pose proof (good_fits d s Hs) as Hf.
  destruct (C61_unpack_pack d s Hd Hf) as (pos & t & Hpk & _ & Hun & Hmk & Hl & Hb & Hr).
  destruct (C60_new_state_good d (locs s) (rbox s) (rloc s) Hd Hf) as (t' & Hmk' & Hgt & _).
  { intros i l Hi. split; apply (gs_loc d s Hs i l Hi). }
  assert (t' = t) as -> by congruence.
  assert (Hloc : ∀ b l, located t b l ↔ located s b l) by (intros b l; unfold located; by rewrite Hl, Hb, Hr).
  assert (Hn : nleft t = nleft s).
  { rewrite (gs_left d t Hgt), (gs_left d s Hs). do 2 f_equal. apply list_filter_iff. intros b. unfold misplaced.
    setoid_rewrite Hloc. done. }
  destruct (mkstate_spec d (locs s) (rbox s) (rloc s) Hd Hf) as (bl & Hmk2 & Hlen & Hbl).
  assert (t = _) as Ht by (apply (inj Some); etrans; [symmetry; exact Hmk|exact Hmk2]).
  assert (Hall : ∀ b l, located s b l → boxlocs t !! b = Some l).
  { intros b l Hbl'. rewrite Ht. cbn [boxlocs]. apply Hbl. destruct s. exact Hbl'. }
  exists pos, t. split_and!; try done.
  - by apply state_eq_refl.
  - intros b g Hg. assert (Hlt : b < nboxes d) by (rewrite <-(gd_goals d Hd); by eapply lookup_lt_Some).
    destruct (box_located d s Hd Hs b Hlt) as (l & Hbl' & _). rewrite (Hall b l Hbl'). symmetry. by eapply gs_bl.
Qed.

(** Different contents never pack to the same numbers. *)
Theorem C61_pack_injective d s t : good_drobot d →
  fits d (locs s) (rbox s) (rloc s) → fits d (locs t) (rbox t) (rloc t) → pack d s = pack d t →
  locs s = locs t ∧ rbox s = rbox t ∧ rloc s = rloc t.
Proof.
  intros Hd Hs Ht Heq.
  destruct (C61_unpack_pack d s Hd Hs) as (p1 & u1 & Hp1 & _ & Hu1 & _ & <- & <- & <-).
  destruct (C61_unpack_pack d t Hd Ht) as (p2 & u2 & Hp2 & _ & Hu2 & _ & <- & <- & <-).
  assert (u1 = u2) as -> by congruence. done.
Qed.

(** The check at start-up succeeds for every instance whose boxes all are somewhere and fit. *)
Theorem C61_initial_state d ls : good_drobot d → fits d ls None 0 → is_Some (initialstate d ls).
Proof.
  intros Hd Hf. unfold initialstate. destruct (mkstate_spec d ls None 0 Hd Hf) as (bl & Hmk & _). cbv zeta in Hmk.
  rewrite Hmk. cbn [mbind option_bind].
  match type of Hmk with _ = Some ?s => destruct (C61_unpack_pack d s Hd Hf) as (pos & t & Hpk & _ & Hun & Hmk' & Hl & Hr & Hrl) end.
  rewrite Hpk. cbn [mbind option_bind]. rewrite Hun. cbn [mbind option_bind locs rbox rloc] in *.
  rewrite state_eq_refl; [by eexists|done..|]. congruence.
Qed.

(** *** Examples *)
Example ex_pack : ∃ s t, mkstate ex_d ex_l None 0 = Some s ∧ pack ex_d s = Some [2; 5; 3; 0] ∧
  unpack ex_d [2; 5; 3; 0] = Some t ∧ state_eq s t = Some true.
Proof. eexists _, _. split; [by vm_compute|]. split; [by vm_compute|]. split; by vm_compute. Qed.
Example ex_pack_unsorted : is_Some (initialstate ex_d ex_u).
Proof. by eexists. Qed.
(** A box that is nowhere is taken to be on the robot, so the check fails. *)
Example ex_box_missing : initialstate ex_d [Loc [] [[0; 2]]; Loc [] []] = None.
Proof. by vm_compute. Qed.

Print Assumptions C61_unpack_pack.
Print Assumptions C61_good_state.
Print Assumptions C61_pack_injective.
Print Assumptions C61_initial_state.
