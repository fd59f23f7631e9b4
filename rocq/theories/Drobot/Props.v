(** The dock robot domain: C60, C62. *)
From stdpp Require Import prelude sorting.
From Coq Require Import ZArith Lia ZifyBool ZifyNat.
From Verif Require Import Drobot.Model.

(** ** Specification *)

(** The boxes at a location. *)
Definition boxes_of (l : loc) : list nat := cranes l ++ concat (piles l).
(** All boxes. *)
Definition all_boxes (s : state) : list nat :=
  concat (boxes_of <$> locs s) ++ (match rbox s with Some b => [b] | None => [] end).

(** Where a box is: in the location itself, or on the robot. *)
Definition located (s : state) (b l : nat) : Prop :=
  (∃ x, locs s !! l = Some x ∧ b ∈ boxes_of x) ∨ (rbox s = Some b ∧ rloc s = l).
(** A box with a goal that is not there. *)
Definition misplaced (d : drobot) (s : state) (b : nat) : Prop :=
  ∃ g, goal d !! b = Some (Some g) ∧ ¬ located s b g.
Global Instance located_dec s b l : Decision (located s b l).
Proof.
  unfold located. apply or_dec; [|apply _].
  destruct (locs s !! l) as [x|] eqn:E; [|right; naive_solver].
  destruct (decide (b ∈ boxes_of x)); [left; eauto|right; naive_solver].
Defined.
Global Instance misplaced_dec d s b : Decision (misplaced d s b).
Proof.
  unfold misplaced. destruct (goal d !! b) as [[g|]|] eqn:E; [|right; naive_solver..].
  destruct (decide (located s b g)); [right; naive_solver|left; eauto].
Defined.

(** Cranes and piles are kept in order; no pile is empty. *)
Definition crane_order : list nat → Prop := StronglySorted lt.
Definition pile_order : list pile → Prop := StronglySorted (λ p q, bottom p < bottom q).
Record good_loc (l : loc) : Prop := {
  gl_cranes : crane_order (cranes l);
  gl_piles : pile_order (piles l);
  gl_full : [] ∉ piles l;
}.

(** Instances. *)
Record good_drobot (d : drobot) : Prop := {
  gd_mp : length (maxpiles d) = nlocs d;
  gd_mc : length (maxcranes d) = nlocs d;
  gd_adj : length (adj d) = nlocs d;
  gd_row i r : adj d !! i = Some r → length r = nlocs d;
  gd_goals : length (goal d) = nboxes d;
  gd_goal b g : goal d !! b = Some (Some g) → g < nlocs d;
}.

(** States as they arise. *)
Record good_state (d : drobot) (s : state) : Prop := {
  gs_locs : length (locs s) = nlocs d;
  gs_rloc : rloc s < nlocs d;
  gs_loc i l : locs s !! i = Some l → good_loc l;
  gs_mc i l m : locs s !! i = Some l → maxcranes d !! i = Some m → length (cranes l) ≤ m;
  gs_mp i l m : locs s !! i = Some l → maxpiles d !! i = Some m → length (piles l) ≤ m;
  gs_boxes : all_boxes s ≡ₚ seq 0 (nboxes d);
  gs_bllen : length (boxlocs s) = nboxes d;
  gs_bl b g l : goal d !! b = Some (Some g) → located s b l → boxlocs s !! b = Some l;
  gs_left : nleft s = Z.of_nat (length (filter (misplaced d s) (seq 0 (nboxes d))));
}.

(** The effect of an operator, in terms of the unordered contents of the robot's location. *)
Definition replaced (s s' : state) (l l' : loc) : Prop :=
  locs s !! rloc s = Some l ∧ locs s' = <[rloc s := l']> (locs s).
Definition effect (d : drobot) (s : state) (o : oper) (s' : state) (c : xcost) : Prop :=
  match o with
  | Push i p =>
    rloc s' = rloc s ∧ rbox s' = rbox s ∧
    ∃ l l' box, replaced s s' l l' ∧ cranes l !! i = Some box ∧ cranes l ≡ₚ box :: cranes l' ∧
      match p ≫= λ p, piles l !! p with
      | Some st => (∃ rest, piles l ≡ₚ st :: rest ∧ piles l' ≡ₚ (st ++ [box]) :: rest) ∧
                   c = Some (PopCostFact d * (Z.of_nat (length st) + 1))%Z
      | None => piles l' ≡ₚ [box] :: piles l ∧ c = Some (PopCostFact d)
      end
  | Pop p =>
    rloc s' = rloc s ∧ rbox s' = rbox s ∧
    ∃ l l' st box, replaced s s' l l' ∧ piles l !! p = Some (st ++ [box]) ∧ cranes l' ≡ₚ box :: cranes l ∧
      (∃ rest, piles l ≡ₚ (st ++ [box]) :: rest ∧ piles l' ≡ₚ match st with [] => rest | _ => st :: rest end) ∧
      c = Some (PopCostFact d * (Z.of_nat (length st) + 2))%Z
  | Load i =>
    rloc s' = rloc s ∧ rbox s = None ∧
    ∃ l l' box, replaced s s' l l' ∧ cranes l !! i = Some box ∧ cranes l ≡ₚ box :: cranes l' ∧
      piles l' = piles l ∧ rbox s' = Some box ∧ c = Some (LoadCost d)
  | Unload =>
    rloc s' = rloc s ∧ rbox s' = None ∧
    ∃ l l' box, replaced s s' l l' ∧ rbox s = Some box ∧ cranes l' ≡ₚ box :: cranes l ∧
      piles l' = piles l ∧ c = Some (LoadCost d)
  | Move j =>
    rloc s' = j ∧ rbox s' = rbox s ∧ locs s' = locs s ∧
    adj d !! rloc s ≫= (λ r, r !! j) = Some c
  | NoOp => False
  end.

(** ** Lists *)
Lemma delete_insert_eq {A} (i : nat) (l : list A) x : delete i (<[i:=x]> l) = delete i l.
Proof. revert i. induction l as [|y l IH]; intros [|i]; simpl; [done|done|done|]. f_equal. apply IH. Qed.
Lemma rmswap_spec {A} (i : nat) (l : list A) x : l !! i = Some x →
  ∃ l', rmswap i l = Some l' ∧ l' ≡ₚ delete i l.
Proof.
  intros Hi. destruct (decide (l = [])) as [->|Hne]; [done|].
  destruct (exists_last Hne) as (l0 & b & ->). unfold rmswap. rewrite last_snoc. cbn [mbind option_bind].
  eexists. split; [done|]. rewrite app_length. simpl length.
  destruct (decide (i < length l0)) as [Hlt|Hge].
  - rewrite bool_decide_true by lia. rewrite insert_app_l by done. rewrite removelast_last.
    assert (delete i (l0 ++ [b]) = delete i l0 ++ [b]) as ->.
    { clear Hi Hne. revert l0 Hlt. induction i as [|i IH]; intros [|y l0] Hlt; simpl in *; try lia; [done|].
      rewrite IH by lia. done. }
    rewrite lookup_app_l in Hi by done. rewrite <-Permutation_cons_append.
    rewrite (delete_Permutation (<[i:=b]> l0) i b) by by apply list_lookup_insert.
    f_equiv. by rewrite delete_insert_eq.
  - apply lookup_lt_Some in Hi as Hi'. rewrite app_length in Hi'. simpl in Hi'. assert (i = length l0) as -> by lia.
    assert (Hrm : removelast (if bool_decide (1 < length l0 + 1) then <[length l0:=b]> (l0 ++ [b]) else l0 ++ [b]) = l0).
    { case_bool_decide; [|apply removelast_last]. rewrite insert_app_r_alt by done. rewrite Nat.sub_diag. simpl. apply removelast_last. }
    rewrite Hrm. clear. induction l0 as [|y l0 IH]; simpl; [done|]. by f_equiv.
Qed.
Global Instance crane_antisymm : AntiSymm (=) lt.
Proof. intros x y. lia. Qed.
Global Instance pile_antisymm : AntiSymm (=) (λ p q : pile, bottom p < bottom q).
Proof. intros x y. lia. Qed.

Lemma crane_unique a b : crane_order a → crane_order b → a ≡ₚ b → a = b.
Proof. apply StronglySorted_unique. apply _. Qed.
Lemma pile_unique a b : pile_order a → pile_order b → a ≡ₚ b → a = b.
Proof. apply (StronglySorted_unique (λ p q : pile, bottom p < bottom q)). Qed.

Lemma sortcranes_spec cs : NoDup cs → sortcranes cs ≡ₚ cs ∧ crane_order (sortcranes cs).
Proof.
  intros Hnd. unfold sortcranes. pose proof (merge_sort_Permutation le cs) as Hp. split; [done|].
  assert (Htot : Total le) by (intros x y; lia).
  pose proof (StronglySorted_merge_sort le cs) as Hs. rewrite <-Hp in Hnd.
  revert Hnd Hs. generalize (merge_sort le cs). clear. intros l Hnd Hs. unfold crane_order.
  induction Hs as [|x l Hs IH Hall]; [constructor|]. apply NoDup_cons in Hnd as [Hx Hnd].
  constructor; [by apply IH|]. apply Forall_forall. intros y Hy. rewrite Forall_forall in Hall.
  specialize (Hall y Hy). assert (x ≠ y) by (intros ->; done). lia.
Qed.
Lemma sortpiles_spec ps : [] ∉ ps → NoDup (bottom <$> ps) →
  ∃ qs, sortpiles ps = Some qs ∧ qs ≡ₚ ps ∧ pile_order qs.
Proof.
  intros Hne Hnd. unfold sortpiles. rewrite bool_decide_false by done. eexists. split; [done|].
  pose proof (merge_sort_Permutation pile_le ps) as Hp. split; [done|].
  assert (Htot : Total pile_le) by (intros x y; unfold pile_le; lia).
  assert (Htr : Transitive pile_le) by (intros x y z; unfold pile_le; lia).
  pose proof (StronglySorted_merge_sort pile_le ps) as Hs. rewrite <-Hp in Hnd.
  revert Hnd Hs. generalize (merge_sort pile_le ps). clear. intros l Hnd Hs. unfold pile_order.
  induction Hs as [|x l Hs IH Hall]; [constructor|]. rewrite fmap_cons in Hnd. apply NoDup_cons in Hnd as [Hx Hnd].
  constructor; [by apply IH|]. apply Forall_forall. intros y Hy. rewrite Forall_forall in Hall.
  specialize (Hall y Hy). unfold pile_le in Hall.
  assert (bottom x ≠ bottom y); [|lia]. intros Heq. apply Hx. apply elem_of_list_fmap. eauto.
Qed.

(** ** Binary search *)
Lemma bsearch_spec ks box l u fuel :
  StronglySorted lt ks → u ≤ length ks → l ≤ u → u - l ≤ fuel →
  (∀ j k, j < l → ks !! j = Some k → k < box) → (∀ j k, u ≤ j → ks !! j = Some k → box ≤ k) →
  ∃ r, bsearch (λ i, mjoin ((Some <$> ks) !! i)) box l u fuel = Some r ∧ r ≤ length ks ∧
    (∀ j k, j < r → ks !! j = Some k → k < box) ∧ (∀ j k, r ≤ j → ks !! j = Some k → box ≤ k).
Proof.
  intros Hs. revert l u. induction fuel as [|fuel IH]; intros l u Hu Hl Hf Hlo Hhi; cbn [bsearch].
  - exists l. split_and!; [done|lia|done|]. intros j k Hj. apply Hhi. lia.
  - case_bool_decide as Hlu.
    2: { exists l. split_and!; [done|lia|done|]. intros j k Hj. apply Hhi. lia. }
    cbv zeta. set (m := (u - l) / 2 + l).
    assert (Hm : l ≤ m < u) by (pose proof (Nat.div_lt (u - l) 2); lia).
    destruct (lookup_lt_is_Some_2 ks m) as [k Hk]; [lia|].
    rewrite list_lookup_fmap, Hk. cbn [fmap option_fmap option_map mjoin option_join id].
    cbn [mbind option_bind].
    assert (Hmono : ∀ i j a b, i < j → ks !! i = Some a → ks !! j = Some b → a < b).
    { clear -Hs. induction Hs as [|x ks Hs IH Hall]; intros i j a b Hij; [done|].
      destruct i as [|i], j as [|j]; simpl; try lia.
      - intros [= <-] Hb. rewrite Forall_forall in Hall. apply Hall. by eapply elem_of_list_lookup_2.
      - apply IH. lia. }
    case_bool_decide as Hkb.
    + apply IH; try lia; [|done]. intros j k' Hj Hk'. destruct (decide (j = m)) as [->|]; [congruence|].
      specialize (Hmono j m k' k ltac:(lia) Hk' Hk). lia.
    + apply IH; try lia; [done|]. intros j k' Hj Hk'. destruct (decide (j = m)) as [->|].
      * assert (k' = k) by congruence. lia.
      * specialize (Hmono m j k k' ltac:(lia) Hk Hk'). lia.
Qed.
Lemma find_spec ks box : StronglySorted lt ks →
  ∃ r, find (Some <$> ks) box = Some r ∧ ∀ i, r = Some i ↔ ks !! i = Some box.
Proof.
  intros Hs. unfold find. rewrite fmap_length. case_bool_decide as Hn.
  { destruct ks; [|done]. exists None. split; [done|]. done. }
  cbv zeta. destruct (bsearch_spec ks box 0 (length ks) (length ks) Hs) as (r & Hr & Hrl & Hlo & Hhi); try lia.
  { intros j k Hj Hk. apply lookup_lt_Some in Hk. lia. }
  rewrite Hr. cbn [mbind option_bind].
  assert (Huniq : ∀ i, ks !! i = Some box → i = r).
  { intros i Hi. destruct (lt_eq_lt_dec i r) as [[Hlt|]|Hgt]; [|done|].
    - specialize (Hlo i box Hlt Hi). lia.
    - destruct (lookup_lt_is_Some_2 ks r) as [k Hk]; [apply lookup_lt_Some in Hi; lia|].
      specialize (Hhi r k ltac:(lia) Hk).
      assert (Hmono : ∀ i j a b, i < j → ks !! i = Some a → ks !! j = Some b → a < b).
      { clear -Hs. induction Hs as [|x ks Hs IH Hall]; intros i j a b Hij; [done|].
        destruct i as [|i], j as [|j]; simpl; try lia.
        - intros [= <-] Hb. rewrite Forall_forall in Hall. apply Hall. by eapply elem_of_list_lookup_2.
        - apply IH. lia. }
      specialize (Hmono r i k box Hgt Hk Hi). lia. }
  case_bool_decide as Hlt.
  - destruct (lookup_lt_is_Some_2 ks r Hlt) as [k Hk]. rewrite list_lookup_fmap, Hk.
    assert (E : mjoin (Some <$> Some k) = Some k) by done. rewrite E. cbn [mbind option_bind].
    eexists. split; [done|]. intros i. case_bool_decide as Hkb.
    + subst. split; [by intros [= ->]|]. intros Hi. f_equal. symmetry. by apply Huniq.
    + split; [done|]. intros Hi. pose proof (Huniq i Hi). subst. congruence.
  - exists None. split; [done|]. intros i. split; [done|]. intros Hi. pose proof (Huniq i Hi). subst.
    apply lookup_lt_Some in Hi. lia.
Qed.

(** ** Locations *)
Lemma pile_order_bottoms ps : pile_order ps ↔ StronglySorted lt (bottom <$> ps).
Proof.
  unfold pile_order. induction ps as [|p ps IH]; [by split; constructor|]. rewrite fmap_cons. split.
  - intros [Hs Hall]%StronglySorted_inv. constructor; [by apply IH|]. by apply Forall_fmap.
  - intros [Hs Hall]%StronglySorted_inv. constructor; [by apply IH|]. exact (proj1 (Forall_fmap _ _ _) Hall).
Qed.
Lemma sorted_nodup ks : StronglySorted lt ks → NoDup ks.
Proof.
  induction 1 as [|x ks Hs IH Hall]; constructor; [|done]. intros Hx. rewrite Forall_forall in Hall.
  specialize (Hall x Hx). lia.
Qed.
Lemma heads_bottoms (ps : list pile) : [] ∉ ps → head <$> ps = Some <$> (bottom <$> ps).
Proof.
  induction ps as [|p ps IH]; intros Hne; [done|]. rewrite !fmap_cons. f_equal.
  - destruct p; [|done]. exfalso. apply Hne. left.
  - apply IH. intros H. apply Hne. by right.
Qed.
Lemma bottoms_insert (ps : list pile) (p : nat) (st st' : pile) : ps !! p = Some st → bottom st' = bottom st →
  bottom <$> <[p := st']> ps = bottom <$> ps.
Proof.
  intros Hp Hb. rewrite list_fmap_insert, Hb. apply list_insert_id. by rewrite list_lookup_fmap, Hp.
Qed.

Lemma findpile_spec l b : good_loc l → ∃ r, findpile l b = Some r ∧
  ∀ i, r = Some i ↔ ∃ st, piles l !! i = Some st ∧ bottom st = b.
Proof.
  intros [_ Hp Hne]. unfold findpile. rewrite heads_bottoms by done.
  destruct (find_spec (bottom <$> piles l) b) as (r & Hr & Hiff); [by apply pile_order_bottoms|].
  exists r. split; [done|]. intros i. rewrite Hiff, list_lookup_fmap.
  destruct (piles l !! i) as [st|]; simpl; split; naive_solver.
Qed.
Lemma findcrane_spec l b : good_loc l → ∃ r, findcrane l b = Some r ∧ ∀ i, r = Some i ↔ cranes l !! i = Some b.
Proof. intros [Hc _ _]. unfold findcrane. by apply find_spec. Qed.

Lemma rmcrane_spec l c box : good_loc l → cranes l !! c = Some box →
  ∃ l', rmcrane l c = Some (box, l') ∧ good_loc l' ∧ cranes l ≡ₚ box :: cranes l' ∧ piles l' = piles l.
Proof.
  intros [Hc Hp Hne] Hbox. unfold rmcrane. rewrite Hbox. cbn [mbind option_bind].
  destruct (rmswap_spec c (cranes l) box Hbox) as (cs & -> & Hcs). cbn [mbind option_bind].
  pose proof (delete_Permutation _ _ _ Hbox) as Hperm.
  assert (Hnd : NoDup cs).
  { rewrite Hcs. pose proof (sorted_nodup _ Hc) as Hn. rewrite Hperm in Hn. by apply NoDup_cons in Hn as [_ ?]. }
  destruct (sortcranes_spec cs Hnd) as [Hs Ho].
  eexists. split; [done|]. split; [by split|]. split; [|done]. simpl. by rewrite Hs, Hcs.
Qed.
Lemma addcrane_spec l b : good_loc l → b ∉ cranes l →
  good_loc (addcrane l b) ∧ cranes (addcrane l b) ≡ₚ b :: cranes l ∧ piles (addcrane l b) = piles l.
Proof.
  intros [Hc Hp Hne] Hb.
  assert (Hnd : NoDup (cranes l ++ [b])).
  { rewrite <-Permutation_cons_append. constructor; [done|]. by apply sorted_nodup. }
  destruct (sortcranes_spec _ Hnd) as [Hs Ho]. split; [by split|]. split; [|done]. simpl.
  by rewrite Hs, <-Permutation_cons_append.
Qed.

Lemma push_old l b p st : good_loc l → piles l !! p = Some st →
  let l' := Loc (cranes l) (<[p := st ++ [b]]> (piles l)) in
  push l b (Some p) = Some l' ∧ good_loc l'.
Proof.
  intros [Hc Hp Hne] Hst. unfold push. cbn [mbind option_bind]. rewrite Hst. simpl. split; [done|].
  split; simpl; [done| |].
  - apply pile_order_bottoms. rewrite (bottoms_insert _ _ st); [by apply pile_order_bottoms|done|].
    destruct st; [|done]. exfalso. apply Hne. by eapply elem_of_list_lookup_2.
  - intros (j & Hj)%elem_of_list_lookup. destruct (decide (j = p)) as [->|Hjp].
    + rewrite list_lookup_insert in Hj by (by eapply lookup_lt_Some). by destruct st.
    + rewrite list_lookup_insert_ne in Hj by done. apply Hne. by eapply elem_of_list_lookup_2.
Qed.
Lemma push_new l b p : good_loc l → b ∉ (bottom <$> piles l) → p ≫= (λ p, piles l !! p) = None →
  ∃ l', push l b p = Some l' ∧ good_loc l' ∧ cranes l' = cranes l ∧ piles l' ≡ₚ [b] :: piles l.
Proof.
  intros [Hc Hp Hne] Hb Hnone. unfold push.
  enough (∃ l', (ps ← sortpiles (piles l ++ [[b]]); Some (Loc (cranes l) ps)) = Some l' ∧
    good_loc l' ∧ cranes l' = cranes l ∧ piles l' ≡ₚ [b] :: piles l).
  { destruct p as [p|]; [|done]. simpl in *. by rewrite Hnone. }
  destruct (sortpiles_spec (piles l ++ [[b]])) as (qs & -> & Hqs & Ho).
  - rewrite elem_of_app, elem_of_list_singleton. naive_solver.
  - rewrite fmap_app. simpl. rewrite <-Permutation_cons_append. constructor; [done|].
    apply sorted_nodup. by apply pile_order_bottoms.
  - cbn [mbind option_bind]. eexists. split; [done|]. split; [|split; [done|]]; simpl.
    + split; simpl; [done|done|]. rewrite Hqs, elem_of_app, elem_of_list_singleton. naive_solver.
    + by rewrite Hqs, <-Permutation_cons_append.
Qed.

Lemma pop_old l b p st : good_loc l → piles l !! p = Some (st ++ [b]) → st ≠ [] →
  let l' := Loc (cranes l) (<[p := st]> (piles l)) in
  pop l p = Some (b, l') ∧ good_loc l'.
Proof.
  intros [Hc Hp Hne] Hst Hnn. unfold pop. rewrite Hst. cbn [mbind option_bind]. rewrite last_snoc. cbn [mbind option_bind].
  rewrite removelast_last. split; [by destruct st|]. split; simpl; [done| |].
  - apply pile_order_bottoms. rewrite (bottoms_insert _ _ (st ++ [b])); [by apply pile_order_bottoms|done|]. by destruct st.
  - intros (j & Hj)%elem_of_list_lookup. destruct (decide (j = p)) as [->|Hjp].
    + rewrite list_lookup_insert in Hj by (by eapply lookup_lt_Some). by destruct st.
    + rewrite list_lookup_insert_ne in Hj by done. apply Hne. by eapply elem_of_list_lookup_2.
Qed.
Lemma pop_last l b p : good_loc l → piles l !! p = Some [b] →
  ∃ l', pop l p = Some (b, l') ∧ good_loc l' ∧ cranes l' = cranes l ∧ piles l ≡ₚ [b] :: piles l'.
Proof.
  intros [Hc Hp Hne] Hst. unfold pop. rewrite Hst. cbn [mbind option_bind last removelast].
  assert (Hp' : <[p := []]> (piles l) !! p = Some []) by (apply list_lookup_insert; by eapply lookup_lt_Some).
  destruct (rmswap_spec p _ _ Hp') as (ps & -> & Hps). rewrite delete_insert_eq in Hps. cbn [mbind option_bind].
  pose proof (delete_Permutation _ _ _ Hst) as Hperm.
  assert (Hnd : NoDup (bottom <$> piles l)) by (apply sorted_nodup; by apply pile_order_bottoms).
  destruct (sortpiles_spec ps) as (qs & -> & Hqs & Ho).
  - rewrite Hps. intros Hin. apply Hne. rewrite Hperm. by right.
  - rewrite Hps. rewrite Hperm in Hnd. rewrite fmap_cons in Hnd. by apply NoDup_cons in Hnd as [_ ?].
  - cbn [mbind option_bind]. eexists. split; [done|]. split; [|split; [done|]]; simpl.
    + split; simpl; [done|done|]. rewrite Hqs, Hps. intros Hin. apply Hne. rewrite Hperm. by right.
    + by rewrite Hqs, Hps.
Qed.

Lemma insert_perm {A} (l : list A) i x y : l !! i = Some x → l ≡ₚ x :: delete i l ∧ <[i := y]> l ≡ₚ y :: delete i l.
Proof.
  intros Hi. split; [by apply delete_Permutation|].
  rewrite (delete_Permutation (<[i := y]> l) i y); [by rewrite delete_insert_eq|].
  apply list_lookup_insert. by eapply lookup_lt_Some.
Qed.

(** A bottom box is a box. *)
Lemma bottom_elem (ps : list pile) st : [] ∉ ps → st ∈ ps → bottom st ∈ concat ps.
Proof.
  intros Hne Hst. apply elem_of_list_In, in_concat. exists st. split; [by apply elem_of_list_In|].
  destruct st; [done|]. simpl. by left.
Qed.
Lemma bottoms_elem (ps : list pile) b : [] ∉ ps → b ∈ (bottom <$> ps) → b ∈ concat ps.
Proof. intros Hne (st & -> & Hst)%elem_of_list_fmap. by apply bottom_elem. Qed.

(** ** States *)
Global Instance concat_perm {A} : Proper (Permutation ==> Permutation) (@concat A).
Proof.
  induction 1 as [|x l l' _ IH|x y l|l1 l2 l3 _ IH1 _ IH2]; simpl; [done|by rewrite IH| |by etrans].
  rewrite !app_assoc. f_equiv. apply Permutation_app_comm.
Qed.

Definition obox (r : option nat) : list nat := match r with Some b => [b] | None => [] end.
Lemma elem_obox b r : b ∈ obox r ↔ r = Some b.
Proof. destruct r; simpl; [rewrite elem_of_list_singleton|rewrite elem_of_nil]; naive_solver. Qed.

Lemma all_boxes_split s i l : locs s !! i = Some l →
  all_boxes s ≡ₚ (boxes_of l ++ obox (rbox s)) ++ concat (boxes_of <$> delete i (locs s)).
Proof.
  intros Hi. unfold all_boxes. rewrite (delete_Permutation _ _ _ Hi) at 1. rewrite fmap_cons. simpl.
  rewrite <-!app_assoc. f_equiv. apply Permutation_app_comm.
Qed.

Section state.
Context (d : drobot) (s : state) (Hd : good_drobot d) (Hs : good_state d s).
Set Default Proof Using "All".

Lemma boxes_nodup : NoDup (all_boxes s).
Proof. rewrite (gs_boxes d s Hs). apply NoDup_seq. Qed.
Lemma here_nodup i l : locs s !! i = Some l → NoDup (boxes_of l ++ obox (rbox s)).
Proof. intros Hi. pose proof boxes_nodup as H. rewrite (all_boxes_split s i l Hi) in H. by apply NoDup_app in H as [? _]. Qed.
Lemma cranes_piles_disjoint i l b : locs s !! i = Some l → b ∈ cranes l → b ∉ concat (piles l).
Proof.
  intros Hi Hb. pose proof (here_nodup i l Hi) as H. unfold boxes_of in H.
  apply NoDup_app in H as [H _]. apply NoDup_app in H as (_ & H & _). by apply H.
Qed.
Lemma robot_box_elsewhere i l b : locs s !! i = Some l → rbox s = Some b → b ∉ boxes_of l.
Proof.
  intros Hi Hb Hin. pose proof (here_nodup i l Hi) as H. apply NoDup_app in H as (_ & H & _).
  apply (H b Hin). by apply elem_obox.
Qed.
Lemma robot_location : ∃ l, locs s !! rloc s = Some l ∧ good_loc l.
Proof.
  destruct (lookup_lt_is_Some_2 (locs s) (rloc s)) as [l Hl]; [rewrite (gs_locs d s Hs); apply (gs_rloc d s Hs)|].
  exists l. split; [done|]. by apply (gs_loc d s Hs (rloc s)).
Qed.
Lemma box_range b : b ∈ all_boxes s ↔ b < nboxes d.
Proof. rewrite (gs_boxes d s Hs), elem_of_seq. lia. Qed.
Lemma located_box b i : located s b i → b < nboxes d.
Proof.
  intros Hl. apply box_range. unfold all_boxes. apply elem_of_app.
  destruct Hl as [(x & Hx & Hb)|[Hb _]]; [left|right; by rewrite Hb; left].
  apply elem_of_list_In, in_concat. exists (boxes_of x). split; [|by apply elem_of_list_In].
  apply elem_of_list_In, elem_of_list_fmap. exists x. split; [done|]. by eapply elem_of_list_lookup_2.
Qed.
Lemma box_located b : b < nboxes d → ∃ i, located s b i ∧ i < nlocs d.
Proof.
  intros Hb. apply box_range in Hb. unfold all_boxes in Hb. apply elem_of_app in Hb as [Hb|Hb].
  - apply elem_of_list_In, in_concat in Hb as (bs & Hbs & Hb). apply elem_of_list_In, elem_of_list_fmap in Hbs as (x & -> & Hx).
    apply elem_of_list_lookup in Hx as [i Hi]. exists i. split; [left; exists x; split; [done|by apply elem_of_list_In]|].
    apply lookup_lt_Some in Hi. by rewrite (gs_locs d s Hs) in Hi.
  - destruct (rbox s) as [r|] eqn:E; [|by apply elem_of_nil in Hb]. apply elem_of_list_singleton in Hb as ->.
    exists (rloc s). split; [right; done|]. apply (gs_rloc d s Hs).
Qed.
Lemma located_unique b i j : located s b i → located s b j → i = j.
Proof.
  assert (Hlr : ∀ x i, locs s !! i = Some x → b ∈ boxes_of x → rbox s ≠ Some b).
  { intros x i' Hx Hb Hr. by apply (robot_box_elsewhere i' x b Hx Hr). }
  intros [(x & Hx & Hb)|[Hr <-]] [(y & Hy & Hb')|[Hr' <-]]; [|by destruct (Hlr x i Hx Hb)|by destruct (Hlr y j Hy Hb')|done].
  destruct (decide (i = j)) as [|Hne]; [done|]. exfalso.
  pose proof boxes_nodup as H. rewrite (all_boxes_split s i x Hx) in H. apply NoDup_app in H as (_ & H & _).
  apply (H b); [apply elem_of_app; by left|]. apply elem_of_list_In, in_concat. exists (boxes_of y).
  split; [|by apply elem_of_list_In]. apply elem_of_list_In, elem_of_list_fmap. exists y. split; [done|].
  destruct (decide (j < i)).
  - apply elem_of_list_lookup. exists j. by rewrite lookup_delete_lt.
  - apply elem_of_list_lookup. exists (j - 1). rewrite lookup_delete_ge by lia. by replace (S (j - 1)) with j by lia.
Qed.

(** Rearranging the boxes of the robot's location and the robot. *)
Lemma keep_good s' l l' : replaced s s' l l' → rloc s' = rloc s → boxlocs s' = boxlocs s → nleft s' = nleft s →
  good_loc l' →
  (∀ m, maxcranes d !! rloc s = Some m → length (cranes l') ≤ m) →
  (∀ m, maxpiles d !! rloc s = Some m → length (piles l') ≤ m) →
  boxes_of l' ++ obox (rbox s') ≡ₚ boxes_of l ++ obox (rbox s) →
  good_state d s' ∧ ∀ b i, located s' b i ↔ located s b i.
Proof.
  intros [Hl Hls] Hr Hbl Hn Hgl Hmc Hmp Hperm. pose proof (gs_locs d s Hs) as Hlen.
  pose proof (gs_rloc d s Hs) as Hrl.
  assert (Hloc : ∀ b i, located s' b i ↔ located s b i).
  { intros b i. unfold located. rewrite Hls, Hr. destruct (decide (i = rloc s)) as [->|Hne].
    - rewrite list_lookup_insert by lia. rewrite Hl.
      assert (Hiff : (b ∈ boxes_of l' ∨ rbox s' = Some b) ↔ (b ∈ boxes_of l ∨ rbox s = Some b)).
      { rewrite <-!elem_obox, <-!elem_of_app. by rewrite Hperm. }
      naive_solver.
    - rewrite list_lookup_insert_ne by done. naive_solver. }
  split; [|done].
  assert (Hlook : ∀ i x, locs s' !! i = Some x → (i = rloc s ∧ x = l') ∨ locs s !! i = Some x).
  { intros i x. rewrite Hls. destruct (decide (i = rloc s)) as [->|Hne].
    - rewrite list_lookup_insert by lia. intros [= ->]. by left.
    - rewrite list_lookup_insert_ne by done. by right. }
  split.
  - by rewrite Hls, insert_length.
  - by rewrite Hr.
  - intros i x Hx. destruct (Hlook i x Hx) as [[_ ->]|Hx']; [done|]. by eapply gs_loc.
  - intros i x m Hx Hm. destruct (Hlook i x Hx) as [[-> ->]|Hx']; [by apply Hmc|]. by eapply gs_mc.
  - intros i x m Hx Hm. destruct (Hlook i x Hx) as [[-> ->]|Hx']; [by apply Hmp|]. by eapply gs_mp.
  - rewrite <-(gs_boxes d s Hs). rewrite (all_boxes_split s _ _ Hl).
    rewrite (all_boxes_split s' (rloc s) l') by (rewrite Hls; apply list_lookup_insert; lia).
    rewrite Hls, delete_insert_eq, Hperm. done.
  - rewrite Hbl. apply (gs_bllen d s Hs).
  - intros b g i Hg. rewrite Hloc, Hbl. by apply (gs_bl d s Hs b g i).
  - rewrite Hn, (gs_left d s Hs). f_equal. f_equal. apply list_filter_iff. intros b. unfold misplaced.
    split; intros (g & Hg & Hnl); exists g; (split; [done|]); by rewrite ?Hloc, <-?Hloc in *.
Qed.
End state.

Lemma loc_unique a b : good_loc a → good_loc b → cranes a ≡ₚ cranes b → piles a ≡ₚ piles b → a = b.
Proof.
  intros [Hc Hp _] [Hc' Hp' _] Ec Ep. destruct a as [ca pa], b as [cb pb]. simpl in *.
  by rewrite (crane_unique ca cb Hc Hc' Ec), (pile_unique pa pb Hp Hp' Ep).
Qed.
Lemma setloc_setloc s l l' : setloc (setloc s l') l = setloc s l.
Proof. unfold setloc. simpl. by rewrite list_insert_insert. Qed.
Lemma setloc_id s l : locs s !! rloc s = Some l → setloc s l = s.
Proof. intros Hl. unfold setloc. rewrite list_insert_id by done. by destruct s. Qed.
Lemma locs_setloc d s l : good_state d s → locs (setloc s l) !! rloc s = Some l.
Proof. intros Hs. simpl. apply list_lookup_insert. rewrite (gs_locs d s Hs). apply (gs_rloc d s Hs). Qed.

(** An edge that can be made, undone, and whose costs are right. *)
Definition undone (d : drobot) (s : state) (o : oper) (a : applied) : Prop :=
  apply d s o = Some a ∧ good_state d (a_state a) ∧ effect d s o (a_state a) (a_cost a) ∧
  (∀ b i, (∀ l, o ≠ Move l) → located (a_state a) b i ↔ located s b i) ∧
  ∃ a', apply d (a_state a) (a_revop a) = Some a' ∧ a_state a' = s ∧ a_cost a' = a_revcost a.

Lemma bottom_unique l i j st st' : good_loc l → piles l !! i = Some st → piles l !! j = Some st' → bottom st = bottom st' → i = j.
Proof.
  intros [_ Hp _] Hi Hj Hb. apply pile_order_bottoms in Hp. apply sorted_nodup in Hp.
  apply (NoDup_lookup (bottom <$> piles l) i j (bottom st') Hp); rewrite list_lookup_fmap, ?Hi, ?Hj; simpl; congruence.
Qed.

Lemma filter_one `{EqDecision A} (P Q : A → Prop) `{∀ x, Decision (P x), ∀ x, Decision (Q x)} (l : list A) x :
  NoDup l → x ∈ l → (∀ y, y ∈ l → y ≠ x → P y ↔ Q y) →
  (Z.of_nat (length (filter Q l)) + (if decide (P x) then 1 else 0) =
   Z.of_nat (length (filter P l)) + (if decide (Q x) then 1 else 0))%Z.
Proof.
  induction l as [|y l IH]; intros Hnd Hx Hext; [by apply elem_of_nil in Hx|].
  apply NoDup_cons in Hnd as [Hy Hnd]. rewrite !filter_cons.
  destruct (decide (y = x)) as [->|Hne].
  - assert (Heq : length (filter P l) = length (filter Q l)).
    { clear -Hy Hext. assert (Hext' : ∀ z, z ∈ l → P z ↔ Q z).
      { intros z Hz. apply Hext; [by right|]. intros ->. done. }
      clear Hext Hy. induction l as [|z l IH]; [done|]. rewrite !filter_cons.
      assert (P z ↔ Q z) by (apply Hext'; left).
      destruct (decide (P z)), (decide (Q z)); try tauto; simpl; [f_equal|]; apply IH; intros w Hw; apply Hext'; by right. }
    destruct (decide (P x)), (decide (Q x)); simpl; lia.
  - apply elem_of_cons in Hx as [->|Hx]; [done|].
    assert (P y ↔ Q y) by (apply Hext; [left|done]).
    assert (IH' := IH Hnd Hx (λ z Hz, Hext z (elem_of_list_further _ _ _ Hz))).
    destruct (decide (P y)), (decide (Q y)); try tauto; simpl; lia.
Qed.

Section edges.
Context (d : drobot) (s : state) (Hd : good_drobot d) (Hs : good_state d s).
Set Default Proof Using "All".

Lemma mc_some : ∃ m, maxcranes d !! rloc s = Some m.
Proof. apply lookup_lt_is_Some_2. rewrite (gd_mc d Hd). apply (gs_rloc d s Hs). Qed.
Lemma mp_some : ∃ m, maxpiles d !! rloc s = Some m.
Proof. apply lookup_lt_is_Some_2. rewrite (gd_mp d Hd). apply (gs_rloc d s Hs). Qed.

Lemma push_undone c p l box : locs s !! rloc s = Some l → cranes l !! c = Some box →
  (∀ m, maxpiles d !! rloc s = Some m → p < m) → p ≤ length (piles l) →
  ∃ a, undone d s (Push c (Some p)) a.
Proof.
  intros Hl Hc Hmp Hp. pose proof (gs_loc d s Hs _ _ Hl) as Hgl.
  destruct (rmcrane_spec l c box Hgl Hc) as (l1 & Hrm & Hgl1 & Hcr & Hpi).
  assert (Hboxc : box ∈ cranes l) by (by eapply elem_of_list_lookup_2).
  assert (Hnb : box ∉ concat (piles l)) by (by eapply (cranes_piles_disjoint d s)).
  assert (Hnc1 : box ∉ cranes l1).
  { pose proof (sorted_nodup _ (gl_cranes l Hgl)) as Hn. rewrite Hcr in Hn. by apply NoDup_cons in Hn as [? _]. }
  assert (Hmc1 : ∀ m, maxcranes d !! rloc s = Some m → length (cranes l1) ≤ m).
  { intros m Hm. pose proof (gs_mc d s Hs _ _ _ Hl Hm). rewrite Hcr in H. simpl in H. lia. }
  destruct (piles l !! p) as [st|] eqn:Hst.
  - (* onto a pile *)
    assert (Hst1 : piles l1 !! p = Some st) by by rewrite Hpi.
    assert (Hne : st ≠ []) by (intros ->; apply (gl_full l Hgl); by eapply elem_of_list_lookup_2).
    destruct (push_old l1 box p st Hgl1 Hst1) as [Hpush Hgl2]. set (l2 := Loc _ _) in *.
    assert (Hst2 : piles l2 !! p = Some (st ++ [box])) by (apply list_lookup_insert; by eapply lookup_lt_Some).
    destruct (findpile_spec l2 (bottom st) Hgl2) as (r & Hr & Hriff).
    assert (r = Some p) as ->.
    { apply Hriff. exists (st ++ [box]). split; [done|]. by destruct st. }
    assert (Hbot : head st = Some (bottom st)) by by destruct st.
    eexists. split; [|split; [|split; [|split]]].
    + unfold apply. rewrite Hl. cbn [mbind option_bind]. rewrite Hrm. cbn [mbind option_bind].
      rewrite Hst1. cbn [mbind option_bind]. rewrite Hbot. cbn [mbind option_bind]. rewrite Hpush. cbn [mbind option_bind].
      rewrite Hr. cbn [mbind option_bind]. reflexivity.
    + cbn [a_state]. eapply (keep_good d s Hd Hs _ l l2); try done.
      * intros m Hm. simpl. rewrite insert_length, Hpi. by eapply gs_mp.
      * simpl. f_equiv. unfold boxes_of. simpl. rewrite Hcr, Hpi.
        destruct (insert_perm (piles l) p st (st ++ [box]) Hst) as [E1 E2]. rewrite E2. rewrite E1 at 2. simpl.
        rewrite <-!app_assoc, Permutation_middle. f_equiv. simpl. by rewrite Permutation_middle.
    + cbn [a_state a_cost effect]. split; [done|]. split; [done|]. exists l, l2, box. split; [done|]. split; [done|].
      split; [done|]. simpl. rewrite Hst. split; [|done]. exists (delete p (piles l)). rewrite Hpi. by apply insert_perm.
    + cbn [a_state]. intros b i _. eapply (keep_good d s Hd Hs _ l l2); try done.
      * intros m Hm. simpl. rewrite insert_length, Hpi. by eapply gs_mp.
      * simpl. f_equiv. unfold boxes_of. simpl. rewrite Hcr, Hpi.
        destruct (insert_perm (piles l) p st (st ++ [box]) Hst) as [E1 E2]. rewrite E2. rewrite E1 at 2. simpl.
        rewrite <-!app_assoc, Permutation_middle. f_equiv. simpl. by rewrite Permutation_middle.
    + (* undo: pop it again *)
      cbn [a_state a_revop a_revcost]. unfold apply.
      replace (rloc (setloc s l2)) with (rloc s) by done. rewrite (locs_setloc d) by done. cbn [mbind option_bind].
      rewrite Hst2. cbn [mbind option_bind].
      assert (Hh2 : head (st ++ [box]) = Some (bottom st)) by by destruct st. rewrite Hh2. cbn [mbind option_bind].
      destruct (pop_old l2 box p st Hgl2 Hst2 Hne) as [Hpop Hgl3]. rewrite Hpop. cbn [mbind option_bind].
      set (l3 := Loc (cranes l2) _) in *.
      destruct (addcrane_spec l3 box Hgl3 Hnc1) as (Hgl4 & Hcr4 & Hpi4). set (l4 := addcrane l3 box) in *.
      destruct (findcrane_spec l4 box Hgl4) as (rc & Hrc & Hrciff).
      assert (Hl4 : l4 = l).
      { apply loc_unique; [done|done|by rewrite Hcr4, Hcr|]. rewrite Hpi4. simpl. rewrite list_insert_insert, Hpi.
        by rewrite list_insert_id. }
      assert (rc = Some c) as -> by (apply Hrciff; by rewrite Hl4). rewrite Hrc. cbn [mbind option_bind].
      rewrite bool_decide_false by (rewrite app_length; simpl; destruct st; [done|simpl; lia]).
      destruct (findpile_spec l4 (bottom st) Hgl4) as (q & Hq & _). rewrite Hq. cbn [mbind option_bind].
      eexists. split; [done|]. cbn [a_state a_cost]. rewrite setloc_setloc, Hl4. split; [by apply setloc_id|].
      rewrite app_length. simpl. do 2 f_equal. lia.
  - (* a new pile *)
    assert (Hst1 : piles l1 !! p = None) by by rewrite Hpi.
    assert (Hnb1 : box ∉ (bottom <$> piles l1)).
    { rewrite Hpi. intros Hin. apply Hnb. apply bottoms_elem; [apply (gl_full l Hgl)|done]. }
    destruct (push_new l1 box (Some p) Hgl1 Hnb1 Hst1) as (l2 & Hpush & Hgl2 & Hcr2 & Hpi2).
    destruct (findpile_spec l2 box Hgl2) as (r & Hr & Hriff).
    assert (Hin2 : [box] ∈ piles l2) by (rewrite Hpi2; left).
    apply elem_of_list_lookup in Hin2 as [q Hq].
    assert (r = Some q) as -> by (apply Hriff; by exists [box]).
    apply lookup_ge_None in Hst as Hge.
    assert (Hkeep : (∀ m, maxcranes d !! rloc s = Some m → length (cranes l2) ≤ m) ∧
      (∀ m, maxpiles d !! rloc s = Some m → length (piles l2) ≤ m) ∧
      boxes_of l2 ++ obox (rbox s) ≡ₚ boxes_of l ++ obox (rbox s)).
    { split_and!.
      - intros m Hm. rewrite Hcr2. by apply Hmc1.
      - intros m Hm. rewrite Hpi2. simpl. rewrite Hpi. specialize (Hmp m Hm). lia.
      - f_equiv. unfold boxes_of. rewrite Hcr2, Hpi2, Hcr, Hpi. simpl. by rewrite <-Permutation_middle. }
    destruct Hkeep as (K1 & K2 & K3).
    eexists. split; [|split; [|split; [|split]]].
    + unfold apply. rewrite Hl. cbn [mbind option_bind]. rewrite Hrm. cbn [mbind option_bind].
      rewrite Hst1. cbn [mbind option_bind]. rewrite Hpush. cbn [mbind option_bind].
      rewrite Hr. cbn [mbind option_bind]. reflexivity.
    + cbn [a_state]. by eapply (keep_good d s Hd Hs _ l l2).
    + cbn [a_state a_cost effect]. split; [done|]. split; [done|]. exists l, l2, box. split; [done|]. split; [done|].
      split; [by rewrite Hcr2|]. simpl. rewrite Hst. split; [by rewrite Hpi2, Hpi|]. f_equal. lia.
    + cbn [a_state]. intros b i _. by eapply (keep_good d s Hd Hs _ l l2).
    + cbn [a_state a_revop a_revcost]. unfold apply.
      replace (rloc (setloc s l2)) with (rloc s) by done. rewrite (locs_setloc d) by done. cbn [mbind option_bind].
      rewrite Hq. cbn [mbind option_bind head].
      destruct (pop_last l2 box q Hgl2 Hq) as (l3 & Hpop & Hgl3 & Hcr3 & Hpi3). rewrite Hpop. cbn [mbind option_bind].
      assert (Hnc3 : box ∉ cranes l3) by by rewrite Hcr3, Hcr2.
      destruct (addcrane_spec l3 box Hgl3 Hnc3) as (Hgl4 & Hcr4 & Hpi4). set (l4 := addcrane l3 box) in *.
      destruct (findcrane_spec l4 box Hgl4) as (rc & Hrc & Hrciff).
      assert (Hl4 : l4 = l).
      { apply loc_unique; [done|done|by rewrite Hcr4, Hcr3, Hcr2, Hcr|]. rewrite Hpi4.
        rewrite Hpi2 in Hpi3. apply Permutation_cons_inv in Hpi3. by rewrite <-Hpi3, Hpi. }
      assert (rc = Some c) as -> by (apply Hrciff; by rewrite Hl4). rewrite Hrc. cbn [mbind option_bind].
      rewrite bool_decide_true by done. cbn [mbind option_bind].
      eexists. split; [done|]. cbn [a_state a_cost]. rewrite setloc_setloc, Hl4. split; [by apply setloc_id|].
      done.
Qed.

Lemma pop_undone p l st box : locs s !! rloc s = Some l → piles l !! p = Some (st ++ [box]) →
  (∀ m, maxcranes d !! rloc s = Some m → length (cranes l) < m) →
  ∃ a, undone d s (Pop p) a.
Proof.
  intros Hl Hst Hmc. pose proof (gs_loc d s Hs _ _ Hl) as Hgl.
  assert (Hin : box ∈ concat (piles l)).
  { apply elem_of_list_In, in_concat. exists (st ++ [box]). split; [apply elem_of_list_In; by eapply elem_of_list_lookup_2|].
    apply in_app_iff. right. by left. }
  assert (Hnc : box ∉ cranes l) by (intros Hc; by apply (cranes_piles_disjoint d s Hd Hs _ _ _ Hl Hc)).
  pose proof (insert_perm (piles l) p _ st Hst) as [E1 E2].
  destruct (decide (st = [])) as [->|Hne].
  - (* the only box of its pile *)
    destruct (pop_last l box p Hgl Hst) as (l1 & Hpop & Hgl1 & Hcr1 & Hpi1).
    assert (Hnc1 : box ∉ cranes l1) by by rewrite Hcr1.
    destruct (addcrane_spec l1 box Hgl1 Hnc1) as (Hgl2 & Hcr2 & Hpi2). set (l2 := addcrane l1 box) in *.
    destruct (findcrane_spec l2 box Hgl2) as (rc & Hrc & Hrciff).
    assert (Hin2 : box ∈ cranes l2) by (rewrite Hcr2; left).
    apply elem_of_list_lookup in Hin2 as [c Hc]. assert (rc = Some c) as -> by by apply Hrciff.
    assert (Hkeep : (∀ m, maxcranes d !! rloc s = Some m → length (cranes l2) ≤ m) ∧
      (∀ m, maxpiles d !! rloc s = Some m → length (piles l2) ≤ m) ∧
      boxes_of l2 ++ obox (rbox s) ≡ₚ boxes_of l ++ obox (rbox s)).
    { split_and!.
      - intros m Hm. rewrite Hcr2. simpl. rewrite Hcr1. specialize (Hmc m Hm). lia.
      - intros m Hm. pose proof (gs_mp d s Hs _ _ _ Hl Hm) as Hx. rewrite Hpi1 in Hx. simpl in Hx. rewrite Hpi2. lia.
      - f_equiv. unfold boxes_of. rewrite Hpi1, Hpi2, Hcr2, Hcr1. simpl. by rewrite <-Permutation_middle. }
    destruct Hkeep as (K1 & K2 & K3).
    eexists. split; [|split; [|split; [|split]]].
    + unfold apply. rewrite Hl. cbn [mbind option_bind]. rewrite Hst. cbn [mbind option_bind app head].
      rewrite Hpop. cbn [mbind option_bind]. fold l2. rewrite Hrc. cbn [mbind option_bind].
      rewrite bool_decide_true by done. cbn [mbind option_bind]. reflexivity.
    + cbn [a_state]. by eapply (keep_good d s Hd Hs _ l l2).
    + cbn [a_state a_cost effect]. split; [done|]. split; [done|]. exists l, l2, [], box. split; [done|]. split; [done|].
      split; [by rewrite Hcr2, Hcr1|]. split; [|done]. exists (piles l1). by rewrite Hpi2.
    + cbn [a_state]. intros b i _. by eapply (keep_good d s Hd Hs _ l l2).
    + cbn [a_state a_revop a_revcost]. unfold apply.
      replace (rloc (setloc s l2)) with (rloc s) by done. rewrite (locs_setloc d) by done. cbn [mbind option_bind].
      destruct (rmcrane_spec l2 c box Hgl2 Hc) as (l3 & Hrm & Hgl3 & Hcr3 & Hpi3). rewrite Hrm. cbn [mbind option_bind].
      rewrite Hpi3. rewrite lookup_ge_None_2 by done. cbn [mbind option_bind].
      assert (Hnb3 : box ∉ (bottom <$> piles l3)).
      { rewrite Hpi3, Hpi2. pose proof (gl_piles l Hgl) as Ho. apply pile_order_bottoms, sorted_nodup in Ho.
        rewrite Hpi1 in Ho. rewrite fmap_cons in Ho. by apply NoDup_cons in Ho as [? _]. }
      destruct (push_new l3 box (Some (length (piles l2))) Hgl3 Hnb3) as (l4 & Hpush & Hgl4 & Hcr4 & Hpi4).
      { simpl. rewrite Hpi3. by apply lookup_ge_None_2. }
      rewrite Hpush. cbn [mbind option_bind].
      assert (Hl4 : l4 = l).
      { apply loc_unique; [done|done| |].
        - rewrite Hcr4. rewrite Hcr2, Hcr1 in Hcr3. apply Permutation_cons_inv in Hcr3. done.
        - by rewrite Hpi4, Hpi3, Hpi2, Hpi1. }
      subst l4. destruct (findpile_spec l box Hgl) as (q & Hq & Hqiff).
      assert (q = Some p) as -> by (apply Hqiff; by exists [box]). rewrite Hq. cbn [mbind option_bind].
      eexists. split; [done|]. cbn [a_state a_cost]. rewrite setloc_setloc. split; [by apply setloc_id|].
      done.
  - (* more below *)
    destruct (pop_old l box p st Hgl Hst Hne) as [Hpop Hgl1]. set (l1 := Loc _ _) in *.
    assert (Hnc1 : box ∉ cranes l1) by done.
    destruct (addcrane_spec l1 box Hgl1 Hnc1) as (Hgl2 & Hcr2 & Hpi2). set (l2 := addcrane l1 box) in *.
    destruct (findcrane_spec l2 box Hgl2) as (rc & Hrc & Hrciff).
    assert (Hin2 : box ∈ cranes l2) by (rewrite Hcr2; left).
    apply elem_of_list_lookup in Hin2 as [c Hc]. assert (rc = Some c) as -> by by apply Hrciff.
    assert (Hst2 : piles l2 !! p = Some st) by (rewrite Hpi2; apply list_lookup_insert; by eapply lookup_lt_Some).
    destruct (findpile_spec l2 (bottom st) Hgl2) as (q & Hq & Hqiff).
    assert (q = Some p) as -> by (apply Hqiff; by exists st).
    assert (Hbot : head (st ++ [box]) = Some (bottom st)) by by destruct st.
    assert (Hkeep : (∀ m, maxcranes d !! rloc s = Some m → length (cranes l2) ≤ m) ∧
      (∀ m, maxpiles d !! rloc s = Some m → length (piles l2) ≤ m) ∧
      boxes_of l2 ++ obox (rbox s) ≡ₚ boxes_of l ++ obox (rbox s)).
    { split_and!.
      - intros m Hm. rewrite Hcr2. simpl. specialize (Hmc m Hm). lia.
      - intros m Hm. rewrite Hpi2. simpl. rewrite insert_length. by eapply gs_mp.
      - f_equiv. unfold boxes_of. rewrite Hpi2, Hcr2. simpl. rewrite E2. rewrite E1 at 2. simpl.
        rewrite <-!app_assoc. simpl. rewrite <-!Permutation_middle. done. }
    destruct Hkeep as (K1 & K2 & K3).
    eexists. split; [|split; [|split; [|split]]].
    + unfold apply. rewrite Hl. cbn [mbind option_bind]. rewrite Hst. cbn [mbind option_bind]. rewrite Hbot. cbn [mbind option_bind].
      rewrite Hpop. cbn [mbind option_bind]. fold l2. rewrite Hrc. cbn [mbind option_bind].
      rewrite bool_decide_false by (rewrite app_length; simpl; destruct st; [done|simpl; lia]).
      rewrite Hq. cbn [mbind option_bind]. reflexivity.
    + cbn [a_state]. by eapply (keep_good d s Hd Hs _ l l2).
    + cbn [a_state a_cost effect]. split; [done|]. split; [done|]. exists l, l2, st, box. split; [done|]. split; [done|].
      split; [by rewrite Hcr2|]. split.
      * exists (delete p (piles l)). split; [done|]. rewrite Hpi2. simpl. rewrite E2. by destruct st.
      * rewrite app_length. simpl. do 2 f_equal. lia.
    + cbn [a_state]. intros b i _. by eapply (keep_good d s Hd Hs _ l l2).
    + cbn [a_state a_revop a_revcost]. unfold apply.
      replace (rloc (setloc s l2)) with (rloc s) by done. rewrite (locs_setloc d) by done. cbn [mbind option_bind].
      destruct (rmcrane_spec l2 c box Hgl2 Hc) as (l3 & Hrm & Hgl3 & Hcr3 & Hpi3). rewrite Hrm. cbn [mbind option_bind].
      rewrite Hpi3, Hst2. cbn [mbind option_bind].
      assert (Hbot' : head st = Some (bottom st)) by by destruct st. rewrite Hbot'. cbn [mbind option_bind].
      assert (Hst3 : piles l3 !! p = Some st) by by rewrite Hpi3.
      destruct (push_old l3 box p st Hgl3 Hst3) as [Hpush Hgl4]. rewrite Hpush. cbn [mbind option_bind].
      set (l4 := Loc (cranes l3) _) in *.
      assert (Hl4 : l4 = l).
      { apply loc_unique; [done|done| |].
        - simpl. rewrite Hcr2 in Hcr3. apply Permutation_cons_inv in Hcr3. by rewrite <-Hcr3.
        - simpl. rewrite Hpi3, Hpi2. simpl. rewrite list_insert_insert. by rewrite list_insert_id. }
      rewrite Hl4. destruct (findpile_spec l (bottom st) Hgl) as (q & Hq' & Hqiff').
      assert (q = Some p) as -> by (apply Hqiff'; exists (st ++ [box]); split; [done|by destruct st]).
      rewrite Hq'. cbn [mbind option_bind].
      eexists. split; [done|]. cbn [a_state a_cost]. rewrite setloc_setloc. split; [by apply setloc_id|].
      rewrite app_length. simpl. do 2 f_equal. lia.
Qed.

Lemma load_undone c l box : locs s !! rloc s = Some l → cranes l !! c = Some box → rbox s = None →
  ∃ a, undone d s (Load c) a.
Proof.
  intros Hl Hc Hrb. pose proof (gs_loc d s Hs _ _ Hl) as Hgl.
  destruct (rmcrane_spec l c box Hgl Hc) as (l1 & Hrm & Hgl1 & Hcr1 & Hpi1).
  assert (Hmc1 : ∀ m, maxcranes d !! rloc s = Some m → S (length (cranes l1)) ≤ m).
  { intros m Hm. pose proof (gs_mc d s Hs _ _ _ Hl Hm) as H. rewrite Hcr1 in H. simpl in H. lia. }
  assert (Hnc1 : box ∉ cranes l1).
  { pose proof (sorted_nodup _ (gl_cranes l Hgl)) as Hn. rewrite Hcr1 in Hn. by apply NoDup_cons in Hn as [? _]. }
  assert (K3 : boxes_of l1 ++ obox (Some box) ≡ₚ boxes_of l ++ obox (rbox s)).
  { rewrite Hrb. unfold boxes_of. rewrite Hpi1, Hcr1. simpl. rewrite app_nil_r. by rewrite <-Permutation_cons_append. }
  assert (K1 : ∀ m, maxcranes d !! rloc s = Some m → length (cranes l1) ≤ m) by (intros m Hm; specialize (Hmc1 m Hm); lia).
  assert (K2 : ∀ m, maxpiles d !! rloc s = Some m → length (piles l1) ≤ m) by (intros m Hm; rewrite Hpi1; by eapply gs_mp).
  eexists. split; [|split; [|split; [|split]]].
  - unfold apply. rewrite Hrb, Hl. cbn [mbind option_bind]. rewrite Hrm. cbn [mbind option_bind]. reflexivity.
  - cbn [a_state]. by eapply (keep_good d s Hd Hs _ l l1).
  - cbn [a_state a_cost effect]. split; [done|]. split; [done|]. by exists l, l1, box.
  - cbn [a_state]. intros b i _. by eapply (keep_good d s Hd Hs _ l l1).
  - cbn [a_state a_revop a_revcost]. unfold apply. cbn [setrbox rbox mbind option_bind].
    replace (locs (setrbox (setloc s l1) (Some box)) !! rloc (setrbox (setloc s l1) (Some box)))
      with (locs (setloc s l1) !! rloc s) by done.
    rewrite (locs_setloc d) by done. cbn [mbind option_bind].
    replace (rloc (setrbox (setloc s l1) (Some box))) with (rloc s) by done.
    destruct mc_some as [m Hm]. rewrite Hm. cbn [mbind option_bind].
    destruct (addcrane_spec l1 box Hgl1 Hnc1) as (Hgl2 & Hcr2 & Hpi2). set (l2 := addcrane l1 box) in *.
    rewrite bool_decide_true by (rewrite Hcr2; simpl; by apply Hmc1).
    assert (Hl2 : l2 = l) by (apply loc_unique; [done|done|by rewrite Hcr2, Hcr1|by rewrite Hpi2, Hpi1]).
    destruct (findcrane_spec l2 box Hgl2) as (rc & Hrc & Hrciff).
    assert (rc = Some c) as -> by (apply Hrciff; by rewrite Hl2). rewrite Hrc. cbn [mbind option_bind].
    eexists. split; [done|]. cbn [a_state a_cost]. split; [|done].
    rewrite Hl2. unfold setrbox, setloc. simpl. rewrite list_insert_insert, list_insert_id by done. rewrite <-Hrb. by destruct s.
Qed.

Lemma unload_undone l box : locs s !! rloc s = Some l → rbox s = Some box →
  (∀ m, maxcranes d !! rloc s = Some m → length (cranes l) < m) →
  ∃ a, undone d s Unload a.
Proof.
  intros Hl Hrb Hmc. pose proof (gs_loc d s Hs _ _ Hl) as Hgl.
  assert (Hnc : box ∉ cranes l).
  { intros Hin. apply (robot_box_elsewhere d s Hd Hs _ _ _ Hl Hrb). unfold boxes_of. apply elem_of_app. by left. }
  destruct (addcrane_spec l box Hgl Hnc) as (Hgl1 & Hcr1 & Hpi1). set (l1 := addcrane l box) in *.
  destruct (findcrane_spec l1 box Hgl1) as (rc & Hrc & Hrciff).
  assert (Hin1 : box ∈ cranes l1) by (rewrite Hcr1; left).
  apply elem_of_list_lookup in Hin1 as [c Hc]. assert (rc = Some c) as -> by by apply Hrciff.
  assert (K3 : boxes_of l1 ++ obox None ≡ₚ boxes_of l ++ obox (rbox s)).
  { rewrite Hrb. unfold boxes_of. rewrite Hpi1, Hcr1. simpl. rewrite app_nil_r. by rewrite <-Permutation_cons_append. }
  assert (K1 : ∀ m, maxcranes d !! rloc s = Some m → length (cranes l1) ≤ m).
  { intros m Hm. rewrite Hcr1. simpl. specialize (Hmc m Hm). lia. }
  assert (K2 : ∀ m, maxpiles d !! rloc s = Some m → length (piles l1) ≤ m) by (intros m Hm; rewrite Hpi1; by eapply gs_mp).
  destruct mc_some as [m Hm].
  eexists. split; [|split; [|split; [|split]]].
  - unfold apply. rewrite Hrb. cbn [mbind option_bind]. rewrite Hl. cbn [mbind option_bind]. rewrite Hm. cbn [mbind option_bind].
    fold l1. rewrite bool_decide_true by by apply K1. rewrite Hrc. cbn [mbind option_bind]. reflexivity.
  - cbn [a_state]. by eapply (keep_good d s Hd Hs _ l l1).
  - cbn [a_state a_cost effect]. split; [done|]. split; [done|]. by exists l, l1, box.
  - cbn [a_state]. intros b i _. by eapply (keep_good d s Hd Hs _ l l1).
  - cbn [a_state a_revop a_revcost]. unfold apply. cbn [setrbox rbox].
    replace (locs (setrbox (setloc s l1) None) !! rloc (setrbox (setloc s l1) None))
      with (locs (setloc s l1) !! rloc s) by done.
    rewrite (locs_setloc d) by done. cbn [mbind option_bind].
    destruct (rmcrane_spec l1 c box Hgl1 Hc) as (l2 & Hrm & Hgl2 & Hcr2 & Hpi2). rewrite Hrm. cbn [mbind option_bind].
    assert (Hl2 : l2 = l).
    { apply loc_unique; [done|done| |by rewrite Hpi2, Hpi1]. rewrite Hcr1 in Hcr2. apply Permutation_cons_inv in Hcr2. done. }
    eexists. split; [done|]. cbn [a_state a_cost]. split; [|done].
    rewrite Hl2. unfold setrbox, setloc. simpl. rewrite list_insert_insert, list_insert_id by done. rewrite <-Hrb. by destruct s.
Qed.

Lemma move_undone j : j < nlocs d → j ≠ rloc s → ∃ a, undone d s (Move j) a.
Proof.
  intros Hj Hne. pose proof (gs_rloc d s Hs) as Hr.
  assert (Hadj : ∀ a b, a < nlocs d → b < nlocs d → ∃ c, adj d !! a ≫= (λ r, r !! b) = Some c).
  { intros a b Ha Hb. destruct (lookup_lt_is_Some_2 (adj d) a) as [r Hrow]; [by rewrite (gd_adj d Hd)|]. rewrite Hrow.
    cbn [mbind option_bind]. apply lookup_lt_is_Some_2. by rewrite (gd_row d Hd a r Hrow). }
  destruct (Hadj (rloc s) j Hr Hj) as [c Hc]. destruct (Hadj j (rloc s) Hj Hr) as [rc Hrc].
  (* the new box locations and count *)
  assert (Hnew : ∃ bl n, (match rbox s with
      | None => Some (boxlocs s, nleft s)
      | Some b =>
        g ← goal d !! b;
        match g with
        | None => Some (boxlocs s, nleft s)
        | Some g =>
          if bool_decide (b < length (boxlocs s)) then
            Some (<[b := j]> (boxlocs s),
              if bool_decide (g = rloc s) then nleft s + 1
              else if bool_decide (g = j) then nleft s - 1 else nleft s)%Z
          else None
        end
      end) = Some (bl, n) ∧ length bl = nboxes d ∧
      let s' := State (locs s) bl (rbox s) j (sh s) (sd s) n in
      (∀ b g i, goal d !! b = Some (Some g) → located s' b i → bl !! b = Some i) ∧
      n = Z.of_nat (length (filter (misplaced d s') (seq 0 (nboxes d)))) ∧
      (∀ a, apply d s' (Move (rloc s)) = Some a → a_state a = s)).
  { pose proof (gs_bllen d s Hs) as Hlen.
    assert (Hother : ∀ bl n b i, rbox s ≠ Some b → located (State (locs s) bl (rbox s) j (sh s) (sd s) n) b i ↔ located s b i).
    { intros bl n b i Hb. unfold located. simpl. naive_solver. }
    assert (Hmis : ∀ bl n b, rbox s ≠ Some b → misplaced d (State (locs s) bl (rbox s) j (sh s) (sd s) n) b ↔ misplaced d s b).
    { intros bl n b Hb. unfold misplaced. split; intros (g & Hg & Hnl); exists g; (split; [done|]);
        intros Hx; apply Hnl; by apply (Hother bl n b g Hb). }
    assert (Hid : ∀ bl n, bl = boxlocs s → n = nleft s →
      State (locs s) bl (rbox s) (rloc s) (sh s) (sd s) n = s) by (intros ? ? -> ->; by destruct s).
    destruct (rbox s) as [b|] eqn:Hb.
    2: { eexists _, _. split; [done|]. split; [done|]. cbv zeta. split_and!.
      - intros b g i Hg Hloc. apply (gs_bl d s Hs b g i Hg). by apply (Hother (boxlocs s) (nleft s)).
      - etrans; [apply (gs_left d s Hs)|]. f_equal. f_equal. apply list_filter_iff.
        intros b. symmetry. apply (Hmis (boxlocs s) (nleft s)). done.
      - intros a. unfold apply. simpl. rewrite Hrc, Hc. simpl. intros [= <-]. simpl. apply Hid; done. }
    assert (Hbn : b < nboxes d).
    { apply (located_box d s Hd Hs b (rloc s)). by right. }
    destruct (lookup_lt_is_Some_2 (goal d) b) as [g Hg]; [by rewrite (gd_goals d Hd)|].
    rewrite Hg. cbn [mbind option_bind]. destruct g as [g|].
    2: { eexists _, _. split; [done|]. split; [done|]. cbv zeta. split_and!.
      - intros b' g i Hg' Hloc. apply (gs_bl d s Hs b' g i Hg').
        apply (Hother (boxlocs s) (nleft s)); [congruence|done].
      - etrans; [apply (gs_left d s Hs)|]. f_equal. f_equal. apply list_filter_iff.
        intros b'. destruct (decide (b' = b)) as [->|Hbb].
        + unfold misplaced. rewrite Hg. split; by intros (? & ? & _).
        + symmetry. apply (Hmis (boxlocs s) (nleft s)). congruence.
      - intros a. unfold apply. simpl. rewrite Hg. simpl. rewrite Hrc, Hc. simpl. intros [= <-]. simpl. apply Hid; done. }
    rewrite bool_decide_true by lia.
    assert (Hhere : boxlocs s !! b = Some (rloc s)).
    { apply (gs_bl d s Hs b g); [done|]. by right. }
    set (n := if bool_decide (g = rloc s) then _ else _).
    eexists _, _. split; [done|]. split; [by rewrite insert_length|]. cbv zeta. split_and!.
    - intros b' g' i Hg' Hloc. destruct (decide (b' = b)) as [->|Hbb].
      + rewrite list_lookup_insert by lia. f_equal. destruct Hloc as [(x & Hx & Hin)|[_ Hi]]; [|done].
        exfalso. by apply (robot_box_elsewhere d s Hd Hs i x b).
      + rewrite list_lookup_insert_ne by congruence. apply (gs_bl d s Hs b' g' i Hg').
        apply (Hother (<[b := j]> (boxlocs s)) n); [congruence|done].
    - pose proof (gs_left d s Hs) as Hleft.
      set (s' := State _ _ _ _ _ _ n).
      pose proof (filter_one (misplaced d s) (misplaced d s') (seq 0 (nboxes d)) b) as Hone.
      specialize (Hone (NoDup_seq _ _) ltac:(apply elem_of_seq; lia)).
      specialize (Hone (λ b' _ Hbb, iff_sym (Hmis _ _ b' (λ E, Hbb (eq_sym (inj Some _ _ E)))))).
      assert (Hm1 : misplaced d s b ↔ g ≠ rloc s).
      { unfold misplaced. rewrite Hg. split.
        - intros (g' & [= <-] & Hnl) ->. apply Hnl. by right.
        - intros Hgr. exists g. split; [done|]. intros Hloc. apply Hgr.
          apply (located_unique d s Hd Hs b g (rloc s)); [done|]. by right. }
      assert (Hm2 : misplaced d s' b ↔ g ≠ j).
      { unfold misplaced. rewrite Hg. split.
        - intros (g' & [= <-] & Hnl) ->. apply Hnl. by right.
        - intros Hgr. exists g. split; [done|]. intros [(x & Hx & Hin)|[_ Hi]]; [|simpl in Hi; congruence].
          by apply (robot_box_elsewhere d s Hd Hs g x b). }
      clearbody s'. subst n. assert (g = rloc s → g ≠ j) by congruence. revert Hone. repeat case_bool_decide; destruct (decide (misplaced d s b)), (decide (misplaced d s' b)); try tauto; try congruence; lia.
    - intros a. unfold apply. simpl. rewrite Hg. simpl. rewrite insert_length, bool_decide_true by lia. simpl.
      rewrite Hrc, Hc. simpl. intros [= <-]. simpl. apply Hid.
      + rewrite list_insert_insert. by apply list_insert_id.
      + subst n. repeat case_bool_decide; try congruence; lia. }
  destruct Hnew as (bl & n & Hnew & Hbllen & Hbl & Hn & Hback).
  set (s' := State (locs s) bl (rbox s) j (sh s) (sd s) n) in *.
  assert (Hgood : good_state d s').
  { split; simpl; try done; try apply Hs. }
  exists (Applied s' c (Move (rloc s)) rc). split; [|split; [|split; [|split]]]; cbn [a_state a_cost a_revop a_revcost].
  - unfold apply. rewrite Hnew. cbn [mbind option_bind]. rewrite Hc. cbn [mbind option_bind]. by rewrite Hrc.
  - done.
  - simpl. done.
  - intros b i Hno. by destruct (Hno j).
  - assert (Hex : ∃ a', apply d s' (Move (rloc s)) = Some a' ∧ a_cost a' = rc).
    { unfold apply. simpl. destruct (rbox s) as [b|] eqn:Hb.
      - assert (Hbn : b < nboxes d) by (apply (located_box d s Hd Hs b (rloc s)); by right).
        destruct (lookup_lt_is_Some_2 (goal d) b) as [[g|] Hg]; [by rewrite (gd_goals d Hd)|..]; rewrite Hg; simpl.
        + rewrite bool_decide_true by lia. simpl. rewrite Hrc, Hc. simpl. by eexists.
        + rewrite Hrc, Hc. simpl. by eexists.
      - simpl. rewrite Hrc, Hc. simpl. by eexists. }
    destruct Hex as (a' & Ha' & Hcost). exists a'. split; [done|]. split; [by apply Hback|done].
Qed.
End edges.

(** ** Theorems *)

(** When an operator is offered. *)
Definition enabled (d : drobot) (s : state) (o : oper) : Prop :=
  ∃ l mp mc, locs s !! rloc s = Some l ∧ maxpiles d !! rloc s = Some mp ∧ maxcranes d !! rloc s = Some mc ∧
  match o with
  | Push c (Some p) => c < length (cranes l) ∧ p ≤ length (piles l) ∧ p < mp
  | Pop p => p < length (piles l) ∧ length (cranes l) < mc
  | Load c => c < length (cranes l) ∧ rbox s = None
  | Unload => (∃ b, rbox s = Some b) ∧ length (cranes l) < mc
  | Move j => j < nlocs d ∧ j ≠ rloc s
  | Push _ None | NoOp => False
  end.

Lemma elem_of_map {A B} (f : A → B) l y : y ∈ map f l ↔ ∃ x, y = f x ∧ x ∈ l.
Proof. apply elem_of_list_fmap. Qed.
Lemma elem_of_flat_map {A B} (f : A → list B) l y : y ∈ flat_map f l ↔ ∃ x, x ∈ l ∧ y ∈ f x.
Proof.
  rewrite elem_of_list_In, in_flat_map. split; intros (x & ? & ?); exists x; by rewrite ?elem_of_list_In, <-?elem_of_list_In in *.
Qed.

(** The operators offered are exactly the ones that are possible. *)
Theorem C60_operators_exact d s : good_drobot d → good_state d s →
  ∃ os, operators d s = Some os ∧ ∀ o, o ∈ os ↔ enabled d s o.
Proof.
  intros Hd Hs. destruct (robot_location d s Hd Hs) as (l & Hl & _).
  destruct (mp_some d s Hd Hs) as [mp Hmp]. destruct (mc_some d s Hd Hs) as [mc Hmc].
  pose proof (gs_mp d s Hs _ _ _ Hl Hmp) as Hle.
  unfold operators. rewrite Hl, Hmp, Hmc. cbn [mbind option_bind]. eexists. split; [done|].
  intros o. assert (Hen : enabled d s o ↔ match o with
    | Push c (Some p) => c < length (cranes l) ∧ p ≤ length (piles l) ∧ p < mp
    | Pop p => p < length (piles l) ∧ length (cranes l) < mc
    | Load c => c < length (cranes l) ∧ rbox s = None
    | Unload => (∃ b, rbox s = Some b) ∧ length (cranes l) < mc
    | Move j => j < nlocs d ∧ j ≠ rloc s
    | Push _ None | NoOp => False
    end).
  { unfold enabled. rewrite Hl, Hmp, Hmc. naive_solver. }
  rewrite Hen. clear Hen. rewrite !elem_of_app, elem_of_flat_map, elem_of_map.
  assert (Hpush : (∃ x, x ∈ seq 0 (length (cranes l)) ∧
      o ∈ map (λ p, Push x (Some p)) (seq 0 (if bool_decide (mp ≤ length (piles l)) then mp else S (length (piles l))))) ↔
    match o with Push c (Some p) => c < length (cranes l) ∧ p ≤ length (piles l) ∧ p < mp | _ => False end).
  { split.
    - intros (c & Hc & (p & -> & Hp)%elem_of_map). apply elem_of_seq in Hc, Hp. case_bool_decide; lia.
    - destruct o as [|c [p|]| | | |]; try done. intros (Hc & Hp & Hpm). exists c. split; [apply elem_of_seq; lia|].
      apply elem_of_map. exists p. split; [done|]. apply elem_of_seq. case_bool_decide; lia. }
  rewrite Hpush. clear Hpush.
  assert (Hmid : (o ∈ if bool_decide (length (cranes l) < mc)
        then map Pop (seq 0 (length (piles l))) ++ match rbox s with Some _ => [Unload] | None => [] end else []) ↔
    match o with
    | Pop p => p < length (piles l) ∧ length (cranes l) < mc
    | Unload => (∃ b, rbox s = Some b) ∧ length (cranes l) < mc
    | _ => False end).
  { case_bool_decide.
    - rewrite elem_of_app, elem_of_map. split.
      + intros [(p & -> & Hp)|Hu]; [apply elem_of_seq in Hp; lia|]. destruct (rbox s); [|by apply elem_of_nil in Hu].
        apply elem_of_list_singleton in Hu as ->. eauto.
      + destruct o; try done.
        * intros [Hp _]. left. eexists. split; [done|]. apply elem_of_seq. lia.
        * intros [[b ->] _]. right. left.
    - rewrite elem_of_nil. destruct o; try done; naive_solver lia. }
  rewrite Hmid. clear Hmid.
  assert (Hload : (o ∈ match rbox s with Some _ => [] | None => map Load (seq 0 (length (cranes l))) end) ↔
    match o with Load c => c < length (cranes l) ∧ rbox s = None | _ => False end).
  { destruct (rbox s).
    - rewrite elem_of_nil. destruct o; naive_solver.
    - rewrite elem_of_map. split; [intros (c & -> & Hc); apply elem_of_seq in Hc; split; [lia|done]|].
      destruct o; try done. intros [Hc _]. eexists. split; [done|]. apply elem_of_seq. lia. }
  rewrite Hload. clear Hload.
  assert (Hmove : (∃ x, o = Move x ∧ x ∈ filter (λ i, i ≠ rloc s) (seq 0 (nlocs d))) ↔
    match o with Move j => j < nlocs d ∧ j ≠ rloc s | _ => False end).
  { split.
    - intros (j & -> & Hj). apply elem_of_list_filter in Hj as [Hne Hj]. apply elem_of_seq in Hj. split; [lia|done].
    - destruct o; try done. intros [Hj Hne]. eexists. split; [done|]. apply elem_of_list_filter. split; [done|]. apply elem_of_seq. lia. }
  rewrite Hmove. clear. destruct o as [|c [p|]| | | |]; tauto.
Qed.

Lemma enabled_undone d s o : good_drobot d → good_state d s → enabled d s o → ∃ a, undone d s o a.
Proof.
  intros Hd Hs (l & mp & mc & Hl & Hmp & Hmc & Ho). destruct o as [|c [p|]|p|c| |j]; try done.
  - destruct Ho as (Hc & Hp & Hpm). destruct (lookup_lt_is_Some_2 (cranes l) c Hc) as [box Hbox].
    eapply push_undone; try done. intros m Hm. congruence.
  - destruct Ho as (Hp & Hc). destruct (lookup_lt_is_Some_2 (piles l) p Hp) as [st Hst].
    assert (Hne : st ≠ []).
    { intros ->. apply (gl_full l (gs_loc d s Hs _ _ Hl)). by eapply elem_of_list_lookup_2. }
    destruct (exists_last Hne) as (st' & box & ->). eapply pop_undone; try done. intros m Hm. congruence.
  - destruct Ho as (Hc & Hr). destruct (lookup_lt_is_Some_2 (cranes l) c Hc) as [box Hbox]. by eapply load_undone.
  - destruct Ho as ([b Hb] & Hc). eapply unload_undone; try done. intros m Hm. congruence.
  - destruct Ho as (Hj & Hne). by apply move_undone.
Qed.

Lemma edge_state_good d s : good_state d s → ∀ a b,
  good_state d (State (locs s) (boxlocs s) (rbox s) (rloc s) a b (nleft s)).
Proof. intros Hs a b. split; simpl; try apply Hs. Qed.

(** Every operator that is offered can be applied; its effect and its cost are right; the result is
    a good state, in particular its count of misplaced boxes is right; destroying the edge gives
    exactly the state before; and the cost reported for the reverse is the cost of the reverse. *)
Theorem C60_edges_undone d s os o : good_drobot d → good_state d s → operators d s = Some os → o ∈ os →
  ∃ e, mkedge d s o = Some e ∧ unedge d e = Some s ∧
    good_state d (a_state e.1) ∧
    nleft (a_state e.1) = Z.of_nat (length (filter (misplaced d (a_state e.1)) (seq 0 (nboxes d)))) ∧
    effect d s o (a_state e.1) (a_cost e.1) ∧
    ∃ a, apply d (a_state e.1) (a_revop e.1) = Some a ∧ a_cost a = a_revcost e.1.
Proof.
  intros Hd Hs Hos Ho. destruct (C60_operators_exact d s Hd Hs) as (os' & Hos' & Hiff).
  assert (os' = os) as -> by congruence. apply Hiff in Ho.
  destruct (enabled_undone d s o Hd Hs Ho) as (a & Ha & Hg & Heff & _ & a' & Ha' & Hst & Hc).
  unfold mkedge. rewrite Ha. cbn [mbind option_bind]. eexists. split; [done|].
  cbn [fst snd a_state a_cost a_revop a_revcost].
  (* apply does not look at the estimates *)
  assert (Hcache : ∀ t h' d' op a1, apply d t op = Some a1 →
    let t1 := a_state a1 in
    apply d (State (locs t) (boxlocs t) (rbox t) (rloc t) h' d' (nleft t)) op =
      Some (Applied (State (locs t1) (boxlocs t1) (rbox t1) (rloc t1) h' d' (nleft t1)) (a_cost a1) (a_revop a1) (a_revcost a1)) ∧
    sh t1 = sh t ∧ sd t1 = sd t).
  { clear. intros t h' d' op a1 H. revert H. unfold apply, setrbox, setloc; destruct op; cbn [locs boxlocs rbox rloc sh sd nleft]; intros H;
      repeat (case_match; simplify_option_eq); try done; simplify_option_eq; try done.
    all: repeat case_match; simplify_option_eq; try done; eauto. }
  split_and!.
  - unfold unedge. cbn [fst snd a_state a_revop].
    destruct (Hcache (a_state a) None None (a_revop a) a' Ha') as (Hap & Hsh & Hsd). rewrite Hap.
    cbn [mbind option_bind a_state locs boxlocs rbox rloc nleft]. rewrite <-Hsh, <-Hsd, Hst. by destruct s.
  - by apply edge_state_good.
  - apply (gs_left d _ (edge_state_good d _ Hg None None)).
  - clear -Heff. unfold effect, replaced in *. destruct o; cbn [locs rbox rloc] in *; done.
  - destruct (Hcache (a_state a) None None (a_revop a) a' Ha') as (Hap & _). eexists. split; [exact Hap|]. done.
Qed.

(** ** Piles that are not in order *)

(** The binary search over arbitrary keys: the key before the index found is smaller. *)
Lemma bsearch_left ks box l u fuel : u ≤ length ks → l ≤ u →
  ∃ r, bsearch (λ i, mjoin ((Some <$> ks) !! i)) box l u fuel = Some r ∧ l ≤ r ∧
    (r = l ∨ ∃ j k, r = S j ∧ ks !! j = Some k ∧ k < box).
Proof.
  revert l u. induction fuel as [|fuel IH]; intros l u Hu Hl; cbn [bsearch]; [eauto|].
  case_bool_decide as Hlu; [|eauto]. cbv zeta. set (m := (u - l) / 2 + l).
  assert (Hm : l ≤ m < u) by (pose proof (Nat.div_lt (u - l) 2); lia).
  destruct (lookup_lt_is_Some_2 ks m) as [k Hk]; [lia|].
  rewrite list_lookup_fmap, Hk. cbn [fmap option_fmap option_map mjoin option_join id]. cbn [mbind option_bind].
  case_bool_decide.
  - destruct (IH (m + 1) u) as (r & Hr & Hle & Hc); [lia..|]. exists r. split_and!; [done|lia|]. right.
    destruct Hc as [->|?]; [|done]. exists m, k. split_and!; [lia|done|done].
  - destruct (IH l m) as (r & Hr & Hle & Hc); [lia..|]. eauto.
Qed.
(** A key right behind a bigger one is never found. *)
Lemma find_misses ks i a b : NoDup ks → ks !! i = Some a → ks !! S i = Some b → b < a →
  find (Some <$> ks) b = Some None.
Proof.
  intros Hnd Ha Hb Hlt. unfold find. rewrite fmap_length. case_bool_decide; [done|]. cbv zeta.
  destruct (bsearch_left ks b 0 (length ks) (length ks)) as (r & -> & _ & Hc); [lia..|]. cbn [mbind option_bind].
  case_bool_decide as Hr; [|done]. destruct (lookup_lt_is_Some_2 ks r Hr) as [k Hk].
  rewrite list_lookup_fmap, Hk. cbn [fmap option_fmap option_map mjoin option_join id]. cbn [mbind option_bind].
  case_bool_decide as Hkb; [|done]. exfalso. subst k.
  assert (r = S i) as -> by by eapply NoDup_lookup.
  destruct Hc as [|(j & k & Hj & Hk' & Hlt')]; [done|]. assert (j = i) as -> by lia. simplify_eq. lia.
Qed.

(** The piles of a location have distinct bottom boxes, and pile [S i] has a smaller one than the
    pile before it. *)
Definition inversion (ps : list pile) (i : nat) : Prop :=
  [] ∉ ps ∧ NoDup (bottom <$> ps) ∧ ∃ a b, ps !! i = Some a ∧ ps !! S i = Some b ∧ bottom b < bottom a.

Lemma findpile_misses l i st : inversion (piles l) i → piles l !! S i = Some st → findpile l (bottom st) = Some None.
Proof.
  intros (Hne & Hnd & a & b & Ha & Hb & Hlt) Hst. simplify_eq. unfold findpile. rewrite heads_bottoms by done.
  eapply (find_misses _ i); [done|by rewrite list_lookup_fmap, Ha|by rewrite list_lookup_fmap, Hb|done].
Qed.
Lemma inversion_insert ps i st st' : inversion ps i → ps !! S i = Some st → st' ≠ [] → bottom st' = bottom st →
  inversion (<[S i := st']> ps) i.
Proof.
  intros (Hne & Hnd & a & b & Ha & Hb & Hlt) Hst Hst' Heq. simplify_eq. split_and!.
  - intros (j & Hj)%elem_of_list_lookup. destruct (decide (j = S i)) as [->|].
    + rewrite list_lookup_insert in Hj by (by eapply lookup_lt_Some). by simplify_eq.
    + rewrite list_lookup_insert_ne in Hj by done. apply Hne. by eapply elem_of_list_lookup_2.
  - by rewrite (bottoms_insert _ _ b).
  - exists a, st'. rewrite list_lookup_insert_ne by done. rewrite list_lookup_insert by (by eapply lookup_lt_Some).
    by rewrite Heq.
Qed.
Lemma sortpiles_no_inversion ps qs i : sortpiles ps = Some qs → ¬ inversion qs i.
Proof.
  unfold sortpiles. case_bool_decide; [done|]. intros Hqs (_ & _ & a & b & Ha & Hb & Hlt).
  apply (inj Some) in Hqs as <-.
  assert (Htot : Total pile_le) by (intros x y; unfold pile_le; lia).
  assert (Htr : Transitive pile_le) by (intros x y z; unfold pile_le; lia).
  pose proof (StronglySorted_merge_sort pile_le ps) as Hs. revert i Ha Hb.
  induction Hs as [|x l Hs IH Hall]; intros i; [done|]. destruct i as [|i]; simpl.
  - intros [= ->] Hb. rewrite Forall_forall in Hall. apply elem_of_list_lookup_2 in Hb. specialize (Hall b Hb).
    unfold pile_le in Hall. lia.
  - apply IH.
Qed.

(** Pushing onto a pile that is out of order always aborts, although it is offered. *)
Theorem C62_unsorted_push_aborts d s l mp mc i c : 
  locs s !! rloc s = Some l → maxpiles d !! rloc s = Some mp → maxcranes d !! rloc s = Some mc →
  inversion (piles l) i → S i < mp → c < length (cranes l) →
  (∃ os, operators d s = Some os ∧ Push c (Some (S i)) ∈ os) ∧ mkedge d s (Push c (Some (S i))) = None.
Proof.
  intros Hl Hmp Hmc Hinv Hi Hc. pose proof Hinv as (Hne & Hnd & a & b & Ha & Hb & Hlt). split.
  - unfold operators. rewrite Hl, Hmp, Hmc. cbn [mbind option_bind]. eexists. split; [done|].
    apply elem_of_app. left. apply elem_of_flat_map. exists c. split; [apply elem_of_seq; lia|].
    apply elem_of_map. eexists. split; [done|]. apply elem_of_seq. apply lookup_lt_Some in Hb. case_bool_decide; lia.
  - unfold mkedge, apply. rewrite Hl. cbn [mbind option_bind].
    destruct (rmcrane l c) as [[box l1]|] eqn:Hrm; [|done]. cbn [mbind option_bind].
    assert (Hp1 : piles l1 = piles l).
    { unfold rmcrane in Hrm. destruct (cranes l !! c); [|done]. cbn [mbind option_bind] in Hrm.
      destruct (rmswap c (cranes l)); [|done]. cbn [mbind option_bind] in Hrm. by simplify_eq. }
    unfold push. cbn [mbind option_bind]. rewrite Hp1, Hb. cbn [mbind option_bind].
    destruct (head b) as [bot|] eqn:Hh; [|done]. cbn [mbind option_bind].
    assert (Hbot : bottom b = bot) by (unfold bottom; by rewrite Hh).
    assert (Hb' : bottom (b ++ [box]) = bottom b) by (by destruct b).
    rewrite <-Hbot, <-Hb'.
    rewrite (findpile_misses (Loc (cranes l1) (<[S i:=b ++ [box]]> (piles l))) i).
    + done.
    + simpl. eapply inversion_insert; [done|done|by destruct b|done].
    + simpl. apply list_lookup_insert. by eapply lookup_lt_Some.
Qed.

(** Popping such a pile is offered, and whatever it does is not undone. *)
Theorem C62_unsorted_pop_not_undone d s l mp mc i :
  locs s !! rloc s = Some l → maxpiles d !! rloc s = Some mp → maxcranes d !! rloc s = Some mc →
  inversion (piles l) i → length (cranes l) < mc →
  (∃ os, operators d s = Some os ∧ Pop (S i) ∈ os) ∧
  ∀ e, mkedge d s (Pop (S i)) = Some e → unedge d e ≠ Some s.
Proof.
  intros Hl Hmp Hmc Hinv Hc. pose proof Hinv as (Hne & Hnd & a & b & Ha & Hb & Hlt). split.
  { unfold operators. rewrite Hl, Hmp, Hmc. cbn [mbind option_bind]. eexists. split; [done|].
    apply elem_of_app. right. apply elem_of_app. left. rewrite bool_decide_true by done. apply elem_of_app. left.
    apply elem_of_map. eexists. split; [done|]. apply elem_of_seq. apply lookup_lt_Some in Hb. lia. }
  intros e. assert (Hnb : b ≠ []).
  { intros ->. apply Hne. by eapply elem_of_list_lookup_2. }
  destruct (exists_last Hnb) as (st & box & ->).
  unfold mkedge, apply. rewrite Hl. cbn [mbind option_bind]. rewrite Hb. cbn [mbind option_bind].
  destruct (head (st ++ [box])) as [bot|] eqn:Hh; [|done]. cbn [mbind option_bind].
  assert (Hbot : bottom (st ++ [box]) = bot) by (unfold bottom; by rewrite Hh).
  (* undoing inserts a new pile in both cases *)
  assert (Hend : ∀ (l1 : loc) (cr : nat) (q : option nat) (s1 s2 : state) e2 cc rc,
    s1 = setloc s l1 → q ≫= (λ p, piles l1 !! p) = None →
    unedge d (Applied (State (locs s1) (boxlocs s1) (rbox s1) (rloc s1) None None (nleft s1)) cc (Push cr q) rc, e2) = Some s2 →
    s2 ≠ s).
  { intros l1 cr q s1 s2 e2 cc rc -> Hq. unfold unedge. cbn [fst snd a_state a_revop].
    unfold apply, setloc. cbn [locs rloc boxlocs rbox sh sd nleft].
    rewrite list_lookup_insert by (by eapply lookup_lt_Some). cbn [mbind option_bind].
    destruct (rmcrane l1 cr) as [[box' l2]|] eqn:Hrm; [|done]. cbn [mbind option_bind].
    assert (Hp1 : piles l2 = piles l1).
    { unfold rmcrane in Hrm. destruct (cranes l1 !! cr); [|done]. cbn [mbind option_bind] in Hrm.
      destruct (rmswap cr (cranes l1)); [|done]. cbn [mbind option_bind] in Hrm. by simplify_eq. }
    rewrite Hp1. rewrite Hq. cbn [mbind option_bind].
    assert (Hpush : push l2 box' q = (ps ← sortpiles (piles l2 ++ [[box']]); Some (Loc (cranes l2) ps))).
    { unfold push. destruct q as [p|]; [|done]. cbn [mbind option_bind] in *. rewrite Hp1, Hq. done. }
    rewrite Hpush. destruct (sortpiles (piles l2 ++ [[box']])) as [qs|] eqn:Hqs; [|done]. cbn [mbind option_bind].
    destruct (findpile _ box') as [[x|]|]; [|done..]. cbn [mbind option_bind a_state locs].
    intros Hs2 ->. pose proof (lookup_lt_Some _ _ _ Hl) as Hlen.
    apply (inj Some), (f_equal locs) in Hs2. cbn [locs] in Hs2. rewrite <-Hs2 in Hl.
    rewrite list_insert_insert, list_lookup_insert in Hl by done.
    apply (inj Some) in Hl. subst l. by eapply sortpiles_no_inversion. }
  destruct (pop l (S i)) as [[box' l1]|] eqn:Hpop; [|done]. cbn [mbind option_bind].
  destruct (findcrane (addcrane l1 box') box') as [[cr|]|]; [|done..]. cbn [mbind option_bind].
  destruct (bool_decide_reflect (length (st ++ [box]) = 1)) as [Hsz|Hsz].
  - cbn [mbind option_bind a_state a_cost a_revop a_revcost]. intros He. apply (inj Some) in He as <-. intros Hu.
    eapply Hend; [done| |exact Hu|done]. cbn [mbind option_bind]. by apply lookup_ge_None.
  - assert (Hst : st ≠ []) by (intros ->; done).
    assert (Hpl : piles l1 = <[S i := st]> (piles l)).
    { revert Hpop. unfold pop. rewrite Hb. cbn [mbind option_bind]. rewrite last_snoc. cbn [mbind option_bind].
      rewrite removelast_last. destruct st; [done|]. cbn [mbind option_bind]. intros Hpop. by simplify_eq. }
    assert (Hmiss : findpile (addcrane l1 box') bot = Some None).
    { rewrite <-Hbot. assert (Heq : bottom (st ++ [box]) = bottom st) by (by destruct st). rewrite Heq.
      apply (findpile_misses _ i); simpl; rewrite Hpl.
      - by eapply inversion_insert.
      - apply list_lookup_insert. by eapply lookup_lt_Some. }
    rewrite Hmiss. cbn [mbind option_bind a_state a_cost a_revop a_revcost].
    intros He. apply (inj Some) in He as <-. intros Hu. eapply Hend; [done| |exact Hu|done]. done.
Qed.

(** ** New states *)

(** Boxes with their locations, in the order in which the constructor of State visits them. *)
Fixpoint pairs (i : nat) (ls : list loc) : list (nat * nat) :=
  match ls with
  | [] => []
  | x :: ls => (pair i <$> boxes_of x) ++ pairs (S i) ls
  end.
Lemma placelocs_pairs d i ls acc :
  placelocs d i ls acc = foldl (λ acc ib, place d ib.1 acc ib.2) acc (pairs i ls).
Proof.
  revert i acc. induction ls as [|x ls IH]; intros i acc; [done|]. cbn [placelocs pairs]. rewrite IH.
  fold (boxes_of x). rewrite (foldl_app _ (pair i <$> boxes_of x)). apply (f_equal (λ a, foldl _ a _)).
  generalize (boxes_of x). intros bs. revert acc.
  induction bs as [|b bs IHb]; intros acc; [done|]. simpl. apply IHb.
Qed.
Lemma pairs_elem i ls j b : (j, b) ∈ pairs i ls ↔ ∃ k x, ls !! k = Some x ∧ j = i + k ∧ b ∈ boxes_of x.
Proof.
  revert i. induction ls as [|x ls IH]; intros i; simpl.
  { rewrite elem_of_nil. split; [done|]. by intros (? & ? & ? & _). }
  rewrite elem_of_app, elem_of_list_fmap, IH. split.
  - intros [(b' & [= -> ->] & Hb)|(k & y & Hk & -> & Hb)].
    + exists 0, x. split_and!; [done|lia|done].
    + exists (S k), y. split_and!; [done|lia|done].
  - intros ([|k] & y & Hk & -> & Hb); simpl in Hk.
    + left. simplify_eq. exists b. rewrite Nat.add_0_r. done.
    + right. exists k, y. split_and!; [done|lia|done].
Qed.
Lemma pairs_boxes i ls : (pairs i ls).*2 = concat (boxes_of <$> ls).
Proof.
  revert i. induction ls as [|x ls IH]; intros i; [done|]. simpl. rewrite fmap_app, IH. f_equal.
  rewrite <-list_fmap_compose. rewrite <-(list_fmap_id (boxes_of x)) at 2. by apply list_fmap_ext.
Qed.

Definition astray (d : drobot) (ib : nat * nat) : Prop := ∃ g, goal d !! ib.2 = Some (Some g) ∧ g ≠ ib.1.
Global Instance astray_dec d ib : Decision (astray d ib).
Proof.
  unfold astray. destruct (goal d !! ib.2) as [[g|]|] eqn:E; [|right; naive_solver..].
  destruct (decide (g = ib.1)); [right; naive_solver|left; eauto].
Defined.
Lemma places_spec d (ps : list (nat * nat)) bl n : length (goal d) = nboxes d → length bl = nboxes d →
  NoDup ps.*2 → (∀ b, b ∈ ps.*2 → b < nboxes d) →
  ∃ bl', foldl (λ acc ib, place d ib.1 acc ib.2) (Some (bl, n)) ps =
      Some (bl', n + Z.of_nat (length (filter (astray d) ps)))%Z ∧
    length bl' = nboxes d ∧ (∀ i b, (i, b) ∈ ps → bl' !! b = Some i) ∧ (∀ b, b ∉ ps.*2 → bl' !! b = bl !! b).
Proof.
  intros Hg. revert bl n. induction ps as [|[i b] ps IH]; intros bl n Hbl Hnd Hr.
  { exists bl. simpl. split_and!; [f_equal; f_equal; lia|done| |done]. intros ? ? ?%elem_of_nil. done. }
  rewrite fmap_cons in Hnd, Hr. simpl in Hnd, Hr. apply NoDup_cons in Hnd as [Hb Hnd].
  assert (Hlt : b < nboxes d) by (apply Hr; left).
  cbn [foldl fst snd]. destruct (lookup_lt_is_Some_2 (goal d) b) as [g Hgb]; [lia|].
  assert (Hplace : place d i (Some (bl, n)) b = Some (<[b := i]> bl, n + (if decide (astray d (i, b)) then 1 else 0))%Z).
  { unfold place. cbn [mbind option_bind]. rewrite Hgb. cbn [mbind option_bind]. rewrite bool_decide_true by lia.
    f_equal. f_equal. destruct (decide (astray d (i, b))) as [(g' & Hg' & Hne)|Hno]; simpl in *.
    - simplify_eq. by rewrite bool_decide_true.
    - destruct g as [g|]; [|lia]. case_bool_decide as Hne; [|lia]. exfalso. apply Hno. exists g. done. }
  rewrite Hplace. destruct (IH (<[b := i]> bl) (n + (if decide (astray d (i, b)) then 1 else 0))%Z) as (bl' & -> & Hlen & Hin & Hout).
  { by rewrite insert_length. } { done. } { intros b' ?. apply Hr. by right. }
  exists bl'. split_and!; [|done| |].
  - f_equal. f_equal. rewrite filter_cons. destruct (decide (astray d (i, b))); simpl length; lia.
  - intros j c [[= -> ->]|Hjc]%elem_of_cons; [|by apply Hin].
    rewrite Hout by done. apply list_lookup_insert. lia.
  - intros c Hc. rewrite fmap_cons in Hc. apply not_elem_of_cons in Hc as [Hne Hc]. simpl in Hne. rewrite Hout by done.
    by rewrite list_lookup_insert_ne.
Qed.

(** The contents of a state fit the instance. *)
Record fits (d : drobot) (ls : list loc) (rb : option nat) (rl : nat) : Prop := {
  ft_locs : length ls = nlocs d;
  ft_rloc : rl < nlocs d;
  ft_full i l : ls !! i = Some l → [] ∉ piles l;
  ft_mc i l m : ls !! i = Some l → maxcranes d !! i = Some m → length (cranes l) ≤ m;
  ft_mp i l m : ls !! i = Some l → maxpiles d !! i = Some m → length (piles l) ≤ m;
  ft_boxes : concat (boxes_of <$> ls) ++ obox rb ≡ₚ seq 0 (nboxes d);
}.
Lemma mkstate_spec d ls rb rl : good_drobot d → fits d ls rb rl →
  ∃ bl, let s := State ls bl rb rl None None (Z.of_nat (length (filter (misplaced d (State ls [] rb rl None None 0)) (seq 0 (nboxes d))))) in
    mkstate d ls rb rl = Some s ∧ length bl = nboxes d ∧ ∀ b l, located s b l → bl !! b = Some l.
Proof.
  intros Hd Hf. set (ps := pairs 0 ls ++ (pair rl <$> obox rb)).
  assert (Hps : ps.*2 ≡ₚ seq 0 (nboxes d)).
  { unfold ps. rewrite fmap_app, pairs_boxes. rewrite <-(ft_boxes _ _ _ _ Hf). destruct rb; done. }
  destruct (places_spec d ps (replicate (nboxes d) (nlocs d + 1)) 0) as (bl & Hfold & Hlen & Hin & _).
  { apply Hd. } { apply replicate_length. } { rewrite Hps. apply NoDup_seq. }
  { intros b. rewrite Hps. rewrite elem_of_seq. lia. }
  assert (Hloc : ∀ b l z bl', located (State ls bl' rb rl None None z) b l ↔ (l, b) ∈ ps).
  { intros b l z bl'. unfold ps. rewrite elem_of_app, pairs_elem. unfold located. cbn [locs rbox rloc]. f_equiv.
    - split; [intros (x & Hx & Hb); exists l, x; done|intros (k & x & Hx & -> & Hb); eauto].
    - rewrite elem_of_list_fmap. split.
      + intros [-> ->]. exists b. split; [done|]. by apply elem_obox.
      + intros (b' & [= -> ->] & Hb). by apply elem_obox in Hb. }
  exists bl. cbv zeta. split_and!; [|done|].
  - unfold mkstate. rewrite placelocs_pairs.
    assert (Hcnt : length (filter (misplaced d (State ls [] rb rl None None 0)) (seq 0 (nboxes d))) = length (filter (astray d) ps)).
    { transitivity (length (filter (misplaced d (State ls [] rb rl None None 0)) ps.*2)).
      { by rewrite Hps. }
      assert (Huniq : NoDup ps.*2) by (rewrite Hps; apply NoDup_seq).
      assert (Hext : ∀ ib, ib ∈ ps → misplaced d (State ls [] rb rl None None 0) ib.2 ↔ astray d ib).
      { intros [i b] Hib. unfold misplaced, astray. simpl. split; intros (g & Hg & Hn); exists g; (split; [done|]).
        - intros ->. apply Hn. by apply Hloc.
        - intros Hl. apply Hloc in Hl. apply Hn.
          apply elem_of_list_lookup in Hib as [k1 Hk1]. apply elem_of_list_lookup in Hl as [k2 Hk2].
          assert (k1 = k2) as <-.
          { eapply (NoDup_lookup _ _ _ b Huniq); rewrite list_lookup_fmap; [by rewrite Hk1|by rewrite Hk2]. }
          congruence. }
      clear -Hext. induction ps as [|[i b] ps IH]; [done|]. rewrite fmap_cons, !filter_cons. cbn [snd].
      assert (Hib := Hext (i, b) ltac:(left)). simpl in Hib.
      specialize (IH ltac:(intros ??; apply Hext; by right)).
      destruct (decide (misplaced _ _ b)), (decide (astray d (i, b))); simpl; try tauto; lia. }
    rewrite Hcnt. unfold ps in Hfold. rewrite foldl_app in Hfold. destruct rb as [b|]; simpl in Hfold |- *; rewrite Hfold; cbn [mbind option_bind]; do 2 f_equal.
  - intros b l Hl. apply Hin. by apply Hloc in Hl.
Qed.

(** A new state with its cranes and piles in order is good. *)
Theorem C60_new_state_good d ls rb rl : good_drobot d → fits d ls rb rl →
  (∀ i l, ls !! i = Some l → crane_order (cranes l) ∧ pile_order (piles l)) →
  ∃ s, mkstate d ls rb rl = Some s ∧ good_state d s ∧ locs s = ls ∧ rbox s = rb ∧ rloc s = rl.
Proof.
  intros Hd Hf Hord. destruct (mkstate_spec d ls rb rl Hd Hf) as (bl & Hmk & Hlen & Hbl).
  eexists. split; [done|]. split; [|done]. split; cbn [locs rloc boxlocs nleft].
  - apply Hf. - apply Hf.
  - intros i l Hl. destruct (Hord i l Hl). split; [done|done|]. by eapply ft_full.
  - apply Hf. - apply Hf.
  - unfold all_boxes. cbn [locs rbox]. apply Hf.
  - done.
  - intros b g l _ Hl. by apply Hbl.
  - done.
Qed.

(** ** Examples *)

(** Two locations at distance 3, three boxes; box 0 has to go to location 1. *)
Definition ex_d : drobot := Drobot 100 2 3 [2; 2] [1; 1] [[None; Some 3]; [Some 3; None]]%Z [Some 1; None; None].
Definition ex_l : list loc := [Loc [] [[0; 2]; [1]]; Loc [] []].
Lemma ex_d_good : good_drobot ex_d.
Proof.
  split; try done.
  - intros i r Hr. do 2 (destruct i as [|i]; [by simplify_eq/=|]). done.
  - intros b g Hg. destruct b as [|b]; simplify_eq/=; [lia|]. by do 3 (destruct b as [|b]; simplify_eq/=).
Qed.
Lemma ex_fits : fits ex_d ex_l None 0.
Proof.
  split; simpl; try done; try lia.
  - intros i l Hl. do 2 (destruct i as [|i]; [simplify_eq/=; rewrite ?elem_of_cons, ?elem_of_nil; naive_solver|]). done.
  - intros i l m Hl Hm. do 2 (destruct i as [|i]; [simplify_eq/=; lia|]). done.
  - intros i l m Hl Hm. do 2 (destruct i as [|i]; [simplify_eq/=; lia|]). done.
  - change ([0; 2; 1] ≡ₚ [0; 1; 2]). apply perm_skip, perm_swap.
Qed.
Example ex_start : ∃ s os, mkstate ex_d ex_l None 0 = Some s ∧ good_state ex_d s ∧ nleft s = 1%Z ∧
  operators ex_d s = Some os ∧ os = [Pop 0; Pop 1; Move 1].
Proof.
  destruct (C60_new_state_good ex_d ex_l None 0 ex_d_good ex_fits) as (s & Hs & Hg & _).
  { intros i l Hl. do 2 (destruct i as [|i]; [simplify_eq/=; split; repeat constructor|]). done. }
  vm_compute in Hs. simplify_eq. eexists _, _. split; [done|]. split; [done|]. split; [done|]. by vm_compute.
Qed.

(** The same piles in the other order: popping the second one is not undone, and with a box in the
    crane pushing onto it aborts. *)
Definition ex_u : list loc := [Loc [] [[1]; [0; 2]]; Loc [] []].
Example ex_unsorted : ∃ s, initialstate ex_d ex_u = Some s ∧
  (∃ l, locs s !! rloc s = Some l ∧ inversion (piles l) 0) ∧
  (∃ e s', mkedge ex_d s (Pop 1) = Some e ∧ unedge ex_d e = Some s' ∧
    locs s' !! 0 = Some (Loc [] [[0]; [1]; [2]])) .
Proof.
  eexists. split; [by vm_compute|]. split.
  - eexists. split; [done|]. split_and!.
    + simpl. rewrite !elem_of_cons, elem_of_nil. naive_solver.
    + vm_compute. repeat constructor; rewrite ?elem_of_cons, ?elem_of_nil; naive_solver.
    + eexists _, _. split; [done|]. split; [done|]. vm_compute. lia.
  - eexists _, _. split; [by vm_compute|]. split; [by vm_compute|]. by vm_compute.
Qed.
Example ex_unsorted_push : ∃ s l, mkstate ex_d [Loc [2] [[1]; [0]]; Loc [] []] None 0 = Some s ∧
  locs s !! rloc s = Some l ∧ inversion (piles l) 0 ∧ mkedge ex_d s (Push 0 (Some 1)) = None.
Proof.
  eexists _, _. split; [by vm_compute|]. split; [done|]. split; [split_and!|by vm_compute].
  - simpl. rewrite !elem_of_cons, elem_of_nil. naive_solver.
  - vm_compute. repeat constructor; rewrite ?elem_of_cons, ?elem_of_nil; naive_solver.
  - eexists _, _. split; [done|]. split; [done|]. vm_compute. lia.
Qed.

Print Assumptions C60_operators_exact.
Print Assumptions C60_edges_undone.
Print Assumptions C60_new_state_good.
Print Assumptions C62_unsorted_push_aborts.
Print Assumptions C62_unsorted_pop_not_undone.
