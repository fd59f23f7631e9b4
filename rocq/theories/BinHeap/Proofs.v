(** Lemmas about the binary heap model. *)
From stdpp Require Import prelude fin_maps gmap.
From Coq Require Import ZArith Lia ZifyBool ZifyNat.
From Verif.BinHeap Require Import Model.
Ltac Zify.zify_post_hook ::= Z.div_mod_to_equations.

Arguments fuel : simpl never.

Section Proofs.
  Context {K : Type} (lt : K → K → bool).
  Hypothesis lt_asym : ∀ a b, lt a b = true → lt b a = false.
  Hypothesis nlt_trans : ∀ a b c, lt b a = false → lt c b = false → lt c a = false.

  Notation heap := (heap K).
  Implicit Types (h : heap) (l : list nat).

  Lemma lt_irrefl a : lt a a = false.
  Proof. destruct (lt a a) eqn:E; [|done]. by rewrite (lt_asym _ _ E) in E. Qed.

  (** [nle key l c p]: the element at [c] does not precede the one at [p]. *)
  Definition ok (key : nat → K) l (c p : nat) :=
    ∀ a b, l !! c = Some a → l !! p = Some b → lt (key a) (key b) = false.

  Definition ordered (k : nat) h :=
    ∀ j, j ≠ 0 → k ≤ parent j → ok (key h) (arr h) j (parent j).

  Lemma parent_lt j : j ≠ 0 → parent j < j.
  Proof. unfold parent. lia. Qed.
  Lemma parent_inv i j : j ≠ 0 → parent j = i → j = left i ∨ j = right i.
  Proof. unfold parent, left, right. lia. Qed.
  Lemma parent_left i : parent (left i) = i.
  Proof. unfold parent, left. lia. Qed.
  Lemma parent_right i : parent (right i) = i.
  Proof. unfold parent, right. lia. Qed.

  (** *** swap *)
  Record swapped h h' (i j : nat) (a b : nat) : Prop := {
    sw_a : arr h !! i = Some a;
    sw_b : arr h !! j = Some b;
    sw_len : length (arr h') = length (arr h);
    sw_key : key h' = key h;
    sw_i : arr h' !! i = Some b;
    sw_j : arr h' !! j = Some a;
    sw_o : ∀ x, x ≠ i → x ≠ j → arr h' !! x = arr h !! x;
    sw_ind : ∀ x, ind h' x = if decide (x = b) then Z.of_nat i
                             else if decide (x = a) then Z.of_nat j else ind h x }.

  Lemma swap_spec h i j :
    i ≠ j → i < length (arr h) → j < length (arr h) →
    ∃ h' a b, swap h i j = Some h' ∧ swapped h h' i j a b.
  Proof.
    intros Hij Hi Hj.
    destruct (lookup_lt_is_Some_2 _ _ Hi) as [a Ha].
    destruct (lookup_lt_is_Some_2 _ _ Hj) as [b Hb].
    unfold swap. rewrite Ha, Hb. simpl.
    eexists _, a, b. split; [done|].
    split; simpl; try done.
    - by rewrite !insert_length.
    - rewrite list_lookup_insert_ne by done. by rewrite list_lookup_insert by done.
    - by rewrite list_lookup_insert by (rewrite insert_length; done).
    - intros x ??. by rewrite !list_lookup_insert_ne by done.
  Qed.

  Lemma swapped_perm h h' i j a b : i ≠ j → swapped h h' i j a b → arr h' ≡ₚ arr h.
  Proof.
    intros Hij [Ha Hb Hlen _ Hi Hj Ho _].
    apply Permutation_inj. split; [done|].
    exists (λ x, if decide (x = i) then j else if decide (x = j) then i else x).
    split.
    - intros x y. repeat case_decide; congruence.
    - intros x. repeat case_decide; subst; [congruence..|by apply Ho].
  Qed.

  (** Index exactness. *)
  Definition exact h :=
    NoDup (arr h) ∧ ∀ i e, arr h !! i = Some e → ind h e = Z.of_nat i.
  (** Frame: elements not stored in the heap keep their index field. *)
  Definition frame h h' := ∀ e, e ∉ arr h → ind h' e = ind h e.

  Lemma swapped_exact h h' i j a b :
    i ≠ j → swapped h h' i j a b → exact h → exact h'.
  Proof.
    intros Hij Hs [Hnd Hex].
    pose proof (swapped_perm _ _ _ _ _ _ Hij Hs) as HP.
    destruct Hs as [Ha Hb Hlen _ Hi Hj Ho Hind].
    split; [by rewrite HP|].
    intros x e He. rewrite Hind.
    assert (NoDup (arr h')) as Hnd' by by rewrite HP.
    repeat case_decide; subst.
    - f_equal. eapply NoDup_lookup; [exact Hnd'| |]; done.
    - f_equal. eapply NoDup_lookup; [exact Hnd'| |]; done.
    - apply Hex. destruct (decide (x = i)) as [->|]; [congruence|].
      destruct (decide (x = j)) as [->|]; [congruence|].
      by rewrite <-Ho.
  Qed.

  Lemma swapped_frame h h' i j a b : swapped h h' i j a b → frame h h'.
  Proof.
    intros [Ha Hb _ _ _ _ _ Hind] e He. rewrite Hind.
    apply elem_of_list_lookup_2 in Ha, Hb.
    repeat case_decide; subst; done.
  Qed.

  Lemma frame_trans h1 h2 h3 :
    arr h2 ≡ₚ arr h1 → frame h1 h2 → frame h2 h3 → frame h1 h3.
  Proof. intros HP H1 H2 e He. rewrite H2, H1; [done..|by rewrite HP]. Qed.

  (** Everything a rearrangement preserves. *)
  Record rearr h h' : Prop := {
    ra_perm : arr h' ≡ₚ arr h;
    ra_key : key h' = key h;
    ra_exact : exact h → exact h';
    ra_frame : frame h h' }.

  Lemma rearr_refl h : rearr h h.
  Proof. by split. Qed.
  Lemma rearr_trans h1 h2 h3 : rearr h1 h2 → rearr h2 h3 → rearr h1 h3.
  Proof.
    intros [P1 K1 E1 F1] [P2 K2 E2 F2]. split.
    - by rewrite P2.
    - congruence.
    - auto.
    - by eapply frame_trans.
  Qed.
  Lemma rearr_len h h' : rearr h h' → length (arr h') = length (arr h).
  Proof. intros [P _ _ _]. by apply Permutation_length. Qed.

  Lemma swapped_rearr h h' i j a b : i ≠ j → swapped h h' i j a b → rearr h h'.
  Proof.
    intros Hij Hs. split.
    - by eapply swapped_perm.
    - by apply Hs.
    - by eapply swapped_exact.
    - by eapply swapped_frame.
  Qed.

  (** *** pushdown *)
  (** All parent/child pairs with parent at or after [k] are in order, except
      those whose parent is [i]; and the children of [i] may be moved under the
      parent of [i]. *)
  Definition down_inv (k : nat) h (i : nat) :=
    (∀ j, j ≠ 0 → k ≤ parent j → parent j ≠ i → ok (key h) (arr h) j (parent j)) ∧
    (∀ c, i ≠ 0 → k ≤ parent i → c ≠ 0 → parent c = i → ok (key h) (arr h) c (parent i)).

  Lemma ordered_down_inv k h i : ordered k h → down_inv k h i.
  Proof.
    intros Ho. split; [intros j ?? _; by apply Ho|].
    intros c Hi Hk Hc <- a b Ha Hb.
    destruct (arr h !! parent c) as [m|] eqn:Hm.
    - eapply nlt_trans; [eapply (Ho (parent c)); done|].
      eapply (Ho c); [done| |done..].
      pose proof (parent_lt (parent c) Hi). lia.
    - apply lookup_ge_None in Hm. apply lookup_lt_Some in Ha.
      pose proof (parent_lt c Hc). lia.
  Qed.

  Lemma down_step k h h' i s a b :
    s = left i ∨ s = right i →
    down_inv k h i →
    swapped h h' s i a b →
    lt (key h a) (key h b) = true →
    (∀ t c, t = left i ∨ t = right i → arr h !! t = Some c → lt (key h c) (key h a) = false) →
    down_inv k h' s.
  Proof.
    intros Hs [HA HB] [Ha Hb Hlen Hkey Hi Hj Ho _] Hlt Hmin.
    assert (s ≠ i) by (unfold left, right in Hs; lia).
    assert (s ≠ 0) by (unfold left, right in Hs; lia).
    assert (parent s = i) as Hps by (destruct Hs as [-> | ->]; auto using parent_left, parent_right).
    assert (∀ j, j ≠ 0 → k ≤ parent j → parent j ≠ s → ok (key h') (arr h') j (parent j)) as HA'.
    { intros j Hj0 Hk Hpj x y Hx Hy. rewrite Hkey.
      pose proof (parent_lt j Hj0).
      destruct (decide (j = s)) as [->|].
      { rewrite Hps in Hy. simplify_eq. by apply lt_asym. }
      destruct (decide (parent j = i)) as [Hpi|Hpi].
      { rewrite Hpi in Hy.
        assert (j ≠ i) by lia.
        rewrite Hj in Hy. injection Hy as <-.
        rewrite Ho in Hx by done.
        eapply Hmin; [|exact Hx]. by apply parent_inv. }
      destruct (decide (j = i)) as [->|].
      { rewrite Hj in Hx. injection Hx as <-.
        rewrite Ho in Hy by (lia || done).
        eapply (HB s); eauto. }
      rewrite Ho in Hx by done. rewrite Ho in Hy by done.
      eapply HA; eauto. }
    split; [done|].
    intros c Hs0 Hk Hc Hpc x y Hx Hy. rewrite Hps in Hy.
    assert (y = a) as -> by congruence.
    pose proof (parent_lt c Hc).
    pose proof (parent_lt s Hs0).
    assert (c ≠ i) by lia.
    rewrite Ho in Hx by lia. rewrite Hkey.
    eapply (HA c Hc); [| |done|]; rewrite ?Hpc; [lia|done|done].
  Qed.

  Lemma pushdown_spec k n h i :
    length (arr h) - i < n → i < length (arr h) →
    down_inv k h i →
    ∃ h' i', pushdown lt n h i = Some (h', i') ∧ rearr h h' ∧ ordered k h'.
  Proof.
    revert h i. induction n as [|n IH]; intros h i Hn Hi Hinv; [lia|].
    simpl.
    destruct (lookup_lt_is_Some_2 _ _ Hi) as [x Hx].
    destruct (decide (left i < length (arr h))) as [Hl|Hl].
    2:{ simpl. rewrite decide_False by (unfold left, right in *; lia). simpl.
        rewrite decide_True by done.
        eexists _, _. split; [done|]. split; [apply rearr_refl|].
        intros j Hj Hk. destruct (decide (parent j = i)) as [Hp|Hp].
        - intros a b Ha. apply lookup_lt_Some in Ha.
          apply parent_inv in Hp; [|done]. unfold left, right in *. lia.
        - by apply Hinv. }
    destruct (lookup_lt_is_Some_2 _ _ Hl) as [y Hy].
    rewrite Hx, Hy. simpl.
    set (s1 := if pred lt h y x then left i else i).
    assert (∃ v1, arr h !! s1 = Some v1 ∧
              (s1 = i ∨ s1 = left i) ∧
              (s1 = i → lt (key h y) (key h x) = false) ∧
              (s1 ≠ i → lt (key h v1) (key h x) = true) ∧
              lt (key h y) (key h v1) = false ∧
              lt (key h x) (key h v1) = false) as (v1 & Hv1 & Hs1 & Hs1i & Hs1n & Hyv & Hxv).
    { subst s1. unfold pred. destruct (lt (key h y) (key h x)) eqn:E.
      - exists y. repeat split; eauto using lt_irrefl. unfold left. lia.
      - exists x. repeat split; eauto using lt_irrefl. }
    destruct (decide (right i < length (arr h))) as [Hr|Hr]; simpl.
    - destruct (lookup_lt_is_Some_2 _ _ Hr) as [z Hz].
      rewrite Hz, Hv1. simpl.
      set (s2 := if pred lt h z v1 then right i else s1).
      assert (∃ v2, arr h !! s2 = Some v2 ∧
              (s2 = i ∨ s2 = left i ∨ s2 = right i) ∧
              (s2 = i → lt (key h y) (key h x) = false ∧ lt (key h z) (key h x) = false) ∧
              (s2 ≠ i → lt (key h v2) (key h x) = true) ∧
              lt (key h y) (key h v2) = false ∧
              lt (key h z) (key h v2) = false) as (v2 & Hv2 & Hs2 & Hs2i & Hs2n & Hyv2 & Hzv2).
      { subst s2. unfold pred. destruct (lt (key h z) (key h v1)) eqn:E.
        - exists z. split_and!; [done|tauto|unfold right; lia| | |apply lt_irrefl].
          + intros _. destruct (lt (key h z) (key h x)) eqn:E2; [done|].
            pose proof (nlt_trans _ _ _ Hxv E2). congruence.
          + eapply nlt_trans; [|exact Hyv]. by apply lt_asym.
        - exists v1. split_and!; [done|tauto| |done|done|done].
          intros He. split; [by apply Hs1i|].
          by assert (v1 = x) as -> by congruence. }
      destruct (decide (s2 = i)) as [He|Hne].
      + eexists _, _. split; [done|]. split; [apply rearr_refl|].
        destruct (Hs2i He) as [Hyx Hzx].
        intros j Hj Hk. destruct (decide (parent j = i)) as [Hp|Hp]; [|by apply Hinv].
        intros a b Ha Hb. rewrite Hp in Hb.
        apply parent_inv in Hp as [-> | ->]; simplify_eq; done.
      + destruct (swap_spec h s2 i) as (h' & a & b & Hsw & Hsd);
          [done|by eapply lookup_lt_Some|done|].
        rewrite Hsw. simpl.
        pose proof (sw_a _ _ _ _ _ _ Hsd) as Ha. pose proof (sw_b _ _ _ _ _ _ Hsd) as Hb.
        assert (a = v2) as -> by congruence. assert (b = x) as -> by congruence.
        pose proof (swapped_rearr _ _ _ _ _ _ Hne Hsd) as Hra.
        destruct (IH h' s2) as (h'' & i'' & Hp & Hra' & Hord).
        * rewrite (rearr_len _ _ Hra). unfold left, right in *.
          apply lookup_lt_Some in Hv2. lia.
        * rewrite (rearr_len _ _ Hra). by eapply lookup_lt_Some.
        * eapply down_step; [| |exact Hsd| |]; [tauto|done|by apply Hs2n|].
          intros t c [-> | ->] Hc; simplify_eq; done.
        * eexists _, _. split; [exact Hp|]. split; [|done]. by eapply rearr_trans.
    - destruct (decide (s1 = i)) as [He|Hne].
      + eexists _, _. split; [done|]. split; [apply rearr_refl|].
        intros j Hj Hk. destruct (decide (parent j = i)) as [Hp|Hp]; [|by apply Hinv].
        intros a b Ha Hb. rewrite Hp in Hb.
        apply parent_inv in Hp as [-> | ->]; [| |done].
        * simplify_eq. by apply Hs1i.
        * apply lookup_lt_Some in Ha. lia.
      + destruct (swap_spec h s1 i) as (h' & a & b & Hsw & Hsd);
          [done|by eapply lookup_lt_Some|done|].
        rewrite Hsw. simpl.
        pose proof (sw_a _ _ _ _ _ _ Hsd) as Ha. pose proof (sw_b _ _ _ _ _ _ Hsd) as Hb.
        assert (a = v1) as -> by congruence. assert (b = x) as -> by congruence.
        pose proof (swapped_rearr _ _ _ _ _ _ Hne Hsd) as Hra.
        destruct (IH h' s1) as (h'' & i'' & Hp & Hra' & Hord).
        * rewrite (rearr_len _ _ Hra). unfold left, right in *.
          apply lookup_lt_Some in Hv1. lia.
        * rewrite (rearr_len _ _ Hra). by eapply lookup_lt_Some.
        * eapply down_step; [| |exact Hsd| |]; [tauto|done|by apply Hs1n|].
          intros t c [-> | ->] Hc; simplify_eq; [done|].
          apply lookup_lt_Some in Hc. lia.
        * eexists _, _. split; [exact Hp|]. split; [|done]. by eapply rearr_trans.
  Qed.

  (** *** pullup *)
  Definition up_inv h (i : nat) :=
    (∀ j, j ≠ 0 → j ≠ i → parent j ≠ i → ok (key h) (arr h) j (parent j)) ∧
    (∀ c, i ≠ 0 → c ≠ 0 → parent c = i → ok (key h) (arr h) c (parent i)).
  Definition kids_ok h (i : nat) :=
    ∀ c, c ≠ 0 → parent c = i → ok (key h) (arr h) c i.

  Lemma pullup_spec n h i :
    i < n → i < length (arr h) → up_inv h i →
    ∃ h' i', pullup lt n h i = Some (h', i') ∧ rearr h h' ∧ i' < length (arr h') ∧
             down_inv 0 h' i' ∧ (kids_ok h i → ordered 0 h').
  Proof.
    revert h i. induction n as [|n IH]; intros h i Hn Hi Hinv; [lia|].
    simpl. case_decide as Hi0.
    { subst i. eexists _, _. split; [done|]. split; [apply rearr_refl|].
      split; [done|].
      destruct Hinv as [HA HB].
      assert (down_inv 0 h 0) as Hd.
      { split; [|lia]. intros j Hj _ Hp. by apply HA. }
      split; [done|]. intros Hk j Hj _.
      destruct (decide (parent j = 0)) as [Hp|Hp]; [|by apply HA].
      rewrite Hp. by apply Hk. }
    pose proof (parent_lt i Hi0) as Hpi.
    destruct (lookup_lt_is_Some_2 _ _ Hi) as [x Hx].
    destruct (lookup_lt_is_Some_2 (arr h) (parent i)) as [p Hp]; [lia|].
    rewrite Hx, Hp. simpl. unfold pred.
    destruct Hinv as [HA HB].
    destruct (lt (key h x) (key h p)) eqn:E.
    - destruct (swap_spec h i (parent i)) as (h' & a & b & Hsw & Hsd); [lia|done|lia|].
      rewrite Hsw. simpl.
      pose proof Hsd as [Ha Hb Hlen Hkey Hi' Hj' Ho _].
      assert (a = x) as -> by congruence. assert (b = p) as -> by congruence.
      assert (i ≠ parent i) as Hne by lia.
      pose proof (swapped_rearr _ _ _ _ _ _ Hne Hsd) as Hra.
      assert (kids_ok h' (parent i)) as Hko.
      { intros c Hc Hpc u v Hu Hv. rewrite Hkey. assert (v = x) as -> by congruence.
        destruct (decide (c = i)) as [->|].
        - assert (u = p) as -> by congruence. by apply lt_asym.
        - pose proof (parent_lt c Hc). rewrite Ho in Hu by lia.
          eapply nlt_trans; [by apply lt_asym|].
          eapply (HA c Hc); [done|lia|done|]. by rewrite Hpc. }
      destruct (IH h' (parent i)) as (h'' & i'' & Hpu & Hra' & Hlt & Hd & Hord).
      + lia.
      + lia.
      + split.
        * intros j Hj Hjp Hpp u v Hu Hv. rewrite Hkey.
          destruct (decide (j = i)) as [->|]; [done|].
          destruct (decide (parent j = i)) as [Hpj|Hpj].
          { rewrite Hpj in Hv. assert (v = p) as -> by congruence.
            rewrite Ho in Hu by done. eapply (HB j); eauto. }
          rewrite Ho in Hu by done. rewrite Ho in Hv by done.
          by eapply (HA j).
        * intros c Hp0 Hc Hpc u v Hu Hv. rewrite Hkey.
          pose proof (parent_lt (parent i) Hp0).
          rewrite Ho in Hv by lia.
          assert (lt (key h p) (key h v) = false) as Hpv.
          { eapply (HA (parent i)); [done|lia|lia|done|done]. }
          destruct (decide (c = i)) as [->|].
          { by assert (u = p) as -> by congruence. }
          pose proof (parent_lt c Hc). rewrite Ho in Hu by lia.
          eapply nlt_trans; [exact Hpv|].
          eapply (HA c Hc); [done|lia|done|]. by rewrite Hpc.
      + eexists _, _. split; [exact Hpu|]. split; [by eapply rearr_trans|].
        split; [done|]. split; [done|]. intros _. by apply Hord.
    - eexists _, _. split; [done|]. split; [apply rearr_refl|]. split; [done|].
      assert (down_inv 0 h i) as Hd.
      { split; [|intros c ? _; by apply HB].
        intros j Hj _ Hpj. destruct (decide (j = i)) as [->|]; [|by apply HA].
        intros u v Hu Hv. by simplify_eq. }
      split; [done|]. intros Hk j Hj _.
      destruct (decide (parent j = i)) as [Hpj|Hpj]; [|by apply Hd; [|lia|]].
      rewrite Hpj. by apply Hk.
  Qed.

  Arguments pullup : simpl never.
  Arguments pushdown : simpl never.

  (** *** The invariant; [X]: the elements outside the heap whose index field is known to say so. *)
  Context (X : nat → Prop).
  Record inv h : Prop := {
    inv_ord : ordered 0 h;
    inv_exact : exact h;
    inv_out : ∀ e, e ∉ arr h → X e → ind h e = (-1)%Z }.

  Lemma rearr_inv_out h h' :
    rearr h h' → (∀ e, e ∉ arr h → X e → ind h e = (-1)%Z) → ∀ e, e ∉ arr h' → X e → ind h' e = (-1)%Z.
  Proof.
    intros Hra Ho e He HX. rewrite (ra_perm _ _ Hra) in He.
    rewrite (ra_frame _ _ Hra) by done. by apply Ho.
  Qed.

  Lemma ordered_root h x i y :
    ordered 0 h → arr h !! 0 = Some x → arr h !! i = Some y → lt (key h y) (key h x) = false.
  Proof.
    intros Ho Hx. revert y. induction i as [i IH] using lt_wf_ind; intros y Hy.
    destruct (decide (i = 0)) as [->|Hi].
    { simplify_eq. apply lt_irrefl. }
    pose proof (parent_lt i Hi) as Hp.
    destruct (lookup_lt_is_Some_2 (arr h) (parent i)) as [p Hpp].
    { apply lookup_lt_Some in Hy. lia. }
    eapply nlt_trans; [by eapply (IH (parent i))|].
    eapply (Ho i); [done|lia|done..].
  Qed.

  Lemma ordered_setind k h e i : ordered k h → ordered k (setind h e i).
  Proof. done. Qed.

  (** push *)
  Lemma push_spec h e k :
    inv h → e ∉ arr h →
    ∃ h', push lt (setkey h e k) e = Some h' ∧ inv h' ∧ arr h' ≡ₚ e :: arr h ∧
          key h' = key (setkey h e k).
  Proof.
    intros [Hord [Hnd Hex] Hout] He.
    unfold push. simpl.
    set (h1 := setind (setarr (setkey h e k) (arr h ++ [e])) e
                 (Z.of_nat (length (arr h ++ [e]) - 1))).
    assert (arr h1 = arr h ++ [e]) as Harr by done.
    assert (length (arr h ++ [e]) - 1 = length (arr h)) as Hl by (rewrite app_length; simpl; lia).
    change (length (arr h ++ [e])) with (length (arr h1)).
    assert (length (arr h1) - 1 = length (arr h)) as Hl1 by done.
    assert (exact h1) as Hex1.
    { split.
      - rewrite Harr. apply NoDup_app. split; [done|]. split; [|apply NoDup_singleton].
        intros x Hx ->%elem_of_list_singleton. done.
      - intros i x Hx. rewrite Harr in Hx. unfold h1. simpl.
        apply lookup_app_Some in Hx as [Hx|[Hge Hx]].
        + case_decide as Hxe.
          * subst. by apply elem_of_list_lookup_2 in Hx.
          * by apply Hex.
        + apply list_lookup_singleton_Some in Hx as [? ->].
          rewrite decide_True by done. rewrite Hl. lia. }
    assert (∀ x, x ∉ arr h1 → X x → ind h1 x = (-1)%Z) as Hout1.
    { intros x Hx. rewrite Harr in Hx. apply not_elem_of_app in Hx as [Hx Hxe].
      rewrite elem_of_list_singleton in Hxe.
      unfold h1. simpl. rewrite decide_False by done. by apply Hout. }
    destruct (pullup_spec (fuel h1) h1 (length (arr h1) - 1)) as
        (h' & i' & Hpu & Hra & _ & _ & Hord').
    - unfold fuel. lia.
    - rewrite Harr, app_length. simpl. lia.
    - rewrite Hl1. split.
      + intros j Hj Hjl Hpl a b Ha Hb. rewrite Harr in Ha, Hb.
        assert (j < length (arr h)) as Hjlt.
        { pose proof (lookup_lt_Some _ _ _ Ha) as Hjl'. rewrite app_length in Hjl'.
          simpl in Hjl'. lia. }
        pose proof (parent_lt j Hj).
        rewrite lookup_app_l in Ha, Hb by lia.
        unfold h1. simpl.
        rewrite decide_False by (intros ->; by apply elem_of_list_lookup_2 in Ha).
        rewrite decide_False by (intros ->; by apply elem_of_list_lookup_2 in Hb).
        eapply Hord; [done|lia|done..].
      + intros c Hi Hc Hp a b Ha. apply lookup_lt_Some in Ha.
        rewrite Harr, app_length in Ha. simpl in Ha. pose proof (parent_lt c Hc). lia.
    - rewrite Hpu. simpl.
      eexists. split; [done|]. split; [split|].
      + apply Hord'. rewrite Hl1. intros c Hc Hp a b Ha. apply lookup_lt_Some in Ha.
        rewrite Harr, app_length in Ha. simpl in Ha. pose proof (parent_lt c Hc). lia.
      + by apply (ra_exact _ _ Hra).
      + by eapply rearr_inv_out.
      + split; [|exact (ra_key _ _ Hra)].
        rewrite (ra_perm _ _ Hra), Harr. by rewrite Permutation_app_comm.
  Qed.

  Lemma removelast_snoc {A} (l : list A) x : removelast (l ++ [x]) = l.
  Proof. apply removelast_last. Qed.

  (** pop *)
  Lemma pop_spec h :
    inv h →
    match arr h with
    | [] => pop lt h = Some (h, None)
    | x :: _ => ∃ h', pop lt h = Some (h', Some x) ∧ inv h' ∧ arr h ≡ₚ x :: arr h' ∧
                      key h' = key h ∧
                      ∀ y, y ∈ arr h → lt (key h y) (key h x) = false
    end.
  Proof.
    intros [Hord [Hnd Hex] Hout].
    destruct (arr h) as [|x l] eqn:Harr; unfold pop; rewrite Harr; [done|].
    rewrite decide_False by done. simpl lookup. cbn [mbind option_bind].
    assert (∀ y, y ∈ x :: l → lt (key h y) (key h x) = false) as Hmin.
    { intros y [i Hy]%elem_of_list_lookup_1. rewrite <-Harr in Hy.
      eapply ordered_root; [done| |done]. by rewrite Harr. }
    destruct l as [|z l _] using rev_ind.
    - rewrite decide_False by (simpl; lia). simpl. eexists. split; [done|].
      split; [split|].
      + intros j ?? a b Ha. done.
      + split; [apply NoDup_nil_2|]. intros i e He. done.
      + intros e _ HX. simpl. case_decide; [done|]. apply Hout; [|done].
        rewrite elem_of_list_singleton. done.
      + simpl. done.
    - rewrite decide_True by (simpl; rewrite app_length; simpl; lia).
      rewrite app_comm_cons, last_snoc. simpl.
      assert (∃ l', match l ++ [z] with [] => [] | _ :: _ => z :: removelast (l ++ [z]) end
                    = l' ∧ l' = z :: l) as (l' & -> & ->).
      { eexists. split; [done|]. rewrite removelast_snoc. by destruct l. }
      simpl. 
      set (h1 := setind _ z 0).
      assert (arr h1 = z :: l) as Harr1 by done.
      assert (NoDup (z :: l)) as Hnd1.
      { apply NoDup_cons in Hnd as [_ Hnd]. by rewrite Permutation_app_comm in Hnd. }
      assert (exact h1) as Hex1.
      { split; [done|]. intros i e He. rewrite Harr1 in He. unfold h1. simpl.
        destruct i as [|i]; simpl in He.
        - injection He as <-. by rewrite decide_True.
        - rewrite decide_False.
          + apply Hex. simpl. by apply lookup_app_l_Some.
          + intros ->. apply NoDup_cons in Hnd1 as [Hz _].
            by apply elem_of_list_lookup_2 in He. }
      destruct (pushdown_spec 0 (fuel h1) h1 0) as (h' & i' & Hpd & Hra & Hord').
      + unfold fuel. lia.
      + rewrite Harr1. simpl. lia.
      + split; [|lia]. intros j Hj _ Hp a b Ha Hb.
        rewrite Harr1 in Ha, Hb.
        destruct j as [|j]; [done|]. simpl in Ha.
        destruct (parent (S j)) as [|q] eqn:Hpj; [done|]. simpl in Hb.
        change (key h1) with (key h).
        eapply (Hord (S j)); [done|lia| |]; rewrite Harr; simpl.
        * by apply lookup_app_l_Some.
        * rewrite Hpj. simpl. by apply lookup_app_l_Some.
      + rewrite Hpd. simpl. eexists. split; [done|].
        assert (x ∉ z :: l) as Hx.
        { apply NoDup_cons in Hnd as [Hx _]. by rewrite Permutation_app_comm in Hx. }
        split; [split|split; [|split; [|done]]].
        * exact Hord'.
        * destruct (ra_exact _ _ Hra Hex1) as [Hnd' Hex']. split; [done|].
          intros i e He. simpl in *. rewrite decide_False; [by apply Hex'|].
          intros ->. apply elem_of_list_lookup_2 in He.
          by rewrite (ra_perm _ _ Hra) in He.
        * intros e He HX. simpl in *. case_decide as Hex2; [done|].
          rewrite (ra_perm _ _ Hra) in He.
          rewrite (ra_frame _ _ Hra) by done.
          change (e ∉ z :: l) in He. unfold h1. simpl.
          apply not_elem_of_cons in He as [Hz Hl].
          rewrite decide_False by done. apply Hout; [|done].
          rewrite not_elem_of_cons, not_elem_of_app, elem_of_list_singleton. done.
        * simpl. rewrite (ra_perm _ _ Hra), Harr1. f_equiv. apply Permutation_app_comm.
        * simpl. by rewrite (ra_key _ _ Hra).
  Qed.

  (** update *)
  Lemma update_spec h e k :
    inv h → e ∈ arr h →
    ∃ h', update lt (setkey h e k) (ind h e) = Some h' ∧ inv h' ∧ arr h' ≡ₚ arr h ∧
          key h' = key (setkey h e k).
  Proof.
    intros [Hord [Hnd Hex] Hout] [i Hi]%elem_of_list_lookup_1.
    pose proof (Hex _ _ Hi) as Hind. rewrite Hind.
    unfold update. simpl.
    pose proof (lookup_lt_Some _ _ _ Hi) as Hlen.
    rewrite decide_False by lia. rewrite Nat2Z.id.
    set (h1 := setkey h e k).
    change (arr h) with (arr h1) in Hlen.
    destruct (pullup_spec (fuel h1) h1 i) as (h2 & i2 & Hpu & Hra & Hi2 & Hd & _).
    - unfold fuel. lia.
    - done.
    - assert (∀ j x, arr h !! j = Some x → j ≠ i → key h1 x = key h x) as Hk.
      { intros j x Hj Hji. unfold h1. simpl. rewrite decide_False; [done|].
        intros ->. apply Hji. by eapply NoDup_lookup. }
      split.
      + intros j Hj Hji Hpi a b Ha Hb. change (arr h1) with (arr h) in Ha, Hb.
        rewrite (Hk j), (Hk (parent j)) by done.
        eapply (Hord j); [done|lia|done..].
      + intros c Hi0 Hc Hp a b Ha Hb. change (arr h1) with (arr h) in Ha, Hb.
        pose proof (parent_lt i Hi0). pose proof (parent_lt c Hc).
        rewrite (Hk c), (Hk (parent i)) by (done || lia).
        eapply nlt_trans; [eapply (Hord i)|eapply (Hord c)]; try done; try lia.
        by rewrite Hp.
    - rewrite Hpu. simpl.
      destruct (pushdown_spec 0 (fuel h2) h2 i2) as (h3 & i3 & Hpd & Hra' & Hord').
      + unfold fuel. lia.
      + done.
      + done.
      + rewrite Hpd. simpl. eexists. split; [done|].
        pose proof (rearr_trans _ _ _ Hra Hra') as Hra3.
        split; [split|].
        * done.
        * by apply (ra_exact _ _ Hra3).
        * by eapply rearr_inv_out.
        * split; [apply (ra_perm _ _ Hra3)|apply (ra_key _ _ Hra3)].
  Qed.

  (** reinit *)
  Lemma setinds_arr h i es : arr (setinds h i es) = arr h.
  Proof. revert h i. induction es as [|e es IH]; intros h i; [done|]. simpl. by rewrite IH. Qed.
  Lemma setinds_key h i es : key (setinds h i es) = key h.
  Proof. revert h i. induction es as [|e es IH]; intros h i; [done|]. simpl. by rewrite IH. Qed.
  Lemma setinds_other h i es e : e ∉ es → ind (setinds h i es) e = ind h e.
  Proof.
    revert h i. induction es as [|x es IH]; intros h i He; [done|]. simpl.
    apply not_elem_of_cons in He as [??].
    rewrite IH by done. simpl. by rewrite decide_False.
  Qed.
  Lemma setinds_in h i es j e :
    NoDup es → es !! j = Some e → ind (setinds h i es) e = Z.of_nat (i + j).
  Proof.
    revert h i j. induction es as [|x es IH]; intros h i j Hnd He; [done|]. simpl.
    apply NoDup_cons in Hnd as [Hx Hnd].
    destruct j as [|j]; simpl in He.
    - injection He as <-. rewrite setinds_other by done. simpl.
      rewrite decide_True by done. lia.
    - rewrite (IH _ _ j) by done. lia.
  Qed.

  Lemma pushdowns_spec h i :
    i < length (arr h) → ordered (S i) h →
    ∃ h', pushdowns lt h i = Some h' ∧ rearr h h' ∧ ordered 0 h'.
  Proof.
    revert h. induction i as [|i IH]; intros h Hi Hord; simpl.
    - destruct (pushdown_spec 0 (fuel h) h 0) as (h' & i' & Hpd & Hra & Hord').
      + unfold fuel. lia.
      + done.
      + split; [|lia]. intros j Hj _ Hp. apply Hord; [done|lia].
      + rewrite Hpd. simpl. eauto.
    - destruct (pushdown_spec (S i) (fuel h) h (S i)) as (h' & i' & Hpd & Hra & Hord').
      + unfold fuel. lia.
      + done.
      + split.
        * intros j Hj Hk Hp. apply Hord; [done|lia].
        * intros c Hi0 Hk Hc Hp. pose proof (parent_lt (S i) Hi0). lia.
      + rewrite Hpd. simpl.
        destruct (IH h') as (h'' & Hps & Hra' & Hord'').
        * rewrite (rearr_len _ _ Hra). lia.
        * done.
        * eexists. split; [done|]. split; [|done]. by eapply rearr_trans.
  Qed.

  Lemma reinit_spec h :
    NoDup (arr h) → (∀ e, e ∉ arr h → X e → ind h e = (-1)%Z) →
    ∃ h', reinit lt h = Some h' ∧ inv h' ∧ arr h' ≡ₚ arr h ∧ key h' = key h.
  Proof.
    intros Hnd Hout. unfold reinit. case_decide as H0.
    { apply nil_length_inv in H0. eexists. split; [done|]. split; [|done].
      split; [| |done].
      - intros j ?? a b Ha. by rewrite H0 in Ha.
      - split; [done|]. intros i e He. by rewrite H0 in He. }
    set (h1 := setinds h 0 (arr h)).
    assert (arr h1 = arr h) as Harr by apply setinds_arr.
    assert (key h1 = key h) as Hkey by apply setinds_key.
    destruct (pushdowns_spec h1 (length (arr h1) / 2)) as (h' & Hps & Hra & Hord).
    - rewrite Harr. lia.
    - intros j Hj Hp a b Ha. apply lookup_lt_Some in Ha. unfold parent in Hp. lia.
    - rewrite Hps. eexists. split; [done|].
      rewrite <-Harr, <-Hkey.
      split; [split|split; [apply Hra|apply Hra]].
      + done.
      + apply (ra_exact _ _ Hra). split; [by rewrite Harr|].
        rewrite Harr. intros i e He. unfold h1. by rewrite (setinds_in _ _ _ i).
      + eapply rearr_inv_out; [done|]. rewrite Harr. intros e He HX.
        unfold h1. rewrite setinds_other by done. by apply Hout.
  Qed.

  Lemma setkeys_arr h es : arr (setkeys h es) = arr h.
  Proof. revert h. induction es as [|[e k] es IH]; intros h; [done|]. simpl. by rewrite IH. Qed.
  Lemma setkeys_ind h es : ind (setkeys h es) = ind h.
  Proof. revert h. induction es as [|[e k] es IH]; intros h; [done|]. simpl. by rewrite IH. Qed.
  Lemma setkeys_key_other h es e : e ∉ es.*1 → key (setkeys h es) e = key h e.
  Proof.
    revert h. induction es as [|[x k] es IH]; intros h He; [done|]. simpl in *.
    apply not_elem_of_cons in He as [??]. rewrite IH by done. simpl. by rewrite decide_False.
  Qed.
  Lemma setkeys_key_in h es e k : NoDup es.*1 → (e, k) ∈ es → key (setkeys h es) e = k.
  Proof.
    revert h. induction es as [|[x k'] es IH]; intros h Hnd He; [by apply elem_of_nil in He|].
    simpl in *. apply NoDup_cons in Hnd as [Hx Hnd].
    apply elem_of_cons in He as [He|He].
    - injection He as -> ->. rewrite setkeys_key_other by done. simpl. by rewrite decide_True.
    - by apply IH.
  Qed.

  Lemma append_spec h es :
    inv h → NoDup es.*1 → (∀ e, e ∈ es.*1 → e ∉ arr h) →
    ∃ h', append lt (setkeys h es) es.*1 = Some h' ∧ inv h' ∧
          arr h' ≡ₚ es.*1 ++ arr h ∧ key h' = key (setkeys h es).
  Proof.
    intros [Hord [Hnd Hex] Hout] Hnes Hdis. unfold append.
    destruct (reinit_spec (setarr (setkeys h es) (arr (setkeys h es) ++ es.*1)))
      as (h' & Hr & Hinv & HP & Hk).
    - simpl. rewrite setkeys_arr. apply NoDup_app. split; [done|]. split; [|done].
      intros x Hx Hx'. by eapply Hdis.
    - simpl. rewrite setkeys_arr, setkeys_ind. intros e He HX.
      apply Hout; [|done]. apply not_elem_of_app in He. tauto.
    - eexists. split; [done|]. split; [done|]. split.
      + rewrite HP. simpl. rewrite setkeys_arr. apply Permutation_app_comm.
      + done.
  Qed.
End Proofs.

(** ** Facts that hold of any heap state, ordered or not (for stale indices). *)
Section Stale.
  Context {K : Type} (lt : K → K → bool).
  Notation heap := (heap K).
  Implicit Types h : heap.

  Lemma pullup_rearr n h i :
    i < n → i < length (arr h) →
    ∃ h' i', pullup lt n h i = Some (h', i') ∧ rearr h h' ∧ i' < length (arr h').
  Proof.
    revert h i. induction n as [|n IH]; intros h i Hn Hi; [lia|].
    simpl. case_decide as Hi0.
    { eexists _, _. split; [done|]. split; [apply rearr_refl|done]. }
    pose proof (parent_lt i Hi0) as Hpi.
    destruct (lookup_lt_is_Some_2 _ _ Hi) as [x Hx].
    destruct (lookup_lt_is_Some_2 (arr h) (parent i)) as [p Hp]; [lia|].
    rewrite Hx, Hp. simpl. destruct (pred lt h x p).
    - destruct (swap_spec h i (parent i)) as (h' & a & b & Hsw & Hsd); [lia|done|lia|].
      assert (i ≠ parent i) as Hne by lia.
      pose proof (swapped_rearr _ _ _ _ _ _ Hne Hsd) as Hra.
      rewrite Hsw. simpl.
      destruct (IH h' (parent i)) as (h'' & i'' & Hpu & Hra' & Hlt).
      + lia.
      + rewrite (rearr_len _ _ Hra). lia.
      + eexists _, _. split; [done|]. split; [by eapply rearr_trans|done].
    - eexists _, _. split; [done|]. split; [apply rearr_refl|done].
  Qed.

  Lemma pushdown_rearr n h i :
    length (arr h) - i < n → i < length (arr h) →
    ∃ h' i', pushdown lt n h i = Some (h', i') ∧ rearr h h'.
  Proof.
    revert h i. induction n as [|n IH]; intros h i Hn Hi; [lia|].
    simpl.
    destruct (lookup_lt_is_Some_2 _ _ Hi) as [x Hx].
    set (m1 := if decide (left i < length (arr h)) then _ else Some i).
    assert (∃ s1 v1, m1 = Some s1 ∧ (s1 = i ∨ i < s1 ∧ s1 < length (arr h)) ∧
                     arr h !! s1 = Some v1) as (s1 & v1 & -> & Hs1 & Hv1).
    { subst m1. case_decide as Hl; [|by eauto 10].
      destruct (lookup_lt_is_Some_2 _ _ Hl) as [y Hy]. rewrite Hx, Hy. simpl.
      destruct (pred lt h y x); [|by eauto 10].
      exists (left i), y. split_and!; [done| |done]. unfold left in *. lia. }
    simpl.
    set (m2 := if decide (right i < length (arr h)) then _ else Some s1).
    assert (∃ s2, m2 = Some s2 ∧ (s2 = i ∨ i < s2 ∧ s2 < length (arr h)))
      as (s2 & -> & Hs2).
    { subst m2. case_decide as Hl; [|by eauto].
      destruct (lookup_lt_is_Some_2 _ _ Hl) as [y Hy]. rewrite Hv1, Hy. simpl.
      destruct (pred lt h y v1); [|by eauto].
      exists (right i). split; [done|]. unfold right in *. lia. }
    simpl. case_decide as He.
    { eexists _, _. split; [done|apply rearr_refl]. }
    destruct (swap_spec h s2 i) as (h' & a & b & Hsw & Hsd); [done|lia|done|].
    pose proof (swapped_rearr _ _ _ _ _ _ He Hsd) as Hra.
    rewrite Hsw. simpl.
    destruct (IH h' s2) as (h'' & i'' & Hpu & Hra').
    - rewrite (rearr_len _ _ Hra). lia.
    - rewrite (rearr_len _ _ Hra). lia.
    - eexists _, _. split; [done|]. by eapply rearr_trans.
  Qed.

  Arguments pullup : simpl never.
  Arguments pushdown : simpl never.

  Lemma update_rearr h i :
    i < length (arr h) → ∃ h', update lt h (Z.of_nat i) = Some h' ∧ rearr h h'.
  Proof.
    intros Hi. unfold update. rewrite decide_False by lia. rewrite Nat2Z.id.
    destruct (pullup_rearr (fuel h) h i) as (h1 & i1 & -> & Hra & Hi1);
      [unfold fuel; lia|done|]. simpl.
    destruct (pushdown_rearr (fuel h1) h1 i1) as (h2 & i2 & -> & Hra2);
      [unfold fuel; lia|done|]. simpl.
    eexists. split; [done|]. by eapply rearr_trans.
  Qed.

  Lemma push_rearr h e :
    ∃ h', push lt h e = Some h' ∧ arr h' ≡ₚ e :: arr h ∧ key h' = key h ∧
          ∀ x, x ∉ e :: arr h → ind h' x = ind h x.
  Proof.
    unfold push. simpl.
    set (h1 := setind (setarr h (arr h ++ [e])) e _).
    assert (arr h1 = arr h ++ [e]) as Harr by done.
    destruct (pullup_rearr (fuel h1) h1 (length (arr h ++ [e]) - 1))
      as (h2 & i2 & -> & Hra & _).
    { unfold fuel. rewrite Harr. lia. }
    { rewrite Harr, app_length. simpl. lia. }
    simpl. eexists. split; [done|]. split_and!.
    - rewrite (ra_perm _ _ Hra), Harr. apply Permutation_app_comm.
    - by rewrite (ra_key _ _ Hra).
    - intros x Hx. apply not_elem_of_cons in Hx as [Hx1 Hx2].
      rewrite (ra_frame _ _ Hra).
      + simpl. by rewrite decide_False.
      + rewrite Harr, not_elem_of_app, elem_of_list_singleton. done.
  Qed.
End Stale.
