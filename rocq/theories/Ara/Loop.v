(** The loop of ARA-star: findbound, updateopen, the invariant of the whole search, termination. *)
From stdpp Require Import prelude sorting.
From Coq Require Import ZArith Lia ZifyBool ZifyNat.
From Verif Require Import Common.Orders Common.Fuel BinHeap.Model BinHeap.Proofs.
From Verif Require Import Search.Model Search.Proofs Search.Props Ara.Model Ara.Proofs Ara.Refine.
Local Open Scope Z_scope.

Lemma insert_mid {A} (t : list A) x y r : <[length t := y]> (t ++ x :: r) = t ++ y :: r.
Proof. induction t as [|z t IH]; [done|]. simpl. by rewrite IH. Qed.

Section loop.
Set Default Proof Using "All".
Context (D : domain) (h : St D → Z) (wn0 dw wd : Z) (lim : limits) (s0 : St D).
Context (OK : domain_ok D) (Hh : ∀ s, (0 ≤ h s)%Z) (Hwd : (0 < wd)%Z).

Notation node := (node D (P:=Z)).
Notation lt := astar_lt.
Notation vinv := (vinv D h s0).
Notation winv := (winv D h wd s0).
Notation none := (none D).
Notation astate := (astate D).
Notation vw := (vw D).
Notation hok := (hok D wd).
Implicit Types (ns : list node) (s : astate).

Let lt_asym a b : lt a b = true → lt b a = false.
Proof. apply sw_asym, astar_lt_sw. Qed.
Let lt_neg a b c : lt b a = false → lt c b = false → lt c a = false.
Proof. apply sw_neg_trans, astar_lt_sw. Qed.

(** ** findbound *)
Definition fv ns (x : nat) : Z := match ns !! x with Some a => n_g D a + n_p D a | None => 0 end.

Definition minok ns (c : Z) (r : list nat) (min min' : option Z) : Prop :=
  (∀ x, x ∈ r → fv ns x < c → ∃ m, min' = Some m ∧ m ≤ fv ns x) ∧
  (∀ m0, min = Some m0 → ∃ m, min' = Some m ∧ m ≤ m0) ∧
  (∀ m, min' = Some m → min = Some m ∨ ∃ x, x ∈ r ∧ m = fv ns x ∧ m < c).

Lemma prune_spec ns c fuel : ∀ t r min, (∀ x, x ∈ r → is_Some (ns !! x)) → (length r ≤ fuel)%nat →
  ∃ r' min', prune D fuel ns c (length t) (t ++ r) min = Some (t ++ r', min') ∧
    r' ≡ₚ filter (λ x, fv ns x < c) r ∧ minok ns c r min min'.
Proof.
  induction fuel as [|fuel IH]; intros t r min Hr Hlen.
  { destruct r; [|simpl in Hlen; lia]. exists [], min. split; [|split; [done|]].
    - cbn [prune]. rewrite app_nil_r, lookup_ge_None_2 by lia. done.
    - split_and!; [by intros x ?%elem_of_nil| |eauto]. intros m0 Hm. exists m0. split; [done|lia]. }
  destruct r as [|n r].
  { exists [], min. split; [|split; [done|]].
    - cbn [prune]. rewrite app_nil_r, lookup_ge_None_2 by lia. done.
    - split_and!; [by intros x ?%elem_of_nil| |eauto]. intros m0 Hm. exists m0. split; [done|lia]. }
  cbn [prune]. rewrite list_lookup_middle by done. destruct (Hr n) as [a Ha]; [left|]. rewrite Ha. cbn [mbind option_bind].
  assert (Hfv : fv ns n = n_g D a + n_p D a) by (unfold fv; by rewrite Ha).
  rewrite <-Hfv. simpl in Hlen. destruct (bool_decide_reflect (c ≤ fv ns n)) as [Hc|Hc].
  - destruct r as [|y r _] using rev_ind.
    + rewrite last_snoc. cbn [mbind option_bind].
      rewrite insert_mid, removelast_snoc. destruct (IH t [] min) as (r' & min' & He & HP & H1 & H2 & H3); [by intros x ?%elem_of_nil|simpl; lia|].
      rewrite app_nil_r in He. exists r', min'. split; [exact He|]. split.
      * rewrite filter_cons_False by lia. exact HP.
      * split_and!; [|done|].
        -- intros x ->%elem_of_list_singleton Hx. lia.
        -- intros m Hm. destruct (H3 _ Hm) as [?|(x & Hx & _)]; [by left|by apply elem_of_nil in Hx].
    + rewrite app_comm_cons, app_assoc, last_snoc. cbn [mbind option_bind].
      rewrite <-app_assoc. cbn [app]. rewrite insert_mid.
      rewrite app_comm_cons, app_assoc, removelast_snoc.
      rewrite app_length in Hlen. simpl in Hlen.
      destruct (IH t (y :: r) min) as (r' & min' & He & HP & H1 & H2 & H3).
      { intros x Hx. apply Hr. set_solver. }
      { simpl. lia. }
      exists r', min'. split; [exact He|]. split.
      * rewrite (filter_cons_False _ n) by lia. rewrite HP. f_equiv. by rewrite (Permutation_app_comm r [y]).
      * split_and!; [|done|].
        -- intros x [->|Hx]%elem_of_cons Hxc; [lia|]. apply H1; [set_solver|done].
        -- intros m Hm. destruct (H3 _ Hm) as [?|(x & Hx & ? & ?)]; [by left|right]. exists x. split; [set_solver|done].
  - set (m1 := match min with Some m => Z.min m (fv ns n) | None => fv ns n end).
    destruct (IH (t ++ [n]) r (Some m1)) as (r' & min' & He & HP & H1 & H2 & H3).
    { intros x Hx. apply Hr. by right. }
    { lia. }
    rewrite app_length, <-!app_assoc in He. simpl in He. rewrite Nat.add_1_r in He.
    exists (n :: r'), min'. split; [exact He|]. split.
    + rewrite filter_cons_True by lia. by rewrite HP.
    + destruct (H2 m1 eq_refl) as (m & Hm & Hle). split_and!.
      * intros x [->|Hx]%elem_of_cons Hxc; [|by apply H1]. exists m. split; [done|].
        unfold m1 in Hle. destruct min; lia.
      * intros m0 ->. exists m. split; [done|]. simpl in m1. unfold m1 in Hle. lia.
      * intros m' Hm'. destruct (H3 _ Hm') as [Heq|(x & Hx & ? & ?)]; [|right; exists x; split; [by right|done]].
        injection Heq as <-. unfold m1. destruct min as [m0|].
        -- destruct (Z.min_spec m0 (fv ns n)) as [[? ->]|[? ->]]; [by left|right]. exists n. split; [left|]. split; [done|lia].
        -- right. exists n. split; [left|]. split; [done|lia].
Qed.

Lemma live_fv s X i : vinv none (vw s X) → live D (vw s X) i →
  ∃ a, a_nodes D s !! i = Some a ∧ fv (a_nodes D s) i = n_g D a + n_p D a ∧ 0 ≤ fv (a_nodes D s) i.
Proof.
  intros Hv Hl. destruct (live_Some D h wd s0 OK Hh Hwd _ _ _ Hv Hl) as [a Ha]. simpl in Ha.
  exists a. unfold fv. rewrite Ha. destruct (vi_p _ _ _ _ _ Hv _ _ Ha) as [Hp Hg].
  pose proof (Hh (n_state D a)). split; [done|]. split; [done|lia].
Qed.

(** The state [s] with other vectors in the heap and in Incons. *)
Definition with_vecs s (l inc : list nat) : astate :=
  AState D (a_nodes D s) (setarr (a_open D s) l) (a_closed D s) inc (a_wt D s) (a_cost D s) (a_sols D s) (a_rows D s)
    (a_expd D s) (a_gend D s).

Lemma findbound_spec s X c : vinv none (vw s X) → a_cost D s = Some c →
  ∃ l inc b, findbound D s c = Some (with_vecs s l inc, b) ∧
    l ≡ₚ filter (λ x, fv (a_nodes D s) x < c) (arr (a_open D s)) ∧
    inc ≡ₚ filter (λ x, fv (a_nodes D s) x < c) (a_incons D s) ∧
    (b = (0, 1) ∧ (admissible h → ∀ ss os k, solution s0 ss os k → c ≤ k) ∨
     ∃ m, b = (c, m) ∧ 0 ≤ m < c ∧ (admissible h → ∀ ss os k, solution s0 ss os k → m ≤ k)).
Proof.
  intros Hv Hc. unfold findbound.
  assert (Hfo : ∀ x, x ∈ arr (a_open D s) → is_Some (a_nodes D s !! x)) by apply (vi_op _ _ _ _ _ Hv).
  assert (Hfi : ∀ x, x ∈ a_incons D s → is_Some (a_nodes D s !! x)).
  { intros x Hx. by apply (vi_cl _ _ _ _ _ Hv), (vi_in _ _ _ _ _ Hv). }
  destruct (prune_spec (a_nodes D s) c (length (a_incons D s)) [] (a_incons D s) None Hfi (le_n _))
    as (inc & m1 & He1 & HP1 & Hm1). simpl in He1. rewrite He1. cbn [mbind option_bind].
  destruct (prune_spec (a_nodes D s) c (length (arr (a_open D s))) [] (arr (a_open D s)) m1 Hfo (le_n _))
    as (l & m2 & He2 & HP2 & Hm2). simpl in He2. rewrite He2. cbn [mbind option_bind].
  eexists l, inc, _. split; [done|]. split; [done|]. split; [done|].
  destruct Hm1 as (A1 & _ & A3), Hm2 as (B1 & B2 & B3).
  assert (Hlive : ∀ i, live D (vw s X) i → fv (a_nodes D s) i < c → ∃ m, m2 = Some m ∧ m ≤ fv (a_nodes D s) i).
  { intros i [Hi|Hi] Hf; [by apply B1|]. destruct (A1 i Hi Hf) as (m & Hm & Hle).
    destruct (B2 _ Hm) as (m' & Hm' & Hle'). exists m'. split; [done|lia]. }
  assert (Hsol : admissible h → ∀ ss os k, solution s0 ss os k → c ≤ k ∨ ∃ m, m2 = Some m ∧ m ≤ k).
  { intros Hadm ss os k Hs.
    destruct (live_solution D h wd s0 OK Hh Hwd (vw s X) none ss os k Hv (none_not D h wd s0 OK Hh Hwd) Hadm Hs)
      as [(i & a & Hl & Ha & Hle)|(c' & Hc' & Hle)].
    - destruct (live_fv s X i Hv Hl) as (a' & Ha' & Hf & _). simpl in Ha. rewrite Ha in Ha'. injection Ha' as <-.
      destruct (Z.lt_ge_cases (fv (a_nodes D s) i) c) as [Hlt|Hge]; [right|left; lia].
      destruct (Hlive i Hl Hlt) as (m & Hm & Hmle). exists m. split; [done|lia].
    - left. simpl in Hc'. rewrite Hc in Hc'. injection Hc' as <-. done. }
  destruct m2 as [m|].
  - right. exists m. split; [done|]. assert (Hmc : 0 ≤ m < c).
    { assert (∃ x, live D (vw s X) x ∧ m = fv (a_nodes D s) x ∧ m < c) as (x & Hl & -> & ?).
      { destruct (B3 m eq_refl) as [Hm|(x & Hx & ? & ?)].
        - destruct (A3 m Hm) as [?|(x & Hx & ? & ?)]; [done|]. exists x. split; [by right|done].
        - exists x. split; [by left|done]. }
      split; [|done]. by destruct (live_fv s X x Hv Hl) as (? & _ & _ & ?). }
    split; [done|]. intros Hadm ss os k Hs. destruct (Hsol Hadm ss os k Hs) as [?|(m' & [= <-] & ?)]; lia.
  - left. split; [done|]. intros Hadm ss os k Hs. by destruct (Hsol Hadm ss os k Hs) as [?|(m' & ? & ?)].
Qed.

(** ** The next iteration *)
Lemma newkeys_spec ns w l : (∀ x, x ∈ l → is_Some (ns !! x)) →
  ∃ ks, newkeys D wd ns w l = Some ks ∧ ks.*1 = l ∧
    ∀ i a, i ∈ l → ns !! i = Some a → (i, (wd * n_g D a + w * n_p D a, n_g D a)) ∈ ks.
Proof.
  unfold newkeys. induction l as [|x l IH]; intros Hl.
  { exists []. split; [done|]. split; [done|]. by intros i a ?%elem_of_nil. }
  destruct (Hl x) as [b Hb]; [left|]. destruct IH as (ks & Hk & H1 & H2); [intros; apply Hl; by right|].
  cbn [mapM]. rewrite Hb. cbn [mbind option_bind]. rewrite Hk. cbn [mbind option_bind].
  eexists. split; [done|]. split; [by rewrite fmap_cons, H1|].
  intros i a [->|Hi]%elem_of_cons Ha; [|right; by apply H2]. rewrite Hb in Ha. injection Ha as <-. left.
Qed.

Lemma reweigh_spec s s1 X l inc :
  vinv none (vw s X) →
  a_nodes D s1 = a_nodes D s → a_cost D s1 = a_cost D s → a_incons D s1 = inc → arr (a_open D s1) = l →
  NoDup (inc ++ l) → (∀ i, i ∈ l ∨ i ∈ inc → live D (vw s X) i) →
  (∀ i a, live D (vw s X) i → a_nodes D s !! i = Some a →
     i ∈ l ∨ i ∈ inc ∨ ∃ c, a_cost D s = Some c ∧ c ≤ n_g D a + n_p D a) →
  ∃ s2, reweigh D dw wd s1 = Some s2 ∧ renew D (vw s X) (vw s2 X) ∧ hok s2 ∧
    a_wt D s2 = nextwt dw wd (a_wt D s1) ∧ a_cost D s2 = a_cost D s1 ∧ a_sols D s2 = a_sols D s1 ∧
    a_rows D s2 = a_rows D s1 ∧ a_expd D s2 = a_expd D s1 ∧ a_gend D s2 = a_gend D s1.
Proof.
  intros Hv E1 E2 E3 E4 Hnd Hsub Hsup. unfold reweigh. rewrite E1, E3, E4.
  set (w := nextwt dw wd (a_wt D s1)).
  assert (Hval : ∀ i, i ∈ l ∨ i ∈ inc → is_Some (a_nodes D s !! i)).
  { intros i Hi. by apply (live_Some D h wd s0 OK Hh Hwd none (vw s X)), Hsub. }
  destruct (newkeys_spec (a_nodes D s) w inc) as (ki & Hki & Hki1 & Hki2); [intros; apply Hval; by right|].
  destruct (newkeys_spec (a_nodes D s) w l) as (ko & Hko & Hko1 & Hko2); [intros; apply Hval; by left|].
  rewrite Hki, Hko. cbn [mbind option_bind]. rewrite <-setkeys_app. unfold append.
  rewrite setkeys_arr, E4.
  destruct (reinit_spec lt lt_asym lt_neg (λ _, False) (setarr (setkeys (a_open D s1) (ki ++ ko)) (l ++ inc)))
    as (q & Hq & Hi & HP & Hk); [simpl; by rewrite Permutation_app_comm|done|].
  rewrite Hq. cbn [mbind option_bind]. simpl in HP, Hk.
  eexists. split; [done|]. split_and!; [| |done..].
  - split; simpl; try done.
    + by rewrite HP, Permutation_app_comm.
    + intros i. rewrite HP, elem_of_app. apply Hsub.
    + intros i a Hl Ha. rewrite HP, elem_of_app. destruct (Hsup i a Hl Ha) as [?|[?|?]]; tauto.
  - split; simpl.
    + eapply inv_mono; [|exact Hi]. by intros e _ ?%elem_of_nil.
    + intros i a Hia Ha. simpl in *. rewrite Hk.
      rewrite HP, elem_of_app in Hia.
      apply setkeys_key_in; [by rewrite fmap_app, Hki1, Hko1|].
      apply elem_of_app. destruct Hia as [Hia|Hia]; [right; by apply Hko2|left; by apply Hki2].
Qed.

(** ** The invariant of the search *)

(** [p/q] bounds the ratio of [c] to the cost of any solution; 0/1 stands for "optimal". *)
Definition certified (c p q : Z) : Prop :=
  ((p, q) = (0, 1) ∧ ∀ ss os k, solution s0 ss os k → c ≤ k) ∨
  ∀ ss os k, solution s0 ss os k → c * q ≤ p * k.

Record row_ok (r : row) : Prop := {
  ro_wt : wd ≤ r_wt r;
  ro_pos : 0 < (r_bound r).2;
  ro_le : (r_bound r).1 * wd ≤ r_wt r * (r_bound r).2;
  ro_adm : admissible h → (r_bound r).1 * wd < r_wt r * (r_bound r).2 → certified (r_cost r) (r_bound r).1 (r_bound r).2;
  ro_cons : consistent h → certified (r_cost r) (r_bound r).1 (r_bound r).2;
}.

Definition sol_ok (e : Z * (list (St D) * list (Op D))) : Prop :=
  0 ≤ e.1 ∧ ∃ k, solution s0 (reverse e.2.1) (reverse e.2.2) k ∧ k ≤ e.1.

Record good s (goal : bool) (X : list (St D * Z)) : Prop := {
  gd_v : vinv none (vw s X);
  gd_w : consistent h → winv (a_wt D s) none (vw s X);
  gd_wt : wd ≤ a_wt D s;
  gd_h : hok s;
  gd_cost : a_cost D s = fst <$> head (a_sols D s);
  gd_sols : Forall sol_ok (a_sols D s);
  gd_dec : StronglySorted (λ a b, a.1 < b.1) (a_sols D s);
  gd_goal : goal = true → ∃ c, a_cost D s = Some c ∧ 0 ≤ c ∧
    (consistent h → ∀ ss os k, solution s0 ss os k → wd * c ≤ a_wt D s * k);
  gd_rows : Forall row_ok (a_rows D s);
  gd_rdec : StronglySorted (λ a b, r_cost a < r_cost b) (a_rows D s);
  gd_rlt r : r ∈ a_rows D s → (∃ p, (r_cost r, p) ∈ a_sols D s) ∧
    ∃ c, a_cost D s = Some c ∧ c ≤ r_cost r ∧ (goal = true → c < r_cost r);
}.

Lemma around_good s goal X : good s goal X → goodnodes D wd s = true →
  ∃ s' g X', around D h wd s = Some (s', g) ∧ good s' (g || goal) X' ∧ a_wt D s' = a_wt D s ∧
    (length (arr (a_open D s')) + length (a_closed D s) + 1 = length (arr (a_open D s)) + length (a_closed D s'))%nat ∧
    (length (a_closed D s) ≤ length (a_closed D s'))%nat.
Proof.
  intros [G1 G2 G3 G4 G5 G6 G7 G8 G9 G10 G11] Hgn.
  destruct (around_spec D h wn0 dw wd lim s0 OK Hh Hwd s X G1 G2 G3 G4 Hgn)
    as (s' & g & X' & Hr & R1 & R2 & R3 & R4 & R5 & R6 & R7 & R8 & R9).
  exists s', g, X'. split; [done|]. split; [|done]. destruct g; simpl.
  - destruct R9 as (c & path & os & k & Hc & Hsl & Hsol & Hk & Hc0 & Hlt & Hbd).
    assert (Hall : ∀ e, e ∈ a_sols D s → c < e.1).
    { intros e He. destruct (a_sols D s) as [|e0 l] eqn:Esl; [by apply elem_of_nil in He|]. simpl in G5.
      specialize (Hlt _ G5). apply elem_of_cons in He as [->|He]; [done|].
      apply StronglySorted_inv in G7 as [_ G7]. rewrite Forall_forall in G7. specialize (G7 _ He). simpl in G7. lia. }
    split; try done.
    + by rewrite R4.
    + by rewrite Hsl, Hc.
    + rewrite Hsl. constructor; [|done]. split; [done|]. by exists k.
    + rewrite Hsl. constructor; [done|]. apply Forall_forall. intros e He. by apply Hall.
    + intros _. exists c. rewrite R4. done.
    + by rewrite R5.
    + by rewrite R5.
    + rewrite R5, Hsl, Hc. intros r Hr'. destruct (G11 _ Hr') as [(p & Hp) (c0 & Hc0' & Hle & _)]. split.
      * exists p. by right.
      * exists c. specialize (Hlt _ Hc0'). split; [done|]. split; [lia|intros _; lia].
  - destruct R9 as [Hc Hsl]. split; try done.
    + by rewrite R4.
    + by rewrite Hsl, Hc.
    + by rewrite Hsl.
    + by rewrite Hsl.
    + intros Hg. rewrite R4, Hc. by apply G8.
    + by rewrite R5.
    + by rewrite R5.
    + rewrite R5, Hsl, Hc. done.
Qed.

(** The row of a successful improve. *)
Lemma report_spec s X : good s true X →
  ∃ l inc r, report D wd s = Some (AState D (a_nodes D s) (setarr (a_open D s) l) (a_closed D s) inc (a_wt D s) (a_cost D s)
        (a_sols D s) (r :: a_rows D s) (a_expd D s) (a_gend D s)) ∧
    row_ok r ∧ r_wt r = a_wt D s ∧ a_cost D s = Some (r_cost r) ∧
    (a_wt D s = wd → l = arr (a_open D s) ∧ inc = a_incons D s ∧ r_bound r = (1, 1)) ∧
    NoDup (inc ++ l) ∧ (∀ i, i ∈ l ∨ i ∈ inc → live D (vw s X) i) ∧
    (∀ i a, live D (vw s X) i → a_nodes D s !! i = Some a →
       i ∈ l ∨ i ∈ inc ∨ ∃ c, a_cost D s = Some c ∧ c ≤ n_g D a + n_p D a).
Proof.
  intros [G1 G2 G3 G4 G5 G6 G7 G8 G9 G10 G11]. destruct (G8 eq_refl) as (c & Hc & Hc0 & Hbd).
  assert (Hnd : NoDup (a_incons D s ++ arr (a_open D s))).
  { apply NoDup_app. split; [apply (vi_innd _ _ _ _ _ G1)|]. split; [|apply (vi_opnd _ _ _ _ _ G1)].
    apply (vi_inop _ _ _ _ _ G1). }
  unfold report. rewrite Hc. cbn [mbind option_bind].
  destruct (bool_decide_reflect (a_wt D s = wd)) as [Hw|Hw].
  - cbn [mbind option_bind fst snd]. rewrite bool_decide_false by lia.
    exists (arr (a_open D s)), (a_incons D s), (Row (a_wt D s) (1, 1) c). split; [rewrite <-Hc; by destruct (a_open D s)|].
    split_and!; try done.
    + split; simpl; [done|lia|lia|lia|]. intros Hcons. right. intros ss os k Hs. specialize (Hbd Hcons ss os k Hs). nia.
    + intros i a [?|?] _; tauto.
  - destruct (findbound_spec s X c G1 Hc) as (l & inc & b & Hf & Hl & Hinc & Hb). rewrite Hf. cbn [mbind option_bind].
    set (b' := if bool_decide (a_wt D s * b.2 < wd * b.1) then (a_wt D s, wd) else b).
    exists l, inc, (Row (a_wt D s) b' c). split; [by rewrite <-Hc|].
    assert (Hlive : ∀ i, i ∈ l ∨ i ∈ inc ↔ live D (vw s X) i ∧ fv (a_nodes D s) i < c).
    { intros i. rewrite Hl, Hinc, !elem_of_list_filter. unfold live. simpl. tauto. }
    split_and!; try done.
    + assert (Hcons : consistent h → certified c b'.1 b'.2).
      { intros Hcons. pose proof (consistent_admissible D h h Hcons (λ t, Z.le_refl _)) as Hadm. unfold b'.
        destruct (bool_decide_reflect (a_wt D s * b.2 < wd * b.1)) as [Hlt|Hge].
        - right. simpl. intros ss os k Hs. specialize (Hbd Hcons ss os k Hs). lia.
        - destruct Hb as [[-> Hb]|(m & -> & Hm & Hb)].
          + left. split; [done|]. by apply Hb.
          + right. simpl. intros ss os k Hs. specialize (Hb Hadm ss os k Hs). nia. }
      split; simpl; [done| | | |done].
      * unfold b'. destruct (bool_decide_reflect (a_wt D s * b.2 < wd * b.1)) as [Hlt|Hge]; simpl; [done|].
        destruct Hb as [[-> Hb]|(m & -> & Hm & Hb)]; simpl in *; [lia|]. destruct (decide (m = 0)) as [->|]; [nia|lia].
      * unfold b'. destruct (bool_decide_reflect (a_wt D s * b.2 < wd * b.1)) as [Hlt|Hge]; simpl; lia.
      * unfold b'. intros Hadm. destruct (bool_decide_reflect (a_wt D s * b.2 < wd * b.1)) as [Hlt|Hge]; simpl; [lia|].
        intros _. destruct Hb as [[-> Hb]|(m & -> & Hm & Hb)].
        -- left. split; [done|]. by apply Hb.
        -- right. simpl. intros ss os k Hs. specialize (Hb Hadm ss os k Hs). nia.
    + apply NoDup_app in Hnd as (Hn1 & Hn2 & Hn3). apply NoDup_app. rewrite Hl, Hinc. split; [by apply NoDup_filter|].
      split; [|by apply NoDup_filter]. intros x. rewrite Hinc, Hl, !elem_of_list_filter. intros [_ Hx] [_ Hx']. by apply (Hn2 x).
    + intros i Hi. by apply Hlive.
    + intros i a Hi Ha. destruct (Z.lt_ge_cases (fv (a_nodes D s) i) c) as [Hlt|Hge].
      * assert (i ∈ l ∨ i ∈ inc) by by apply Hlive. tauto.
      * right. right. exists c. split; [done|]. unfold fv in Hge. by rewrite Ha in Hge.
Qed.

Lemma nextwt_spec w : 0 < dw → wd < w → wd ≤ nextwt dw wd w < w.
Proof. intros Hd Hw. unfold nextwt. repeat case_bool_decide; lia. Qed.

Definition rest s (s' : astate) : Prop :=
  a_nodes D s' = a_nodes D s ∧ a_closed D s' = a_closed D s ∧ a_wt D s' = a_wt D s ∧ a_cost D s' = a_cost D s ∧
  a_sols D s' = a_sols D s ∧ a_expd D s' = a_expd D s ∧ a_gend D s' = a_gend D s.

(** What follows the end of improve, up to the next one. *)
Lemma astep_end s goal X : good s goal X → 0 < dw → negb (alimit D lim s) && goodnodes D wd s = false →
  (∃ s', astep D h dw wd lim s goal = Some (inr (s', true)) ∧ good s' false X ∧ a_wt D s' = wd ∧
     rest s s' ∧ arr (a_open D s') = arr (a_open D s) ∧ key (a_open D s') = key (a_open D s)) ∨
  (∃ s', good s' false X ∧ a_incons D s' = [] ∧ wd ≤ a_wt D s' < a_wt D s ∧
     a_expd D s' = a_expd D s ∧
     (astep D h dw wd lim s goal = Some (inr (s', false)) ∧ (alimit D lim s' = true ∨ arr (a_open D s') = []) ∨
      astep D h dw wd lim s goal = Some (inl (s', false)))).
Proof.
  intros Hgood Hdw Hend. unfold astep. rewrite Hend.
  (* the state after the row *)
  assert (∃ s1 l inc, (if goal then report D wd s else Some s) = Some s1 ∧
    rest s s1 ∧ a_open D s1 = setarr (a_open D s) l ∧ a_incons D s1 = inc ∧
    (a_wt D s = wd → l = arr (a_open D s) ∧ inc = a_incons D s) ∧
    NoDup (inc ++ l) ∧ (∀ i, i ∈ l ∨ i ∈ inc → live D (vw s X) i) ∧
    (∀ i a, live D (vw s X) i → a_nodes D s !! i = Some a →
       i ∈ l ∨ i ∈ inc ∨ ∃ c, a_cost D s = Some c ∧ c ≤ n_g D a + n_p D a) ∧
    Forall row_ok (a_rows D s1) ∧ StronglySorted (λ a b, r_cost a < r_cost b) (a_rows D s1) ∧
    ∀ r, r ∈ a_rows D s1 → (∃ p, (r_cost r, p) ∈ a_sols D s) ∧ ∃ c, a_cost D s = Some c ∧ c ≤ r_cost r)
    as (s1 & l & inc & Hs1 & Hrest & Hopen & Hinc & Hw1 & Hnd & Hsub & Hsup & Hro & Hrd & Hrl).
  { destruct goal.
    - destruct (report_spec s X Hgood) as (l & inc & r & Hr & Hrok & Hrw & Hrc & Hw & Hnd & Hsub & Hsup).
      eexists _, l, inc. split; [exact Hr|]. destruct Hgood as [G1 G2 G3 G4 G5 G6 G7 G8 G9 G10 G11].
      split_and!; try done; simpl.
      + by intros (? & ? & ?)%Hw.
      + by constructor.
      + constructor; [done|]. apply Forall_forall. intros r' Hr'. destruct (G11 _ Hr') as [_ (c & Hc & _ & Hlt)].
        rewrite Hrc in Hc. injection Hc as <-. by apply Hlt.
      + intros r' [->|Hr']%elem_of_cons.
        * split; [|exists (r_cost r); split; [done|lia]].
          rewrite Hrc in G5. destruct (a_sols D s) as [|[c0 p0] sl]; [done|]. simpl in G5. injection G5 as ->.
          exists p0. left.
        * destruct (G11 _ Hr') as [? (c & Hc & ? & _)]. split; [done|]. by exists c.
    - eexists s, (arr (a_open D s)), (a_incons D s). split; [done|]. destruct Hgood as [G1 G2 G3 G4 G5 G6 G7 G8 G9 G10 G11].
      split_and!; try done.
      + by destruct (a_open D s).
      + apply NoDup_app. split; [apply (vi_innd _ _ _ _ _ G1)|]. split; [|apply (vi_opnd _ _ _ _ _ G1)].
        apply (vi_inop _ _ _ _ _ G1).
      + intros i a [?|?] _; tauto.
      + intros r Hr. destruct (G11 _ Hr) as [? (c & Hc & ? & _)]. split; [done|]. by exists c. }
  rewrite Hs1. cbn [mbind option_bind]. destruct Hgood as [G1 G2 G3 G4 G5 G6 G7 G8 G9 G10 G11].
  pose proof Hrest as (R1 & R2 & R3 & R4 & R5 & R6 & R7). rewrite R3.
  destruct (bool_decide_reflect (a_wt D s ≤ wd)) as [Hle|Hgt].
  - left. assert (a_wt D s = wd) as Hweq by lia. destruct (Hw1 Hweq) as [-> ->].
    assert (Ho : a_open D s1 = a_open D s) by (rewrite Hopen; by destruct (a_open D s)).
    assert (Hvw : vw s1 X = vw s X) by (unfold Refine.vw; by rewrite R1, R2, R4, Ho, Hinc).
    exists s1. split; [done|]. split; [|split_and!; [congruence|done|by rewrite Ho..]].
    split; rewrite ?Hvw, ?R3, ?R4, ?R5; try done.
    + split; rewrite ?R1, ?R2, ?R3, ?Ho; apply G4.
    + intros r Hr. destruct (Hrl r Hr) as [? (c & ? & ?)]. split; [done|]. by exists c.
  - right. destruct (reweigh_spec s s1 X l inc G1 R1 R4 Hinc) as (s2 & Hs2 & Hren & Hh2 & W1 & W2 & W3 & W4 & W5 & W6);
      [by rewrite Hopen|done..|].
    rewrite Hs2. cbn [mbind option_bind]. exists s2. rewrite R3 in W1.
    pose proof (nextwt_spec (a_wt D s) Hdw ltac:(lia)) as Hnw. rewrite <-W1 in Hnw.
    split_and!.
    + split; try done.
      * by apply (renew_vinv D h wd s0 OK Hh Hwd (vw s X)).
      * intros _. apply (renew_winv D h wd s0 OK Hh Hwd (a_wt D s2) (vw s X)); [done..|lia].
      * lia.
      * by rewrite W2, W3, R4, R5.
      * by rewrite W3, R5.
      * by rewrite W3, R5.
      * by rewrite W4.
      * by rewrite W4.
      * rewrite W4, W3, R5, W2, R4. intros r Hr. destruct (Hrl r Hr) as [? (c & ? & ?)]. split; [done|]. by exists c.
    + apply (rn_in _ _ _ Hren).
    + lia.
    + lia.
    + congruence.
    + destruct (alimit D lim s2) eqn:El.
      * left. split; [done|]. by left.
      * destruct (empty (a_open D s2)) eqn:Ee; simpl; [left|by right]. split; [done|]. right.
        unfold empty in Ee. apply bool_decide_eq_true in Ee. by apply nil_length_inv.
Qed.

Lemma ainit_good : wd ≤ wn0 → 0 < dw → ∃ s, ainit D h wn0 dw wd s0 = Some s ∧ good s false [] ∧ a_wt D s = wn0.
Proof.
  intros Hw Hd. unfold ainit. rewrite !bool_decide_false by lia. cbn [orb].
  destruct (push_spec lt lt_asym lt_neg (λ _, True) (new (λ _, (0, 0))) 0%nat (wn0 * h s0, 0)) as (q & Hq & Hi & HP & Hk).
  { split; [|split|]; simpl; try done.
    apply NoDup_nil_2. }
  { by intros ?%elem_of_nil. }
  rewrite Hq. cbn [mbind option_bind]. eexists. split; [done|]. split; [|done].
  assert (Ha : arr q = [0%nat]) by by apply Permutation_singleton_r in HP.
  assert (Hvw : vw (AState D [Node D None s0 nop nop 0 (h s0)] q [0%nat] [] wn0 None [] [] 0 0) [] = view0 D h s0).
  { unfold Refine.vw, view0. simpl. by rewrite Ha. }
  split; rewrite ?Hvw; simpl; try done.
  - apply (view0_vinv D h wd s0 OK Hh Hwd).
  - intros _. apply (view0_winv D h wd s0 OK Hh Hwd).
  - split; simpl; [by eapply inv_mono; [|exact Hi]|]. intros i a Hia Hl. rewrite Hk. simpl.
    rewrite Ha in Hia. apply elem_of_list_singleton in Hia as ->. simpl in Hl. injection Hl as <-. simpl. f_equal. lia.
  - constructor.
  - constructor.
  - by intros r ?%elem_of_nil.
Qed.

Lemma ainit_wt s : ainit D h wn0 dw wd s0 = Some s → wd ≤ wn0 ∧ 0 < dw.
Proof. unfold ainit. repeat case_bool_decide; simpl; try done. lia. Qed.

Lemma arunning_good s goal : arunning D h wn0 dw wd lim s0 s goal → ∃ X, good s goal X.
Proof.
  induction 1 as [s Hi|s g s' g' Hr [X IH] Hs].
  - destruct (ainit_wt s Hi) as [Hw Hd]. destruct (ainit_good Hw Hd) as (s' & Hs' & Hg & _). exists [].
    rewrite Hs' in Hi. by injection Hi as <-.
  - assert (Hd : 0 < dw).
    { clear -Hr Hwd. induction Hr as [s Hi|]; [|done]. revert Hi. unfold ainit. repeat case_bool_decide; simpl; try done. lia. }
    destruct (negb (alimit D lim s) && goodnodes D wd s) eqn:E.
    + unfold astep in Hs. rewrite E in Hs. apply andb_prop in E as [_ E].
      destruct (around_good s g X IH E) as (s1 & g1 & X' & Ha & Hg & _). rewrite Ha in Hs. simpl in Hs.
      injection Hs as <- <-. by exists X'.
    + destruct (astep_end s g X IH Hd E) as [(s1 & Hs1 & _)|(s1 & Hg & _ & _ & _ & [[Hs1 _]|Hs1])];
        rewrite Hs1 in Hs; try done. injection Hs as <- <-. by exists X.
Qed.

(** ** Termination *)
Lemma closed_bound s goal X U : good s goal X → (∀ t, reachable s0 t → t ∈ U) → (length (a_closed D s) ≤ length U)%nat.
Proof.
  intros Hg HU. pose proof (gd_v _ _ _ Hg) as Hv.
  set (st i := match a_nodes D s !! i with Some a => n_state D a | None => s0 end).
  rewrite <-(fmap_length st (a_closed D s)). apply submseteq_length, NoDup_submseteq.
  - apply NoDup_fmap_2_strong; [|apply (vi_clnd _ _ _ _ _ Hv)]. intros i j Hi Hj.
    destruct (vi_cl _ _ _ _ _ Hv i Hi) as [a Ha], (vi_cl _ _ _ _ _ Hv j Hj) as [b Hb]. simpl in Ha, Hb.
    unfold st. rewrite Ha, Hb. intros Hab. by apply (vi_clinj _ _ _ _ _ Hv i j a b).
  - intros t (i & -> & Hi)%elem_of_list_fmap. destruct (vi_cl _ _ _ _ _ Hv i Hi) as [a Ha]. simpl in Ha.
    unfold st. rewrite Ha. apply HU. by apply (node_reachable D h wd s0 OK Hh Hwd (vw s X) none i a).
Qed.

Lemma aloop_ends U : 0 < dw → (∀ t, reachable s0 t → t ∈ U) →
  ∀ (m1 m2 : nat) s goal X, good s goal X →
  (Z.to_nat (a_wt D s - wd) ≤ m1)%nat →
  (2 * (length U - length (a_closed D s)) + length (arr (a_open D s)) ≤ m2)%nat →
  ∃ r, ends (λ n, aloop D h dw wd lim n s goal) r.
Proof.
  intros Hdw HU. induction m1 as [m1 IH1] using lt_wf_ind. induction m2 as [m2 IH2] using lt_wf_ind.
  intros s goal X Hg H1 H2.
  assert (Hstep : ∀ s' g', astep D h dw wd lim s goal = Some (inl (s', g')) →
    (∃ r, ends (λ n, aloop D h dw wd lim n s' g') r) → ∃ r, ends (λ n, aloop D h dw wd lim n s goal) r).
  { intros s' g' Hs (r & k & Hk). exists r, (S k). intros n Hn. destruct n as [|n]; [lia|].
    cbn [aloop]. rewrite Hs. cbn [mbind option_bind]. apply Hk. lia. }
  assert (Hdone : ∀ r, astep D h dw wd lim s goal = Some (inr r) → ∃ r, ends (λ n, aloop D h dw wd lim n s goal) r).
  { intros r Hs. exists r, 1%nat. intros n Hn. destruct n as [|n]; [lia|]. cbn [aloop]. by rewrite Hs. }
  destruct (negb (alimit D lim s) && goodnodes D wd s) eqn:E.
  - pose proof E as [_ Egn]%andb_prop.
    destruct (around_good s goal X Hg Egn) as (s1 & g1 & X' & Ha & Hg1 & Hw & L1 & L2).
    apply (Hstep s1 (g1 || goal)); [unfold astep; rewrite E, Ha; done|].
    pose proof (closed_bound _ _ _ U Hg HU). pose proof (closed_bound _ _ _ U Hg1 HU).
    apply (IH2 (m2 - 1)%nat ltac:(lia) s1 _ X'); [done|by rewrite Hw|lia].
  - destruct (astep_end s goal X Hg Hdw E) as [(s1 & Hs1 & _)|(s1 & Hg1 & _ & Hw & _ & [[Hs1 _]|Hs1])];
      [by eapply Hdone..|].
    apply (Hstep s1 false Hs1). pose proof (gd_wt _ _ _ Hg).
    apply (IH1 (Z.to_nat (a_wt D s1 - wd)) ltac:(lia)
      (2 * (length U - length (a_closed D s1)) + length (arr (a_open D s1)))%nat s1 false X); [done|lia|lia].
Qed.

(** ** The end of a run *)
Lemma aloop_end : ∀ fuel s goal X s' conv, good s goal X → 0 < dw →
  aloop D h dw wd lim fuel s goal = Some (s', conv) →
  ∃ X', good s' false X' ∧
    if conv then a_wt D s' = wd ∧ (alimit D lim s' = true ∨ goodnodes D wd s' = false)
    else a_incons D s' = [] ∧ (alimit D lim s' = true ∨ arr (a_open D s') = []).
Proof.
  induction fuel as [|fuel IH]; intros s goal X s' conv Hg Hdw Hl; [done|].
  cbn [aloop] in Hl. destruct (negb (alimit D lim s) && goodnodes D wd s) eqn:E.
  - pose proof E as [_ Egn]%andb_prop.
    destruct (around_good s goal X Hg Egn) as (s1 & g1 & X' & Ha & Hg1 & Hw & L1 & L2).
    unfold astep in Hl. rewrite E, Ha in Hl. simpl in Hl. by eapply IH.
  - destruct (astep_end s goal X Hg Hdw E) as [(s1 & Hs1 & Hg1 & Hw & Hr & Ho & Hk)|(s1 & Hg1 & Hi & Hw & _ & [[Hs1 He]|Hs1])];
      rewrite Hs1 in Hl; cbn [mbind option_bind] in Hl.
    + apply (inj Some) in Hl. injection Hl as <- <-. exists X. split; [done|]. split; [done|].
      destruct Hr as (R1 & R2 & R3 & R4 & R5 & R6 & R7).
      assert (El : alimit D lim s1 = alimit D lim s) by (unfold alimit; by rewrite R6, R7).
      assert (Eg : goodnodes D wd s1 = goodnodes D wd s).
      { unfold goodnodes, front. by rewrite Ho, Hk, R4. }
      rewrite El, Eg. destruct (alimit D lim s); [by left|right]. done.
    + apply (inj Some) in Hl. injection Hl as <- <-. exists X. done.
    + by eapply IH.
Qed.

(** Nothing left to expand: the incumbent is optimal. *)
Lemma empty_optimal s X ss os k : good s false X → admissible h → a_incons D s = [] → arr (a_open D s) = [] →
  solution s0 ss os k → ∃ c, a_cost D s = Some c ∧ c ≤ k.
Proof.
  intros Hg Hadm Hi Ho Hs.
  destruct (live_solution D h wd s0 OK Hh Hwd (vw s X) none ss os k (gd_v _ _ _ Hg) (none_not D h wd s0 OK Hh Hwd) Hadm Hs)
    as [(i & a & [Hl|Hl] & Ha & Hle)|(c' & Hc' & Hle)].
  - simpl in Hl. rewrite Ho in Hl. by apply elem_of_nil in Hl.
  - simpl in Hl. rewrite Hi in Hl. by apply elem_of_nil in Hl.
  - by exists c'.
Qed.

Lemma converged_optimal s X ss os k : good s false X → consistent h → a_wt D s = wd → goodnodes D wd s = false →
  solution s0 ss os k → ∃ c, a_cost D s = Some c ∧ c ≤ k.
Proof.
  intros Hg Hcons Hw Hgn Hs. pose proof (gd_v _ _ _ Hg) as Hv.
  destruct Hs as (Hwk & Hhd & t & Hl & Ht).
  assert (Hto : wto s0 t k).
  { apply (walk_wto s0 ss os k s0 t 0); [done..|constructor]. }
  pose proof (proj1 Hcons _ Ht) as Ht0.
  destruct (frontier D h wd s0 OK Hh Hwd (a_wt D s) (vw s X) none Hv (gd_w _ _ _ Hg Hcons) (none_not D h wd s0 OK Hh Hwd)
    Hcons ltac:(lia) t k Hto) as [(j & b & Hj & Hb & Hk)|[(x & Hx & HX)|(c & Hc & Hle)]].
  - simpl in Hj, Hb. unfold goodnodes, front in Hgn. destruct (gd_h _ _ _ Hg) as [Hi Hkey].
    destruct (arr (a_open D s)) as [|n rest'] eqn:Harr; [by apply elem_of_nil in Hj|].
    rewrite decide_False in Hgn by done. cbn [lookup list_lookup] in Hgn.
    destruct (a_cost D s) as [c|] eqn:Hc; [|done]. exists c. split; [done|].
    apply bool_decide_eq_false in Hgn.
    assert (Hnin : n ∈ arr (a_open D s)) by (rewrite Harr; left).
    destruct (vi_op _ _ _ _ _ Hv n Hnin) as [pn Hn]. simpl in Hn. rewrite (Hkey n pn Hnin Hn) in Hgn. simpl in Hgn.
    apply elem_of_list_lookup_1 in Hj as [y Hy].
    assert (Hlt : lt (key (a_open D s) j) (key (a_open D s) n) = false).
    { apply (ordered_root lt lt_asym lt_neg (λ _, False) (a_open D s) n y j); [apply Hi|by rewrite Harr|by rewrite Harr]. }
    rewrite (Hkey n pn Hnin Hn), (Hkey j b) in Hlt; [|rewrite Harr; by eapply elem_of_list_lookup_2|done].
    unfold astar_lt in Hlt. simpl in Hlt.
    rewrite Hw in *. case_decide as Heq; apply bool_decide_eq_false in Hlt; nia.
  - destruct (vi_goal _ _ _ _ _ Hv _ _ HX Ht) as (c & Hc & Hcx). exists c. split; [done|]. rewrite Hw in Hx. nia.
  - exists c. split; [done|]. rewrite Hw in Hle. nia.
Qed.
End loop.
