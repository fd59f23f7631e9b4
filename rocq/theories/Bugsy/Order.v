(** The order in which BUGSY expands nodes, what holds of all its nodes, and
    when two estimators make no difference. *)
From stdpp Require Import prelude gmap.
From Coq Require Import ZArith Lia ZifyBool ZifyNat.
From Verif Require Import Common.Orders Common.Fuel BinHeap.Model BinHeap.Proofs.
From Verif Require Import Search.Model Search.Proofs Bugsy.Model Bugsy.Proofs.
Local Open Scope Z_scope.

Arguments pushdown : simpl nomatch.

(** pushdown moves nothing before the position it starts from. *)
Lemma pushdown_low {K} (lt : K → K → bool) n (h : heap K) i h' i' :
  pushdown lt n h i = Some (h', i') → ∀ j, (j < i)%nat → arr h' !! j = arr h !! j.
Proof.
  revert h i. induction n as [|n IH]; intros h i Hp j Hj; [done|].
  cbn [pushdown] in Hp.
  match type of Hp with (?m1 ≫= _) = _ => set (M1 := m1) in * end.
  assert (∀ s, M1 = Some s → s = i ∨ (i < s)%nat) as HM1.
  { intros s. unfold M1. destruct (decide (left i < _)%nat); [|naive_solver].
    destruct (arr h !! left i); [|done]. destruct (arr h !! i); [|done]. cbn [mbind option_bind].
    intros [= <-]. destruct (pred lt h _ _); [right; unfold left; lia|by left]. }
  destruct M1 as [s1|]; [|done]. cbn [mbind option_bind] in Hp. specialize (HM1 s1 eq_refl).
  match type of Hp with (?m1 ≫= _) = _ => set (M2 := m1) in * end.
  assert (∀ s, M2 = Some s → s = i ∨ (i < s)%nat) as HM2.
  { intros s. unfold M2. destruct (decide (right i < _)%nat); [|naive_solver].
    destruct (arr h !! right i); [|done]. destruct (arr h !! s1); [|done]. cbn [mbind option_bind].
    intros [= <-]. destruct (pred lt h _ _); [right; unfold right; lia|done]. }
  destruct M2 as [s2|]; [|done]. cbn [mbind option_bind] in Hp. specialize (HM2 s2 eq_refl).
  destruct (decide (s2 = i)) as [Hs|Hs]; [by simplify_eq|].
  destruct (swap h s2 i) as [h1|] eqn:Hsw; [|done]. cbn [mbind option_bind] in Hp.
  rewrite (IH _ _ Hp) by lia.
  unfold swap in Hsw. destruct (arr h !! s2) as [a|]; [|done]. cbn [mbind option_bind] in Hsw.
  destruct (arr h !! i) as [b|]; [|done]. cbn [mbind option_bind] in Hsw. injection Hsw as <-.
  cbn [setarr setind arr]. rewrite !list_lookup_insert_ne by lia. done.
Qed.

Arguments pullup : simpl never.
Arguments pushdown : simpl never.
Arguments fuel : simpl never.

(** ** Best first *)
Section best.
Context (D : domain) (hh dd : St D → Z).
Context {E K : Type} (lt : K → K → bool) (SW : strict_weak lt) (k0 : K) (est0 : E).
Context (util : nat → E → Z → fields → E * K).
Context (on_expand : nat → E → fields → E).
Context (on_kids : E → fields → list kidinfo → E).
Context (refresh : nat → E → option E).
Context (dropdups : bool) (lim : limits).
Context (s0 : St D).
Context (kf : E → Z → fields → K).
Context (util_kf : ∀ x e g p, util x e g p = (e, kf e g p)).
Context (expand_kf : ∀ x e q g p, kf (on_expand x e q) g p = kf e g p).
Context (kids_kf : ∀ e q ks g p, kf (on_kids e q ks) g p = kf e g p).
Set Default Proof Using "All".

Notation bstate := (bstate D (E:=E) (K:=K)).
Notation computeutil := (computeutil D util).
Notation hinv := (BinHeap.Proofs.inv lt (λ _, True)).
Let asym := sw_asym lt SW.
Let neg := sw_neg_trans lt SW.

(** The key of node [x] is the one that the current estimates give. *)
Definition fresh (b : bstate) (x : nat) : Prop :=
  ∃ n, b_nodes D b !! x = Some n ∧ key (b_open D b) x = kf (b_est D b) (n_g D n) (n_p D n).

Definition sorted (b : bstate) : Prop :=
  hinv (b_open D b) ∧ ∀ x, x ∈ arr (b_open D b) → fresh b x.

Lemma computeutil_eq (b : bstate) i n :
  b_nodes D b !! i = Some n →
  computeutil b i = Some (Bugsy.Model.set_open D b (setkey (b_open D b) i (kf (b_est D b) (n_g D n) (n_p D n)))).
Proof. intros Hn. unfold computeutil. rewrite Hn. cbn [mbind option_bind]. rewrite util_kf. by destruct b. Qed.

Lemma fresh_est (b : bstate) e x :
  (∀ g p, kf e g p = kf (b_est D b) g p) → fresh b x → fresh (set_est D b e) x.
Proof. intros He (n & Hn & Hk). exists n. cbn [set_est b_nodes b_open b_est]. by rewrite He. Qed.

Lemma sorted_est (b : bstate) e :
  (∀ g p, kf e g p = kf (b_est D b) g p) → sorted b → sorted (set_est D b e).
Proof. intros He [H1 H2]. split; [done|]. intros x Hx. apply fresh_est; [done|]. by apply H2. Qed.

Lemma consider_sorted (b b' : bstate) i op k :
  sorted b → considerkid D hh dd lt util dropdups b i op = Some (b', k) → sorted b'.
Proof.
  intros [Hi Hf]. unfold considerkid. destruct (b_nodes D b !! i) as [pn|] eqn:Hn; [|done].
  cbn [mbind option_bind]. destruct (edge (n_state D pn) op) as [[t c] rev].
  destruct (find_node D (b_nodes D b) t) as [j|] eqn:Hfn.
  - destruct (find_node_Some _ _ _ Hfn) as (dn & Hd & Hst). rewrite Hd. cbn [mbind option_bind].
    destruct (dropdups || _); [by intros [= <- _]|].
    set (b1 := if decide (ind (b_open D (add_dups D b)) j < 0) then add_reopnd D (add_dups D b) else add_dups D b).
    assert (b_nodes D b1 = b_nodes D b ∧ b_open D b1 = b_open D b ∧ b_est D b1 = b_est D b) as (N1 & N2 & N3).
    { unfold b1. by destruct (decide _). }
    set (nn := Node D (Some i) (n_state D dn) op rev (n_g D pn + c) _).
    rewrite (computeutil_eq _ j nn).
    2:{ cbn [set_nodes b_nodes]. apply list_lookup_insert. rewrite N1. by eapply lookup_lt_Some. }
    cbn [mbind option_bind set_open set_nodes b_nodes b_open b_est]. rewrite N1, N2, N3.
    set (kk := kf _ _ _).
    assert (∀ h', arr h' ≡ₚ arr (b_open D b) ∨ arr h' ≡ₚ j :: arr (b_open D b) →
      key h' = key (setkey (b_open D b) j kk) → hinv h' →
      sorted (set_open D (set_open D (set_nodes D b1 (<[j:=nn]> (b_nodes D b))) (setkey (b_open D b) j kk)) h')) as Hdone.
    { intros h' HP Hk Hh. split; [done|]. cbn [set_open set_nodes b_open]. intros x Hx.
      unfold fresh. cbn [set_open set_nodes b_nodes b_open b_est]. rewrite Hk, N3. cbn [setkey key].
      destruct (decide (x = j)) as [->|Hxj].
      - exists nn. split; [|done]. apply list_lookup_insert. by eapply lookup_lt_Some.
      - destruct (Hf x) as (n & Hxn & Hxk).
        { destruct HP as [HP|HP]; rewrite HP in Hx; [done|]. by apply elem_of_cons in Hx as [?|?]. }
        exists n. split; [by rewrite list_lookup_insert_ne by done|done]. }
    unfold pushupdate.
    assert (ind (setkey (b_open D b) j kk) j = ind (b_open D b) j) as Ei by done. rewrite Ei.
    destruct (decide (ind (b_open D b) j < 0)) as [Hlt|Hge].
    + assert (j ∉ arr (b_open D b)) as Hnj.
      { intros [p Hp]%elem_of_list_lookup. apply (proj2 (inv_exact _ _ _ Hi)) in Hp. lia. }
      destruct (push_spec lt asym neg (λ _, True) _ j kk Hi Hnj) as (h' & -> & Hi' & HP & Hk).
      cbn [mbind option_bind]. intros [= <- _]. apply Hdone; [by right|done|done].
    + assert (j ∈ arr (b_open D b)) as Hnj.
      { destruct (decide (j ∈ arr (b_open D b))) as [|Hno]; [done|].
        apply (inv_out _ _ _ Hi) in Hno; [|done]. lia. }
      destruct (update_spec lt asym neg (λ _, True) _ j kk Hi Hnj) as (h' & -> & Hi' & HP & Hk).
      cbn [mbind option_bind]. intros [= <- _]. apply Hdone; [by left|done|done].
  - set (nn := Node D (Some i) t op rev (n_g D pn + c) _).
    rewrite (computeutil_eq _ (length (b_nodes D b)) nn).
    2:{ cbn [set_nodes b_nodes]. rewrite lookup_app_r by lia. by rewrite Nat.sub_diag. }
    cbn [mbind option_bind set_open set_nodes b_nodes b_open b_est].
    set (j := length (b_nodes D b)). set (kk := kf _ _ _).
    assert (j ∉ arr (b_open D b)) as Hnj.
    { intros Hin. destruct (Hf j Hin) as (n & Hj & _). apply lookup_lt_Some in Hj. unfold j in Hj. lia. }
    destruct (push_spec lt asym neg (λ _, True) _ j kk Hi Hnj) as (h' & -> & Hi' & HP & Hk).
    cbn [mbind option_bind]. intros [= <- _]. split; [done|]. cbn [set_open set_nodes b_open].
    intros x Hx. unfold fresh. cbn [set_open set_nodes b_nodes b_open b_est]. rewrite Hk. cbn [setkey key].
    rewrite HP in Hx. destruct (decide (x = j)) as [->|Hxj].
    + exists nn. split; [|done]. rewrite lookup_app_r by (unfold j; lia). unfold j. by rewrite Nat.sub_diag.
    + apply elem_of_cons in Hx as [?|Hx]; [done|]. destruct (Hf x Hx) as (n & Hxn & Hxk).
      exists n. split; [by apply lookup_app_l_Some|done].
Qed.

Lemma expand_ops_sorted os (b b' : bstate) i ks :
  sorted b → expand_ops D hh dd lt util dropdups b i os = Some (b', ks) → sorted b'.
Proof.
  revert b ks. induction os as [|op os IH]; intros b ks Hs; cbn [expand_ops]; [by intros [= <- _]|].
  destruct (b_nodes D b !! i); [|done]. cbn [mbind option_bind]. case_decide; [by apply IH|].
  destruct (considerkid _ _ _ _ _ _ _ _ _) as [[b1 k]|] eqn:Hc; [|done]. cbn [mbind option_bind].
  destruct (expand_ops _ _ _ _ _ _ b1 _ _) as [[b2 ks2]|] eqn:He; [|done]. cbn [mbind option_bind].
  intros [= <- _]. eapply IH; [|exact He]. eapply consider_sorted; [|exact Hc]. done.
Qed.

(** *** The rebuilding of the heap *)

Lemma fresh_setkey (b : bstate) x n y :
  b_nodes D b !! x = Some n →
  fresh b y ∨ y = x →
  fresh (Bugsy.Model.set_open D b (setkey (b_open D b) x (kf (b_est D b) (n_g D n) (n_p D n)))) y.
Proof.
  intros Hn Hy. unfold fresh. cbn [set_open b_nodes b_open b_est setkey key].
  destruct (decide (y = x)) as [->|Hne]; [by eauto|]. destruct Hy as [Hy|]; done.
Qed.

(** All but the positions up to [i] have been given their new keys. *)
Definition from (i : nat) (b : bstate) : Prop :=
  (∀ p x, (i ≤ p)%nat → arr (b_open D b) !! p = Some x → fresh b x).

Lemma recompute_from n i (b b' : bstate) :
  from (i + n) b → recompute D util b (reverse (seq i n)) = Some b' →
  from i b' ∧ arr (b_open D b') = arr (b_open D b) ∧ ind (b_open D b') = ind (b_open D b) ∧
  b_nodes D b' = b_nodes D b ∧ b_est D b' = b_est D b.
Proof.
  revert b. induction n as [|n IH]; intros b Hf.
  { intros [= <-]. rewrite Nat.add_0_r in Hf. done. }
  rewrite seq_S, reverse_app. cbn [reverse rev_append app recompute].
  change (reverse [(i + n)%nat]) with [(i + n)%nat]. cbn [app recompute].
  destruct (arr (b_open D b) !! (i + n)%nat) as [x|] eqn:Hx; [|done]. cbn [mbind option_bind].
  destruct (b_nodes D b !! x) as [nx|] eqn:Hn; [|by unfold computeutil; rewrite Hn].
  rewrite (computeutil_eq _ _ _ Hn). cbn [mbind option_bind]. intros Hr.
  eapply IH in Hr; [exact Hr|].
  intros p y Hp Hy. cbn [set_open b_open setkey arr] in Hy. apply fresh_setkey; [done|].
  destruct (decide (p = i + n)%nat) as [->|Hne]; [right; congruence|left].
  apply (Hf p); [lia|done].
Qed.

Lemma rebuild_from i (b b' : bstate) :
  (i < length (arr (b_open D b)))%nat →
  shape (b_open D b) → ordered lt (S i) (b_open D b) → from (S i) b →
  rebuild D lt util b (downto i) = Some b' →
  ordered lt 0 (b_open D b') ∧ shape (b_open D b') ∧ from 0 b' ∧ b_est D b' = b_est D b.
Proof.
  revert b. induction i as [i IH] using lt_wf_ind; intros b Hi Hsh Hord Hf.
  assert (downto i = i :: match i with O => [] | S i' => downto i' end) as Edt.
  { unfold downto. rewrite seq_S, reverse_app. change (reverse [(0 + i)%nat]) with [i]. by destruct i. }
  rewrite Edt. cbn [rebuild].
  destruct (arr (b_open D b) !! i) as [x|] eqn:Hx; [|done]. cbn [mbind option_bind].
  destruct (b_nodes D b !! x) as [nx|] eqn:Hn; [|by unfold computeutil; rewrite Hn].
  rewrite (computeutil_eq _ _ _ Hn). cbn [mbind option_bind].
  set (kk := kf _ _ _). set (b1 := Bugsy.Model.set_open D b (setkey (b_open D b) x kk)).
  assert (from i b1) as Hf1.
  { intros p y Hp Hy. cbn [b1 set_open b_open setkey arr] in Hy. apply fresh_setkey; [done|].
    destruct (decide (p = i)) as [->|Hne]; [right; congruence|left]. apply (Hf p); [lia|done]. }
  assert (ordered lt (S i) (b_open D b1)) as Hord1.
  { intros j Hj Hp a b2 Ha Hb. cbn [b1 set_open b_open setkey arr key] in *.
    pose proof (parent_lt j Hj) as Hpl. destruct Hsh as [[Hnd _] _].
    rewrite decide_False.
    2:{ intros ->. assert (j = i) by (by eapply NoDup_lookup). lia. }
    rewrite decide_False.
    2:{ intros ->. assert (parent j = i) by (by eapply NoDup_lookup). lia. }
    eapply Hord; done. }
  destruct (pushdown_spec lt asym neg i (fuel (b_open D b1)) (b_open D b1) i)
    as (q & i' & Hpd & Hra & Hord2).
  { unfold fuel. cbn [b1 set_open b_open setkey arr]. lia. }
  { done. }
  { split.
    - intros j Hj Hk Hp. apply Hord1; [done|lia].
    - intros c Hi0 Hk Hc Hp. pose proof (parent_lt i Hi0). lia. }
  rewrite Hpd. cbn [mbind option_bind].
  pose proof (pushdown_low _ _ _ _ _ _ Hpd) as Hlow.
  assert (shape q) as Hshq by (eapply rearr_shape; [exact Hra|done]).
  assert (from i (Bugsy.Model.set_open D b1 q)) as Hfq.
  { intros p y Hp Hy. cbn [set_open b_open] in Hy.
    assert (y ∈ arr (b_open D b1)) as [p' Hp']%elem_of_list_lookup.
    { rewrite <-(ra_perm _ _ Hra). by eapply elem_of_list_lookup_2. }
    assert (i ≤ p')%nat as Hip.
    { destruct (decide (i ≤ p')%nat); [done|]. rewrite <-Hlow in Hp' by lia.
      destruct Hshq as [[Hnd _] _]. assert (p = p') by (by eapply NoDup_lookup). lia. }
    destruct (Hf1 p' y Hip Hp') as (n & Hny & Hky). exists n. split; [done|].
    cbn [set_open b_open b_est]. rewrite (ra_key _ _ Hra). done. }
  destruct i as [|i].
  - cbn [rebuild]. intros [= <-]. done.
  - intros Hr. eapply (IH i) in Hr; [exact Hr|lia| |done|done|done].
    cbn [set_open b_open]. rewrite (rearr_len _ _ Hra). cbn [b1 set_open b_open setkey arr]. lia.
Qed.

Lemma reinit_sorted (b b' : bstate) e :
  sorted b → reinitheap D lt util (set_est D b e) = Some b' →
  sorted b'.
Proof.
  intros [Hi Hf]. unfold reinitheap. cbn [set_est b_open]. case_decide as H0.
  { intros [= <-]. split; [done|]. cbn [set_est b_open]. intros x Hx.
    apply nil_length_inv in H0. rewrite H0 in Hx. by apply elem_of_nil in Hx. }
  set (size := length (arr (b_open D b))) in *.
  destruct (recompute D util (set_est D b e) _) as [b1|] eqn:Hr; [|done]. cbn [mbind option_bind].
  eapply recompute_from in Hr as (Hf1 & Ha1 & Hi1 & Hn1 & He1).
  2:{ intros p x Hp Hx. apply lookup_lt_Some in Hx. cbn [set_est b_open] in Hx.
      fold size in Hx. pose proof (Nat.div_lt size 2). lia. }
  cbn [set_est b_open b_nodes b_est] in Ha1, Hi1, Hn1, He1.
  assert (shape (b_open D b1)) as Hsh.
  { unfold shape, exact. rewrite Ha1, Hi1. split; [apply Hi|].
    intros x Hx. by apply (inv_out _ _ _ Hi). }
  intros Hb. eapply rebuild_from in Hb as (Ho & Hs & Hfr & _); [| |done| |exact Hf1].
  - split.
    + split; [done|apply Hs|]. intros x Hx _. by apply Hs.
    + intros x [p Hp]%elem_of_list_lookup. apply (Hfr p); [lia|done].
  - rewrite Ha1. fold size. apply Nat.div_lt; lia.
  - intros j Hj Hp a c Ha. apply lookup_lt_Some in Ha. rewrite Ha1 in Ha. fold size in Ha.
    unfold parent in Hp. pose proof (Nat.div_mod_eq size 2). pose proof (Nat.mod_upper_bound size 2).
    pose proof (Nat.div_mod_eq (j - 1) 2). pose proof (Nat.mod_upper_bound (j - 1) 2). lia.
Qed.

Lemma step_sorted (b b' : bstate) :
  sorted b →
  bstep D hh dd lt util on_expand on_kids refresh dropdups lim b = Some (inl b') → sorted b'.
Proof.
  intros [Hi Hf]. unfold bstep. destruct (empty (b_open D b) || blimit D lim b) eqn:Ee; [done|].
  pose proof (pop_spec lt asym neg (λ _, True) _ Hi) as Hp.
  apply orb_false_iff in Ee as [Ee _]. unfold empty in Ee. apply bool_decide_eq_false in Ee.
  destruct (arr (b_open D b)) as [|x l] eqn:Ea; [done|].
  destruct Hp as (q & -> & Hiq & HP & Hk & _). cbn [mbind option_bind set_open b_nodes].
  destruct (b_nodes D b !! x) as [pn|] eqn:Hn; [|done]. cbn [mbind option_bind].
  destruct (isgoal (n_state D pn)).
  { by destruct (solpath D _ _ _). }
  assert (sorted (Bugsy.Model.set_open D b q)) as Hq.
  { split; [done|]. cbn [set_open b_open]. intros y Hy. destruct (Hf y) as (n & Hyn & Hyk).
    { rewrite HP. by right. }
    exists n. split; [done|]. cbn [set_open b_open b_est]. by rewrite Hk. }
  unfold expand. cbn [set_open b_nodes]. rewrite Hn. cbn [mbind option_bind].
  destruct (expand_ops _ _ _ _ _ _ _ _ _) as [[b1 ks]|] eqn:He; [|done]. cbn [mbind option_bind].
  eapply expand_ops_sorted in He.
  2:{ apply sorted_est.
      - intros g p. apply expand_kf.
      - destruct Hq as [Hq1 Hq2]. split; [done|]. intros y Hy. destruct (Hq2 y Hy) as (n & Hyn & Hyk).
        exists n. done. }
  destruct (b_nodes D b1 !! x) as [pn1|]; [|done]. cbn [mbind option_bind].
  set (b2 := set_est _ _ _).
  assert (sorted b2) as Hb2.
  { unfold b2. apply sorted_est; [|done]. intros g p. apply kids_kf. }
  unfold updateopen. destruct (refresh _ _) as [e|].
  - destruct (reinitheap _ _ _ _) as [b3|] eqn:Hr; [|done]. cbn [mbind option_bind].
    intros [= <-]. by eapply reinit_sorted.
  - cbn [mbind option_bind]. by intros [= <-].
Qed.

Lemma init_sorted b : binit D hh dd lt k0 est0 util s0 = Some b → sorted b.
Proof.
  unfold binit. set (n0 := Node _ _ _ _ _ _ _). set (b0 := BState _ _ _ _ _ _ _ _).
  rewrite (computeutil_eq b0 0 n0) by done. cbn [mbind option_bind set_open b_open].
  set (kk := kf _ _ _).
  assert (hinv (b_open D b0)) as Hi.
  { split; [|split; [apply NoDup_nil_2|]|]; done. }
  destruct (push_spec lt asym neg (λ _, True) (b_open D b0) 0%nat kk Hi) as (h' & -> & Hi' & HP & Hk).
  { apply not_elem_of_nil. }
  cbn [mbind option_bind]. intros [= <-]. split; [done|]. cbn [set_open b_open].
  intros x Hx. rewrite HP in Hx. apply elem_of_list_singleton in Hx as ->.
  exists n0. split; [done|]. cbn [set_open b_open b_est]. by rewrite Hk.
Qed.

Lemma running_sorted b :
  brunning D hh dd lt k0 est0 util on_expand on_kids refresh dropdups lim s0 b → sorted b.
Proof.
  induction 1 as [b Hb|b b' Hr IH Hs]; [by apply init_sorted|by eapply step_sorted].
Qed.

(** The node at the head of the heap, which is the one popped next, is not
    preceded by any open node under the current estimates. *)
Lemma running_best b i :
  brunning D hh dd lt k0 est0 util on_expand on_kids refresh dropdups lim s0 b →
  front (b_open D b) = Some i →
  ∃ n, b_nodes D b !! i = Some n ∧ i ∈ arr (b_open D b) ∧
    (∃ q, pop lt (b_open D b) = Some (q, Some i)) ∧
    ∀ j m, j ∈ arr (b_open D b) → b_nodes D b !! j = Some m →
    lt (kf (b_est D b) (n_g D m) (n_p D m)) (kf (b_est D b) (n_g D n) (n_p D n)) = false.
Proof.
  intros [Hi Hf]%running_sorted Hfr. unfold front in Hfr. case_decide; [done|].
  pose proof (pop_spec lt asym neg (λ _, True) _ Hi) as Hp.
  destruct (arr (b_open D b)) as [|x l] eqn:Ea; [done|]. injection Hfr as ->.
  destruct Hp as (q & Hq & _ & _ & _ & Hmin).
  destruct (Hf i) as (n & Hn & Hk); [by left|]. exists n. split; [done|]. split; [by left|].
  split; [by eauto|]. intros j m Hj Hm. destruct (Hf j Hj) as (m' & Hm' & Hk'). simplify_eq.
  rewrite <-Hk, <-Hk'. by apply Hmin.
Qed.
End best.

(** ** Recomputing utilities leaves the nodes alone *)
Section samenodes.
Context (D : domain) {E K : Type} (lt : K → K → bool).
Context (util : nat → E → Z → fields → E * K).
Context (refresh : nat → E → option E).
Set Default Proof Using "All".
Notation bstate := (bstate D (E:=E) (K:=K)).

Lemma computeutil_nodes (b b' : bstate) i : computeutil D util b i = Some b' → b_nodes D b' = b_nodes D b.
Proof.
  unfold computeutil. destruct (b_nodes D b !! i); [|done]. cbn [mbind option_bind].
  destruct (util _ _ _ _). by intros [= <-].
Qed.

Lemma recompute_nodes is (b b' : bstate) : recompute D util b is = Some b' → b_nodes D b' = b_nodes D b.
Proof.
  revert b. induction is as [|i is IH]; intros b; cbn [recompute]; [by intros [= <-]|].
  destruct (arr (b_open D b) !! i); [|done]. cbn [mbind option_bind].
  destruct (computeutil D util _ _) as [b1|] eqn:Hc; [|done]. cbn [mbind option_bind].
  intros ->%IH. by apply computeutil_nodes in Hc.
Qed.

Lemma rebuild_nodes is (b b' : bstate) : rebuild D lt util b is = Some b' → b_nodes D b' = b_nodes D b.
Proof.
  revert b. induction is as [|i is IH]; intros b; cbn [rebuild]; [by intros [= <-]|].
  destruct (arr (b_open D b) !! i); [|done]. cbn [mbind option_bind].
  destruct (computeutil D util _ _) as [b1|] eqn:Hc; [|done]. cbn [mbind option_bind].
  destruct (pushdown _ _ _ _) as [[q ?]|]; [|done]. cbn [mbind option_bind].
  intros ->%IH. cbn [set_open b_nodes]. by apply computeutil_nodes in Hc.
Qed.

Lemma updateopen_nodes (b b' : bstate) : updateopen D lt util refresh b = Some b' → b_nodes D b' = b_nodes D b.
Proof.
  unfold updateopen. destruct (refresh _ _) as [e|]; [|by intros [= <-]].
  unfold reinitheap. case_decide; [by intros [= <-]|].
  destruct (recompute D util _ _) as [b1|] eqn:Hr; [|done]. cbn [mbind option_bind].
  intros ->%rebuild_nodes. by apply recompute_nodes in Hr.
Qed.
End samenodes.

(** ** What holds of all nodes *)
Section allnodes.
Context (D : domain) (hh dd : St D → Z).
Context {E K : Type} (lt : K → K → bool) (k0 : K) (est0 : E).
Context (util : nat → E → Z → fields → E * K).
Context (on_expand : nat → E → fields → E).
Context (on_kids : E → fields → list kidinfo → E).
Context (refresh : nat → E → option E).
Context (dropdups : bool) (lim : limits).
Context (s0 : St D).
Set Default Proof Using "All".

Notation bstate := (bstate D (E:=E) (K:=K)).
Notation node := (node D (P:=fields)).

Context (Q : St D → Z → fields → Prop).
Context (Q_root : Q s0 0 (Fields (hh s0) (hh s0) (dd s0) 0 0)).
Context (Q_kid : ∀ s g p op x, Q s g p → op ∈ ops s →
  Q (dest s op) (g + cost s op)
    (Fields (g + cost s op + Z.max (hh (dest s op)) (p_h p - cost s op))
       (Z.max (hh (dest s op)) (p_h p - cost s op)) (Z.max (dd (dest s op)) (p_d p - 1)) (S (p_depth p)) x)).
Context (Q_better : dropdups = false → ∀ s g p g', Q s g p → Q s g' (Fields (p_f p - g + g') (p_h p) (p_d p) (p_depth p) (p_expct p))).

Definition allQ (ns : list node) : Prop :=
  ∀ i n, ns !! i = Some n → Q (n_state D n) (n_g D n) (n_p D n).

Definition keeps (ns ns' : list node) : Prop :=
  ∀ i n, ns !! i = Some n → ∃ n', ns' !! i = Some n' ∧ n_state D n' = n_state D n.

Lemma keeps_refl ns : keeps ns ns.
Proof. intros i n Hn. eauto. Qed.

Lemma keeps_trans ns1 ns2 ns3 : keeps ns1 ns2 → keeps ns2 ns3 → keeps ns1 ns3.
Proof.
  intros H1 H2 i n Hn. destruct (H1 _ _ Hn) as (n' & Hn' & E1).
  destruct (H2 _ _ Hn') as (n2 & Hn2 & E2). exists n2. split; [done|congruence].
Qed.

Lemma consider_all (b b' : bstate) i pn op k :
  allQ (b_nodes D b) → b_nodes D b !! i = Some pn → op ∈ ops (n_state D pn) →
  considerkid D hh dd lt util dropdups b i op = Some (b', k) →
  allQ (b_nodes D b') ∧ keeps (b_nodes D b) (b_nodes D b').
Proof.
  intros HQ Hn Hop. unfold considerkid. rewrite Hn. cbn [mbind option_bind].
  rewrite edge_split.
  destruct (find_node D (b_nodes D b) (dest (n_state D pn) op)) as [j|] eqn:Hfn.
  - destruct (find_node_Some _ _ _ Hfn) as (dn & Hd & Hst). rewrite Hd. cbn [mbind option_bind].
    destruct (dropdups || _) eqn:Hdd.
    { intros [= <- _]. cbn [add_dups b_nodes]. split; [done|apply keeps_refl]. }
    set (b1 := if decide (ind (b_open D (add_dups D b)) j < 0) then add_reopnd D (add_dups D b) else add_dups D b).
    assert (b_nodes D b1 = b_nodes D b) as N1 by (unfold b1; by destruct (decide _)).
    destruct (computeutil D util _ _) as [b2|] eqn:Hc; [|done]. cbn [mbind option_bind].
    apply (computeutil_nodes D lt util refresh) in Hc. cbn [set_nodes b_nodes] in Hc. rewrite N1 in Hc.
    destruct (pushupdate _ _ _ _) as [h|]; [|done]. cbn [mbind option_bind]. intros [= <- _].
    cbn [set_open b_nodes]. rewrite Hc. split.
    + intros x n [(-> & <- & _)|[_ Hx]]%list_lookup_insert_Some; [|by eapply HQ].
      cbn [n_state n_g n_p]. apply orb_false_iff in Hdd as [Hdd _]. apply (Q_better Hdd). by eapply HQ.
    + intros x n Hx. destruct (decide (x = j)) as [->|Hne].
      * eexists. split; [apply list_lookup_insert; by eapply lookup_lt_Some|]. simplify_eq. done.
      * exists n. split; [by rewrite list_lookup_insert_ne by done|done].
  - destruct (computeutil D util _ _) as [b2|] eqn:Hc; [|done]. cbn [mbind option_bind].
    apply (computeutil_nodes D lt util refresh) in Hc. cbn [set_nodes b_nodes] in Hc.
    destruct (push _ _ _) as [h|]; [|done]. cbn [mbind option_bind]. intros [= <- _].
    cbn [set_open b_nodes]. rewrite Hc. split.
    + intros x n [Hx|[_ Hx]]%lookup_app_Some; [by eapply HQ|].
      apply list_lookup_singleton_Some in Hx as [_ <-]. cbn [n_state n_g n_p].
      apply Q_kid; [|done]. by eapply HQ.
    + intros x n Hx. exists n. split; [by apply lookup_app_l_Some|done].
Qed.

Lemma expand_ops_all os (b b' : bstate) i pn ks :
  allQ (b_nodes D b) → b_nodes D b !! i = Some pn → (∀ op, op ∈ os → op ∈ ops (n_state D pn)) →
  expand_ops D hh dd lt util dropdups b i os = Some (b', ks) →
  allQ (b_nodes D b') ∧ keeps (b_nodes D b) (b_nodes D b').
Proof.
  revert b pn ks. induction os as [|op os IH]; intros b pn ks HQ Hn Hos; cbn [expand_ops].
  { intros [= <- _]. split; [done|apply keeps_refl]. }
  rewrite Hn. cbn [mbind option_bind].
  assert (∀ o, o ∈ os → o ∈ ops (n_state D pn)) as Hos' by (intros o Ho; apply Hos; by right).
  case_decide; [by eapply IH|].
  destruct (considerkid _ _ _ _ _ _ _ _ _) as [[b1 k]|] eqn:Hc; [|done]. cbn [mbind option_bind].
  destruct (expand_ops _ _ _ _ _ _ b1 _ _) as [[b2 ks2]|] eqn:He; [|done]. cbn [mbind option_bind].
  intros [= <- _].
  eapply (consider_all (add_gend D b) b1 i pn op k) in Hc as [HQ1 Hk1]; [|done|done|apply Hos; by left].
  cbn [add_gend b_nodes] in Hk1. destruct (Hk1 _ _ Hn) as (pn1 & Hn1 & Es).
  eapply IH in He as [HQ2 Hk2]; [|done|exact Hn1|by rewrite Es].
  split; [done|by eapply keeps_trans].
Qed.

Lemma running_all b :
  brunning D hh dd lt k0 est0 util on_expand on_kids refresh dropdups lim s0 b → allQ (b_nodes D b).
Proof.
  induction 1 as [b Hb|b b' Hr IH Hs].
  - unfold binit in Hb. destruct (computeutil D util _ _) as [b1|] eqn:Hc; [|done].
    cbn [mbind option_bind] in Hb. destruct (push _ _ _) as [h|]; [|done]. cbn [mbind option_bind] in Hb.
    injection Hb as <-. cbn [set_open b_nodes]. apply (computeutil_nodes D lt util refresh) in Hc. rewrite Hc. cbn [b_nodes].
    intros i n [_ <-]%list_lookup_singleton_Some. exact Q_root.
  - unfold bstep in Hs. destruct (_ || _); [done|].
    destruct (pop _ _) as [[q r]|]; [|done]. cbn [mbind option_bind] in Hs.
    destruct r as [i|]; [|done]. cbn [mbind option_bind set_open b_nodes] in Hs.
    destruct (b_nodes D b !! i) as [pn|] eqn:Hn; [|done]. cbn [mbind option_bind] in Hs.
    destruct (isgoal _); [by destruct (solpath D _ _ _)|].
    unfold expand in Hs. cbn [set_open b_nodes] in Hs. rewrite Hn in Hs. cbn [mbind option_bind] in Hs.
    destruct (expand_ops _ _ _ _ _ _ _ _ _) as [[b1 ks]|] eqn:He; [|done]. cbn [mbind option_bind] in Hs.
    eapply expand_ops_all in He as [HQ _]; [|exact IH|exact Hn|done].
    destruct (b_nodes D b1 !! i); [|done]. cbn [mbind option_bind] in Hs.
    destruct (updateopen _ _ _ _ _) as [b3|] eqn:Hu; [|done]. cbn [mbind option_bind] in Hs.
    injection Hs as <-. apply (updateopen_nodes D lt util refresh) in Hu. rewrite Hu. done.
Qed.
End allnodes.

(** ** Estimators that agree *)
Section agree.
Context (D : domain) (hh dd : St D → Z).
Context {E1 E2 K : Type} (lt : K → K → bool) (k0 : K) (R : E1 → E2 → Prop).
Context (est1 : E1) (est2 : E2) (R0 : R est1 est2).
Context (util1 : nat → E1 → Z → fields → E1 * K) (util2 : nat → E2 → Z → fields → E2 * K).
Context (on_expand1 : nat → E1 → fields → E1) (on_expand2 : nat → E2 → fields → E2).
Context (on_kids1 : E1 → fields → list kidinfo → E1) (on_kids2 : E2 → fields → list kidinfo → E2).
Context (refresh1 : nat → E1 → option E1) (refresh2 : nat → E2 → option E2).
Context (R_util : ∀ x e1 e2 g p, R e1 e2 → R (util1 x e1 g p).1 (util2 x e2 g p).1 ∧
  (util1 x e1 g p).2 = (util2 x e2 g p).2).
Context (R_expand : ∀ x e1 e2 p, R e1 e2 → R (on_expand1 x e1 p) (on_expand2 x e2 p)).
Context (R_kids : ∀ e1 e2 p ks, R e1 e2 → R (on_kids1 e1 p ks) (on_kids2 e2 p ks)).
Context (R_refresh : ∀ x e1 e2, R e1 e2 → option_relation R (λ _, False) (λ _, False) (refresh1 x e1) (refresh2 x e2)).
Context (dropdups : bool) (lim : limits).
Context (s0 : St D).
Set Default Proof Using "All".

Notation bstate1 := (bstate D (E:=E1) (K:=K)).
Notation bstate2 := (bstate D (E:=E2) (K:=K)).

(** Equal but for the estimates. *)
Definition eqv (a : bstate1) (b : bstate2) : Prop :=
  b_nodes D a = b_nodes D b ∧ b_open D a = b_open D b ∧ R (b_est D a) (b_est D b) ∧
  b_expd D a = b_expd D b ∧ b_gend D a = b_gend D b ∧ b_reopnd D a = b_reopnd D b ∧ b_dups D a = b_dups D b.

Definition oeqv {A} (x : option (bstate1 * A)) (y : option (bstate2 * A)) : Prop :=
  match x, y with
  | Some (a, u), Some (b, v) => eqv a b ∧ u = v
  | None, None => True
  | _, _ => False
  end.

Definition seqv (x : option bstate1) (y : option bstate2) : Prop :=
  match x, y with
  | Some a, Some b => eqv a b
  | None, None => True
  | _, _ => False
  end.

Lemma computeutil_eqv a b i : eqv a b → seqv (computeutil D util1 a i) (computeutil D util2 b i).
Proof.
  intros (H1 & H2 & H3 & H4 & H5 & H6 & H7). unfold computeutil. rewrite H1.
  destruct (b_nodes D b !! i) as [n|]; [|done]. cbn [mbind option_bind]. rewrite H4.
  destruct (R_util (b_expd D b) _ _ (n_g D n) (n_p D n) H3) as [Hr Hk].
  destruct (util1 _ _ _ _) as [e1 k1], (util2 _ _ _ _) as [e2 k2]. cbn [fst snd] in *. subst k2.
  unfold seqv, eqv. cbn [set_open set_est b_nodes b_open b_est b_expd b_gend b_reopnd b_dups]. rewrite H2. done.
Qed.

Lemma consider_eqv a b i op : eqv a b →
  oeqv (considerkid D hh dd lt util1 dropdups a i op) (considerkid D hh dd lt util2 dropdups b i op).
Proof.
  intros Hab. pose proof Hab as (H1 & H2 & H3 & H4 & H5 & H6 & H7). unfold considerkid.
  rewrite H1. destruct (b_nodes D b !! i) as [pn|]; [|done]. cbn [mbind option_bind].
  destruct (edge (n_state D pn) op) as [[t c] rev]. rewrite H4.
  destruct (find_node D (b_nodes D b) t) as [j|].
  - destruct (b_nodes D b !! j) as [dn|]; [|done]. cbn [mbind option_bind].
    destruct (dropdups || _).
    { split; [|done]. unfold eqv.
      cbn [add_dups b_nodes b_open b_est b_expd b_gend b_reopnd b_dups]. rewrite H7. done. }
    set (a1 := if decide (ind (b_open D (add_dups D a)) j < 0) then _ else _).
    set (b1 := if decide (ind (b_open D (add_dups D b)) j < 0) then _ else _).
    assert (eqv a1 b1) as H11.
    { unfold a1, b1. cbn [add_dups b_open]. rewrite H2. unfold eqv.
      destruct (decide (ind (b_open D b) j < 0));
        cbn [add_dups add_reopnd b_nodes b_open b_est b_expd b_gend b_reopnd b_dups];
        rewrite ?H7, ?H6; done. }
    clearbody a1 b1.
    set (nn := Node D (Some i) (n_state D dn) op rev (n_g D pn + c) _).
    assert (eqv (set_nodes D a1 (<[j:=nn]> (b_nodes D a1))) (set_nodes D b1 (<[j:=nn]> (b_nodes D b1)))) as H22.
    { destruct H11 as (? & ? & ? & ? & ? & ? & ?). unfold eqv.
      cbn [set_nodes b_nodes b_open b_est b_expd b_gend b_reopnd b_dups]. split; [congruence|done]. }
    pose proof (computeutil_eqv _ _ j H22) as H33.
    destruct (computeutil D util1 _ _) as [a2|], (computeutil D util2 _ _) as [b2|]; try done.
    cbn [mbind option_bind seqv] in *. destruct H33 as (J1 & J2 & J3 & J4 & J5 & J6 & J7). rewrite J2.
    destruct (pushupdate _ _ _ _); [|done]. cbn [mbind option_bind]. split; [|done]. done.
  - set (nn := Node D (Some i) t op rev (n_g D pn + c) _).
    assert (eqv (set_nodes D a (b_nodes D b ++ [nn])) (set_nodes D b (b_nodes D b ++ [nn]))) as H22.
    { unfold eqv. cbn [set_nodes b_nodes b_open b_est b_expd b_gend b_reopnd b_dups]. done. }
    pose proof (computeutil_eqv _ _ (length (b_nodes D b)) H22) as H33.
    destruct (computeutil D util1 _ _) as [a2|], (computeutil D util2 _ _) as [b2|]; try done.
    cbn [mbind option_bind seqv] in *. destruct H33 as (J1 & J2 & J3 & J4 & J5 & J6 & J7). rewrite J2.
    destruct (push _ _ _); [|done]. cbn [mbind option_bind]. split; [|done]. done.
Qed.

Lemma expand_ops_eqv os a b i : eqv a b →
  oeqv (expand_ops D hh dd lt util1 dropdups a i os) (expand_ops D hh dd lt util2 dropdups b i os).
Proof.
  revert a b. induction os as [|op os IH]; intros a b Hab; cbn [expand_ops]; [by split|].
  pose proof Hab as (H1 & H2 & H3 & H4 & H5 & H6 & H7). rewrite H1.
  destruct (b_nodes D b !! i) as [pn|]; [|done]. cbn [mbind option_bind].
  case_decide; [by apply IH|].
  assert (eqv (add_gend D a) (add_gend D b)) as Hg.
  { unfold eqv. cbn [add_gend b_nodes b_open b_est b_expd b_gend b_reopnd b_dups]. rewrite H5. done. }
  pose proof (consider_eqv _ _ i op Hg) as Hc.
  destruct (considerkid D hh dd lt util1 _ _ _ _) as [[a1 k1]|],
    (considerkid D hh dd lt util2 _ _ _ _) as [[b1 k2]|]; try done.
  cbn [mbind option_bind oeqv] in *. destruct Hc as [Hc ->]. specialize (IH _ _ Hc).
  destruct (expand_ops D hh dd lt util1 _ _ _ _) as [[a2 ks1]|],
    (expand_ops D hh dd lt util2 _ _ _ _) as [[b2 ks2]|]; try done.
  cbn [mbind option_bind oeqv] in *. destruct IH as [IH ->]. done.
Qed.

Lemma recompute_eqv is a b : eqv a b → seqv (recompute D util1 a is) (recompute D util2 b is).
Proof.
  revert a b. induction is as [|i is IH]; intros a b Hab; cbn [recompute]; [done|].
  pose proof Hab as (H1 & H2 & _). rewrite H2.
  destruct (arr (b_open D b) !! i) as [x|]; [|done]. cbn [mbind option_bind].
  pose proof (computeutil_eqv _ _ x Hab) as Hc.
  destruct (computeutil D util1 _ _) as [a2|], (computeutil D util2 _ _) as [b2|]; try done.
  cbn [mbind option_bind seqv] in *. by apply IH.
Qed.

Lemma rebuild_eqv is a b : eqv a b → seqv (rebuild D lt util1 a is) (rebuild D lt util2 b is).
Proof.
  revert a b. induction is as [|i is IH]; intros a b Hab; cbn [rebuild]; [done|].
  pose proof Hab as (H1 & H2 & _). rewrite H2.
  destruct (arr (b_open D b) !! i) as [x|]; [|done]. cbn [mbind option_bind].
  pose proof (computeutil_eqv _ _ x Hab) as Hc.
  destruct (computeutil D util1 _ _) as [a2|], (computeutil D util2 _ _) as [b2|]; try done.
  cbn [mbind option_bind seqv] in *. destruct Hc as (J1 & J2 & J3). rewrite J2.
  destruct (pushdown _ _ _ _) as [[q ?]|]; [|done]. cbn [mbind option_bind]. by apply IH.
Qed.

Lemma updateopen_eqv a b : eqv a b → seqv (updateopen D lt util1 refresh1 a) (updateopen D lt util2 refresh2 b).
Proof.
  intros Hab. pose proof Hab as (H1 & H2 & H3 & H4 & H5 & H6 & H7). unfold updateopen. rewrite H4.
  pose proof (R_refresh (b_expd D b) _ _ H3) as Hr.
  destruct (refresh1 _ _) as [e1|], (refresh2 _ _) as [e2|]; try done. cbn [option_relation] in Hr.
  assert (eqv (set_est D a e1) (set_est D b e2)) as He.
  { unfold eqv. cbn [set_est b_nodes b_open b_est b_expd b_gend b_reopnd b_dups]. done. }
  unfold reinitheap. cbn [set_est b_open]. rewrite H2. case_decide; [done|].
  pose proof (recompute_eqv (reverse (seq (S (length (arr (b_open D b)) / 2))
    (length (arr (b_open D b)) - 1 - length (arr (b_open D b)) / 2))) _ _ He) as Hc.
  destruct (recompute D util1 _ _) as [a2|], (recompute D util2 _ _) as [b2|]; try done.
  cbn [mbind option_bind seqv] in *. by apply rebuild_eqv.
Qed.

Lemma step_eqv a b : eqv a b →
  match bstep D hh dd lt util1 on_expand1 on_kids1 refresh1 dropdups lim a,
    bstep D hh dd lt util2 on_expand2 on_kids2 refresh2 dropdups lim b with
  | Some (inl a'), Some (inl b') => eqv a' b'
  | Some (inr x), Some (inr y) => x = y
  | None, None => True
  | _, _ => False
  end.
Proof.
  intros Hab. pose proof Hab as (H1 & H2 & H3 & H4 & H5 & H6 & H7). unfold bstep.
  assert (blimit D lim a = blimit D lim b) as Hl by (unfold blimit; by rewrite H4, H5).
  rewrite H2, Hl. destruct (_ || _); [done|].
  destruct (pop _ _) as [[q r]|]; [|done]. cbn [mbind option_bind].
  destruct r as [i|]; [|done]. cbn [mbind option_bind set_open b_nodes]. rewrite H1.
  destruct (b_nodes D b !! i) as [pn|] eqn:Hn; [|done]. cbn [mbind option_bind].
  destruct (isgoal _); [by destruct (solpath D _ _ _)|].
  unfold expand. cbn [set_open b_nodes]. rewrite H1, Hn. cbn [mbind option_bind].
  set (a1 := set_est _ _ _). set (b1 := set_est _ _ _).
  assert (eqv a1 b1) as Hab1.
  { unfold a1, b1, eqv.
    cbn [set_est set_open add_expd b_nodes b_open b_est b_expd b_gend b_reopnd b_dups]. rewrite H4.
    split; [done|]. split; [done|]. split; [by apply R_expand|done]. }
  pose proof (expand_ops_eqv (ops (n_state D pn)) _ _ i Hab1) as Hc.
  destruct (expand_ops D hh dd lt util1 _ _ _ _) as [[a2 ks1]|],
    (expand_ops D hh dd lt util2 _ _ _ _) as [[b2 ks2]|]; try done.
  cbn [mbind option_bind oeqv] in *. destruct Hc as [Hc ->].
  pose proof Hc as (J1 & J2 & J3 & J4 & J5 & J6 & J7). rewrite J1.
  destruct (b_nodes D b2 !! i) as [pn2|]; [|done]. cbn [mbind option_bind].
  assert (eqv (set_est D a2 (on_kids1 (b_est D a2) (n_p D pn2) ks2))
    (set_est D b2 (on_kids2 (b_est D b2) (n_p D pn2) ks2))) as Hab3.
  { unfold eqv. cbn [set_est b_nodes b_open b_est b_expd b_gend b_reopnd b_dups].
    split; [done|]. split; [done|]. split; [by apply R_kids|done]. }
  pose proof (updateopen_eqv _ _ Hab3) as Hu.
  destruct (updateopen D lt util1 _ _), (updateopen D lt util2 _ _); done.
Qed.

(** The same result, from the same nodes, with the same counters. *)
Lemma search_eqv fuel :
  match bsearch D hh dd lt k0 est1 util1 on_expand1 on_kids1 refresh1 dropdups lim s0 fuel,
    bsearch D hh dd lt k0 est2 util2 on_expand2 on_kids2 refresh2 dropdups lim s0 fuel with
  | Some (out1, a), Some (out2, b) => out1 = out2 ∧ eqv a b
  | None, None => True
  | _, _ => False
  end.
Proof.
  unfold bsearch.
  assert (seqv (binit D hh dd lt k0 est1 util1 s0) (binit D hh dd lt k0 est2 util2 s0)) as Hi.
  { unfold binit. set (a0 := BState D _ _ est1 _ _ _ _). set (b0 := BState D _ _ est2 _ _ _ _).
    assert (eqv a0 b0) as H0 by done. pose proof (computeutil_eqv _ _ 0%nat H0) as Hc.
    destruct (computeutil D util1 _ _) as [a2|], (computeutil D util2 _ _) as [b2|]; try done.
    cbn [mbind option_bind seqv] in *. destruct Hc as (J1 & J2 & J3). rewrite J2.
    destruct (push _ _ _); [|done]. done. }
  destruct (binit D hh dd lt k0 est1 util1 s0) as [a|], (binit D hh dd lt k0 est2 util2 s0) as [b|]; try done.
  cbn [mbind option_bind seqv] in *. revert a b Hi.
  induction fuel as [|fuel IH]; intros a b Hab; [done|]. cbn [bloop].
  pose proof (step_eqv _ _ Hab) as Hs.
  destruct (bstep D hh dd lt util1 _ _ _ _ _ _) as [[a2|x]|],
    (bstep D hh dd lt util2 _ _ _ _ _ _) as [[b2|y]|]; try done; cbn [mbind option_bind].
  by apply IH.
Qed.
End agree.

(** ** When a node was generated *)
Section created.
Context (D : domain) (hh dd : St D → Z).
Context {E K : Type} (lt : K → K → bool).
Context (util : nat → E → Z → fields → E * K).
Context (on_expand : nat → E → fields → E).
Context (on_kids : E → fields → list kidinfo → E).
Context (refresh : nat → E → option E).
Context (dropdups : bool) (lim : limits).
Set Default Proof Using "All".

Notation bstate := (bstate D (E:=E) (K:=K)).
Notation node := (node D (P:=fields)).

(** Old nodes keep their expansion count, new ones have [x]. *)
Definition stamped (x : nat) (ns ns' : list node) : Prop :=
  (length ns ≤ length ns')%nat ∧
  ∀ i n', ns' !! i = Some n' →
  match ns !! i with
  | Some n => p_expct (n_p D n') = p_expct (n_p D n)
  | None => p_expct (n_p D n') = x
  end.

Lemma stamped_refl x ns : stamped x ns ns.
Proof. split; [done|]. intros i n' Hn. by rewrite Hn. Qed.

Lemma stamped_trans x ns1 ns2 ns3 : stamped x ns1 ns2 → stamped x ns2 ns3 → stamped x ns1 ns3.
Proof.
  intros [L1 H1] [L2 H2]. split; [lia|]. intros i n Hn. specialize (H2 i n Hn).
  destruct (ns2 !! i) as [n2|] eqn:E2.
  - specialize (H1 i n2 E2). destruct (ns1 !! i); congruence.
  - destruct (ns1 !! i) eqn:E1; [|done]. apply lookup_lt_Some in E1. apply lookup_ge_None in E2. lia.
Qed.

Lemma consider_stamped (b b' : bstate) i op k :
  considerkid D hh dd lt util dropdups b i op = Some (b', k) →
  stamped (b_expd D b) (b_nodes D b) (b_nodes D b') ∧ b_expd D b' = b_expd D b.
Proof.
  assert (∀ c c' j, computeutil D util c j = Some c' → b_nodes D c' = b_nodes D c ∧ b_expd D c' = b_expd D c) as Hcu.
  { intros c c' j. unfold computeutil. destruct (b_nodes D c !! j); [|done]. cbn [mbind option_bind].
    destruct (util _ _ _ _). by intros [= <-]. }
  unfold considerkid. destruct (b_nodes D b !! i) as [pn|]; [|done]. cbn [mbind option_bind].
  destruct (edge _ _) as [[t c] rev].
  destruct (find_node D (b_nodes D b) t) as [j|].
  - destruct (b_nodes D b !! j) as [dn|] eqn:Hd; [|done]. cbn [mbind option_bind].
    destruct (dropdups || _).
    { intros [= <- _]. split; [apply stamped_refl|done]. }
    set (b1 := if decide (ind (b_open D (add_dups D b)) j < 0) then _ else _).
    assert (b_expd D b1 = b_expd D b ∧ b_nodes D b1 = b_nodes D b) as [X1 X2]
      by (unfold b1; by destruct (decide (ind (b_open D (add_dups D b)) j < 0))).
    destruct (computeutil D util _ _) as [b2|] eqn:Hc; [|done]. cbn [mbind option_bind].
    apply Hcu in Hc as [Y1 Y2]. cbn [set_nodes b_nodes b_expd] in Y1, Y2. rewrite X2 in Y1. rewrite X1 in Y2.
    destruct (pushupdate _ _ _ _) as [h|]; [|done]. cbn [mbind option_bind]. intros [= <- _].
    cbn [set_open b_expd b_nodes]. split; [|done]. rewrite Y1. split; [by rewrite insert_length|].
    intros x n [(-> & <- & _)|[_ Hx]]%list_lookup_insert_Some.
    + by rewrite Hd.
    + by rewrite Hx.
  - destruct (computeutil D util _ _) as [b2|] eqn:Hc; [|done]. cbn [mbind option_bind].
    apply Hcu in Hc as [Y1 Y2]. cbn [set_nodes b_nodes b_expd] in Y1, Y2.
    destruct (push _ _ _) as [h|]; [|done]. cbn [mbind option_bind]. intros [= <- _].
    cbn [set_open b_expd b_nodes]. split; [|done]. rewrite Y1. split; [rewrite app_length; lia|].
    intros x n [Hx|[Hlen Hx]]%lookup_app_Some; [by rewrite Hx|].
    apply list_lookup_singleton_Some in Hx as [Hx <-]. rewrite lookup_ge_None_2 by lia. done.
Qed.

Lemma expand_ops_stamped os (b b' : bstate) i ks :
  expand_ops D hh dd lt util dropdups b i os = Some (b', ks) →
  stamped (b_expd D b) (b_nodes D b) (b_nodes D b') ∧ b_expd D b' = b_expd D b.
Proof.
  revert b ks. induction os as [|op os IH]; intros b ks; cbn [expand_ops].
  { intros [= <- _]. split; [apply stamped_refl|done]. }
  destruct (b_nodes D b !! i) as [pn|]; [|done]. cbn [mbind option_bind].
  case_decide; [by eapply IH|].
  destruct (considerkid _ _ _ _ _ _ _ _ _) as [[b1 k]|] eqn:Hc; [|done]. cbn [mbind option_bind].
  destruct (expand_ops _ _ _ _ _ _ b1 _ _) as [[b2 ks2]|] eqn:He; [|done]. cbn [mbind option_bind].
  intros [= <- _]. apply consider_stamped in Hc as [X1 X2]. apply IH in He as [Y1 Y2].
  cbn [add_gend b_expd b_nodes] in X1, X2. rewrite X2 in Y1, Y2. split; [|done]. by eapply stamped_trans.
Qed.

Lemma step_stamped (b b' : bstate) :
  bstep D hh dd lt util on_expand on_kids refresh dropdups lim b = Some (inl b') →
  stamped (S (b_expd D b)) (b_nodes D b) (b_nodes D b').
Proof.
  intros Hs. unfold bstep in Hs. destruct (_ || _); [done|].
  destruct (pop _ _) as [[q r]|]; [|done]. cbn [mbind option_bind] in Hs.
  destruct r as [i|]; [|done]. cbn [mbind option_bind set_open b_nodes] in Hs.
  destruct (b_nodes D b !! i) as [pn|] eqn:Hn; [|done]. cbn [mbind option_bind] in Hs.
  destruct (isgoal _); [by destruct (solpath D _ _ _)|].
  unfold expand in Hs. cbn [set_open b_nodes] in Hs. rewrite Hn in Hs. cbn [mbind option_bind] in Hs.
  destruct (expand_ops _ _ _ _ _ _ _ _ _) as [[b1 ks]|] eqn:He; [|done]. cbn [mbind option_bind] in Hs.
  apply expand_ops_stamped in He as [X1 X2].
  destruct (b_nodes D b1 !! i) as [pn1|]; [|done]. cbn [mbind option_bind] in Hs.
  destruct (updateopen _ _ _ _ _) as [b3|] eqn:Hu; [|done]. cbn [mbind option_bind] in Hs.
  injection Hs as <-. apply (updateopen_nodes D lt util refresh) in Hu. by rewrite Hu.
Qed.
End created.

(** ** What holds of the estimates *)
Section estimates.
Context (D : domain) (hh dd : St D → Z).
Context {E K : Type} (lt : K → K → bool) (k0 : K) (est0 : E).
Context (util : nat → E → Z → fields → E * K).
Context (on_expand : nat → E → fields → E).
Context (on_kids : E → fields → list kidinfo → E).
Context (refresh : nat → E → option E).
Context (dropdups : bool) (lim : limits).
Context (s0 : St D).
(** [J]: between two rounds; [J']: within a round, before updateopen. *)
Context (J J' : nat → E → Prop).
Context (J_util : ∀ x e g p, J x e → J x (util x e g p).1).
Context (J_util' : ∀ x e g p, J' x e → J' x (util x e g p).1).
Context (J_kids : ∀ x e p ks, J' x e → J' x (on_kids e p ks)).
Context (J_refresh : ∀ x e, J' x e → match refresh x e with Some e' => J x e' | None => J x e end).
Set Default Proof Using "All".

Notation bstate := (bstate D (E:=E) (K:=K)).

Lemma computeutil_est (I : nat → E → Prop) (b b' : bstate) i :
  (∀ x e g p, I x e → I x (util x e g p).1) →
  I (b_expd D b) (b_est D b) → computeutil D util b i = Some b' →
  b_expd D b' = b_expd D b ∧ I (b_expd D b') (b_est D b').
Proof.
  intros HI Hb. unfold computeutil. destruct (b_nodes D b !! i) as [n|]; [|done]. cbn [mbind option_bind].
  pose proof (HI _ _ (n_g D n) (n_p D n) Hb) as H.
  destruct (util _ _ _ _) as [e k]. by intros [= <-].
Qed.

Lemma consider_est (b b' : bstate) i op k :
  J' (b_expd D b) (b_est D b) → considerkid D hh dd lt util dropdups b i op = Some (b', k) →
  b_expd D b' = b_expd D b ∧ J' (b_expd D b') (b_est D b').
Proof.
  intros Hb. unfold considerkid. destruct (b_nodes D b !! i) as [pn|]; [|done]. cbn [mbind option_bind].
  destruct (edge _ _) as [[t c] rev].
  destruct (find_node D (b_nodes D b) t) as [j|].
  - destruct (b_nodes D b !! j) as [dn|]; [|done]. cbn [mbind option_bind].
    destruct (dropdups || _); [by intros [= <- _]|].
    set (b1 := if decide (ind (b_open D (add_dups D b)) j < 0) then _ else _).
    assert (b_expd D b1 = b_expd D b ∧ b_est D b1 = b_est D b) as [X1 X2]
      by (unfold b1; by destruct (decide (ind (b_open D (add_dups D b)) j < 0))).
    destruct (computeutil D util _ _) as [b2|] eqn:Hc; [|done]. cbn [mbind option_bind].
    eapply (computeutil_est J') in Hc as [Y1 Y2]; [|done|cbn [set_nodes b_expd b_est]; by rewrite X1, X2].
    destruct (pushupdate _ _ _ _) as [h|]; [|done]. cbn [mbind option_bind]. intros [= <- _].
    cbn [set_open set_nodes b_expd b_est] in *. split; [congruence|done].
  - destruct (computeutil D util _ _) as [b2|] eqn:Hc; [|done]. cbn [mbind option_bind].
    eapply (computeutil_est J') in Hc as [Y1 Y2]; [|done|done].
    destruct (push _ _ _) as [h|]; [|done]. cbn [mbind option_bind]. by intros [= <- _].
Qed.

Lemma expand_ops_est os (b b' : bstate) i ks :
  J' (b_expd D b) (b_est D b) → expand_ops D hh dd lt util dropdups b i os = Some (b', ks) →
  b_expd D b' = b_expd D b ∧ J' (b_expd D b') (b_est D b').
Proof.
  revert b ks. induction os as [|op os IH]; intros b ks Hb; cbn [expand_ops]; [by intros [= <- _]|].
  destruct (b_nodes D b !! i) as [pn|]; [|done]. cbn [mbind option_bind].
  case_decide; [by eapply IH|].
  destruct (considerkid _ _ _ _ _ _ _ _ _) as [[b1 k]|] eqn:Hc; [|done]. cbn [mbind option_bind].
  destruct (expand_ops _ _ _ _ _ _ b1 _ _) as [[b2 ks2]|] eqn:He; [|done]. cbn [mbind option_bind].
  intros [= <- _]. eapply consider_est in Hc as [X1 X2]; [|done].
  eapply IH in He as [Y1 Y2]; [|done]. cbn [add_gend b_expd] in X1. split; [congruence|done].
Qed.

Lemma recompute_est is (b b' : bstate) :
  J (b_expd D b) (b_est D b) → recompute D util b is = Some b' →
  b_expd D b' = b_expd D b ∧ J (b_expd D b') (b_est D b').
Proof.
  revert b. induction is as [|i is IH]; intros b Hb; cbn [recompute]; [by intros [= <-]|].
  destruct (arr (b_open D b) !! i); [|done]. cbn [mbind option_bind].
  destruct (computeutil D util _ _) as [b1|] eqn:Hc; [|done]. cbn [mbind option_bind].
  eapply (computeutil_est J) in Hc as [X1 X2]; [|done|done].
  intros H. eapply IH in H as [? ?]; [|done]. split; [congruence|done].
Qed.

Lemma rebuild_est is (b b' : bstate) :
  J (b_expd D b) (b_est D b) → rebuild D lt util b is = Some b' →
  b_expd D b' = b_expd D b ∧ J (b_expd D b') (b_est D b').
Proof.
  revert b. induction is as [|i is IH]; intros b Hb; cbn [rebuild]; [by intros [= <-]|].
  destruct (arr (b_open D b) !! i); [|done]. cbn [mbind option_bind].
  destruct (computeutil D util _ _) as [b1|] eqn:Hc; [|done]. cbn [mbind option_bind].
  destruct (pushdown _ _ _ _) as [[q ?]|]; [|done]. cbn [mbind option_bind].
  eapply (computeutil_est J) in Hc as [X1 X2]; [|done|done].
  intros H. eapply IH in H as [? ?]; [|done]. split; [|done].
  cbn [set_open b_expd] in *. congruence.
Qed.

Lemma step_est_at (b b' : bstate) i q pn :
  pop lt (b_open D b) = Some (q, Some i) → b_nodes D b !! i = Some pn →
  J' (S (b_expd D b)) (on_expand (S (b_expd D b)) (b_est D b) (n_p D pn)) →
  bstep D hh dd lt util on_expand on_kids refresh dropdups lim b = Some (inl b') →
  b_expd D b' = S (b_expd D b) ∧ J (b_expd D b') (b_est D b').
Proof.
  intros Hpop Hn Hb Hs. unfold bstep in Hs. destruct (_ || _); [done|].
  rewrite Hpop in Hs. cbn [mbind option_bind set_open b_nodes] in Hs. rewrite Hn in Hs.
  cbn [mbind option_bind] in Hs.
  destruct (isgoal _); [by destruct (solpath D _ _ _)|].
  unfold expand in Hs. cbn [set_open b_nodes] in Hs. rewrite Hn in Hs. cbn [mbind option_bind] in Hs.
  destruct (expand_ops _ _ _ _ _ _ _ _ _) as [[b1 ks]|] eqn:He; [|done]. cbn [mbind option_bind] in Hs.
  eapply expand_ops_est in He as [X1 X2]; [|exact Hb].
  cbn [set_est set_open add_expd b_expd b_est] in X1.
  destruct (b_nodes D b1 !! i) as [pn1|]; [|done]. cbn [mbind option_bind] in Hs.
  destruct (updateopen _ _ _ _ _) as [b3|] eqn:Hu; [|done]. cbn [mbind option_bind] in Hs.
  injection Hs as <-. unfold updateopen in Hu. cbn [set_est b_expd b_est] in Hu.
  pose proof (J_refresh _ _ (J_kids _ _ (n_p D pn1) ks X2)) as Hr.
  destruct (refresh _ _) as [e|].
  - unfold reinitheap in Hu. cbn [set_est b_open] in Hu. case_decide.
    { injection Hu as <-. done. }
    destruct (recompute D util _ _) as [b2|] eqn:Hrc; [|done]. cbn [mbind option_bind] in Hu.
    eapply recompute_est in Hrc as [Y1 Y2]; [|done].
    eapply rebuild_est in Hu as [Z1 Z2]; [|done]. cbn [set_est b_expd] in Y1. split; [congruence|done].
  - injection Hu as <-. done.
Qed.

Context (J_expand : ∀ x e p, J x e → J' (S x) (on_expand (S x) e p)).

Lemma step_est (b b' : bstate) :
  J (b_expd D b) (b_est D b) →
  bstep D hh dd lt util on_expand on_kids refresh dropdups lim b = Some (inl b') →
  b_expd D b' = S (b_expd D b) ∧ J (b_expd D b') (b_est D b').
Proof.
  intros Hb Hs. pose proof Hs as Hs'. unfold bstep in Hs'. destruct (_ || _); [done|].
  destruct (pop _ _) as [[q r]|] eqn:Hpop; [|done]. cbn [mbind option_bind] in Hs'.
  destruct r as [i|]; [|done]. cbn [mbind option_bind set_open b_nodes] in Hs'.
  destruct (b_nodes D b !! i) as [pn|] eqn:Hn; [|done].
  apply (step_est_at b b' i q pn Hpop Hn); [|done]. by apply J_expand.
Qed.

Lemma running_est b :
  J 0%nat est0 →
  brunning D hh dd lt k0 est0 util on_expand on_kids refresh dropdups lim s0 b → J (b_expd D b) (b_est D b).
Proof.
  intros J_init. induction 1 as [b Hb|b b' Hr IH Hs]; [|by eapply step_est].
  unfold binit in Hb. destruct (computeutil D util _ _) as [b1|] eqn:Hc; [|done].
  eapply (computeutil_est J) in Hc as [X1 X2]; [|done|done].
  cbn [mbind option_bind] in Hb. destruct (push _ _ _) as [h|]; [|done]. cbn [mbind option_bind] in Hb.
  by injection Hb as <-.
Qed.
End estimates.
