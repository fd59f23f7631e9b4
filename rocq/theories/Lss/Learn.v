(** The learning step of LSS-LRTA-star (hCostLearning) is a Dijkstra search from the frontier. *)
From stdpp Require Import prelude.
From Coq Require Import ZArith Lia ZifyBool ZifyNat.
From Verif Require Import Common.Orders Common.Fuel BinHeap.Model BinHeap.Proofs.
From Verif Require Import Search.Domain Search.Model Search.Props Rta.Model Lss.Model.
Local Open Scope Z_scope.

(** ** The heap *)
Lemma pushupdate_spec {K} (lt : K → K → bool) (q : heap K) e k :
  strict_weak lt → BinHeap.Proofs.inv lt (λ _, True) q →
  ∃ q', pushupdate lt (setkey q e k) e (ind q e) = Some q' ∧ BinHeap.Proofs.inv lt (λ _, True) q' ∧
    (∀ x, x ∈ arr q' ↔ x = e ∨ x ∈ arr q) ∧ key q' = key (setkey q e k).
Proof.
  intros SW Hi. unfold pushupdate.
  destruct (decide (e ∈ arr q)) as [Hin|Hno].
  - destruct (inv_exact _ _ _ Hi) as [_ Hex].
    pose proof Hin as [i Hl]%elem_of_list_lookup_1. pose proof (Hex _ _ Hl) as Hie.
    rewrite decide_False by lia.
    destruct (update_spec lt (sw_asym lt SW) (sw_neg_trans lt SW) (λ _, True) q e k Hi Hin) as (q' & Hq & Hi' & HP & Hk).
    exists q'. split_and!; [done..| |done]. intros x. rewrite HP. naive_solver.
  - rewrite (inv_out _ _ _ Hi e Hno I). rewrite decide_True by lia.
    destruct (push_spec lt (sw_asym lt SW) (sw_neg_trans lt SW) (λ _, True) q e k Hi Hno) as (q' & Hq & Hi' & HP & Hk).
    exists q'. split_and!; [done..| |done]. intros x. rewrite HP. apply elem_of_cons.
Qed.

Lemma pop_spec' {K} (lt : K → K → bool) (q : heap K) :
  strict_weak lt → BinHeap.Proofs.inv lt (λ _, True) q → arr q ≠ [] →
  ∃ q' x, pop lt q = Some (q', Some x) ∧ BinHeap.Proofs.inv lt (λ _, True) q' ∧ x ∈ arr q ∧ x ∉ arr q' ∧
    (∀ y, y ∈ arr q ↔ y = x ∨ y ∈ arr q') ∧ key q' = key q ∧ ∀ y, y ∈ arr q → lt (key q y) (key q x) = false.
Proof.
  intros SW Hi Hne. pose proof (pop_spec lt (sw_asym lt SW) (sw_neg_trans lt SW) (λ _, True) q Hi) as Hp.
  destruct (inv_exact _ _ _ Hi) as [Hnd _].
  destruct (arr q) as [|x l] eqn:Hl; [done|]. destruct Hp as (q' & Hq & Hi' & HP & Hk & Hmin).
  exists q', x. split_and!; [done..|left| | |done|done].
  - rewrite HP in Hnd. by apply NoDup_cons in Hnd as [? _].
  - intros y. rewrite HP. apply elem_of_cons.
Qed.

Lemma empty_true {K} (q : heap K) : empty q = true ↔ arr q = [].
Proof. unfold empty. rewrite bool_decide_eq_true. split; [apply nil_length_inv|by intros ->]. Qed.

Lemma hsort_sw : strict_weak hsort.
Proof. unfold hsort. split; intros *; rewrite ?bool_decide_eq_true, ?bool_decide_eq_false; lia. Qed.

Lemma filter_in {A} (P Q : A → Prop) `{!∀ x, Decision (P x), !∀ x, Decision (Q x)} (l : list A) :
  (∀ x, x ∈ l → P x ↔ Q x) → filter P l = filter Q l.
Proof.
  induction l as [|x l IH]; intros Hl; [done|]. rewrite !filter_cons. specialize (IH (λ y Hy, Hl y (elem_of_list_further _ _ _ Hy))).
  specialize (Hl x (elem_of_list_here _ _)). rewrite IH. by repeat case_decide; try tauto.
Qed.

(** ** What is learned *)
Section spec.
Context (D : domain) (wt : Z).
(** A way out of the local search space: through states of [C], by edges, to a state of [O]; its value is the
    cost of the edges, weighted, and the old value [v] of the last state. *)
Inductive leaves (C O : St D → Prop) (v : St D → Z) : St D → Z → Prop :=
  | leaves_here x : O x → leaves C O v x (v x)
  | leaves_step s o k : C s → o ∈ ops s → leaves C O v (dest s o) k → leaves C O v s (wt * cost s o + k).
End spec.

Section basics.
Context (D : domain).
Notation mem := (mem D).
Notation lnode := (lnode D).
Notation lss := (lss D).
Implicit Types (ns : list lnode) (m : mem).

Lemma find_l_Some ns s j : find_l D ns s = Some j → ∃ n, ns !! j = Some n ∧ l_st D n = s.
Proof.
  revert j. induction ns as [|n ns IH]; intros j; [done|]. cbn [find_l]. case_decide.
  - intros [= <-]. by exists n.
  - destruct (find_l D ns s) as [i|] eqn:E; [|done]. simpl. intros [= <-]. by apply IH.
Qed.
Lemma find_l_None ns s i n : find_l D ns s = None → ns !! i = Some n → l_st D n ≠ s.
Proof.
  revert i. induction ns as [|n' ns IH]; intros i; [done|]. cbn [find_l]. case_decide; [done|].
  destruct (find_l D ns s) as [j|] eqn:E; [done|]. intros _. destruct i as [|i]; simpl; [by intros [= <-]|by apply IH].
Qed.
Lemma nodup_st ns i j a b :
  NoDup (l_st D <$> ns) → ns !! i = Some a → ns !! j = Some b → l_st D a = l_st D b → i = j.
Proof. intros Hnd Ha Hb He. eapply (NoDup_lookup _ i j (l_st D a) Hnd); rewrite list_lookup_fmap; [by rewrite Ha|by rewrite Hb, He]. Qed.
Lemma find_l_in ns i n : NoDup (l_st D <$> ns) → ns !! i = Some n → find_l D ns (l_st D n) = Some i.
Proof.
  intros Hnd Hn. destruct (find_l D ns (l_st D n)) as [j|] eqn:E.
  - apply find_l_Some in E as (n' & Hn' & He). by rewrite (nodup_st ns j i n' n).
  - by eapply find_l_None in E.
Qed.

(** The states the code calls closed and open. *)
Definition closed_st ns (s : St D) : Prop := ∃ i n, ns !! i = Some n ∧ l_cl D n = true ∧ l_st D n = s.
Definition frontier ns (s : St D) : Prop := ∃ i n, ns !! i = Some n ∧ l_cl D n = false ∧ l_st D n = s.

(** Node::preds holds exactly the edges out of the expanded states. *)
Record mem_ok (m : mem) : Prop := {
  mo_sound p c x : (p, c) ∈ m_preds D m x → ∃ o, o ∈ ops p ∧ dest p o = x ∧ cost p o = c;
  mo_complete s o : s ∈ m_exp D m → o ∈ ops s → (s, cost s o) ∈ m_preds D m (dest s o) }.

(** What the lookahead must have established: the open list holds exactly the nodes that are not closed, the
    closed ones are expanded and have all their successors among the nodes. *)
Record lss_ok (m : mem) (L : lss) : Prop := {
  lo_nodup : NoDup (l_st D <$> s_nodes D L);
  lo_heap : BinHeap.Proofs.inv astar_lt (λ _, True) (s_open D L);
  lo_open i : i ∈ arr (s_open D L) ↔ ∃ n, s_nodes D L !! i = Some n ∧ l_cl D n = false;
  lo_upd i n : s_nodes D L !! i = Some n → l_upd D n = false;
  lo_ncl : s_ncl D L = length (filter (λ n, l_cl D n = true) (s_nodes D L));
  lo_exp s : closed_st (s_nodes D L) s → s ∈ m_exp D m;
  lo_succ s o : closed_st (s_nodes D L) s → o ∈ ops s →
    closed_st (s_nodes D L) (dest s o) ∨ frontier (s_nodes D L) (dest s o) }.

End basics.
Arguments find_l_Some {D}. Arguments find_l_None {D}. Arguments nodup_st {D}. Arguments find_l_in {D}.
Arguments closed_st {D}. Arguments frontier {D}. Arguments mem_ok {D}. Arguments lss_ok {D}.
Arguments mo_sound {D}. Arguments mo_complete {D}. Arguments lo_nodup {D}. Arguments lo_heap {D}. Arguments lo_open {D}.
Arguments lo_upd {D}. Arguments lo_ncl {D}. Arguments lo_exp {D}. Arguments lo_succ {D}.

Section learn.
Set Default Proof Using "All".
Context (D : domain) (h : St D → Z) (wt : Z) (OK : domain_ok D) (Hwt : 0 ≤ wt).
Notation mem := (mem D).
Notation lnode := (lnode D).
Notation lss := (lss D).
Implicit Types (ns : list lnode) (m : mem).

Section loop.
Context (ns0 : list lnode) (m0 : mem).
Context (Hnd0 : NoDup (l_st D <$> ns0)) (Hm0 : mem_ok m0).
Context (Hexp : ∀ s, closed_st ns0 s → s ∈ m_exp D m0).
Notation C := (closed_st ns0).
Notation O := (frontier ns0).
Notation v0 := (m_h D m0).
Notation leaves := (leaves D wt C O v0).

Definition sees ns (T : list nat) (q : heap Z) (m : mem) (t : nat) (p : St D) (c : Z) : Prop :=
  ∀ tn j n, ns !! t = Some tn → ns !! j = Some n → l_st D n = p → l_cl D n = true →
    (j ∈ T ∨ j ∈ arr q) ∧ m_h D m p ≤ wt * c + m_h D m (l_st D tn).

(** [T]: the nodes popped so far; the predecessors of those but the last, [cur], have been dealt with, and the
    predecessors [dn] of that one. *)
Record linv (m : mem) ns (q : heap Z) (upd : list (St D)) (T : list nat) (cur : option nat) (dn : list (St D * Z)) : Prop := {
  li_len : length ns = length ns0;
  li_same i n : ns !! i = Some n → ∃ a, ns0 !! i = Some a ∧ l_st D n = l_st D a ∧ l_cl D n = l_cl D a;
  li_preds : m_preds D m = m_preds D m0;
  li_exp : m_exp D m = m_exp D m0;
  li_heap : BinHeap.Proofs.inv hsort (λ _, True) q;
  li_key i n : ns !! i = Some n → key q i = m_h D m (l_st D n);
  li_T : NoDup T;
  li_dis i : i ∈ T → i ∉ arr q;
  li_in i : i ∈ T ∨ i ∈ arr q → ∃ n, ns !! i = Some n ∧ leaves (l_st D n) (m_h D m (l_st D n));
  li_open i n : ns !! i = Some n → l_cl D n = false → i ∈ T ∨ i ∈ arr q;
  li_upd i n : ns !! i = Some n → l_cl D n = true → l_upd D n = true ↔ i ∈ T ∨ i ∈ arr q;
  li_same_h s : s ∉ upd → m_h D m s = v0 s;
  li_list s : s ∈ upd ↔ ∃ i n, ns !! i = Some n ∧ l_cl D n = true ∧ l_upd D n = true ∧ l_st D n = s;
  li_ndu : NoDup upd;
  li_mono t i a b : t ∈ T → i ∈ arr q → ns !! t = Some a → ns !! i = Some b → m_h D m (l_st D a) ≤ m_h D m (l_st D b);
  li_top t i a b : t ∈ T → cur = Some i → ns !! t = Some a → ns !! i = Some b → m_h D m (l_st D a) ≤ m_h D m (l_st D b);
  li_sees t a p c : t ∈ T → ns !! t = Some a → (p, c) ∈ m_preds D m (l_st D a) → cur ≠ Some t → sees ns T q m t p c;
  li_cur t p c : cur = Some t → (p, c) ∈ dn → sees ns T q m t p c;
  li_curT t : cur = Some t → t ∈ T }.

Lemma linv_nodup m ns q upd T cur dn : linv m ns q upd T cur dn → NoDup (l_st D <$> ns).
Proof.
  intros Hi. assert (l_st D <$> ns = l_st D <$> ns0) as ->; [|done].
  apply list_eq. intros i. rewrite !list_lookup_fmap.
  destruct (ns !! i) as [n|] eqn:E.
  - destruct (li_same _ _ _ _ _ _ _ Hi _ _ E) as (a & Ha & He & _). rewrite Ha. simpl. by rewrite He.
  - apply lookup_ge_None in E. rewrite (li_len _ _ _ _ _ _ _ Hi) in E. apply lookup_ge_None in E. by rewrite E.
Qed.

Lemma fset_eq {A} (f : St D → A) s a : fset D f s a s = a.
Proof. unfold fset. by rewrite decide_True. Qed.
Lemma fset_ne {A} (f : St D → A) s a t : t ≠ s → fset D f s a t = f t.
Proof. intros. unfold fset. by rewrite decide_False. Qed.

(** One predecessor whose value is set. *)
Lemma linv_set m ns q q' upd T i sn j sp p c dn :
  linv m ns q upd T (Some i) dn →
  ns !! i = Some sn → ns !! j = Some sp → l_st D sp = p → l_cl D sp = true →
  (p, c) ∈ m_preds D m (l_st D sn) →
  (l_upd D sp = false ∨ wt * c + m_h D m (l_st D sn) < m_h D m p) →
  BinHeap.Proofs.inv hsort (λ _, True) q' →
  (∀ x, x ∈ arr q' ↔ x = j ∨ x ∈ arr q) →
  key q' = key (setkey q j (wt * c + m_h D m (l_st D sn))) →
  linv (set_h D m p (wt * c + m_h D m (l_st D sn)))
    (<[j := LNode D (l_st D sp) (l_par D sp) (l_g D sp) (l_op D sp) true (l_cl D sp)]> ns)
    q' (if l_upd D sp then upd else upd ++ [p]) T (Some i) (dn ++ [(p, c)]).
Proof.
  intros Hi Hsn Hsp Hst Hcl Hpc Hor Hq' Harr Hkey.
  pose proof (linv_nodup _ _ _ _ _ _ _ Hi) as Hnd.
  pose proof Hi as [Hlen Hsame Hpr Hex Hheap Hk HT Hdis Hin Hop Hupd Hsh Hlist Hndu Hmono Htop Hsees Hcur HcT].
  set (b := wt * c + m_h D m (l_st D sn)) in *.
  destruct (mo_sound _ Hm0 p c (l_st D sn)) as (o & Ho & Hd & Hc); [by rewrite <-Hpr|].
  assert (Hc0 : 0 ≤ wt * c).
  { pose proof (ok_cost OK p o Ho). apply Z.mul_nonneg_nonneg; lia. }
  assert (HiT : i ∈ T) by by apply HcT.
  assert (HjT : j ∉ T).
  { intros HjT. destruct Hor as [Hu|Hlt].
    - assert (l_upd D sp = true) as Hu' by (apply (Hupd j); auto). congruence.
    - assert (m_h D m (l_st D sp) ≤ m_h D m (l_st D sn)) by (eapply Htop; eauto). rewrite Hst in *. unfold b in *. lia. }
  assert (Hij : i ≠ j) by (intros ->; done).
  assert (Hps : l_st D sn ≠ p).
  { intros He. apply Hij. eapply nodup_st; [exact Hnd|done..|]. congruence. }
  assert (HnsI : ∀ k n, <[j := LNode D (l_st D sp) (l_par D sp) (l_g D sp) (l_op D sp) true (l_cl D sp)]> ns !! k = Some n →
    (k = j ∧ n = LNode D (l_st D sp) (l_par D sp) (l_g D sp) (l_op D sp) true (l_cl D sp)) ∨ (k ≠ j ∧ ns !! k = Some n)).
  { intros k n [[-> [<- _]]|[? ?]]%list_lookup_insert_Some; auto. }
  assert (Hother : ∀ k n, k ≠ j → ns !! k = Some n → l_st D n ≠ p).
  { intros k n Hne Hn He. apply Hne. eapply nodup_st; [exact Hnd|done..|congruence]. }
  assert (Hval : ∀ k n, k ≠ j → ns !! k = Some n → fset D (m_h D m) p b (l_st D n) = m_h D m (l_st D n)).
  { intros k n Hne Hn. apply fset_ne. by eapply Hother. }
  assert (HsetT : ∀ k, k ∈ T ∨ k ∈ arr q' ↔ (k ∈ T ∨ k ∈ arr q) ∨ k = j).
  { intros k. rewrite Harr. tauto. }
  assert (Hle : j ∈ arr q → b ≤ m_h D m p).
  { intros Hjq. destruct Hor as [Hu|Hlt]; [|lia].
    assert (l_upd D sp = true) by (apply (Hupd j); auto). congruence. }
  assert (Hsees' : ∀ t p' c', sees ns T q m t p' c' → t ∈ T →
    sees (<[j := LNode D (l_st D sp) (l_par D sp) (l_g D sp) (l_op D sp) true (l_cl D sp)]> ns) T q'
      (set_h D m p b) t p' c').
  { intros t p' c' Hs Ht tn k n Htn Hn Hp' Hcl'.
    apply HnsI in Htn as [[-> _]|[Htj Htn]]; [done|].
    simpl. rewrite (Hval t tn Htj Htn).
    apply HnsI in Hn as [[-> ->]|[Hkj Hn]]; simpl in *.
    - destruct (Hs tn j sp Htn Hsp Hp' Hcl) as [Hd1 Hd2]. rewrite HsetT. split; [auto|].
      destruct Hd1 as [?|Hd1]; [done|]. specialize (Hle Hd1).
      rewrite <-Hp', Hst, fset_eq. rewrite <-Hp', Hst in Hd2. lia.
    - destruct (Hs tn k n Htn Hn Hp' Hcl') as [Hd1 Hd2]. rewrite HsetT. split; [auto|].
      rewrite <-Hp' in Hd2 |- *. by rewrite (Hval k n Hkj Hn). }
  assert (HinU : p ∈ (if l_upd D sp then upd else upd ++ [p])).
  { destruct (l_upd D sp) eqn:Hu; [|set_solver]. apply Hlist. by exists j, sp. }
  split.
  - by rewrite insert_length.
  - intros k n [[-> ->]|[_ Hn]]%HnsI; [|by apply Hsame]. destruct (Hsame j sp Hsp) as (a & Ha & ? & ?). by exists a.
  - done.
  - done.
  - done.
  - intros k n Hn. rewrite Hkey. simpl. apply HnsI in Hn as [[-> ->]|[Hkj Hn]]; simpl.
    + rewrite decide_True by done. by rewrite Hst, fset_eq.
    + rewrite decide_False by done. by rewrite (Hval k n Hkj Hn), (Hk k n Hn).
  - done.
  - intros k HkT. rewrite Harr. intros [->|Hkq]; [done|by eapply Hdis].
  - intros k Hk'. apply HsetT in Hk' as [Hk'|Hk'].
    + destruct (decide (k = j)) as [->|Hkj].
      * eexists. rewrite list_lookup_insert by by eapply lookup_lt_Some. split; [done|]. simpl. rewrite Hst, fset_eq.
        unfold b. rewrite <-Hc. apply leaves_step; [|done|].
        -- destruct (Hsame j sp Hsp) as (a & Ha & Hea & Hca). exists j, a. split_and!; congruence.
        -- rewrite Hd. destruct (Hin i (or_introl HiT)) as (n' & Hn' & Hl). by simplify_eq.
      * destruct (Hin k Hk') as (n & Hn & Hl). exists n. rewrite list_lookup_insert_ne by done. split; [done|].
        simpl. by rewrite (Hval k n Hkj Hn).
    + subst k. eexists. rewrite list_lookup_insert by by eapply lookup_lt_Some. split; [done|]. simpl. rewrite Hst, fset_eq.
      unfold b. rewrite <-Hc. apply leaves_step; [|done|].
      * destruct (Hsame j sp Hsp) as (a & Ha & Hea & Hca). exists j, a. split_and!; congruence.
      * rewrite Hd. destruct (Hin i (or_introl HiT)) as (n' & Hn' & Hl). by simplify_eq.
  - intros k n Hn Hf. rewrite HsetT. apply HnsI in Hn as [[-> ->]|[Hkj Hn]]; simpl in *; [auto|].
    left. by eapply Hop.
  - intros k n Hn Hct. rewrite HsetT. apply HnsI in Hn as [[-> ->]|[Hkj Hn]]; simpl in *.
    + split; [by right|done].
    + rewrite (Hupd k n Hn Hct). tauto.
  - intros s Hs. simpl. destruct (decide (s = p)) as [->|Hsp']; [done|]. rewrite fset_ne by done. apply Hsh.
    destruct (l_upd D sp); [done|]. set_solver.
  - intros s. transitivity (s ∈ upd ∨ s = p).
    { destruct (l_upd D sp) eqn:Hu; [|set_solver]. split; [auto|]. intros [?| ->]; auto. }
    rewrite Hlist. split.
    + intros [(k & n & Hn & Hct & Hut & He)| ->].
      * destruct (decide (k = j)) as [->|Hkj].
        -- exists j. eexists. rewrite list_lookup_insert by by eapply lookup_lt_Some. split_and!; [done|done|done|]. simpl. congruence.
        -- exists k, n. by rewrite list_lookup_insert_ne.
      * exists j. eexists. rewrite list_lookup_insert by by eapply lookup_lt_Some. by split_and!.
    + intros (k & n & Hn & Hct & Hut & He). apply HnsI in Hn as [[-> ->]|[Hkj Hn]]; simpl in *.
      * right. congruence.
      * left. by exists k, n.
  - destruct (l_upd D sp) eqn:Hu; [done|]. apply NoDup_app. split; [done|]. split; [|apply NoDup_singleton].
    intros s Hs ->%elem_of_list_singleton. apply Hlist in Hs as (k & n & Hn & _ & Hut & He).
    assert (k = j) as -> by (eapply nodup_st; [exact Hnd|done..|congruence]). congruence.
  - intros t k a b' Ht Hk' Ha Hb'.
    apply HnsI in Ha as [[-> _]|[Htj Ha]]; [done|].
    simpl. rewrite (Hval t a Htj Ha). apply Harr in Hk'.
    apply HnsI in Hb' as [[-> ->]|[Hkj Hb']]; simpl.
    + rewrite Hst, fset_eq. assert (m_h D m (l_st D a) ≤ m_h D m (l_st D sn)) by (eapply Htop; eauto). unfold b. lia.
    + rewrite (Hval k b' Hkj Hb'). destruct Hk' as [->|Hk']; [done|]. by eapply Hmono.
  - intros t k a b' Ht [= <-] Ha Hb'.
    apply HnsI in Ha as [[-> _]|[Htj Ha]]; [done|]. apply HnsI in Hb' as [[-> _]|[_ Hb']]; [done|].
    simpl. rewrite (Hval t a Htj Ha), (Hval i b' Hij Hb'). by eapply Htop.
  - intros t a p' c' Ht Ha Hpc' Hne. apply Hsees'; [|done].
    apply HnsI in Ha as [[-> _]|[Htj Ha]]; [done|]. by eapply Hsees.
  - intros t p' c' [= <-] [Hd'|Hd']%elem_of_app.
    + apply Hsees'; [|done]. by eapply Hcur.
    + apply elem_of_list_singleton in Hd' as [= -> ->].
      intros tn k n Htn Hn Hp' Hct. rewrite HsetT. apply HnsI in Htn as [[-> _]|[_ Htn]]; [done|].
      assert (tn = sn) as -> by congruence. simpl. rewrite (Hval i sn Hij Hsn).
      apply HnsI in Hn as [[-> ->]|[Hkj Hn]]; simpl in *.
      * split; [auto|]. rewrite fset_eq. unfold b. lia.
      * exfalso. by apply (Hother k n Hkj Hn).
  - done.
Qed.

(** A predecessor that needs nothing. *)
Lemma linv_skip m ns q upd T i dn p c :
  linv m ns q upd T (Some i) dn → sees ns T q m i p c → linv m ns q upd T (Some i) (dn ++ [(p, c)]).
Proof.
  intros [Hlen Hsame Hpr Hex Hheap Hk HT Hdis Hin Hop Hupd Hsh Hlist Hndu Hmono Htop Hsees Hcur HcT] Hs. split; try done.
  intros t p' c' [= <-] [Hd'|Hd']%elem_of_app; [by apply Hcur|].
  by apply elem_of_list_singleton in Hd' as [= -> ->].
Qed.

Lemma backups_spec x ps m ns q upd T i sn dn :
  linv m ns q upd T (Some i) dn → ns !! i = Some sn → l_st D sn = x → m_preds D m x = dn ++ ps →
  ∃ m' ns' q' upd', backups D wt x ps m ns q upd = Some (m', ns', q', upd') ∧
    linv m' ns' q' upd' T (Some i) (dn ++ ps).
Proof.
  revert m ns q upd dn sn. induction ps as [|[p c] ps IH]; intros m ns q upd dn sn Hi Hsn Hx Hps.
  { rewrite app_nil_r. by exists m, ns, q, upd. }
  cbn [backups].
  assert (Hpc : (p, c) ∈ m_preds D m (l_st D sn)) by (rewrite Hx, Hps; set_solver).
  assert (Happ : dn ++ (p, c) :: ps = (dn ++ [(p, c)]) ++ ps) by by rewrite <-app_assoc.
  pose proof (linv_nodup _ _ _ _ _ _ _ Hi) as Hnd.
  destruct (find_l D ns p) as [j|] eqn:Hf.
  2:{ rewrite Happ. eapply IH; [|exact Hsn|done|by rewrite Hps, Happ].
      apply linv_skip; [done|]. intros tn k n Htn Hn Hp. by destruct (find_l_None ns p k n Hf Hn). }
  destruct (find_l_Some ns p j Hf) as (sp & Hsp & Hst). rewrite Hsp. cbn [mbind option_bind].
  destruct (l_cl D sp) eqn:Hcl.
  2:{ rewrite Happ. eapply IH; [|exact Hsn|done|by rewrite Hps, Happ].
      apply linv_skip; [done|]. intros tn k n Htn Hn Hp Hct.
      assert (k = j) as -> by (eapply nodup_st; [exact Hnd|done..|congruence]). congruence. }
  subst x. destruct (negb (l_upd D sp) || bool_decide (wt * c + m_h D m (l_st D sn) < m_h D m p)) eqn:Hor.
  - destruct (pushupdate_spec hsort q j (wt * c + m_h D m (l_st D sn)) hsort_sw (li_heap _ _ _ _ _ _ _ Hi))
      as (q' & Hq & Hiq & Harr & Hkey).
    change (ind (setkey q j (wt * c + m_h D m (l_st D sn))) j) with (ind q j). rewrite Hq. cbn [mbind option_bind].
    assert (l_upd D sp = false ∨ wt * c + m_h D m (l_st D sn) < m_h D m p) as Hor'.
    { destruct (l_upd D sp); [right|by left]. by apply bool_decide_eq_true in Hor. }
    pose proof (linv_set _ _ _ q' _ _ _ _ _ _ _ c _ Hi Hsn Hsp Hst Hcl Hpc Hor' Hiq Harr Hkey) as Hi'.
    rewrite Hcl in Hi'. rewrite Happ.
    assert (∃ sn', <[j := LNode D (l_st D sp) (l_par D sp) (l_g D sp) (l_op D sp) true true]> ns !! i = Some sn' ∧
      l_st D sn' = l_st D sn) as (sn' & Hsn' & Hst').
    { destruct (decide (i = j)) as [->|Hij].
      - eexists. rewrite list_lookup_insert by by eapply lookup_lt_Some. split; [done|]. simpl. congruence.
      - exists sn. by rewrite list_lookup_insert_ne. }
    eapply IH; [exact Hi'|exact Hsn'|done|]. simpl. rewrite Hps. by rewrite Happ.
  - apply orb_false_iff in Hor as [Hu%negb_false_iff Hle%bool_decide_eq_false].
    rewrite Happ. eapply IH; [|exact Hsn|done|by rewrite Hps, Happ].
    apply linv_skip; [done|]. intros tn k n Htn Hn Hp Hct.
    assert (k = j) as -> by (eapply nodup_st; [exact Hnd|done..|congruence]). simplify_eq. split.
    + by apply (li_upd _ _ _ _ _ _ _ Hi j sp).
    + lia.
Qed.

(** Popping a node. *)
Lemma linv_pop m ns q q' upd T i sn :
  linv m ns q upd T None [] → ns !! i = Some sn →
  BinHeap.Proofs.inv hsort (λ _, True) q' → i ∈ arr q → i ∉ arr q' →
  (∀ y, y ∈ arr q ↔ y = i ∨ y ∈ arr q') → key q' = key q →
  (∀ y, y ∈ arr q → hsort (key q y) (key q i) = false) →
  linv m ns q' upd (i :: T) (Some i) [].
Proof.
  intros [Hlen Hsame Hpr Hex Hheap Hk HT Hdis Hin Hop Hupd Hsh Hlist Hndu Hmono Htop Hsees Hcur HcT]
    Hsn Hq' Hiq Hiq' Harr Hkey Hmin.
  assert (HsetT : ∀ k, k ∈ i :: T ∨ k ∈ arr q' ↔ k ∈ T ∨ k ∈ arr q).
  { intros k. rewrite elem_of_cons, Harr. tauto. }
  assert (Hmin' : ∀ y n, y ∈ arr q → ns !! y = Some n → m_h D m (l_st D sn) ≤ m_h D m (l_st D n)).
  { intros y n Hy Hn. specialize (Hmin y Hy). rewrite (Hk y n Hn), (Hk i sn Hsn) in Hmin.
    unfold hsort in Hmin. apply bool_decide_eq_false in Hmin. lia. }
  split; try done.
  - intros k n Hn. rewrite Hkey. by apply Hk.
  - apply NoDup_cons. split; [|done]. intros Hit. by apply (Hdis i Hit).
  - intros k [->|HkT]%elem_of_cons; [done|]. intros Hkq. apply (Hdis k HkT). apply Harr. auto.
  - intros k Hk'. apply Hin. by apply HsetT.
  - intros k n Hn Hf. apply HsetT. by eapply Hop.
  - intros k n Hn Hct. rewrite HsetT. by apply Hupd.
  - intros t k a b [->|Ht]%elem_of_cons Hkq Ha Hb.
    + simplify_eq. apply (Hmin' k); [|done]. apply Harr. auto.
    + eapply Hmono; [exact Ht| |done..]. apply Harr. auto.
  - intros t k a b [->|Ht]%elem_of_cons [= <-] Ha Hb; [by simplify_eq|]. eapply Hmono; [exact Ht|exact Hiq|done..].
  - intros t a p c [->|Ht]%elem_of_cons Ha Hpc Hne; [done|].
    intros tn k n Htn Hn Hp Hct. rewrite HsetT. by apply (Hsees t a p c Ht Ha Hpc ltac:(done) tn k n).
  - by intros t p c _ ?%elem_of_nil.
  - intros t [= <-]. left.
Qed.

Lemma linv_next m ns q upd T i sn :
  ns !! i = Some sn → linv m ns q upd T (Some i) (m_preds D m (l_st D sn)) → linv m ns q upd T None [].
Proof.
  intros Hsn [Hlen Hsame Hpr Hex Hheap Hk HT Hdis Hin Hop Hupd Hsh Hlist Hndu Hmono Htop Hsees Hcur HcT]. split; try done.
  intros t a p c Ht Ha Hpc _. destruct (decide (i = t)) as [->|Hne]; [|eapply Hsees; [done..|congruence]].
  simplify_eq. by apply Hcur.
Qed.

(** The closed nodes, by index. *)
Definition iscl (i : nat) : bool := match ns0 !! i with Some n => l_cl D n | None => false end.
Notation ncls T := (length (filter (λ i, iscl i = true) T)).
Notation total := (length (filter (λ n, l_cl D n = true) ns0)).

Lemma iscl_seq : ncls (seq 0 (length ns0)) = total.
Proof.
  unfold iscl. clear. induction ns0 as [|n l IH] using rev_ind; [done|].
  rewrite app_length. simpl length. rewrite Nat.add_1_r, seq_S, !filter_app, !app_length. f_equal.
  - rewrite <-IH. f_equal. apply filter_in. intros i Hi%elem_of_seq. by rewrite lookup_app_l by lia.
  - simpl. rewrite !filter_cons, !filter_nil. rewrite lookup_app_r, Nat.sub_diag by lia. simpl. by repeat case_decide.
Qed.

Lemma all_closed T : NoDup T → (∀ i, i ∈ T → i < length ns0)%nat → ncls T = total → ∀ i, iscl i = true → i ∈ T.
Proof.
  intros HT Hlt Hn i Hi.
  assert (filter (λ i, iscl i = true) T ≡ₚ filter (λ i, iscl i = true) (seq 0 (length ns0))) as HP.
  { apply submseteq_Permutation_length_eq; [by rewrite iscl_seq|].
    apply NoDup_submseteq; [by apply NoDup_filter|].
    intros j [? Hj]%elem_of_list_filter. apply elem_of_list_filter. split; [done|]. apply elem_of_seq.
    specialize (Hlt j Hj). lia. }
  assert (i ∈ filter (λ i, iscl i = true) T) as Hf; [|by apply elem_of_list_filter in Hf as [_ ?]].
  rewrite HP. apply elem_of_list_filter. split; [done|]. apply elem_of_seq.
  unfold iscl in Hi. destruct (ns0 !! i) eqn:E; [|done]. apply lookup_lt_Some in E. lia.
Qed.

Lemma linv_lt m ns q upd T cur dn i : linv m ns q upd T cur dn → i ∈ T → (i < length ns0)%nat.
Proof.
  intros Hi HT. destruct (li_in _ _ _ _ _ _ _ Hi i (or_introl HT)) as (n & Hn & _).
  apply lookup_lt_Some in Hn. by rewrite (li_len _ _ _ _ _ _ _ Hi) in Hn.
Qed.

Lemma linv_T_length m ns q upd T cur dn : linv m ns q upd T cur dn → (length T ≤ length ns0)%nat.
Proof.
  intros Hi. rewrite <-(seq_length (length ns0) 0). apply submseteq_length, NoDup_submseteq.
  - apply Hi.
  - intros i HT. apply elem_of_seq. eapply linv_lt in HT; [|done]. lia.
Qed.

Lemma lloop_spec fuel m ns q ncl upd T :
  linv m ns q upd T None [] → (ncl + ncls T = total)%nat → (length ns0 < fuel + length T)%nat →
  ∃ m' ns' q' upd' T', lloop D wt fuel m ns q ncl upd = Some (m', upd') ∧ linv m' ns' q' upd' T' None [] ∧
    ((∀ i, iscl i = true → i ∈ T') ∨ arr q' = []).
Proof.
  revert m ns q ncl upd T. induction fuel as [|fuel IH]; intros m ns q ncl upd T Hi Hncl Hf.
  { apply linv_T_length in Hi. lia. }
  cbn [lloop]. case_decide as H0.
  { exists m, ns, q, upd, T. split_and!; [done..|]. left. apply all_closed; [apply Hi| |lia].
    intros i HT. by eapply linv_lt. }
  destruct (empty q) eqn:He.
  { apply empty_true in He. exists m, ns, q, upd, T. auto. }
  assert (arr q ≠ []) as Hne by (intros Hq; apply empty_true in Hq; congruence).
  destruct (pop_spec' hsort q hsort_sw (li_heap _ _ _ _ _ _ _ Hi) Hne)
    as (q' & i & Hq & Hiq & Hin & Hno & Harr & Hkey & Hmin).
  rewrite Hq. cbn [mbind option_bind].
  destruct (li_in _ _ _ _ _ _ _ Hi i (or_intror Hin)) as (sn & Hsn & _). rewrite Hsn. cbn [mbind option_bind].
  pose proof (linv_pop _ _ _ _ _ _ _ _ Hi Hsn Hiq Hin Hno Harr Hkey Hmin) as Hp.
  destruct (backups_spec (l_st D sn) (m_preds D m (l_st D sn)) _ _ _ _ _ _ _ _ Hp Hsn eq_refl eq_refl)
    as (m' & ns' & q2 & upd' & Hb & Hi'). rewrite Hb. cbn [mbind option_bind]. simpl app in Hi'.
  destruct (li_in _ _ _ _ _ _ _ Hi' i) as (sn' & Hsn' & _); [left; left|].
  assert (l_st D sn' = l_st D sn) as Hst.
  { destruct (li_same _ _ _ _ _ _ _ Hi' _ _ Hsn') as (a & Ha & ? & _).
    destruct (li_same _ _ _ _ _ _ _ Hi _ _ Hsn) as (a' & Ha' & ? & _). congruence. }
  assert (m_preds D m' = m_preds D m) as Hpp by (rewrite (li_preds _ _ _ _ _ _ _ Hi'); symmetry; apply Hi).
  rewrite <-Hpp, <-Hst in Hi'. apply linv_next in Hi'; [|done].
  eapply IH; [exact Hi'| |simpl; lia].
  rewrite filter_cons. destruct (li_same _ _ _ _ _ _ _ Hi _ _ Hsn) as (a & Ha & _ & Hcl).
  assert (iscl i = l_cl D sn) as -> by (unfold iscl; by rewrite Ha).
  destruct (l_cl D sn); [rewrite decide_True by done; simpl; lia|by rewrite decide_False].
Qed.

Lemma final_upper m ns q upd T s v :
  linv m ns q upd T None [] → (∀ i, iscl i = true → i ∈ T) ∨ arr q = [] → leaves s v →
  ∀ i n, ns !! i = Some n → l_st D n = s → (i ∈ T ∨ i ∈ arr q) ∧ m_h D m s ≤ v.
Proof.
  intros Hi Hend Hl. pose proof (linv_nodup _ _ _ _ _ _ _ Hi) as Hnd.
  assert (Hget : ∀ i a, ns0 !! i = Some a → ∃ n, ns !! i = Some n ∧ l_st D n = l_st D a ∧ l_cl D n = l_cl D a).
  { intros i a Ha. destruct (lookup_lt_is_Some_2 ns i) as [n Hn].
    { apply lookup_lt_Some in Ha. by rewrite (li_len _ _ _ _ _ _ _ Hi). }
    destruct (li_same _ _ _ _ _ _ _ Hi _ _ Hn) as (a' & Ha' & ? & ?). simplify_eq. by exists n. }
  induction Hl as [x (i' & a & Ha & Hcl & Hst)|s o k (i' & a & Ha & Hcl & Hst) Ho Hl IH]; intros i n Hn Hs.
  - destruct (Hget _ _ Ha) as (n' & Hn' & Hst' & Hcl').
    assert (i' = i) as -> by (eapply nodup_st; [exact Hnd|done..|congruence]).
    split; [eapply Hi; [exact Hn'|congruence]|].
    rewrite (li_same_h _ _ _ _ _ _ _ Hi); [done|].
    intros (j & b & Hb & Hbc & _ & Hbs)%(li_list _ _ _ _ _ _ _ Hi).
    assert (j = i) as -> by (eapply nodup_st; [exact Hnd|done..|congruence]). congruence.
  - destruct (Hget _ _ Ha) as (n' & Hn' & Hst' & Hcl').
    assert (i' = i) as -> by (eapply nodup_st; [exact Hnd|done..|congruence]).
    assert (∃ j b, ns0 !! j = Some b ∧ l_st D b = dest s o) as (j & b & Hb & Hbs).
    { inversion Hl as [? (j & b & ? & _ & ?)|? ? ? (j & b & ? & _ & ?)]; subst; eauto. }
    destruct (Hget _ _ Hb) as (b' & Hb' & Hbs' & _).
    destruct (IH j b' Hb') as [Hj Hle]; [congruence|].
    pose proof (ok_cost OK s o Ho). assert (0 ≤ wt * cost s o) by (apply Z.mul_nonneg_nonneg; lia).
    destruct Hj as [Hj|Hj].
    + assert ((s, cost s o) ∈ m_preds D m (l_st D b')) as Hin.
      { rewrite (li_preds _ _ _ _ _ _ _ Hi), Hbs', Hbs. apply mo_complete; [done| |done]. apply Hexp. by exists i, a. }
      destruct (li_sees _ _ _ _ _ _ _ Hi j b' _ _ Hj Hb' Hin ltac:(done) b' i n Hb' Hn Hs) as [H1 H2].
      { simplify_eq. congruence. }
      split; [done|]. rewrite Hbs', Hbs in H2. lia.
    + destruct Hend as [Hall|Hq]; [|by rewrite Hq in Hj; apply elem_of_nil in Hj].
      assert (i ∈ T) as HiT by (apply Hall; unfold iscl; by rewrite Ha).
      split; [auto|]. pose proof (li_mono _ _ _ _ _ _ _ Hi i j n b' HiT Hj Hn Hb') as Hm.
      rewrite Hs, Hbs', Hbs in Hm. lia.
Qed.

Lemma raise_h m upd s :
  m_h D (raise D h m upd) s = if decide (s ∈ upd) then Z.max (m_h D m s) (h s) else m_h D m s.
Proof.
  unfold raise. revert m. induction upd as [|u upd IH]; intros m.
  { rewrite decide_False by apply not_elem_of_nil. done. }
  cbn [foldl]. rewrite IH. simpl. unfold fset. destruct (decide (s = u)) as [->|Hne].
  - rewrite (decide_True (P:=u ∈ u :: upd)) by left. case_decide; lia.
  - destruct (decide (s ∈ upd)).
    + rewrite (decide_True (P:=s ∈ u :: upd)) by by right. done.
    + rewrite decide_False by by intros [?|?]%elem_of_cons. done.
Qed.
Lemma raise_rest m upd : m_preds D (raise D h m upd) = m_preds D m ∧ m_exp D (raise D h m upd) = m_exp D m.
Proof. unfold raise. revert m. induction upd as [|u upd IH]; intros m; [done|]. cbn [foldl]. by destruct (IH (set_h D m u (Z.max (m_h D m u) (h u)))) as [-> ->]. Qed.
End loop.

Lemma learn_spec m L fuel :
  mem_ok m → lss_ok m L → (length (s_nodes D L) < fuel)%nat →
  ∃ m', hCostLearning D h wt fuel m L = Some m' ∧ m_preds D m' = m_preds D m ∧ m_exp D m' = m_exp D m ∧
    ∀ s, (closed_st (s_nodes D L) s → (∃ v, leaves D wt (closed_st (s_nodes D L)) (frontier (s_nodes D L)) (m_h D m) s v) →
           ∃ w, leaves D wt (closed_st (s_nodes D L)) (frontier (s_nodes D L)) (m_h D m) s w ∧
             (∀ v, leaves D wt (closed_st (s_nodes D L)) (frontier (s_nodes D L)) (m_h D m) s v → w ≤ v) ∧
             m_h D m' s = Z.max w (h s)) ∧
         (¬ closed_st (s_nodes D L) s ∨ ¬ (∃ v, leaves D wt (closed_st (s_nodes D L)) (frontier (s_nodes D L)) (m_h D m) s v) →
           m_h D m' s = m_h D m s).
Proof.
  intros Hm HL Hf. unfold hCostLearning, append. simpl.
  destruct (reinit_spec hsort (sw_asym _ hsort_sw) (sw_neg_trans _ hsort_sw) (λ _, True)
    (Heap (arr (s_open D L)) (ind (s_open D L)) (hkey D m (s_nodes D L)))) as (q & Hq & Hiq & HP & Hk).
  { simpl. apply (inv_exact _ _ _ (lo_heap _ _ HL)). }
  { simpl. intros e He _. by apply (inv_out _ _ _ (lo_heap _ _ HL)). }
  unfold setarr in *. simpl in *. rewrite Hq. cbn [mbind option_bind].
  set (ns := s_nodes D L) in *.
  assert (linv ns m m ns q [] [] None []) as Hi.
  { split; try done.
    - intros i n Hn. by exists n.
    - intros i n Hn. rewrite Hk. unfold hkey. by rewrite Hn.
    - constructor.
    - by intros i ?%elem_of_nil.
    - intros i [?%elem_of_nil|Hin]; [done|]. rewrite HP in Hin. apply (lo_open _ _ HL) in Hin as (n & Hn & Hc).
      exists n. split; [done|]. constructor. by exists i, n.
    - intros i n Hn Hc. right. rewrite HP. apply (lo_open _ _ HL). by exists n.
    - intros i n Hn Hc. rewrite (lo_upd _ _ HL i n Hn). split; [done|]. intros [?%elem_of_nil|Hin]; [done|].
      rewrite HP in Hin. apply (lo_open _ _ HL) in Hin as (n' & Hn' & Hc'). fold ns in Hn'. simplify_eq. congruence.
    - intros s. split; [by intros ?%elem_of_nil|]. intros (i & n & Hn & _ & Hu & _). rewrite (lo_upd _ _ HL i n Hn) in Hu. done.
    - constructor.
    - by intros t i a b ?%elem_of_nil.
    - by intros t a p c ?%elem_of_nil. }
  destruct (lloop_spec ns m (lo_nodup _ _ HL) Hm (lo_exp _ _ HL) fuel m ns q (s_ncl D L) [] [] Hi)
    as (m' & ns' & q' & upd & T & Hl & Hi' & Hend).
  { rewrite (lo_ncl _ _ HL). simpl. fold ns. lia. }
  { simpl. lia. }
  rewrite Hl. cbn [mbind option_bind]. eexists. split; [done|].
  destruct (raise_rest ns m (lo_nodup _ _ HL) Hm (lo_exp _ _ HL) m' upd) as [-> ->]. split; [apply Hi'|]. split; [apply Hi'|].
  pose proof (linv_nodup ns m (lo_nodup _ _ HL) Hm (lo_exp _ _ HL) _ _ _ _ _ _ _ Hi') as Hnd.
  assert (Hget : ∀ i a, ns !! i = Some a → ∃ n, ns' !! i = Some n ∧ l_st D n = l_st D a ∧ l_cl D n = l_cl D a).
  { intros i a Ha. destruct (lookup_lt_is_Some_2 ns' i) as [n Hn].
    { apply lookup_lt_Some in Ha. by rewrite (li_len _ _ _ _ _ _ _ _ _ Hi'). }
    destruct (li_same _ _ _ _ _ _ _ _ _ Hi' _ _ Hn) as (a' & Ha' & ? & ?). simplify_eq. by exists n. }
  assert (Hupd : ∀ s, s ∈ upd → leaves D wt (closed_st ns) (frontier ns) (m_h D m) s (m_h D m' s) ∧ closed_st ns s).
  { intros s (i & n & Hn & Hc & Hu & <-)%(li_list _ _ _ _ _ _ _ _ _ Hi').
    pose proof (proj1 (li_upd _ _ _ _ _ _ _ _ _ Hi' i n Hn Hc) Hu) as Hin.
    destruct (li_in _ _ _ _ _ _ _ _ _ Hi' i Hin) as (n' & Hn' & Hlv). simplify_eq. split; [done|].
    destruct (li_same _ _ _ _ _ _ _ _ _ Hi' _ _ Hn) as (a & Ha & ? & ?). exists i, a. split_and!; congruence. }
  intros s. rewrite (raise_h ns m (lo_nodup _ _ HL) Hm (lo_exp _ _ HL)). split.
  - intros (i & a & Ha & Hc & Hs) [v Hv]. destruct (Hget _ _ Ha) as (n & Hn & Hst & Hcl).
    assert (Hup : ∀ v, leaves D wt (closed_st ns) (frontier ns) (m_h D m) s v → (i ∈ T ∨ i ∈ arr q') ∧ m_h D m' s ≤ v).
    { intros v' Hv'. eapply (final_upper ns m (lo_nodup _ _ HL) Hm (lo_exp _ _ HL)); [exact Hi'|exact Hend|exact Hv'|exact Hn|congruence]. }
    assert (s ∈ upd) as Hsu.
    { apply (li_list _ _ _ _ _ _ _ _ _ Hi'). exists i, n. split_and!; [done|congruence| |congruence].
      apply (li_upd _ _ _ _ _ _ _ _ _ Hi' i n Hn); [congruence|]. by apply (Hup v). }
    exists (m_h D m' s). rewrite decide_True by done. split_and!; [by apply Hupd| |done]. intros v' Hv'. by apply Hup.
  - intros Hno. assert (s ∉ upd) as Hsu.
    { intros Hsu. destruct (Hupd s Hsu) as [Hlv Hc]. destruct Hno as [Hno|Hno]; [done|]. apply Hno. eauto. }
    rewrite decide_False by done. by apply (li_same_h _ _ _ _ _ _ _ _ _ Hi').
Qed.
End learn.
