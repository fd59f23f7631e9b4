(** The lookahead of LSS-LRTA-star (expandLss): with consistent values it is A-star, cut off. *)
From stdpp Require Import prelude.
From Coq Require Import ZArith Lia ZifyBool ZifyNat.
From Verif Require Import Common.Orders Common.Fuel BinHeap.Model BinHeap.Proofs.
From Verif Require Import Search.Domain Search.Model Search.Props Rta.Model Lss.Model Lss.Learn.
Local Open Scope Z_scope.

Section look.
Set Default Proof Using "All".
Context (D : domain) (OK : domain_ok D) (lim : limits) (stop : nat → nat → bool).
Notation mem := (mem D).
Notation lnode := (lnode D).
Notation lss := (lss D).
Implicit Types (ns : list lnode) (m : mem).

(** ** Expanding a state *)
Definition cons_h (v : St D → Z) : Prop := ∀ s o, o ∈ ops s → v s ≤ cost s o + v (dest s o).

Lemma expand_ops_spec n os m st :
  (∀ o, o ∈ os → o ∈ ops n) →
  ∃ m' st', expand_ops D n os m st = (m', st') ∧ m_exp D m' = m_exp D m ∧
    (∀ p c x, (p, c) ∈ m_preds D m' x ↔ (p, c) ∈ m_preds D m x ∨ ∃ o, o ∈ os ∧ p = n ∧ c = cost n o ∧ x = dest n o) ∧
    (cons_h (m_h D m) → ∀ s, m_h D m' s = m_h D m s) ∧ (∀ s, m_h D m s ≤ m_h D m' s).
Proof.
  revert m st. induction os as [|o os IH]; intros m st Hos.
  { exists m, st. split_and!; try done. intros p c x. split; [auto|]. intros [?|(o & ?%elem_of_nil & _)]; done. }
  cbn [expand_ops]. destruct (edge n o) as [[k c] r] eqn:E.
  assert (dest n o = k) as Hk by (unfold dest; by rewrite E). assert (cost n o = c) as Hc by (unfold cost; by rewrite E).
  set (m1 := set_h D _ _ _).
  destruct (IH m1 (radd_gend st)) as (m' & st' & Heq & Hex & Hpr & Hh & Hge); [intros o' Ho'; apply Hos; by right|].
  assert (Hge1 : ∀ s, m_h D m s ≤ m_h D m1 s).
  { intros s. unfold m1. simpl. unfold fset. case_decide; subst; lia. }
  exists m', st'. split_and!; [done|done| | |].
  - intros p c' x. rewrite Hpr. unfold m1. simpl. unfold fset. rewrite <-Hk, <-Hc. split.
    + intros [Hin|(o' & Ho' & ?)]; [|right; exists o'; split; [by right|done]].
      case_decide as Hx; [|by left]. subst x. apply elem_of_app in Hin as [?|Hin]; [by left|].
      apply elem_of_list_singleton in Hin as [= -> ->]. right. exists o. split; [left|done].
    + intros [Hin|(o' & [->|Ho']%elem_of_cons & -> & -> & ->)].
      * left. case_decide; [|done]. subst. apply elem_of_app. by left.
      * left. rewrite decide_True by done. apply elem_of_app. right. by left.
      * right. by exists o'.
  - intros Hcons s.
    assert (Hsame : ∀ s, m_h D m1 s = m_h D m s).
    { intros s'. unfold m1. simpl. unfold fset. case_decide as Hx; [|done]. subst s'.
      pose proof (Hcons n o (Hos o (elem_of_list_here _ _))) as H1. rewrite Hk, Hc in H1. lia. }
    rewrite Hh; [apply Hsame|]. intros s' o' Ho'. rewrite !Hsame. by apply Hcons.
  - intros s. specialize (Hge1 s). specialize (Hge s). lia.
Qed.

Lemma expand_spec n m st :
  mem_ok m →
  ∃ m' st', expand D n m st = (m', st') ∧ mem_ok m' ∧ n ∈ m_exp D m' ∧ (∀ s, s ∈ m_exp D m → s ∈ m_exp D m') ∧
    (cons_h (m_h D m) → ∀ s, m_h D m' s = m_h D m s) ∧ (∀ s, m_h D m s ≤ m_h D m' s).
Proof.
  intros Hm. unfold expand. case_decide as Hn; [by exists m, st|].
  destruct (expand_ops_spec n (ops n) m (radd_expd st)) as (m' & st' & -> & Hex & Hpr & Hh & Hge); [done|].
  eexists _, _. split; [done|]. simpl. split_and!; [split|left|by rewrite Hex; right|done|done].
  - intros p c x. simpl. intros [Hin|(o & Ho & -> & -> & ->)]%Hpr; [by apply Hm|]. by exists o.
  - intros s o. simpl. rewrite Hex. intros [->|Hs]%elem_of_cons Ho; apply Hpr.
    + right. by exists o.
    + left. by apply Hm.
Qed.

(** ** The invariant *)
Section inv.
Context (v : St D → Z) (Hv : cons_h v) (root : St D) (rc : Prop).

(** The operators from the node of [root] to the node [i], last one first: their costs add up to g, and all nodes
    on the way but [i] are closed. *)
Inductive line ns : nat → list (Op D) → Prop :=
  | line_root n : ns !! 0%nat = Some n → l_st D n = root → l_g D n = Some 0 → l_par D n = None → line ns 0 []
  | line_step i n p pn g os :
      ns !! i = Some n → l_st D n ≠ root → l_par D n = Some p → ns !! p = Some pn → l_cl D pn = true →
      l_op D n ∈ ops (l_st D pn) → dest (l_st D pn) (l_op D n) = l_st D n → l_g D pn = Some g →
      l_g D n = Some (g + cost (l_st D pn) (l_op D n)) → line ns p os → line ns i (l_op D n :: os).

(** [cur]: the node that is being expanded; its operators in [dn] have been dealt with. *)
Record einv m (L : lss) (goal : option nat) (cur : option nat) (dn : list (Op D)) : Prop := {
  ei_mem : mem_ok m;
  ei_h s : m_h D m s = v s;
  ei_nodup : NoDup (l_st D <$> s_nodes D L);
  ei_heap : BinHeap.Proofs.inv astar_lt (λ _, True) (s_open D L);
  ei_open i : i ∈ arr (s_open D L) ↔ ∃ n, s_nodes D L !! i = Some n ∧ l_cl D n = false;
  ei_key i n g : s_nodes D L !! i = Some n → l_g D n = Some g → key (s_open D L) i = (g + v (l_st D n), g);
  ei_upd i n : s_nodes D L !! i = Some n → l_upd D n = false;
  ei_ncl : s_ncl D L = length (filter (λ n, l_cl D n = true) (s_nodes D L));
  ei_exp i n : s_nodes D L !! i = Some n → l_cl D n = true → l_st D n ∈ m_exp D m;
  ei_succ i n o : s_nodes D L !! i = Some n → l_cl D n = true → o ∈ ops (l_st D n) → cur ≠ Some i ∨ o ∈ dn →
    ∃ j k g g', s_nodes D L !! j = Some k ∧ l_st D k = dest (l_st D n) o ∧ l_g D n = Some g ∧ l_g D k = Some g' ∧
      g' ≤ g + cost (l_st D n) o;
  ei_line i n : s_nodes D L !! i = Some n → ∃ os, line (s_nodes D L) i os ∧
    (length os + (if l_cl D n then 1 else 0) ≤ s_ncl D L)%nat;
  ei_g i n : s_nodes D L !! i = Some n → ∃ g, l_g D n = Some g ∧ 0 ≤ g;
  ei_mono i n g j k g' : s_nodes D L !! i = Some n → l_cl D n = true → l_g D n = Some g →
    s_nodes D L !! j = Some k → l_cl D k = false → l_g D k = Some g' →
    g + v (l_st D n) ≤ g' + v (l_st D k);
  ei_top i n g j k g' : s_nodes D L !! i = Some n → l_cl D n = true → l_g D n = Some g →
    cur = Some j → s_nodes D L !! j = Some k → l_g D k = Some g' → g + v (l_st D n) ≤ g' + v (l_st D k);
  ei_cur j : cur = Some j → ∃ k, s_nodes D L !! j = Some k ∧ l_cl D k = true;
  ei_goal b : goal = Some b → ∃ n, s_nodes D L !! b = Some n ∧ isgoal (l_st D n) = true;
  ei_nogoal : goal = None → ∀ i n, s_nodes D L !! i = Some n → isgoal (l_st D n) = false;
  ei_rc : rc → ∃ n, s_nodes D L !! 0%nat = Some n ∧ l_cl D n = true;
  ei_root : ∃ n, s_nodes D L !! 0%nat = Some n ∧ l_st D n = root ∧ l_g D n = Some 0 ∧ l_par D n = None;
}.

(** A line survives a change of the nodes that keeps the closed ones and the last one. *)
Lemma line_keep ns ns' i os n :
  line ns i os → ns !! i = Some n → ns' !! i = Some n →
  (∀ j a, ns !! j = Some a → l_cl D a = true → ns' !! j = Some a) → line ns' i os.
Proof.
  intros Hl. revert n. induction Hl as [a Ha Hs Hg Hp|i a p pn g os Ha Hs Hp Hpn Hcl Ho Hd Hgp Hg Hl IH]; intros n Hn Hn' Hk.
  - simplify_eq. by eapply line_root.
  - simplify_eq. eapply line_step; [exact Hn'|done|exact Hp|by apply Hk|done..|]. by apply (IH pn); [|apply Hk|].
Qed.

Lemma root_index ns i n : NoDup (l_st D <$> ns) → (∃ r, ns !! 0%nat = Some r ∧ l_st D r = root) →
  ns !! i = Some n → l_st D n = root → i = 0%nat.
Proof. intros Hnd (r & Hr & Hs) Hn He. eapply nodup_st; [exact Hnd|done|done|congruence]. Qed.

(** *** Popping a node *)
Lemma einv_pop m m' L goal i sn q :
  einv m L goal None [] →
  BinHeap.Proofs.inv astar_lt (λ _, True) q → i ∈ arr (s_open D L) → i ∉ arr q →
  (∀ y, y ∈ arr (s_open D L) ↔ y = i ∨ y ∈ arr q) → key q = key (s_open D L) →
  (∀ y, y ∈ arr (s_open D L) → astar_lt (key (s_open D L) y) (key (s_open D L) i) = false) →
  s_nodes D L !! i = Some sn →
  mem_ok m' → l_st D sn ∈ m_exp D m' → (∀ s, s ∈ m_exp D m → s ∈ m_exp D m') → (∀ s, m_h D m' s = m_h D m s) →
  einv m' (Lss D (<[i := LNode D (l_st D sn) (l_par D sn) (l_g D sn) (l_op D sn) (l_upd D sn) true]> (s_nodes D L)) q
    (if l_cl D sn then s_ncl D L else S (s_ncl D L))) goal (Some i) [].
Proof.
  intros He Hq Hi Hno Harr Hkey Hmin Hsn Hm' Hse Hsub Hsame.
  pose proof He as [Hmem Hh Hnd Hheap Hop Hk Hu Hncl Hex Hsu Hli Hg Hmo Hto Hcu Hgo Hng Hrc (r0 & Hr0 & Hr1 & Hr2 & Hr3)].
  set (ns := s_nodes D L) in *. set (sn' := LNode D _ _ _ _ _ true).
  assert (Hcl : l_cl D sn = false).
  { apply Hop in Hi as (n & Hn & Hc). by simplify_eq. }
  rewrite Hcl.
  assert (HI : ∀ k n, <[i := sn']> ns !! k = Some n → (k = i ∧ n = sn') ∨ (k ≠ i ∧ ns !! k = Some n)).
  { intros k n [[-> [<- _]]|[? ?]]%list_lookup_insert_Some; auto. }
  assert (Hi' : <[i := sn']> ns !! i = Some sn').
  { rewrite list_lookup_insert; [done|]. by eapply lookup_lt_Some. }
  assert (HO : ∀ k n, ns !! k = Some n → ∃ n', <[i := sn']> ns !! k = Some n' ∧ l_st D n' = l_st D n ∧ l_g D n' = l_g D n ∧
    l_par D n' = l_par D n ∧ l_op D n' = l_op D n ∧ l_cl D n' = (if decide (k = i) then true else l_cl D n)).
  { intros k n Hn. destruct (decide (k = i)) as [->|Hne].
    - exists sn'. simplify_eq. by split_and!.
    - exists n. by rewrite list_lookup_insert_ne. }
  assert (Hline : ∀ k os, line ns k os → line (<[i := sn']> ns) k os).
  { induction 1 as [a Ha Hs Hga Hp|k a p pn g os Ha Hs Hp Hpn Hcp Ho Hd Hgp Hga Hl IH].
    - destruct (HO _ _ Ha) as (a' & ? & ? & ? & ? & _). eapply line_root; [done|congruence..].
    - destruct (HO _ _ Ha) as (a' & Ha' & Es & Eg & Ep & Eo & _).
      destruct (HO _ _ Hpn) as (pn' & Hpn' & Es' & Eg' & _ & _ & Ec').
      rewrite <-Eo. eapply line_step; [exact Ha'|congruence|by rewrite Ep|exact Hpn'| | | | | |done].
      + rewrite Ec'. by case_decide.
      + by rewrite Es', Eo.
      + by rewrite Es', Eo, Es.
      + by rewrite Eg'.
      + by rewrite Es', Eo, Eg. }
  assert (Hcase : ∀ k n, <[i := sn']> ns !! k = Some n → ∃ n0, ns !! k = Some n0 ∧ l_st D n = l_st D n0 ∧ l_g D n = l_g D n0 ∧
    l_upd D n = l_upd D n0).
  { intros k n [[-> ->]|[_ Hn]]%HI; [by exists sn|by exists n]. }
  destruct (Hg i sn Hsn) as (gi & Hgi & Hgi0).
  assert (Hmin' : ∀ y n g, ns !! y = Some n → l_cl D n = false → l_g D n = Some g → gi + v (l_st D sn) ≤ g + v (l_st D n)).
  { intros y n g Hn Hc Hgn. assert (y ∈ arr (s_open D L)) as Hy by (apply Hop; by exists n).
    specialize (Hmin y Hy). rewrite (Hk y n g Hn Hgn), (Hk i sn gi Hsn Hgi) in Hmin. apply astar_lt_false in Hmin. lia. }
  split; simpl.
  - done.
  - intros s. by rewrite Hsame.
  - assert (l_st D <$> <[i:=sn']> ns = l_st D <$> ns) as ->; [|done].
    rewrite list_fmap_insert. apply list_insert_id. by rewrite list_lookup_fmap, Hsn.
  - done.
  - intros k. split.
    + intros Hk'. assert (k ∈ arr (s_open D L)) as Hin by (apply Harr; auto).
      apply Hop in Hin as (n & Hn & Hc). exists n. rewrite list_lookup_insert_ne; [done|]. by intros <-.
    + intros (n & Hn & Hc). apply HI in Hn as [[-> ->]|[Hne Hn]]; [done|].
      assert (k ∈ arr (s_open D L)) as Hin by (apply Hop; by exists n). by apply Harr in Hin as [?|?].
  - intros k n g Hn Hgn. destruct (Hcase _ _ Hn) as (n0 & Hn0 & -> & Hg0 & _). rewrite Hkey. apply Hk; [done|congruence].
  - intros k n Hn. destruct (Hcase _ _ Hn) as (n0 & Hn0 & _ & _ & ->). by eapply Hu.
  - rewrite Hncl. fold ns.
    rewrite <-(take_drop_middle _ _ _ Hsn) at 1. rewrite (insert_take_drop _ _ _ (lookup_lt_Some _ _ _ Hsn)).
    rewrite !filter_app, !app_length, !filter_cons.
    rewrite (decide_False (P:=l_cl D sn = true)) by congruence.
    rewrite (decide_True (P:=l_cl D sn' = true)) by done. simpl. lia.
  - intros k n [[-> ->]|[_ Hn]]%HI Hc; [done|]. by apply Hsub, (Hex k).
  - intros k n o [[-> ->]|[_ Hn]]%HI Hc Ho Hor.
    { destruct Hor as [?|?%elem_of_nil]; done. }
    destruct (Hsu k n o Hn Hc Ho) as (j & kk & g & g' & Hj & ? & ? & ? & ?); [by left|].
    destruct (HO _ _ Hj) as (j' & ? & ? & ? & _). exists j, j', g, g'. split_and!; [done|congruence..|done].
  - intros k n Hn. pose proof Hn as [[-> ->]|[Hne Hn0]]%HI.
    + destruct (Hli i sn Hsn) as (os & Hl & Hlen). exists os. split; [by apply Hline|]. rewrite Hcl in Hlen. simpl. lia.
    + destruct (Hli k n Hn0) as (os & Hl & Hlen). exists os. split; [by apply Hline|]. lia.
  - intros k n Hn. destruct (Hcase _ _ Hn) as (n0 & Hn0 & _ & -> & _). by eapply Hg.
  - intros k n g j kk g' Hn Hc Hgn Hj Hcj Hgj. apply HI in Hj as [[-> ->]|[_ Hj]]; [done|].
    apply HI in Hn as [[-> ->]|[_ Hn]]; simpl in *; [|by eapply Hmo]. simplify_eq. by eapply Hmin'.
  - intros k n g j kk g' Hn Hc Hgn [= <-] Hj Hgj. simplify_eq. simpl in *.
    apply HI in Hn as [[-> ->]|[_ Hn]]; simpl in *; [simplify_eq; lia|]. by eapply Hmo.
  - intros j [= <-]. by exists sn'.
  - intros b Hb. destruct (Hgo b Hb) as (n & Hn & Hgn). destruct (HO _ _ Hn) as (n' & ? & Es & _). exists n'. by rewrite Es.
  - intros Hb k n Hn. destruct (Hcase _ _ Hn) as (n0 & Hn0 & -> & _). by eapply Hng.
  - intros Hr. destruct (Hrc Hr) as (n & Hn & Hc). destruct (HO _ _ Hn) as (n' & ? & _ & _ & _ & _ & Ec). exists n'.
    split; [done|]. rewrite Ec. by case_decide.
  - destruct (HO _ _ Hr0) as (n' & ? & ? & ? & ? & _). exists n'. split_and!; [done|congruence..].
Qed.

(** *** One successor *)
Lemma relax_spec m L goal i sn o dn :
  einv m L goal (Some i) dn → s_nodes D L !! i = Some sn → o ∈ ops (l_st D sn) →
  ∃ L' goal', relax D m i o (dest (l_st D sn) o) (cost (l_st D sn) o) L goal = Some (L', goal') ∧
    einv m L' goal' (Some i) (dn ++ [o]) ∧ s_nodes D L' !! i = Some sn ∧ s_ncl D L' = s_ncl D L.
Proof.
  intros He Hsn Ho.
  pose proof He as [Hmem Hh Hnd Hheap Hop Hk Hu Hncl Hex Hsu Hli Hg Hmo Hto Hcu Hgo Hng Hrc Hroot].
  set (ns := s_nodes D L) in *. set (k := dest (l_st D sn) o). set (c := cost (l_st D sn) o).
  assert (Hc0 : 0 ≤ c) by by apply OK.
  destruct (Hg i sn Hsn) as (gi & Hgi & Hgi0).
  destruct (Hcu i eq_refl) as (sn2 & Hsn2 & Hcl). simplify_eq.
  (* a node already there with a small enough g *)
  assert (Hold : ∀ j kn g', ns !! j = Some kn → l_st D kn = k → l_g D kn = Some g' → g' ≤ gi + c →
    ∀ goal', (∀ b, goal' = Some b → ∃ n, ns !! b = Some n ∧ isgoal (l_st D n) = true) →
      (goal' = None → goal = None) → einv m L goal' (Some i) (dn ++ [o])).
  { intros j kn g' Hj Hjk Hgj Hle goal' Hb Hn. split; try done.
    - intros a n o' Ha Hca Ho' Hor. destruct (decide (a = i)) as [->|Hne].
      + destruct Hor as [?|[Hor|Hor]%elem_of_app]; [done|apply (Hsu i n o'); auto|].
        apply elem_of_list_singleton in Hor as ->. fold ns in Ha. simplify_eq. exists j, kn, gi, g'. by split_and!.
      + apply (Hsu a n o' Ha Hca Ho'). left. congruence.
    - intros Hn' . apply Hng. auto. }
  unfold relax. fold ns. rewrite Hsn. cbn [mbind option_bind]. case_decide as Hpar.
  { exists L, goal. split; [done|]. split; [|done].
    destruct (Hli i sn Hsn) as (os & Hl & _). inversion Hl as [n Hn|i' n p pn g os' Hn Hs Hp Hpn Hcp Hoo Hd Hgp Hgn Hl']; subst.
    { fold ns in Hn. simplify_eq. match goal with H : l_par D _ = None |- _ => rewrite H in Hpar end. done. }
    simplify_eq. rewrite Hp in Hpar. cbn [mbind option_bind] in Hpar. rewrite Hpn in Hpar. simpl in Hpar. simplify_eq.
    eapply (Hold p pn g); [done|congruence|done| |done|done].
    pose proof (ok_cost OK _ _ Hoo). lia. }
  rewrite Hgi.
  destruct (find_l D ns k) as [j|] eqn:Hf.
  - (* a known state *)
    destruct (find_l_Some ns k j Hf) as (kn & Hj & Hjk). cbn [mbind option_bind]. rewrite Hj. cbn [mbind option_bind].
    destruct (Hg j kn Hj) as (kg & Hkg & Hkg0). rewrite Hkg.
    destruct (decide (gi + c < kg)) as [Hlt|Hge].
    + rewrite bool_decide_eq_true_2 by done.
      assert (Hjc : l_cl D kn = false).
      { destruct (l_cl D kn) eqn:Hjc; [|done]. exfalso.
        pose proof (Hto j kn kg i sn gi Hj Hjc Hkg eq_refl Hsn Hgi) as H1. pose proof (Hv _ _ Ho) as H2.
        fold k c in H2. rewrite Hjk in H1. lia. }
      assert (Hij : j ≠ i) by congruence.
      assert (Hjr : k ≠ root).
      { intros Hkr. destruct Hroot as (r & Hr & Hrs & Hrg & _).
        assert (j = 0%nat) as -> by (eapply root_index; [exact Hnd|by exists r|exact Hj|congruence]). simplify_eq. lia. }
      destruct (pushupdate_spec astar_lt (s_open D L) j (gi + c + m_h D m k, gi + c) astar_lt_sw Hheap)
        as (q' & Hq & Hiq & Harr & Hkey).
      change (ind (setkey (s_open D L) j (gi + c + m_h D m k, gi + c)) j) with (ind (s_open D L) j). rewrite Hq.
      cbn [mbind option_bind s_nodes]. set (kn' := LNode D k (Some i) (Some (gi + c)) o (l_upd D kn) (l_cl D kn)).
      rewrite list_lookup_insert by by eapply lookup_lt_Some. cbn [mbind option_bind].
      assert (HI : ∀ a n, <[j := kn']> ns !! a = Some n → (a = j ∧ n = kn') ∨ (a ≠ j ∧ ns !! a = Some n)).
      { intros a n [[-> [<- _]]|[? ?]]%list_lookup_insert_Some; auto. }
      assert (Hj' : <[j := kn']> ns !! j = Some kn').
      { rewrite list_lookup_insert; [done|]. by eapply lookup_lt_Some. }
      assert (HO : ∀ a n, ns !! a = Some n → ∃ n', <[j := kn']> ns !! a = Some n' ∧ l_st D n' = l_st D n ∧ l_cl D n' = l_cl D n ∧
        (a ≠ j → n' = n) ∧ (a = j → n' = kn')).
      { intros a n Hn. destruct (decide (a = j)) as [->|Hne].
        - exists kn'. fold ns in Hn. simplify_eq. split_and!; done.
        - exists n. rewrite list_lookup_insert_ne by done. by split_and!. }
      assert (Hline : ∀ a n os, ns !! a = Some n → a ≠ j → line ns a os → line (<[j := kn']> ns) a os).
      { intros a n os Hn Hne Hl. eapply line_keep; [exact Hl|exact Hn|by rewrite list_lookup_insert_ne|].
        intros b nb Hb Hcb. rewrite list_lookup_insert_ne; [done|]. intros <-. simplify_eq. congruence. }
      set (L1 := Lss D (<[j := kn']> ns) q' (s_ncl D L)).
      assert (HL1 : einv m L1 (match goal with None => if isgoal k then Some j else None | Some b => Some b end) (Some i) (dn ++ [o])).
      { split; simpl; fold ns.
        - done.
        - done.
        - assert (l_st D <$> <[j:=kn']> ns = l_st D <$> ns) as ->; [|done].
          rewrite list_fmap_insert. apply list_insert_id. rewrite list_lookup_fmap, Hj. simpl. by rewrite Hjk.
        - done.
        - intros a. rewrite Harr, Hop. fold ns. split.
          + intros [->|(n & Hn & Hc)]; [by exists kn'|].
            destruct (HO _ _ Hn) as (n' & ? & _ & Ec & _). exists n'. by rewrite Ec.
          + intros (n & [[-> ->]|[_ Hn]]%HI & Hc); [by left|]. right. by exists n.
        - intros a n g Hn Hgn. rewrite Hkey. simpl. apply HI in Hn as [[-> ->]|[Hne Hn]].
          + rewrite decide_True by done. simpl in *. simplify_eq. by rewrite Hh.
          + rewrite decide_False by done. by apply Hk.
        - intros a n [[-> ->]|[_ Hn]]%HI; [simpl; by eapply Hu|by eapply Hu].
        - rewrite Hncl. fold ns.
          rewrite <-(take_drop_middle _ _ _ Hj) at 1. rewrite (insert_take_drop _ _ _ (lookup_lt_Some _ _ _ Hj)).
          rewrite !filter_app, !app_length, !filter_cons. by rewrite !decide_False by (simpl; congruence).
        - intros a n [[-> ->]|[_ Hn]]%HI Hc; [simpl in Hc; congruence|by eapply Hex].
        - intros a n o' [[-> ->]|[Hne Hn]]%HI Hc Ho' Hor; [simpl in Hc; congruence|].
          destruct (decide (a = i ∧ o' = o)) as [[-> ->]|Hnot].
          { fold ns in Hn. simplify_eq. exists j, kn', gi, (gi + c). by split_and!. }
          destruct (Hsu a n o' Hn Hc Ho') as (b & bn & g & g' & Hb & Hbs & Hgn & Hgb & Hle).
          { destruct Hor as [?|[?|?%elem_of_list_singleton]%elem_of_app]; [by left|by right|].
            left. intros [= ->]. by apply Hnot. }
          fold ns in Hb. destruct (decide (b = j)) as [->|Hbj].
          + simplify_eq. exists j, kn', g, (gi + c). split_and!; [done|simpl; congruence|done|done|lia].
          + exists b, bn, g, g'. rewrite list_lookup_insert_ne by done. by split_and!.
        - intros a n [[-> ->]|[Hne Hn]]%HI.
          + destruct (Hli i sn Hsn) as (os & Hl & Hlen). exists (o :: os). rewrite Hcl in Hlen. split.
            * change o with (l_op D kn') at 1. eapply (line_step _ j kn' i sn gi); [done|done|done|by rewrite list_lookup_insert_ne|done..|].
              by eapply Hline; [exact Hsn|congruence|].
            * simpl. rewrite Hjc. simpl. lia.
          + destruct (Hli a n Hn) as (os & Hl & Hlen). exists os. split; [|done]. by eapply Hline.
        - intros a n [[-> ->]|[_ Hn]]%HI; [exists (gi + c); split; [done|lia]|by eapply Hg].
        - intros a n g b bn g' [[-> ->]|[_ Ha]]%HI Hc Hgn Hb Hcb Hgb; [simpl in Hc; congruence|].
          apply HI in Hb as [[-> ->]|[_ Hb]]; [|by eapply Hmo]. simpl in Hgb |- *. injection Hgb as <-.
          pose proof (Hto a n g i sn gi Ha Hc Hgn eq_refl Hsn Hgi). pose proof (Hv _ _ Ho) as H2. fold k c in H2. lia.
        - intros a n g b bn g' [[-> ->]|[_ Ha]]%HI Hc Hgn [= <-] Hb Hgb; [simpl in Hc; congruence|].
          apply HI in Hb as [[-> ->]|[_ Hb]]; [done|]. by eapply Hto.
        - intros b [= <-]. exists sn. by rewrite list_lookup_insert_ne.
        - intros b Hb. destruct goal as [b'|].
          + destruct (Hgo b eq_refl) as (n & Hn & Hgn) || (simplify_eq; destruct (Hgo b eq_refl) as (n & Hn & Hgn)).
            destruct (HO _ _ Hn) as (n' & ? & Es & _). exists n'. by rewrite Es.
          + destruct (isgoal k) eqn:Hgk; [|done]. simplify_eq. by exists kn'.
        - intros Hn. destruct goal; [done|]. destruct (isgoal k) eqn:Hgk; [done|].
          intros a n [[-> ->]|[_ Hn']]%HI; [done|by eapply Hng].
        - intros Hr. destruct (Hrc Hr) as (n & Hn & Hc). destruct (HO _ _ Hn) as (n' & ? & _ & Ec & _). exists n'. by rewrite Ec.
        - destruct Hroot as (r & Hr & Hrs & Hrg & Hrp). fold ns in Hr. exists r. rewrite list_lookup_insert_ne; [done|].
          intros ->. apply Hjr. congruence. }
      fold kn'. fold L1. assert (Hi1 : s_nodes D L1 !! i = Some sn) by (simpl; by rewrite list_lookup_insert_ne).
      destruct (isgoal k) eqn:Hgk; [|by exists L1, goal; destruct goal].
      destruct goal as [b|]; [|by exists L1, (Some j)].
      destruct (ei_goal _ _ _ _ _ HL1 b eq_refl) as (bn & Hb & Hbg). simpl in Hb. rewrite Hb. cbn [mbind option_bind].
      destruct (ei_g _ _ _ _ _ HL1 _ _ Hb) as (bg & Hbg' & _). rewrite Hbg'. cbn [mbind option_bind l_g kn'].
      case_bool_decide; [|by exists L1, (Some b)].
      exists L1, (Some j). split; [done|]. split; [|done]. destruct HL1. split; try done.
      intros b' [= <-]. by exists kn'.
    + rewrite bool_decide_eq_false_2 by lia. cbn [mbind option_bind s_nodes]. rewrite Hj. cbn [mbind option_bind].
      assert (Lss D ns (s_open D L) (s_ncl D L) = L) as -> by by destruct L.
      assert (kg ≤ gi + c) as Hle by lia.
      destruct (isgoal k) eqn:Hgk.
      2:{ exists L, goal. split; [done|]. split; [|done]. by eapply (Hold j kn kg). }
      destruct goal as [b|].
      2:{ exists L, (Some j). split; [done|]. split; [|done]. eapply (Hold j kn kg); [done..| |done].
          intros b [= <-]. exists kn. by rewrite Hjk. }
      destruct (Hgo b eq_refl) as (bn & Hb & Hbg). rewrite Hb. cbn [mbind option_bind]. rewrite Hkg. cbn [mbind option_bind].
      destruct (Hg b bn Hb) as (bg & -> & _). cbn [mbind option_bind].
      eexists L, _. split; [done|]. split; [|done]. eapply (Hold j kn kg); [done..| |by case_bool_decide].
      intros b'. case_bool_decide; intros [= <-]; [exists kn; by rewrite Hjk|by exists bn].
  - (* a new state *)
    set (nw := LNode D k None None nop false false). set (j := length ns).
    assert (Hnw : (ns ++ [nw]) !! j = Some nw) by by apply list_lookup_middle.
    cbn [mbind option_bind]. rewrite Hnw. cbn [mbind option_bind l_g nw].
    assert (Hij : j ≠ i) by (apply lookup_lt_Some in Hsn; lia).
    assert (Hnew : ∀ a n, ns !! a = Some n → l_st D n ≠ k) by (intros a n Hn; by eapply find_l_None).
    assert (Hjr : k ≠ root).
    { intros Hkr. destruct Hroot as (r & Hr & Hrs & _). apply (Hnew _ _ Hr). congruence. }
    destruct (pushupdate_spec astar_lt (s_open D L) j (gi + c + m_h D m k, gi + c) astar_lt_sw Hheap)
      as (q' & Hq & Hiq & Harr & Hkey).
    change (ind (setkey (s_open D L) j (gi + c + m_h D m k, gi + c)) j) with (ind (s_open D L) j). rewrite Hq.
    cbn [mbind option_bind s_nodes]. change (l_upd D nw) with false. change (l_cl D nw) with false. set (kn' := LNode D k (Some i) (Some (gi + c)) o false false).
    assert (<[j := kn']> (ns ++ [nw]) = ns ++ [kn']) as ->.
    { replace j with (length ns + 0)%nat by lia. by rewrite insert_app_r. }
    assert (Hj' : (ns ++ [kn']) !! j = Some kn') by by apply list_lookup_middle.
    rewrite Hj'. cbn [mbind option_bind].
    assert (HI : ∀ a n, (ns ++ [kn']) !! a = Some n → (a = j ∧ n = kn') ∨ (a ≠ j ∧ ns !! a = Some n)).
    { intros a n [Hn|[Hle Hn]]%lookup_app_Some.
      - right. split; [|done]. apply lookup_lt_Some in Hn. lia.
      - left. apply list_lookup_singleton_Some in Hn as [? <-]. split; [lia|done]. }
    assert (HO : ∀ a n, ns !! a = Some n → (ns ++ [kn']) !! a = Some n).
    { intros a n Hn. rewrite lookup_app_l; [done|]. by eapply lookup_lt_Some. }
    assert (Hline : ∀ a n os, ns !! a = Some n → line ns a os → line (ns ++ [kn']) a os).
    { intros a n os Hn Hl. eapply line_keep; [exact Hl|exact Hn|by apply HO|]. intros b nb Hb _. by apply HO. }
    set (L1 := Lss D (ns ++ [kn']) q' (s_ncl D L)).
    assert (HL1 : einv m L1 (match goal with None => if isgoal k then Some j else None | Some b => Some b end) (Some i) (dn ++ [o])).
    { split; simpl; fold ns.
      - done.
      - done.
      - rewrite fmap_app. apply NoDup_app. split; [done|]. split; [|apply NoDup_singleton].
        intros x (n & -> & [a Ha]%elem_of_list_lookup)%elem_of_list_fmap Hx%elem_of_list_singleton. by apply (Hnew a n).
      - done.
      - intros a. rewrite Harr, Hop. fold ns. split.
        + intros [->|(n & Hn & Hc)]; [by exists kn'|]. exists n. split; [by apply HO|done].
        + intros (n & [[-> ->]|[_ Hn]]%HI & Hc); [by left|]. right. by exists n.
      - intros a n g Hn Hgn. rewrite Hkey. simpl. apply HI in Hn as [[-> ->]|[Hne Hn]].
        + rewrite decide_True by done. simpl in *. simplify_eq. by rewrite Hh.
        + rewrite decide_False by done. by apply Hk.
      - intros a n [[-> ->]|[_ Hn]]%HI; [done|by eapply Hu].
      - rewrite Hncl. fold ns. rewrite filter_app, app_length, filter_cons. rewrite decide_False by done. simpl. lia.
      - intros a n [[-> ->]|[_ Hn]]%HI Hc; [done|by eapply Hex].
      - intros a n o' [[-> ->]|[Hne Hn]]%HI Hc Ho' Hor; [done|].
        destruct (decide (a = i ∧ o' = o)) as [[-> ->]|Hnot].
        { fold ns in Hn. simplify_eq. exists j, kn', gi, (gi + c). by split_and!. }
        destruct (Hsu a n o' Hn Hc Ho') as (b & bn & g & g' & Hb & Hbs & Hgn & Hgb & Hle).
        { destruct Hor as [?|[?|?%elem_of_list_singleton]%elem_of_app]; [by left|by right|].
          left. intros [= ->]. by apply Hnot. }
        exists b, bn, g, g'. split_and!; [by apply HO|done..].
      - intros a n [[-> ->]|[Hne Hn]]%HI.
        + destruct (Hli i sn Hsn) as (os & Hl & Hlen). exists (o :: os). rewrite Hcl in Hlen. split.
          * change o with (l_op D kn') at 1. eapply (line_step _ j kn' i sn gi); [done|done|done|by apply HO|done..|].
            by eapply Hline.
          * simpl. lia.
        + destruct (Hli a n Hn) as (os & Hl & Hlen). exists os. split; [|done]. by eapply Hline.
      - intros a n [[-> ->]|[_ Hn]]%HI; [exists (gi + c); split; [done|lia]|by eapply Hg].
      - intros a n g b bn g' [[-> ->]|[_ Ha]]%HI Hc Hgn Hb Hcb Hgb; [done|].
        apply HI in Hb as [[-> ->]|[_ Hb]]; [|by eapply Hmo]. simpl in Hgb |- *. injection Hgb as <-.
        pose proof (Hto a n g i sn gi Ha Hc Hgn eq_refl Hsn Hgi). pose proof (Hv _ _ Ho) as H2. fold k c in H2. lia.
      - intros a n g b bn g' [[-> ->]|[_ Ha]]%HI Hc Hgn [= <-] Hb Hgb; [done|].
        apply HI in Hb as [[-> ->]|[_ Hb]]; [done|]. by eapply Hto.
      - intros b [= <-]. exists sn. split; [by apply HO|done].
      - intros b Hb. destruct goal as [b'|].
        + simplify_eq. destruct (Hgo b eq_refl) as (n & Hn & Hgn). exists n. split; [by apply HO|done].
        + destruct (isgoal k) eqn:Hgk; [|done]. simplify_eq. by exists kn'.
      - intros Hn. destruct goal; [done|]. destruct (isgoal k) eqn:Hgk; [done|].
        intros a n [[-> ->]|[_ Hn']]%HI; [done|by eapply Hng].
      - intros Hr. destruct (Hrc Hr) as (n & Hn & Hc). exists n. split; [by apply HO|done].
      - destruct Hroot as (r & Hr & ?). exists r. split; [by apply HO|done]. }
    fold kn'. fold L1. assert (Hi1 : s_nodes D L1 !! i = Some sn) by (simpl; by apply HO).
    destruct (isgoal k) eqn:Hgk; [|by exists L1, goal; destruct goal].
    destruct goal as [b|]; [|by exists L1, (Some j)].
    destruct (ei_goal _ _ _ _ _ HL1 b eq_refl) as (bn & Hb & Hbg). simpl in Hb. rewrite Hb. cbn [mbind option_bind].
    destruct (ei_g _ _ _ _ _ HL1 _ _ Hb) as (bg & Hbg' & _). rewrite Hbg'. cbn [mbind option_bind l_g kn'].
    case_bool_decide; [|by exists L1, (Some b)].
    exists L1, (Some j). split; [done|]. split; [|done]. destruct HL1. split; try done.
    intros b' [= <-]. by exists kn'.
Qed.

Lemma relaxes_spec m i sn os L goal dn :
  einv m L goal (Some i) dn → s_nodes D L !! i = Some sn → ops (l_st D sn) = dn ++ os →
  ∃ L' goal', relaxes D m i (l_st D sn) os L goal = Some (L', goal') ∧
    einv m L' goal' (Some i) (dn ++ os) ∧ s_nodes D L' !! i = Some sn ∧ s_ncl D L' = s_ncl D L.
Proof.
  revert L goal dn. induction os as [|o os IH]; intros L goal dn He Hsn Hops.
  { exists L, goal. by rewrite app_nil_r. }
  cbn [relaxes]. destruct (edge (l_st D sn) o) as [[k c] r] eqn:E.
  assert (dest (l_st D sn) o = k) as <- by (unfold dest; by rewrite E).
  assert (cost (l_st D sn) o = c) as <- by (unfold cost; by rewrite E).
  destruct (relax_spec m L goal i sn o dn He Hsn) as (L1 & goal1 & Hr & He1 & Hsn1 & Hn1); [rewrite Hops; set_solver|].
  rewrite Hr. cbn [mbind option_bind].
  destruct (IH L1 goal1 (dn ++ [o]) He1 Hsn1) as (L2 & goal2 & Hr2 & He2 & Hsn2 & Hn2); [by rewrite <-app_assoc|].
  exists L2, goal2. rewrite <-app_assoc in He2. split_and!; [done..|congruence].
Qed.

Lemma einv_next m L goal i sn :
  einv m L goal (Some i) (ops (l_st D sn)) → s_nodes D L !! i = Some sn → einv m L goal None [].
Proof.
  intros [Hmem Hh Hnd Hheap Hop Hk Hu Hncl Hex Hsu Hli Hg Hmo Hto Hcu Hgo Hng Hrc Hroot] Hsn. split; try done.
  intros j n o Hn Hc Ho _. apply (Hsu j); [done..|]. destruct (decide (j = i)) as [->|Hne]; [|left; congruence].
  right. by simplify_eq.
Qed.

Lemma estep m L goal st :
  einv m L goal None [] → arr (s_open D L) ≠ [] →
  ∃ q i sn m' st' L' goal', pop astar_lt (s_open D L) = Some (q, Some i) ∧ s_nodes D L !! i = Some sn ∧
    expand D (l_st D sn) m st = (m', st') ∧
    relaxes D m' i (l_st D sn) (ops (l_st D sn))
      (Lss D (<[i := LNode D (l_st D sn) (l_par D sn) (l_g D sn) (l_op D sn) (l_upd D sn) true]> (s_nodes D L)) q
        (if l_cl D sn then s_ncl D L else S (s_ncl D L))) goal = Some (L', goal') ∧
    einv m' L' goal' None [] ∧ s_ncl D L' = S (s_ncl D L) ∧ i ∉ arr (s_open D L') ∧
    ∃ n, s_nodes D L' !! i = Some n ∧ l_st D n = l_st D sn ∧ l_cl D n = true.
Proof.
  intros He Hne. destruct (pop_spec' astar_lt (s_open D L) astar_lt_sw (ei_heap _ _ _ _ _ He) Hne)
    as (q & i & Hq & Hiq & Hin & Hno & Harr & Hkey & Hmin).
  pose proof (proj1 (ei_open _ _ _ _ _ He i) Hin) as (sn & Hsn & Hcl).
  destruct (expand_spec (l_st D sn) m st (ei_mem _ _ _ _ _ He)) as (m' & st' & Hx & Hm' & Hse & Hsub & Hsame & _).
  assert (Hsame' : ∀ s, m_h D m' s = m_h D m s).
  { apply Hsame. intros s o Ho. rewrite !(ei_h _ _ _ _ _ He). by apply Hv. }
  pose proof (einv_pop m m' L goal i sn q He Hiq Hin Hno Harr Hkey Hmin Hsn Hm' Hse Hsub Hsame') as He1.
  set (sn' := LNode D _ _ _ _ _ true) in He1.
  destruct (relaxes_spec m' i sn' (ops (l_st D sn)) _ goal [] He1) as (L' & goal' & Hr & He2 & Hsn2 & Hn2).
  { simpl. rewrite list_lookup_insert; [done|]. by eapply lookup_lt_Some. }
  { done. }
  exists q, i, sn, m', st', L', goal'.
  assert (einv m' L' goal' None []) as He3 by by eapply (einv_next m' L' goal' i sn').
  split_and!; [done|done|done|done|done| | |].
  - rewrite Hn2. simpl. by rewrite Hcl.
  - intros Hi%(ei_open _ _ _ _ _ He3). destruct Hi as (n & Hn & Hc). by simplify_eq.
  - by exists sn'.
Qed.

Lemma line_walk m L goal cur dn i n os :
  einv m L goal cur dn → line (s_nodes D L) i os → s_nodes D L !! i = Some n →
  ∃ ss g, walk ss (reverse os) g ∧ head ss = Some root ∧ last ss = Some (l_st D n) ∧ l_g D n = Some g.
Proof.
  intros He Hl. revert n. induction Hl as [a Ha Hs Hga Hp|i a p pn g os Ha Hs Hp Hpn Hcp Ho Hd Hgp Hga Hl IH]; intros n Hn.
  - simplify_eq. exists [root], 0. rewrite reverse_nil. split_and!; [constructor|done|simpl; congruence|done].
  - assert (a = n) as -> by congruence. destruct (IH pn Hpn) as (ss & g' & Hw & Hh & Hla & Hg').
    assert (g = g') as -> by congruence.
    exists (ss ++ [l_st D n]), (g' + cost (l_st D pn) (l_op D n)). rewrite reverse_cons, <-Hd.
    split_and!; [by apply walk_snoc|by destruct ss|by rewrite last_snoc|done].
Qed.

Lemma einv_reach m L goal cur dn i n : einv m L goal cur dn → s_nodes D L !! i = Some n → reachable root (l_st D n).
Proof.
  intros He Hn. destruct (ei_line _ _ _ _ _ He i n Hn) as (os & Hl & _).
  destruct (line_walk _ _ _ _ _ _ _ _ He Hl Hn) as (ss & g & Hw & Hh & Hla & _). by exists ss, (reverse os), g.
Qed.

Lemma einv_length (U : list (St D)) m L goal cur dn :
  (∀ s, reachable root s → s ∈ U) → einv m L goal cur dn → (length (s_nodes D L) ≤ length U)%nat ∧ (s_ncl D L ≤ length (s_nodes D L))%nat.
Proof.
  intros HU He. split.
  - rewrite <-(fmap_length (l_st D)). apply submseteq_length, NoDup_submseteq; [apply He|].
    intros s (n & -> & [i Hi]%elem_of_list_lookup)%elem_of_list_fmap. apply HU. by eapply einv_reach.
  - rewrite (ei_ncl _ _ _ _ _ He). apply filter_length.
Qed.

(** What a lookahead leaves behind; the open list need not be in order if a goal is taken from it. *)
Definition looked m (L : lss) (goal : option nat) : Prop :=
  ∃ L0 goal0, einv m L0 goal0 None [] ∧ s_nodes D L0 = s_nodes D L ∧ (goal = None → L0 = L ∧ goal0 = None) ∧
    (∀ b, goal = Some b → ∃ n, s_nodes D L !! b = Some n ∧ isgoal (l_st D n) = true).

Lemma looked_here m L goal : einv m L goal None [] → looked m L goal.
Proof. intros He. exists L, goal. split_and!; [done|done|auto|]. intros b Hb. by apply (ei_goal _ _ _ _ _ He). Qed.

Lemma push_some (q : heap (Z * Z)) i : ∃ q', push astar_lt q i = Some q'.
Proof.
  unfold push. set (q1 := setind _ _ _).
  destruct (pullup_rearr astar_lt (BinHeap.Model.fuel q1) q1 (length (arr q1) - 1)) as (q' & i' & Hp & _).
  - unfold BinHeap.Model.fuel. lia.
  - unfold q1. simpl. rewrite app_length. simpl. lia.
  - rewrite Hp. by exists q'.
Qed.

Lemma eloop_spec (U : list (St D)) fuel k j m L st goal :
  (∀ s, reachable root s → s ∈ U) → einv m L goal None [] → (length U < fuel + s_ncl D L)%nat →
  ∃ m' L' st' goal', eloop D lim stop fuel k j m L st goal = Some (m', L', st', goal') ∧ looked m' L' goal'.
Proof.
  intros HU. revert j m L st goal. induction fuel as [|fuel IH]; intros j m L st goal He Hf.
  { destruct (einv_length U _ _ _ _ _ HU He). lia. }
  cbn [eloop]. destruct (empty (s_open D L)) eqn:Hem; [by eexists _, _, _, _; split; [done|apply looked_here]|].
  destruct (stop k j); [by eexists _, _, _, _; split; [done|apply looked_here]|].
  destruct (rreached lim st); [by eexists _, _, _, _; split; [done|apply looked_here]|].
  destruct (estep m L goal (rcalled st) He) as (q & i & sn & m' & st' & L' & goal' & Hq & Hsn & Hx & Hr & He' & Hn & _ & n & Hn1 & Hn2 & Hn3).
  { intros Hnil. apply empty_true in Hnil. congruence. }
  rewrite Hq. cbn [mbind option_bind]. rewrite Hsn. cbn [mbind option_bind]. rewrite Hx, Hr. cbn [mbind option_bind].
  destruct (isgoal (l_st D sn)) eqn:Hg.
  - destruct (push_some (s_open D L') i) as (q' & ->). cbn [mbind option_bind]. eexists _, _, _, _. split; [done|].
    exists L', goal'. split_and!; [done|done|done|]. intros b [= <-]. exists n. split; [done|]. congruence.
  - apply IH; [done|]. lia.
Qed.

(** What the learning step needs. *)
Lemma einv_lss_ok m L goal : einv m L goal None [] → lss_ok m L.
Proof.
  intros [Hmem Hh Hnd Hheap Hop Hk Hu Hncl Hex Hsu Hli Hg Hmo Hto Hcu Hgo Hng Hrc Hroot]. split; try done.
  - intros s (i & n & Hn & Hc & <-). by eapply Hex.
  - intros s o (i & n & Hn & Hc & <-) Ho. destruct (Hsu i n o Hn Hc Ho) as (j & kn & g & g' & Hj & Hs & _); [by left|].
    destruct (l_cl D kn) eqn:E; [left|right]; by exists j, kn.
Qed.
End inv.
End look.
