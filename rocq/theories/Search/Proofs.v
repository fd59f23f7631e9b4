(** Invariants of the best-first searches. *)
From stdpp Require Import prelude gmap.
From Coq Require Import ZArith Lia ZifyBool ZifyNat.
From Verif Require Import Common.Orders Common.Fuel Search.Model.

Section chains.
Context (D : domain) {P : Type}.
Local Open Scope Z_scope.

Notation node := (node D (P:=P)).
Notation K := (P * Z)%type.
Implicit Types (ns : list node) (c : gmap nat K).

Lemma edge_split (s : St D) op : edge s op = (dest s op, cost s op, revop s op).
Proof. unfold dest, cost, revop. by destruct (edge s op) as [[??]?]. Qed.

Lemma find_node_Some ns t d :
  find_node D ns t = Some d → ∃ a, ns !! d = Some a ∧ n_state D a = t.
Proof.
  revert d. induction ns as [|n ns IH]; intros d; simpl; [done|].
  case_decide.
  - intros [= <-]. eauto.
  - destruct (find_node D ns t); simpl; [|done]. intros [= <-]. simpl. by apply IH.
Qed.

Lemma find_node_None ns t i a :
  find_node D ns t = None → ns !! i = Some a → n_state D a ≠ t.
Proof.
  revert i. induction ns as [|n ns IH]; intros i; simpl; [done|].
  case_decide; [done|].
  destruct (find_node D ns t); simpl; [done|]. intros _.
  destruct i; simpl; [by intros [= <-]|]. by apply IH.
Qed.

(** ** The parent pointers *)

Inductive chain ns : nat → list nat → Prop :=
  | chain_root i a : ns !! i = Some a → n_parent D a = None → chain ns i [i]
  | chain_step i a p l :
      ns !! i = Some a → n_parent D a = Some p → chain ns p l → chain ns i (i :: l).

Lemma chain_det ns i l l' : chain ns i l → chain ns i l' → l = l'.
Proof.
  intros H. revert l'. induction H; intros l' H'; inversion H'; simplify_eq; [done|].
  f_equal. eauto.
Qed.

Lemma chain_sub ns i l j :
  chain ns i l → j ∈ l → ∃ l', chain ns j l' ∧ (length l' ≤ length l)%nat.
Proof.
  induction 1 as [i a Ha Hp|i a p l Ha Hp Hc IH]; intros Hj.
  - apply elem_of_list_singleton in Hj as ->. eexists. split; [by eapply chain_root|done].
  - apply elem_of_cons in Hj as [->|Hj].
    + eexists. split; [by eapply chain_step|done].
    + destruct (IH Hj) as (l' & ? & ?). exists l'. split; [done|]. simpl. lia.
Qed.

Lemma chain_NoDup ns i l : chain ns i l → NoDup l.
Proof.
  induction 1 as [i a Ha Hp|i a p l Ha Hp Hc IH]; [apply NoDup_singleton|].
  apply NoDup_cons. split; [|done]. intros Hin.
  destruct (chain_sub _ _ _ _ Hc Hin) as (l' & Hc' & Hlen).
  pose proof (chain_step _ _ _ _ _ Ha Hp Hc) as Hc2.
  rewrite (chain_det _ _ _ _ Hc' Hc2) in Hlen. simpl in Hlen. lia.
Qed.

Lemma chain_bound ns i l j : chain ns i l → j ∈ l → (j < length ns)%nat.
Proof.
  induction 1 as [i a Ha Hp|i a p l Ha Hp Hc IH]; intros Hj.
  - apply elem_of_list_singleton in Hj as ->. by eapply lookup_lt_Some.
  - apply elem_of_cons in Hj as [->|Hj]; [by eapply lookup_lt_Some|by apply IH].
Qed.

Lemma chain_length ns i l : chain ns i l → (length l ≤ length ns)%nat.
Proof.
  intros H. rewrite <-(seq_length (length ns) 0). apply submseteq_length.
  apply NoDup_submseteq; [by eapply chain_NoDup|].
  intros j Hj. apply elem_of_seq. pose proof (chain_bound _ _ _ _ H Hj). lia.
Qed.

Lemma chain_upd ns d a i l :
  chain ns i l → d ∉ l → chain (<[d := a]> ns) i l.
Proof.
  induction 1 as [i b Ha Hp|i b p l Ha Hp Hc IH]; intros Hd.
  - eapply chain_root; [|done]. rewrite list_lookup_insert_ne; [done|]. set_solver.
  - eapply chain_step; [|done|]; [|apply IH; set_solver].
    rewrite list_lookup_insert_ne; [done|]. set_solver.
Qed.

Lemma chain_reparent ns d a n ln i l :
  n_parent D a = Some n → chain ns n ln → d ∉ ln → (d < length ns)%nat →
  chain ns i l → ∃ l', chain (<[d := a]> ns) i l'.
Proof.
  intros Hpa Hn Hd Hlen. pose proof (chain_upd ns d a n ln Hn Hd) as Hn'.
  induction 1 as [i b Ha Hp|i b p l Ha Hp Hc [l' IH]].
  - destruct (decide (i = d)) as [->|Hne].
    + eexists. eapply chain_step; [|exact Hpa|exact Hn']. by apply list_lookup_insert.
    + eexists. eapply chain_root; [|done]. by rewrite list_lookup_insert_ne.
  - destruct (decide (i = d)) as [->|Hne].
    + eexists. eapply chain_step; [|exact Hpa|exact Hn']. by apply list_lookup_insert.
    + eexists. eapply chain_step; [|done|exact IH]. by rewrite list_lookup_insert_ne.
Qed.

Lemma chain_app ns x i l : chain ns i l → chain (ns ++ x) i l.
Proof.
  induction 1.
  - eapply chain_root; [|done]. by apply lookup_app_l_Some.
  - eapply chain_step; [|done..]. by apply lookup_app_l_Some.
Qed.

End chains.
Arguments edge_split {D}.
Arguments find_node_Some {D P}.
Arguments find_node_None {D P}.
Arguments chain_det {D P}.
Arguments chain_sub {D P}.
Arguments chain_NoDup {D P}.
Arguments chain_bound {D P}.
Arguments chain_length {D P}.
Arguments chain_upd {D P}.
Arguments chain_reparent {D P}.
Arguments chain_app {D P}.
Arguments chain_root {D P}. Arguments chain_step {D P}.

(** The parent pointer of [d] is set to [n]. *)
Section relink.
Context (D : domain) {P : Type}.
Notation node := (node D (P:=P)).
Notation chain := (chain D (P:=P)).
Implicit Types (ns : list node).

(** [i] is a proper descendant of [A]. *)
Definition sub ns (A i : nat) : Prop := ∃ l, chain ns i (i :: l) ∧ A ∈ l.

Lemma chain_hd ns i l : chain ns i l → ∃ l', l = i :: l'.
Proof. destruct 1; eauto. Qed.

Context (ns ns' : list node) (d n : nat) (a' : node) (ln : list nat).
Hypothesis Hd : d ∉ ln.
Hypothesis Hother : ∀ i, i ≠ d → ns' !! i = ns !! i.
Hypothesis Ha' : ns' !! d = Some a'.
Hypothesis Hpar : n_parent D a' = Some n.
Hypothesis Hln : chain ns n ln.

Lemma relink_same i l : chain ns i l → d ∉ l → chain ns' i l.
Proof using All.
  induction 1 as [i b Ha Hp|i b p l Ha Hp Hc IH]; intros Hdl.
  - eapply chain_root; [|done]. rewrite Hother; [done|]. set_solver.
  - eapply chain_step; [|done|]; [|apply IH; set_solver].
    rewrite Hother; [done|]. set_solver.
Qed.

Lemma relink_d : chain ns' d (d :: ln).
Proof using All.
  eapply chain_step; [done|done|]. by apply relink_same.
Qed.

Lemma relink_through i l :
  chain ns i l → d ∈ l →
  ∃ l1 l2, l = l1 ++ d :: l2 ∧ chain ns' i (l1 ++ d :: ln).
Proof using All.
  induction 1 as [i b Ha Hp|i b p l Ha Hp Hc IH]; intros Hdl.
  - apply elem_of_list_singleton in Hdl as <-. exists [], []. split; [done|]. apply relink_d.
  - destruct (decide (i = d)) as [He|Hne].
    + exists [], l. rewrite He. split; [done|]. apply relink_d.
    + destruct IH as (l1 & l2 & -> & IH); [set_solver|].
      exists (i :: l1), l2. split; [done|]. simpl.
      eapply chain_step; [by rewrite Hother|done|done].
Qed.

Lemma relink_sub_in A i : A ∈ ln → sub ns A i → sub ns' A i.
Proof using All.
  intros HA (l & Hc & Hin). destruct (decide (d ∈ i :: l)) as [Hdl|Hdl].
  - destruct (relink_through _ _ Hc Hdl) as (l1 & l2 & He & Hc').
    destruct l1 as [|i' l1]; simpl in *.
    + injection He as <- <-. exists ln. done.
    + injection He as <- ->. exists (l1 ++ d :: ln). split; [done|]. set_solver.
  - exists l. split; [|done]. by apply relink_same.
Qed.

Lemma relink_sub_out A i a : A ∉ ln → ns !! i = Some a → (∃ l, chain ns i l) →
  sub ns' A i → sub ns A i.
Proof using All.
  intros HA Ha [l0 Hc0] (l & Hc & Hin). destruct (chain_hd _ _ _ Hc0) as [l0' ->].
  destruct (decide (d ∈ i :: l0')) as [Hdl|Hdl].
  - destruct (relink_through _ _ Hc0 Hdl) as (l1 & l2 & He & Hc').
    pose proof (chain_det _ _ _ _ Hc Hc') as He'.
    destruct l1 as [|i' l1]; simpl in *.
    + injection He' as -> ->. done.
    + injection He' as <- ->. injection He as ->. exists (l1 ++ d :: l2). split; [done|]. set_solver.
  - pose proof (relink_same _ _ Hc0 Hdl) as Hc'.
    pose proof (chain_det _ _ _ _ Hc Hc') as [= ->]. by exists l0'.
Qed.
End relink.
Arguments chain_hd {D P}.

Section proofs.
Set Default Proof Using "All".
Context (D : domain) {P : Type}.
Context (pr_new : Z → St D → P) (pr_upd : P → Z → Z → P) (dropdups : bool).
Context (o : openlist (P * Z)) (lim : limits).
Context (lt : P * Z → P * Z → bool) (okk : P * Z → Prop).
Context (OK : domain_ok D) (OL : ol_ok lt okk o).
Context (okk_new : ∀ g s, (0 ≤ g)%Z → okk (pr_new g s, g)).
Context (upd_new : ∀ g g' s, pr_upd (pr_new g s) g g' = pr_new g' s).
Context (s0 : St D).
Local Open Scope Z_scope.

Notation node := (node D (P:=P)).
Notation K := (P * Z)%type.
Implicit Types (ns : list node) (c : gmap nat K).

Notation chain := (chain D (P:=P)).
Notation sub := (sub D (P:=P)).

(** ** Invariant *)

Record inv ns c : Prop := {
  i_inj i j a b : ns !! i = Some a → ns !! j = Some b → n_state D a = n_state D b → i = j;
  i_pr i a : ns !! i = Some a → n_p D a = pr_new (n_g D a) (n_state D a) ∧ 0 ≤ n_g D a;
  i_root : ∃ a, ns !! 0%nat = Some a ∧ n_parent D a = None;
  i_noroot i a : ns !! i = Some a → n_parent D a = None →
    i = 0%nat ∧ n_state D a = s0 ∧ n_g D a = 0 ∧ n_pop D a = nop;
  i_par i a p : ns !! i = Some a → n_parent D a = Some p →
    ∃ b, ns !! p = Some b ∧ n_op D a ∈ ops (n_state D b) ∧
      n_state D a = dest (n_state D b) (n_op D a) ∧
      n_pop D a = revop (n_state D b) (n_op D a) ∧
      n_g D b + cost (n_state D b) (n_op D a) ≤ n_g D a;
  i_chain i a : ns !! i = Some a → ∃ l, chain ns i l;
  i_open i k : c !! i = Some k → ∃ a, ns !! i = Some a ∧ k = n_key D a;
}.

(** The successor of [a] by [op] has a node, and unless duplicates are dropped
    that node is at most as expensive as the path through [a]. *)
Definition covered ns (a : node) (op : Op D) : Prop :=
  ∃ j b, ns !! j = Some b ∧ n_state D b = dest (n_state D a) op ∧
    (dropdups = false → n_g D b ≤ n_g D a + cost (n_state D a) op).

Definition closedok ns c (X : nat → Prop) : Prop :=
  ∀ i a, ns !! i = Some a → c !! i = None → ¬ X i →
    isgoal (n_state D a) = false ∧ ∀ op, op ∈ ops (n_state D a) → covered ns a op.

(** ** One call of considerkid *)

Inductive kid ns c (n : nat) (pn : node) (op : Op D) : list node → gmap nat K → Prop :=
  | kid_old d dn :
      ns !! d = Some dn → n_state D dn = dest (n_state D pn) op →
      (dropdups = false → n_g D dn ≤ n_g D pn + cost (n_state D pn) op) →
      kid ns c n pn op ns c
  | kid_better d dn g p :
      ns !! d = Some dn → n_state D dn = dest (n_state D pn) op →
      dropdups = false →
      g = n_g D pn + cost (n_state D pn) op → g < n_g D dn →
      p = pr_new g (n_state D dn) →
      kid ns c n pn op
        (<[d := Node D (Some n) (n_state D dn) op (revop (n_state D pn) op) g p]> ns)
        (<[d := (p, g)]> c)
  | kid_new g p :
      (∀ i a, ns !! i = Some a → n_state D a ≠ dest (n_state D pn) op) →
      g = n_g D pn + cost (n_state D pn) op →
      p = pr_new g (dest (n_state D pn) op) →
      kid ns c n pn op
        (ns ++ [Node D (Some n) (dest (n_state D pn) op) op (revop (n_state D pn) op) g p])
        (<[length ns := (p, g)]> c).

Lemma considerkid_kid (s : sstate D o) c n pn op :
  inv (nodes D o s) c → ol_R OL (open D o s) c →
  nodes D o s !! n = Some pn → op ∈ ops (n_state D pn) →
  ∃ s' c', considerkid D pr_new pr_upd dropdups o s n op = Some s' ∧
    ol_R OL (open D o s') c' ∧ kid (nodes D o s) c n pn op (nodes D o s') c' ∧
    expd D o s' = expd D o s ∧ gend D o s' = gend D o s.
Proof.
  intros Hinv HR Hn Hop. unfold considerkid. rewrite Hn. cbn [mbind option_bind].
  rewrite edge_split. pose proof (ok_cost OK _ _ Hop) as Hcost.
  destruct (i_pr _ _ Hinv _ _ Hn) as [_ Hg0].
  destruct (find_node D (nodes D o s) (dest (n_state D pn) op)) as [d|] eqn:Hf.
  - destruct (find_node_Some _ _ _ Hf) as (dn & Hd & Hst). rewrite Hd. cbn [mbind option_bind].
    destruct (dropdups) eqn:Edd; simpl.
    { exists (add_dups D o s), c. split_and!; [done|done| |done|done].
      eapply kid_old; [done|done|]. congruence. }
    case_bool_decide as Hle.
    { exists (add_dups D o s), c. split_and!; [done|done| |done|done].
      eapply kid_old; [done|done|]. done. }
    assert (n_g D pn + cost (n_state D pn) op < n_g D dn) as Hlt by lia.
    destruct (i_pr _ _ Hinv _ _ Hd) as [Hpr Hgd].
    assert (kid (nodes D o s) c n pn op
      (<[d := Node D (Some n) (n_state D dn) op (revop (n_state D pn) op)
         (n_g D pn + cost (n_state D pn) op)
         (pr_new (n_g D pn + cost (n_state D pn) op) (n_state D dn))]> (nodes D o s))
      (<[d := (pr_new (n_g D pn + cost (n_state D pn) op) (n_state D dn),
               n_g D pn + cost (n_state D pn) op)]> c)) as Hkid by (eapply kid_better; done).
    unfold improve. rewrite Hpr, upd_new. cbn [add_dups nodes open expd gend reopnd dups].
    rewrite (olR_mem OL _ c _ HR).
    assert (okk (pr_new (n_g D pn + cost (n_state D pn) op) (n_state D dn),
               n_g D pn + cost (n_state D pn) op)) as Hok by (apply okk_new; lia).
    case_bool_decide as Hmem.
    + destruct Hmem as [k0 Hk0].
      destruct (olR_update OL _ c d k0 _ HR Hk0 Hok) as (q & -> & HR').
      cbn [mbind option_bind]. eexists _, _. split_and!; [done|exact HR'|exact Hkid|done|done].
    + apply eq_None_not_Some in Hmem.
      destruct (olR_push OL _ c d _ HR Hmem Hok) as (q & -> & HR').
      cbn [mbind option_bind]. eexists _, _. split_and!; [done|exact HR'|exact Hkid|done|done].
  - assert (c !! length (nodes D o s) = None) as Hc.
    { apply eq_None_not_Some. intros [k Hk]. destruct (i_open _ _ Hinv _ _ Hk) as (a & Ha & _).
      apply lookup_lt_Some in Ha. lia. }
    destruct (olR_push OL _ c (length (nodes D o s))
      (pr_new (n_g D pn + cost (n_state D pn) op) (dest (n_state D pn) op),
       n_g D pn + cost (n_state D pn) op) HR Hc) as (q & -> & HR').
    { apply okk_new. lia. }
    cbn [mbind option_bind]. eexists _, _. split_and!; [done|exact HR'| |done|done].
    eapply kid_new; [|done..]. intros i a Ha. by eapply find_node_None.
Qed.

(** What a sequence of such calls does to the nodes: none disappears, states stay, costs do
    not rise, and a node that is not in the open list afterwards is unchanged. *)
Definition ext ns c ns' c' : Prop :=
  (∀ i a, ns !! i = Some a → ∃ b, ns' !! i = Some b ∧ n_state D b = n_state D a ∧
     n_g D b ≤ n_g D a ∧ (b = a ∨ n_g D b < n_g D a)) ∧
  (∀ i, c' !! i = None → c !! i = None ∧ ∀ a, ns' !! i = Some a → ns !! i = Some a).

Lemma ext_refl ns c : ext ns c ns c.
Proof. split; [|done]. intros i a Ha. exists a. eauto with lia. Qed.

Lemma ext_trans ns c ns1 c1 ns2 c2 : ext ns c ns1 c1 → ext ns1 c1 ns2 c2 → ext ns c ns2 c2.
Proof.
  intros [H1 H2] [H3 H4]. split.
  - intros i a Ha. destruct (H1 _ _ Ha) as (b & Hb & Hs & Hg & Hor).
    destruct (H3 _ _ Hb) as (b' & Hb' & Hs' & Hg' & Hor'). exists b'.
    split_and!; [done|congruence|lia|]. destruct Hor as [->|?], Hor' as [->|?]; auto with lia.
  - intros i Hi. destruct (H4 _ Hi) as [Hi' Ha']. destruct (H2 _ Hi') as [Hi'' Ha''].
    split; [done|]. eauto.
Qed.

Lemma kid_ext ns c n pn op ns' c' : kid ns c n pn op ns' c' → ext ns c ns' c'.
Proof.
  intros [d dn Hd Hs Hg|d dn g p Hd Hs Hdd Hg Hlt Hp|g p Hfresh Hg Hp].
  - apply ext_refl.
  - split.
    + intros i a Ha. destruct (decide (i = d)) as [->|Hne].
      * simplify_eq. eexists. split; [apply list_lookup_insert; by eapply lookup_lt_Some|].
        simpl. auto with lia.
      * exists a. rewrite list_lookup_insert_ne by done. auto with lia.
    + intros i Hi. apply lookup_insert_None in Hi as [Hi Hne]. split; [done|].
      intros a. by rewrite list_lookup_insert_ne.
  - split.
    + intros i a Ha. exists a. split; [by apply lookup_app_l_Some|auto with lia].
    + intros i Hi. apply lookup_insert_None in Hi as [Hi Hne]. split; [done|].
      intros a Ha. apply lookup_app_Some in Ha as [Ha|[Hl Ha]]; [done|].
      apply list_lookup_singleton_Some in Ha as [? _]. lia.
Qed.

Lemma ext_covered ns c ns' c' a op : ext ns c ns' c' → covered ns a op → covered ns' a op.
Proof.
  intros [H _] (j & b & Hb & Hs & Hg). destruct (H _ _ Hb) as (b' & Hb' & Hs' & Hg' & _).
  exists j, b'. split_and!; [done|congruence|]. intros Hd. specialize (Hg Hd). lia.
Qed.

Lemma ext_closedok ns c ns' c' X : ext ns c ns' c' → closedok ns c X → closedok ns' c' X.
Proof.
  intros He H i a Ha Hi HX. pose proof He as [_ H2]. destruct (H2 _ Hi) as [Hi' Ha'].
  destruct (H i a (Ha' _ Ha) Hi' HX) as [Hgl Hc]. split; [done|].
  intros op Hop. eapply ext_covered; eauto.
Qed.

Lemma kid_covered ns c n pn op ns' c' :
  ns !! n = Some pn → kid ns c n pn op ns' c' → covered ns' pn op.
Proof.
  intros Hn [d dn Hd Hs Hg|d dn g p Hd Hs Hdd Hg Hlt Hp|g p Hfresh Hg Hp].
  - by exists d, dn.
  - eexists d, _. split; [apply list_lookup_insert; by eapply lookup_lt_Some|].
    split; [done|]. simpl. lia.
  - eexists (length ns), _. split; [by apply list_lookup_middle|]. split; [done|].
    simpl. lia.
Qed.

Lemma chain_g ns c i l a j b :
  inv ns c → chain ns i l → ns !! i = Some a → j ∈ l → ns !! j = Some b → n_g D b ≤ n_g D a.
Proof.
  intros Hinv Hc. revert a. induction Hc as [i a' Ha' Hp|i a' p l Ha' Hp Hc IH]; intros a Ha Hj Hb.
  - apply elem_of_list_singleton in Hj as ->. simplify_eq. lia.
  - apply elem_of_cons in Hj as [->|Hj]; [simplify_eq; lia|].
    simplify_eq. destruct (i_par _ _ Hinv _ _ _ Ha' Hp) as (b' & Hb' & Hop & _ & _ & Hle).
    specialize (IH _ Hb' Hj Hb). pose proof (ok_cost OK _ _ Hop). lia.
Qed.

(** The node being expanded is not touched by its own kids. *)
Lemma kid_self ns c n pn op ns' c' :
  inv ns c → ns !! n = Some pn → c !! n = None → op ∈ ops (n_state D pn) →
  kid ns c n pn op ns' c' → ns' !! n = Some pn ∧ c' !! n = None.
Proof.
  intros Hinv Hn Hc Hop Hk. pose proof (ok_cost OK _ _ Hop).
  destruct Hk as [d dn Hd Hs Hg|d dn g p Hd Hs Hdd Hg Hlt Hp|g p Hfresh Hg Hp].
  - done.
  - assert (d ≠ n) by (intros ->; simplify_eq; lia).
    by rewrite list_lookup_insert_ne, lookup_insert_ne by done.
  - split; [by apply lookup_app_l_Some|]. rewrite lookup_insert_ne; [done|].
    apply lookup_lt_Some in Hn. lia.
Qed.

Lemma kid_inv ns c n pn op ns' c' :
  inv ns c → ns !! n = Some pn → op ∈ ops (n_state D pn) →
  kid ns c n pn op ns' c' → inv ns' c'.
Proof.
  intros Hinv Hn Hop Hk. pose proof (ok_cost OK _ _ Hop) as Hcost.
  destruct (i_pr _ _ Hinv _ _ Hn) as [_ Hg0].
  destruct (i_chain _ _ Hinv _ _ Hn) as [ln Hln].
  destruct Hk as [d dn Hd Hs Hg|d dn g p Hd Hs Hdd Hg Hlt Hp|g p Hfresh Hg Hp]; [done| |].
  - (* a better path to d *)
    assert (d < length ns)%nat as Hdl by by eapply lookup_lt_Some.
    set (a' := Node D (Some n) (n_state D dn) op (revop (n_state D pn) op) g p).
    assert (d ∉ ln) as Hdn.
    { intros Hin. pose proof (chain_g _ _ _ _ _ _ _ Hinv Hln Hn Hin Hd). lia. }
    assert (d ≠ n) as Hne.
    { intros ->. simplify_eq. lia. }
    assert (d ≠ 0%nat) as Hd0.
    { intros ->. destruct (i_root _ _ Hinv) as (r & Hr & Hrp). simplify_eq.
      destruct (i_noroot _ _ Hinv _ _ Hd Hrp) as (_ & _ & Hz & _). lia. }
    assert (∀ i a, <[d := a']> ns !! i = Some a →
      (i = d ∧ a = a') ∨ (i ≠ d ∧ ns !! i = Some a)) as Hlk.
    { intros i a. destruct (decide (i = d)) as [->|?].
      - rewrite list_lookup_insert by done. naive_solver.
      - rewrite list_lookup_insert_ne by done. naive_solver. }
    split.
    + intros i j a b Ha Hb Hst.
      destruct (Hlk _ _ Ha) as [[-> ->]|[? Ha']], (Hlk _ _ Hb) as [[-> ->]|[? Hb']]; [done| | |].
      * eapply (i_inj _ _ Hinv); eauto.
      * eapply (i_inj _ _ Hinv); eauto.
      * eapply (i_inj _ _ Hinv); eauto.
    + intros i a Ha. destruct (Hlk _ _ Ha) as [[-> ->]|[? Ha']].
      * simpl. split; [done|lia].
      * by apply (i_pr _ _ Hinv i).
    + destruct (i_root _ _ Hinv) as (r & Hr & Hrp). exists r.
      by rewrite list_lookup_insert_ne.
    + intros i a Ha Hpa. destruct (Hlk _ _ Ha) as [[-> ->]|[? Ha']]; [done|].
      by apply (i_noroot _ _ Hinv).
    + intros i a q Ha Hpa. destruct (Hlk _ _ Ha) as [[-> ->]|[? Ha']].
      * simpl in Hpa. injection Hpa as <-. exists pn.
        rewrite list_lookup_insert_ne by done. simpl. split_and!; try done. lia.
      * destruct (i_par _ _ Hinv _ _ _ Ha' Hpa) as (b & Hb & Hob & Hsb & Hrb & Hgb).
        destruct (decide (q = d)) as [->|].
        -- simplify_eq. exists a'. rewrite list_lookup_insert by done. simpl. split_and!; try done. lia.
        -- exists b. by rewrite list_lookup_insert_ne.
    + intros i a Ha. assert (∃ a0, ns !! i = Some a0) as [a0 Ha0].
      { destruct (Hlk _ _ Ha) as [[-> ->]|[? Ha']]; eauto. }
      destruct (i_chain _ _ Hinv _ _ Ha0) as [l Hl].
      by eapply (chain_reparent ns d a' n ln).
    + intros i k Hk. destruct (decide (i = d)) as [->|].
      * rewrite lookup_insert in Hk. injection Hk as <-. exists a'.
        by rewrite list_lookup_insert.
      * rewrite lookup_insert_ne in Hk by done. destruct (i_open _ _ Hinv _ _ Hk) as (a & Ha & ->).
        exists a. by rewrite list_lookup_insert_ne.
  - (* a new state *)
    set (a' := Node D (Some n) (dest (n_state D pn) op) op (revop (n_state D pn) op) g p).
    assert (∀ i a, (ns ++ [a']) !! i = Some a →
      (i = length ns ∧ a = a') ∨ (ns !! i = Some a)) as Hlk.
    { intros i a Ha. apply lookup_app_Some in Ha as [Ha|[Hl Ha]]; [by right|left].
      apply list_lookup_singleton_Some in Ha as [? <-]. split; [lia|done]. }
    split.
    + intros i j a b Ha Hb Hst.
      destruct (Hlk _ _ Ha) as [[-> ->]|Ha'], (Hlk _ _ Hb) as [[-> ->]|Hb']; [done| | |].
      * by destruct (Hfresh _ _ Hb').
      * by destruct (Hfresh _ _ Ha').
      * eapply (i_inj _ _ Hinv); eauto.
    + intros i a Ha. destruct (Hlk _ _ Ha) as [[-> ->]|Ha'].
      * simpl. split; [done|lia].
      * by apply (i_pr _ _ Hinv i).
    + destruct (i_root _ _ Hinv) as (r & Hr & Hrp). exists r. split; [|done].
      by apply lookup_app_l_Some.
    + intros i a Ha Hpa. destruct (Hlk _ _ Ha) as [[-> ->]|Ha']; [done|].
      by apply (i_noroot _ _ Hinv).
    + intros i a q Ha Hpa. destruct (Hlk _ _ Ha) as [[-> ->]|Ha'].
      * simpl in Hpa. injection Hpa as <-. exists pn. simpl.
        split_and!; [by apply lookup_app_l_Some|done..|lia].
      * destruct (i_par _ _ Hinv _ _ _ Ha' Hpa) as (b & Hb & Hob & Hsb & Hrb & Hgb).
        exists b. split; [by apply lookup_app_l_Some|done].
    + intros i a Ha. destruct (Hlk _ _ Ha) as [[-> ->]|Ha'].
      * exists (length ns :: ln). eapply chain_step; [done|done|]. by apply chain_app.
      * destruct (i_chain _ _ Hinv _ _ Ha') as [l Hl]. exists l. by apply chain_app.
    + intros i k Hk. destruct (decide (i = length ns)) as [->|].
      * rewrite lookup_insert in Hk. injection Hk as <-. exists a'.
        split; [|done]. by apply list_lookup_middle.
      * rewrite lookup_insert_ne in Hk by done. destruct (i_open _ _ Hinv _ _ Hk) as (a & Ha & ->).
        exists a. split; [by apply lookup_app_l_Some|done].
Qed.

(** ** Progress: nodes are added, or costs go down, or nothing changes. *)

Definition sumg ns : Z := foldr (λ a z, n_g D a + z) 0 ns.

Lemma sumg_insert ns d dn a :
  ns !! d = Some dn → sumg (<[d := a]> ns) = sumg ns - n_g D dn + n_g D a.
Proof.
  revert d. induction ns as [|b ns IH]; intros [|d]; simpl; [done..| |].
  - intros [= ->]. unfold sumg. simpl. lia.
  - intros Hd. unfold sumg in *. simpl. rewrite (IH d) by done. lia.
Qed.

Lemma sumg_nonneg ns c : inv ns c → 0 ≤ sumg ns.
Proof.
  intros Hinv. assert (∀ i a, ns !! i = Some a → 0 ≤ n_g D a) as H
    by (intros; by eapply (i_pr _ _ Hinv)).
  clear Hinv. induction ns as [|a ns IH]; [done|]. unfold sumg in *. simpl.
  pose proof (H 0%nat a eq_refl). assert (0 ≤ foldr (λ a z, n_g D a + z) 0 ns); [|lia].
  apply IH. intros i b Hb. by apply (H (S i) b).
Qed.

Definition prog ns c ns' c' : Prop :=
  (ns' = ns ∧ c' = c) ∨ (length ns < length ns')%nat ∨
  (length ns' = length ns ∧ sumg ns' < sumg ns).

Lemma prog_trans ns c ns1 c1 ns2 c2 : prog ns c ns1 c1 → prog ns1 c1 ns2 c2 → prog ns c ns2 c2.
Proof.
  unfold prog. intros [[-> ->]|[?|[? ?]]] [[-> ->]|[?|[? ?]]]; auto with lia.
Qed.

Lemma kid_prog ns c n pn op ns' c' : kid ns c n pn op ns' c' → prog ns c ns' c'.
Proof.
  intros [d dn Hd Hs Hg|d dn g p Hd Hs Hdd Hg Hlt Hp|g p Hfresh Hg Hp].
  - by left.
  - right. right. rewrite insert_length. split; [done|].
    erewrite sumg_insert by done. simpl. lia.
  - right. left. rewrite app_length. simpl. lia.
Qed.

(** ** expand *)

Inductive kids (n : nat) (pn : node) : list node → gmap nat K → list node → gmap nat K → Prop :=
  | kids_nil ns c : kids n pn ns c ns c
  | kids_cons ns c op ns1 c1 ns2 c2 :
      op ∈ ops (n_state D pn) → kid ns c n pn op ns1 c1 → kids n pn ns1 c1 ns2 c2 →
      kids n pn ns c ns2 c2.

Lemma expand_ops_spec (s : sstate D o) c n pn dn os :
  inv (nodes D o s) c → ol_R OL (open D o s) c →
  nodes D o s !! n = Some pn → c !! n = None →
  ops (n_state D pn) = dn ++ os →
  (∀ op, op ∈ dn → covered (nodes D o s) pn op) →
  ∃ s' c', expand_ops D pr_new pr_upd dropdups o s n os = Some s' ∧
    ol_R OL (open D o s') c' ∧ inv (nodes D o s') c' ∧
    ext (nodes D o s) c (nodes D o s') c' ∧ prog (nodes D o s) c (nodes D o s') c' ∧
    nodes D o s' !! n = Some pn ∧ c' !! n = None ∧
    (∀ op, op ∈ ops (n_state D pn) → covered (nodes D o s') pn op) ∧
    expd D o s' = expd D o s ∧ (gend D o s ≤ gend D o s' ≤ gend D o s + length os)%nat ∧
    kids n pn (nodes D o s) c (nodes D o s') c'.
Proof.
  revert s c dn. induction os as [|op os IH]; intros s c dn Hinv HR Hn Hc Hops Hdn.
  - exists s, c. rewrite app_nil_r in Hops. rewrite Hops. simpl.
    split_and!; try done; [apply ext_refl|by left|lia|constructor].
  - assert (op ∈ ops (n_state D pn)) as Hop by (rewrite Hops; set_solver).
    cbn [expand_ops]. rewrite Hn. cbn [mbind option_bind]. case_decide as Hpop.
    + (* the pruned operator *)
      destruct (IH s c (dn ++ [op])) as (s' & c' & H1 & H2 & H3 & H4 & H5 & H6 & H7 & H8 & H9 & H10 & H11);
        [done..| | |].
      * by rewrite <-app_assoc.
      * intros op' [Hin| ->%elem_of_list_singleton]%elem_of_app; [by apply Hdn|].
        destruct (n_parent D pn) as [p|] eqn:Epar.
        -- destruct (i_par _ _ Hinv _ _ _ Hn Epar) as (b & Hb & Hob & Hsb & Hrb & Hgb).
           exists p, b. split; [done|]. rewrite Hpop, Hrb, Hsb in Hop.
           pose proof (ok_rev OK _ _ Hob Hop) as Hback.
           pose proof (ok_cost OK _ _ Hop) as Hc1. pose proof (ok_cost OK _ _ Hob) as Hc2.
           split; [by rewrite Hpop, Hrb, Hsb|]. intros _. rewrite Hpop, Hrb, Hsb. lia.
        -- destruct (i_noroot _ _ Hinv _ _ Hn Epar) as (_ & _ & _ & Hnop).
           rewrite Hpop, Hnop in Hop. by destruct (ok_nop OK _ Hop).
      * exists s', c'. split_and!; try done; simpl; lia.
    + destruct (considerkid_kid (add_gend D o s) c n pn op Hinv HR Hn Hop)
        as (s1 & c1 & -> & HR1 & Hkid & He1 & Hg1).
      cbn [mbind option_bind]. cbn [add_gend nodes expd gend] in *.
      pose proof (kid_ext _ _ _ _ _ _ _ Hkid) as Hext.
      destruct (kid_self _ _ _ _ _ _ _ Hinv Hn Hc Hop Hkid) as [Hn1 Hc1].
      destruct (IH s1 c1 (dn ++ [op])) as (s' & c' & H1 & H2 & H3 & H4 & H5 & H6 & H7 & H8 & H9 & H10 & H11);
        [|done..| | |].
      * by eapply kid_inv.
      * by rewrite <-app_assoc.
      * intros op' [Hin| ->%elem_of_list_singleton]%elem_of_app.
        -- eapply ext_covered; eauto.
        -- exact (kid_covered _ _ _ _ _ _ _ Hn Hkid).
      * exists s', c'. split_and!; try done; simpl; try lia.
        -- by eapply ext_trans.
        -- eapply prog_trans; [by eapply kid_prog|done].
        -- by eapply kids_cons.
Qed.

(** ** The main loop *)

Definition good (s : sstate D o) (c : gmap nat K) : Prop :=
  ol_R OL (open D o s) c ∧ inv (nodes D o s) c ∧ closedok (nodes D o s) c (λ _, False).

Lemma init_good :
  ∃ s, init D pr_new o s0 = Some s ∧ good s {[0%nat := (pr_new 0 s0, 0)]} ∧
    expd D o s = 0%nat ∧ gend D o s = 0%nat ∧
    nodes D o s = [Node D None s0 nop nop 0 (pr_new 0 s0)].
Proof.
  unfold init.
  destruct (olR_push OL _ _ 0%nat (pr_new 0 s0, 0) (olR_new OL)) as (q & Hq & HR).
  { apply lookup_empty. }
  { by apply okk_new. }
  rewrite Hq. cbn [mbind option_bind]. eexists. split; [done|]. split_and!; [|done..].
  assert (∀ i (a : node), [Node D None s0 nop nop 0 (pr_new 0 s0)] !! i = Some a →
    i = 0%nat ∧ a = Node D None s0 nop nop 0 (pr_new 0 s0)) as Hlk.
  { intros i a Ha. by apply list_lookup_singleton_Some in Ha as [-> <-]. }
  split_and!; cbn [open nodes].
  - exact HR.
  - split.
    + intros i j a b [-> ->]%Hlk [-> ->]%Hlk. done.
    + intros i a [-> ->]%Hlk. done.
    + eauto.
    + intros i a [-> ->]%Hlk. done.
    + intros i a p [-> ->]%Hlk. done.
    + intros i a [-> ->]%Hlk. eexists. by eapply chain_root.
    + intros i k [<- <-]%lookup_singleton_Some. eauto.
  - intros i a [-> ->]%Hlk. by rewrite lookup_singleton.
Qed.

Lemma chain_solpath ns c i l fuel a :
  inv ns c → chain ns i l → ns !! i = Some a → (length l ≤ fuel)%nat →
  ∃ path os k, solpath D fuel ns i = Some (path, os) ∧
    walk (reverse path) (reverse os) k ∧ head (reverse path) = Some s0 ∧
    last (reverse path) = Some (n_state D a) ∧ k ≤ n_g D a.
Proof.
  intros Hinv Hc. revert fuel a.
  induction Hc as [i b Hb Hp|i b p l Hb Hp Hc IH]; intros fuel a Ha Hlen;
    rewrite Ha in Hb; injection Hb as <-.
  - destruct fuel as [|fuel]; [simpl in Hlen; lia|]. simpl. rewrite Ha. cbn [mbind option_bind].
    rewrite Hp. destruct (i_noroot _ _ Hinv _ _ Ha Hp) as (_ & Hs & Hg & _).
    eexists _, _, 0. split_and!; [done|constructor|simpl; congruence|done|lia].
  - destruct fuel as [|fuel]; [simpl in Hlen; lia|]. simpl. rewrite Ha. cbn [mbind option_bind].
    rewrite Hp. destruct (i_par _ _ Hinv _ _ _ Ha Hp) as (b & Hb & Hob & Hsb & Hrb & Hgb).
    destruct (IH fuel b Hb) as (path & os & k & -> & Hw & Hh & Hl & Hk).
    { simpl in Hlen. lia. }
    cbn [mbind option_bind]. eexists _, _, _. split; [done|]. rewrite !reverse_cons. split_and!.
    + rewrite Hsb. by eapply walk_snoc.
    + destruct (reverse path); [done|]. done.
    + by rewrite last_snoc.
    + lia.
Qed.

Lemma node_reachable ns c i a : inv ns c → ns !! i = Some a → reachable s0 (n_state D a).
Proof.
  intros Hinv Ha. destruct (i_chain _ _ Hinv _ _ Ha) as [l Hl].
  destruct (chain_solpath _ _ _ _ (length l) _ Hinv Hl Ha (le_n _))
    as (path & os & k & _ & Hw & Hh & Hla & _).
  by exists (reverse path), (reverse os), k.
Qed.

(** A walk to a goal passes through a node of the open list. *)
Lemma frontier ns c ss os k i a s :
  inv ns c → closedok ns c (λ _, False) →
  walk ss os k → head ss = Some s → (∃ t, last ss = Some t ∧ isgoal t = true) →
  ns !! i = Some a → n_state D a = s →
  ∃ j b k1 ss2 os2 k2, is_Some (c !! j) ∧ ns !! j = Some b ∧
    solution (n_state D b) ss2 os2 k2 ∧ k = k1 + k2 ∧ 0 ≤ k1 ∧
    (dropdups = false → n_g D b ≤ n_g D a + k1).
Proof.
  intros Hinv Hcl Hw. revert i a s.
  induction Hw as [s1|s1 op ss os k Hop Hw IH]; intros i a s Hh Hg Ha Hs.
  - simpl in Hh. injection Hh as <-.
    exists i, a, 0, [s1], [], 0. split_and!; [|done| |done|done|lia].
    + destruct (c !! i) eqn:E; [eauto|]. destruct (Hcl _ _ Ha E) as [Hng _]; [tauto|].
      destruct Hg as (t & [= <-] & Ht). congruence.
    + split_and!; [constructor|by rewrite Hs|done].
  - simpl in Hh. injection Hh as <-.
    destruct (c !! i) eqn:E.
    + exists i, a, 0, (s1 :: dest s1 op :: ss), (op :: os), (cost s1 op + k).
      split_and!; [eauto|done| |lia|lia|lia]. split_and!; [by constructor|by rewrite Hs|done].
    + destruct (Hcl _ _ Ha E) as [_ Hcov]; [tauto|]. rewrite Hs in Hcov.
      destruct (Hcov op Hop) as (j & b & Hb & Hsb & Hgb).
      destruct (IH j b (dest s1 op)) as (j' & b' & k1 & ss2 & os2 & k2 & H1 & H2 & H3 & H4 & H5 & H6);
        [done|done|done|congruence|].
      exists j', b', (cost s1 op + k1), ss2, os2, k2. pose proof (ok_cost OK _ _ Hop).
      split_and!; [done..|lia|lia|]. intros Hd. specialize (Hgb Hd). specialize (H6 Hd).
      rewrite Hs in Hgb. lia.
Qed.

(** What one round does. *)
Inductive round (s : sstate D o) (c : gmap nat K) : sstate D o + outcome D → Prop :=
  | round_stop : c = ∅ ∨ limit D o lim s = true → round s c (inr None)
  | round_goal n pn path os k :
      limit D o lim s = false →
      nodes D o s !! n = Some pn → c !! n = Some (n_key D pn) →
      (∀ m k', c !! m = Some k' → lt k' (n_key D pn) = false) →
      isgoal (n_state D pn) = true →
      solution s0 (reverse path) (reverse os) k → k ≤ n_g D pn →
      solpath D (S (length (nodes D o s))) (nodes D o s) n = Some (path, os) →
      round s c (inr (Some (path, os)))
  | round_go n pn s' c' :
      limit D o lim s = false →
      nodes D o s !! n = Some pn → c !! n = Some (n_key D pn) →
      (∀ m k', c !! m = Some k' → lt k' (n_key D pn) = false) →
      isgoal (n_state D pn) = false →
      good s' c' →
      ext (nodes D o s) (delete n c) (nodes D o s') c' →
      prog (nodes D o s) (delete n c) (nodes D o s') c' →
      expd D o s' = S (expd D o s) →
      (gend D o s ≤ gend D o s' ≤ gend D o s + length (ops (n_state D pn)))%nat →
      (∀ op, op ∈ ops (n_state D pn) → covered (nodes D o s') pn op) →
      nodes D o s' !! n = Some pn → c' !! n = None →
      kids n pn (nodes D o s) (delete n c) (nodes D o s') c' →
      round s c (inl s').

Lemma step_round s c :
  good s c → ∃ r, step D pr_new pr_upd dropdups o lim s = Some r ∧ round s c r.
Proof.
  intros (HR & Hinv & Hcl). unfold step.
  destruct (ol_empty o (open D o s) || limit D o lim s) eqn:E.
  { eexists. split; [done|]. constructor.
    apply orb_true_iff in E as [E|E]; [left|by right].
    rewrite (olR_empty OL _ _ HR) in E. by apply bool_decide_eq_true in E. }
  apply orb_false_iff in E as [E El]. rewrite (olR_empty OL _ _ HR) in E.
  apply bool_decide_eq_false in E.
  destruct (olR_pop OL _ _ HR E) as (q & n & k & -> & Hn & Hmin & HR').
  cbn [mbind option_bind]. destruct (i_open _ _ Hinv _ _ Hn) as (pn & Hpn & ->).
  cbn [set_open nodes]. rewrite Hpn. cbn [mbind option_bind].
  destruct (isgoal (n_state D pn)) eqn:Egoal.
  - destruct (i_chain _ _ Hinv _ _ Hpn) as [l Hl].
    pose proof (chain_length _ _ _ Hl) as Hll.
    destruct (chain_solpath _ _ _ _ (S (length (nodes D o s))) _ Hinv Hl Hpn)
      as (path & os & k & Hp & Hw & Hh & Hla & Hk); [lia|].
    rewrite Hp. cbn [mbind option_bind]. eexists. split; [done|].
    eapply round_goal; [done..| |done|done]. split_and!; [done|done|]. eauto.
  - unfold expand. cbn [set_open nodes]. rewrite Hpn. cbn [mbind option_bind].
    assert (inv (nodes D o s) (delete n c)) as Hinv'.
    { destruct Hinv. split; auto. intros i k [_ Hi]%lookup_delete_Some. eauto. }
    destruct (expand_ops_spec (add_expd D o (set_open D o s q)) (delete n c) n pn [] (ops (n_state D pn)))
      as (s' & c' & -> & H2 & H3 & H4 & H5 & H6 & H7 & H8 & H9 & H10 & H11).
    + done.
    + done.
    + done.
    + apply lookup_delete.
    + done.
    + intros op Hop. by apply elem_of_nil in Hop.
    + cbn [mbind option_bind]. eexists. split; [done|].
      cbn [add_expd set_open nodes expd gend] in *.
      eapply round_go; [done..| |exact H4|exact H5|done|done|done|done|done|done].
      split_and!; [done|done|].
      assert (closedok (nodes D o s) (delete n c) (λ i, i = n)) as Hcl0.
      { intros i a Ha Hi Hne. apply lookup_delete_None in Hi as [->|Hi]; [done|].
        eapply Hcl; eauto. }
      intros i a Ha Hi _. destruct (decide (i = n)) as [->|Hne].
      * rewrite H6 in Ha. injection Ha as <-. done.
      * by eapply (ext_closedok _ _ _ _ _ H4 Hcl0).
Qed.

Lemma running_good s : running D pr_new pr_upd dropdups o lim s0 s → ∃ c, good s c.
Proof.
  induction 1 as [s Hi|s s' Hr [c IH] Hs].
  - destruct init_good as (s1 & Hi' & Hg & _). rewrite Hi in Hi'. simplify_eq. eauto.
  - destruct (step_round _ _ IH) as (r & Hr' & Hround). rewrite Hs in Hr'. simplify_eq.
    inversion Hround; simplify_eq. eauto.
Qed.

Lemma loop_running fuel s out s' :
  running D pr_new pr_upd dropdups o lim s0 s →
  loop D pr_new pr_upd dropdups o lim fuel s = Some (out, s') →
  running D pr_new pr_upd dropdups o lim s0 s' ∧
  step D pr_new pr_upd dropdups o lim s' = Some (inr out).
Proof.
  revert s. induction fuel as [|fuel IH]; intros s Hr Hl; [done|]. simpl in Hl.
  destruct (step D pr_new pr_upd dropdups o lim s) as [[s1|out1]|] eqn:E;
    cbn [mbind option_bind] in Hl; [| |done].
  - eapply IH; [|exact Hl]. by eapply running_step.
  - simplify_eq. done.
Qed.

Lemma search_running fuel out s' :
  search D pr_new pr_upd dropdups o lim s0 fuel = Some (out, s') →
  running D pr_new pr_upd dropdups o lim s0 s' ∧
  step D pr_new pr_upd dropdups o lim s' = Some (inr out).
Proof.
  unfold search. destruct (init D pr_new o s0) as [s|] eqn:Ei; cbn [mbind option_bind]; [|done].
  intros Hl. eapply loop_running; [|exact Hl]. by constructor.
Qed.

Lemma search_end fuel out s' :
  search D pr_new pr_upd dropdups o lim s0 fuel = Some (out, s') →
  ∃ c, good s' c ∧ round s' c (inr out).
Proof.
  intros [Hr Hs]%search_running. destruct (running_good _ Hr) as [c Hg]. exists c. split; [done|].
  destruct (step_round _ _ Hg) as (r & Hr' & Hround). rewrite Hs in Hr'. by simplify_eq.
Qed.

(** ** Termination *)

Lemma nodes_bound ns c U :
  inv ns c → (∀ s, reachable s0 s → s ∈ U) → (length ns ≤ length U)%nat.
Proof.
  intros Hinv HU. rewrite <-(fmap_length (n_state D)). apply submseteq_length.
  apply NoDup_submseteq.
  - apply NoDup_alt. intros i j t Hi Hj. rewrite list_lookup_fmap in Hi, Hj.
    apply fmap_Some in Hi as (a & Ha & ->). apply fmap_Some in Hj as (b & Hb & Hst).
    by eapply (i_inj _ _ Hinv).
  - intros t (a & -> & Ha)%elem_of_list_fmap. apply HU.
    apply elem_of_list_lookup in Ha as [i Ha]. by eapply node_reachable.
Qed.

Lemma loop_ends_from U (n1 n2 n3 : nat) :
  (∀ s, reachable s0 s → s ∈ U) →
  ∀ s c, good s c → n1 = (length U - length (nodes D o s))%nat →
    n2 = Z.to_nat (sumg (nodes D o s)) → n3 = size c →
  ∃ r, ends (λ n, loop D pr_new pr_upd dropdups o lim n s) r.
Proof.
  intros HU. revert n2 n3. induction n1 as [n1 IH1] using lt_wf_ind.
  induction n2 as [n2 IH2] using lt_wf_ind. induction n3 as [n3 IH3] using lt_wf_ind.
  intros s c Hgood -> -> ->.
  destruct (step_round _ _ Hgood) as (r & Hs & Hround).
  assert (∀ s', r = inl s' → (∃ r', ends (λ n, loop D pr_new pr_upd dropdups o lim n s') r') →
    ∃ r', ends (λ n, loop D pr_new pr_upd dropdups o lim n s) r') as Hgo.
  { intros s' -> [r' [k Hk]]. exists r', (S k). intros n Hn. destruct n as [|n]; [lia|].
    simpl. rewrite Hs. cbn [mbind option_bind]. apply Hk. lia. }
  assert (∀ out, r = inr out → ∃ r', ends (λ n, loop D pr_new pr_upd dropdups o lim n s) r') as Hstop.
  { intros out ->. exists (out, s), 1%nat. intros n Hn. destruct n as [|n]; [lia|].
    simpl. rewrite Hs. done. }
  destruct Hround as [?|n pn path os k ? ? ? ? ? ? ? ?
    |n pn s' c' Hlim Hn Hc Hmin Hng Hgood' Hext Hprog He Hge _ _ _ _]; [by eapply Hstop..|].
  eapply Hgo; [done|].
  pose proof Hgood as (_ & Hinv & _). pose proof Hgood' as (_ & Hinv' & _).
  pose proof (nodes_bound _ _ _ Hinv HU) as Hb. pose proof (nodes_bound _ _ _ Hinv' HU) as Hb'.
  pose proof (sumg_nonneg _ _ Hinv). pose proof (sumg_nonneg _ _ Hinv').
  destruct Hprog as [[Hns ->]|[Hlen|[Hlen Hsum]]].
  - eapply (IH3 (size (delete n c))); [|exact Hgood'|by rewrite Hns|by rewrite Hns|done].
    assert (size c = S (size (delete n c))) as ->; [|lia].
    rewrite <-(insert_delete _ _ _ Hc) at 1. apply map_size_insert_None, lookup_delete.
  - eapply IH1; [|exact Hgood'|done|done|done]. lia.
  - eapply (IH2 (Z.to_nat (sumg (nodes D o s')))); [lia|exact Hgood'|lia|done|done].
Qed.

Lemma search_ends :
  finite_space s0 → ∃ r, ends (search D pr_new pr_upd dropdups o lim s0) r.
Proof.
  intros [U HU]. destruct init_good as (s & Hi & Hgood & _).
  destruct (loop_ends_from U _ _ _ HU s _ Hgood eq_refl eq_refl eq_refl) as [r Hr].
  exists r. eapply ends_ext; [|exact Hr]. intros n. unfold search. by rewrite Hi.
Qed.

(** Without limits, an empty open list means that no goal is reachable. *)
Lemma exhausted_unsolvable s ss os k :
  good s ∅ → ¬ solution s0 ss os k.
Proof.
  intros (_ & Hinv & Hcl) (Hw & Hh & Hg).
  destruct (i_root _ _ Hinv) as (a & Ha & Hp).
  destruct (i_noroot _ _ Hinv _ _ Ha Hp) as (_ & Hs & _).
  destruct (frontier _ _ _ _ _ _ _ _ Hinv Hcl Hw Hh Hg Ha Hs)
    as (j & b & k1 & ss2 & os2 & k2 & [x Hx] & _). by rewrite lookup_empty in Hx.
Qed.

(** A solution passes through an open node that is not behind its cost. *)
Lemma frontier_solution s c ss os k :
  good s c → solution s0 ss os k →
  ∃ j b k1 ss2 os2 k2, c !! j = Some (n_key D b) ∧ nodes D o s !! j = Some b ∧
    n_p D b = pr_new (n_g D b) (n_state D b) ∧ 0 ≤ n_g D b ∧
    solution (n_state D b) ss2 os2 k2 ∧ k = k1 + k2 ∧ (dropdups = false → n_g D b ≤ k1).
Proof.
  intros (_ & Hinv & Hcl) (Hw & Hh & Hg).
  destruct (i_root _ _ Hinv) as (a & Ha & Hp).
  destruct (i_noroot _ _ Hinv _ _ Ha Hp) as (_ & Hs & Hg0 & _).
  destruct (frontier _ _ _ _ _ _ _ _ Hinv Hcl Hw Hh Hg Ha Hs)
    as (j & b & k1 & ss2 & os2 & k2 & [x Hx] & Hb & Hsol & Hk & Hk1 & Hgb).
  destruct (i_open _ _ Hinv _ _ Hx) as (b' & Hb' & ->). simplify_eq.
  destruct (i_pr _ _ Hinv _ _ Hb) as [Hpr Hg1].
  exists j, b, k1, ss2, os2, k2. split_and!; try done. intros Hd. specialize (Hgb Hd). lia.
Qed.

(** ** Limits *)

Lemma running_limits s b :
  (∀ t, reachable s0 t → length (ops t) ≤ b)%nat →
  running D pr_new pr_upd dropdups o lim s0 s →
  ((0 < l_expd lim)%nat → (expd D o s ≤ l_expd lim)%nat) ∧
  (∀ e, timeup lim e = true → (expd D o s ≤ e)%nat) ∧
  ((0 < l_gend lim)%nat → (gend D o s ≤ l_gend lim - 1 + b)%nat).
Proof.
  intros Hb. induction 1 as [s Hi|s s' Hr (IH1 & IHt & IH2) Hs].
  - destruct init_good as (s1 & Hi' & _ & He & Hg & _). rewrite Hi in Hi'. simplify_eq.
    split_and!; intros; lia.
  - destruct (running_good _ Hr) as [c Hgood].
    destruct (step_round _ _ Hgood) as (r & Hr' & Hround). rewrite Hs in Hr'. simplify_eq.
    inversion Hround as [| |n pn s1 c' Hlim Hn Hc Hmin Hng Hgood' Hext Hprog He Hge _ _ _ _]; simplify_eq.
    unfold limit in Hlim. apply orb_false_iff in Hlim as [Hlim Hl2].
    apply orb_false_iff in Hlim as [Hl0 Hl1].
    assert (length (ops (n_state D pn)) ≤ b)%nat as Hpb.
    { apply Hb. destruct Hgood as (_ & Hinv & _). by eapply node_reachable. }
    apply andb_false_iff in Hl1, Hl2. rewrite !bool_decide_eq_false in Hl1, Hl2. split_and!; [lia| |lia].
    intros e Het. specialize (IHt e Het). assert (expd D o s ≠ e) by (intros Heq; rewrite Heq in Hl0; congruence). lia.
Qed.

Lemma pruned_covered s n a :
  running D pr_new pr_upd dropdups o lim s0 s → nodes D o s !! n = Some a →
  n_pop D a ∈ ops (n_state D a) →
  ∃ p b, n_parent D a = Some p ∧ nodes D o s !! p = Some b ∧
    n_state D b = dest (n_state D a) (n_pop D a) ∧
    n_g D b ≤ n_g D a + cost (n_state D a) (n_pop D a).
Proof.
  intros Hr Hn Hop. destruct (running_good _ Hr) as (c & _ & Hinv & _).
  destruct (n_parent D a) as [p|] eqn:Epar.
  - destruct (i_par _ _ Hinv _ _ _ Hn Epar) as (b & Hb & Hob & Hsb & Hrb & Hgb).
    exists p, b. split; [done|]. split; [done|]. rewrite Hrb, Hsb in *.
    pose proof (ok_rev OK _ _ Hob Hop) as Hback.
    pose proof (ok_cost OK _ _ Hop) as Hc1. pose proof (ok_cost OK _ _ Hob) as Hc2.
    split; [done|]. lia.
  - destruct (i_noroot _ _ Hinv _ _ Hn Epar) as (_ & _ & _ & Hnop).
    rewrite Hnop in Hop. by destruct (ok_nop OK _ Hop).
Qed.

(** ** The cost of the path of a popped node

    A parent's g may drop after its kids were generated (it is then in the open
    list again), so the path read off the parent pointers may be cheaper than
    the g value of a node.  When a better path lets a node precede its former
    self, this cannot be so for the node being popped. *)

Context (SW : strict_weak lt).
Context (lt_drop : ∀ g g' s, g' < g → lt (pr_new g' s, g') (pr_new g s, g) = true).
Context (Hdd : dropdups = false).
Implicit Types (E : gmap nat K).

(** All open nodes that precede [F] descend from [A]. *)
Definition alt1 ns c A (F : K) : Prop :=
  c !! A = None ∧ ∀ i k, c !! i = Some k → lt k F = true → sub ns A i.
(** No open node that precedes [F] does. *)
Definition alt2 ns c A (F : K) : Prop :=
  ∀ i k, c !! i = Some k → sub ns A i → lt k F = false.

(** [E]: the keys with which the nodes were last expanded; [x]: a node whose
    expansion is under way. *)
Record hist ns c E (x : option nat) : Prop := {
  h_reopen i k F : c !! i = Some k → E !! i = Some F → lt k F = true;
  h_closed i a F : ns !! i = Some a → c !! i = None → E !! i = Some F → F = n_key D a;
  h_exp i a p : ns !! i = Some a → n_parent D a = Some p → is_Some (E !! p);
  h_dom i : is_Some (E !! i) → is_Some (ns !! i);
  h_exact i a p b : ns !! i = Some a → n_parent D a = Some p → ns !! p = Some b →
    c !! p = None → x ≠ Some p →
    n_g D a = n_g D b + cost (n_state D b) (n_op D a);
}.

(** What a kid does, unless it does nothing: it makes [d] a child of [n]. *)
Lemma kid_effect ns c n pn op ns' c' ln :
  inv ns c → ns !! n = Some pn → op ∈ ops (n_state D pn) → chain ns n ln →
  kid ns c n pn op ns' c' →
  (ns' = ns ∧ c' = c) ∨
  ∃ d a', c' = <[d := n_key D a']> c ∧ d ∉ ln ∧
    (∀ i, i ≠ d → ns' !! i = ns !! i) ∧ ns' !! d = Some a' ∧
    n_parent D a' = Some n ∧ n_g D a' = n_g D pn + cost (n_state D pn) (n_op D a') ∧
    (ns !! d = None ∨ ∃ dn, ns !! d = Some dn ∧ lt (n_key D a') (n_key D dn) = true).
Proof.
  intros Hinv Hn Hop Hln Hk. pose proof (ok_cost OK _ _ Hop) as Hcost.
  destruct Hk as [d dn Hd Hs Hg|d dn g p Hd Hs _ Hg Hlt Hp|g p Hfresh Hg Hp]; [by left|right..].
  - eexists d, (Node D (Some n) (n_state D dn) op (revop (n_state D pn) op) g p).
    assert (d < length ns)%nat by by eapply lookup_lt_Some.
    split_and!; [done| | |by apply list_lookup_insert|done|done|].
    + intros Hin. pose proof (chain_g _ _ _ _ _ _ _ Hinv Hln Hn Hin Hd). lia.
    + intros i Hi. by rewrite list_lookup_insert_ne.
    + right. exists dn. split; [done|]. unfold n_key. simpl.
      destruct (i_pr _ _ Hinv _ _ Hd) as [-> _]. rewrite Hp. by apply lt_drop.
  - eexists (length ns), (Node D (Some n) (dest (n_state D pn) op) op (revop (n_state D pn) op) g p).
    split_and!; [done| | |by apply list_lookup_middle|done|done|].
    + intros Hin. pose proof (chain_bound _ _ _ _ Hln Hin). lia.
    + intros i Hi. destruct (decide (i < length ns)%nat).
      * by rewrite lookup_app_l.
      * rewrite !lookup_ge_None_2; [done|lia|]. rewrite app_length. simpl. lia.
    + left. apply lookup_ge_None_2. lia.
Qed.


Definition alts ns c E (ln : list nat) : Prop :=
  ∀ A F, E !! A = Some F → (A ∈ ln → alt1 ns c A F) ∧ (A ∉ ln → alt2 ns c A F).

Lemma kid_hist ns c E n pn op ns' c' ln :
  inv ns c → ns !! n = Some pn → c !! n = None → op ∈ ops (n_state D pn) → chain ns n ln →
  is_Some (E !! n) → kid ns c n pn op ns' c' →
  hist ns c E (Some n) → alts ns c E ln →
  hist ns' c' E (Some n) ∧ alts ns' c' E ln ∧ chain ns' n ln.
Proof.
  intros Hinv Hn Hcn Hop Hln HEn Hk Hh Ha.
  destruct (kid_effect _ _ _ _ _ _ _ _ Hinv Hn Hop Hln Hk)
    as [[-> ->]|(d & a' & -> & Hd & Hother & Ha' & Hpar & Hg & Hold)]; [done|].
  assert (d ≠ n) as Hdn.
  { intros ->. apply Hd. destruct (chain_hd _ _ _ Hln) as [l' ->]. set_solver. }
  assert (∀ i a, i ≠ d → ns' !! i = Some a → ns !! i = Some a) as Hback.
  { intros i a Hi. by rewrite Hother. }
  assert (is_Some (E !! d) → ∃ dn, ns !! d = Some dn ∧ lt (n_key D a') (n_key D dn) = true) as HEd.
  { intros HE. destruct Hold as [Hnone|?]; [|done].
    destruct (h_dom _ _ _ _ Hh _ HE) as [? ?]. congruence. }
  split_and!; [split| |].
  - intros i k F Hi HF. destruct (decide (i = d)) as [->|Hne].
    + rewrite lookup_insert in Hi. injection Hi as <-.
      destruct HEd as (dn & Hdn' & Hlt); [eauto|].
      destruct (c !! d) as [k|] eqn:Ec.
      * pose proof (h_reopen _ _ _ _ Hh _ _ _ Ec HF) as Hl.
        destruct (i_open _ _ Hinv _ _ Ec) as (dn' & Hdn2 & ->). simplify_eq.
        by eapply (sw_trans _ SW).
      * by rewrite (h_closed _ _ _ _ Hh _ _ _ Hdn' Ec HF).
    + rewrite lookup_insert_ne in Hi by done. by eapply (h_reopen _ _ _ _ Hh).
  - intros i a F Hi Hc HF. apply lookup_insert_None in Hc as [Hc Hne].
    eapply (h_closed _ _ _ _ Hh); eauto.
  - intros i a p Hi Hp. destruct (decide (i = d)) as [->|Hne].
    + simplify_eq. done.
    + exact (h_exp _ _ _ _ Hh _ _ _ (Hback _ _ Hne Hi) Hp).
  - intros i HE. destruct (decide (i = d)) as [->|Hne]; [eauto|].
    rewrite Hother by done. by apply (h_dom _ _ _ _ Hh).
  - intros i a p b Hi Hp Hb Hc Hx. apply lookup_insert_None in Hc as [Hc Hne].
    destruct (decide (i = d)) as [->|Hid].
    + simplify_eq.
    + eapply (h_exact _ _ _ _ Hh); eauto.
  - intros A F HF. destruct (Ha A F HF) as [H1 H2]. split; intros HA.
    + destruct (H1 HA) as [HcA Hlow]. split.
      * apply lookup_insert_None. split; [done|]. intros ->. done.
      * intros i k Hi Hlt. destruct (decide (i = d)) as [->|Hne].
        -- exists ln. split; [|done]. exact (relink_d D _ _ _ _ _ _ Hd Hother Ha' Hpar Hln).
        -- rewrite lookup_insert_ne in Hi by done. eapply (relink_sub_in D _ _ _ _ _ _ Hd Hother Ha' Hpar Hln); eauto.
    + intros i k Hi Hsub. destruct (decide (i = d)) as [->|Hne].
      * destruct Hsub as (l & Hc & Hin).
        assert (chain ns' d (d :: ln)) as Hc' by exact (relink_d D _ _ _ _ _ _ Hd Hother Ha' Hpar Hln).
        pose proof (chain_det _ _ _ _ Hc Hc') as [= ->]. done.
      * rewrite lookup_insert_ne in Hi by done.
        destruct (i_open _ _ Hinv _ _ Hi) as (a & Hai & _).
        eapply (H2 HA); [done|]. eapply (relink_sub_out D _ _ _ _ _ _ Hd Hother Ha' Hpar Hln); eauto. by eapply (i_chain _ _ Hinv).
  - by apply (relink_same D _ _ _ _ _ _ Hd Hother Ha' Hpar Hln).
Qed.

Lemma kids_hist n pn ns c ns' c' E ln :
  kids n pn ns c ns' c' →
  inv ns c → ns !! n = Some pn → c !! n = None → chain ns n ln → is_Some (E !! n) →
  hist ns c E (Some n) → alts ns c E ln →
  hist ns' c' E (Some n) ∧ alts ns' c' E ln ∧ inv ns' c'.
Proof.
  induction 1 as [|ns c op ns1 c1 ns2 c2 Hop Hk Hks IH]; intros Hinv Hn Hc Hln HE Hh Ha; [done|].
  destruct (kid_hist _ _ _ _ _ _ _ _ _ Hinv Hn Hc Hop Hln HE Hk Hh Ha) as (Hh1 & Ha1 & Hln1).
  destruct (kid_self _ _ _ _ _ _ _ Hinv Hn Hc Hop Hk) as [Hn1 Hc1].
  apply IH; try done. by eapply kid_inv.
Qed.

Definition exact_hist ns c : Prop :=
  ∃ E, hist ns c E None ∧ ∀ A F, E !! A = Some F → alt1 ns c A F ∨ alt2 ns c A F.

Lemma round_hist s c s' :
  good s c → exact_hist (nodes D o s) c → step D pr_new pr_upd dropdups o lim s = Some (inl s') →
  ∃ c', good s' c' ∧ exact_hist (nodes D o s') c'.
Proof.
  intros Hgood (E & Hh & Halt) Hs.
  destruct (step_round _ _ Hgood) as (r & Hr & Hround). rewrite Hs in Hr. simplify_eq.
  inversion Hround as [| |n pn s1 c' Hlim Hn Hc Hmin Hng Hgood' Hext Hprog He Hge Hcov Hn' Hc' Hkids];
    simplify_eq.
  exists c'. split; [done|].
  pose proof Hgood as (_ & Hinv & _). pose proof Hgood' as (_ & Hinv' & _).
  destruct (i_chain _ _ Hinv _ _ Hn) as [ln Hln].
  assert (∀ F, lt (n_key D pn) F = false → ∀ i k, c !! i = Some k → lt k F = false) as Hnolow.
  { intros F HF i k Hi. eapply (sw_neg_trans lt SW); [exact HF|]. by eapply Hmin. }
  assert (hist (nodes D o s) (delete n c) (<[n := n_key D pn]> E) (Some n)) as Hh1.
  { split.
    - intros i k F [Hne Hi]%lookup_delete_Some HF. rewrite lookup_insert_ne in HF by done.
      by eapply (h_reopen _ _ _ _ Hh).
    - intros i a F Ha Hi HF. destruct (decide (i = n)) as [->|Hne].
      + rewrite lookup_insert in HF. congruence.
      + rewrite lookup_insert_ne in HF by done. rewrite lookup_delete_ne in Hi by done.
        by eapply (h_closed _ _ _ _ Hh).
    - intros i a p Ha Hp. destruct (decide (p = n)) as [->|Hne].
      + rewrite lookup_insert. eauto.
      + rewrite lookup_insert_ne by done. by eapply (h_exp _ _ _ _ Hh).
    - intros i. destruct (decide (i = n)) as [->|Hne]; [eauto|].
      rewrite lookup_insert_ne by done. apply (h_dom _ _ _ _ Hh).
    - intros i a p b Ha Hp Hb Hcp Hx. eapply (h_exact _ _ _ _ Hh); eauto.
      rewrite lookup_delete_ne in Hcp by congruence. done. }
  assert (∀ A, A ∈ ln → A = n ∨ sub (nodes D o s) A n) as Hin.
  { intros A HA. destruct (chain_hd _ _ _ Hln) as [l' ->].
    apply elem_of_cons in HA as [->|HA]; [by left|right]. by exists l'. }
  assert (alts (nodes D o s) (delete n c) (<[n := n_key D pn]> E) ln) as Ha1.
  { intros A F HF. destruct (decide (A = n)) as [->|Hne].
    - rewrite lookup_insert in HF. injection HF as <-. split.
      + intros _. split; [apply lookup_delete|]. intros i k [_ Hi]%lookup_delete_Some Hlt.
        rewrite (Hmin _ _ Hi) in Hlt. done.
      + intros Hn2. destruct (chain_hd _ _ _ Hln) as [l' ->]. set_solver.
    - rewrite lookup_insert_ne in HF by done. split; intros HA.
      + destruct (Hin A HA) as [->|Hsub]; [done|].
        destruct (Halt A F HF) as [[HcA H1]|H2].
        * split; [by rewrite lookup_delete_ne|]. intros i k [_ Hi]%lookup_delete_Some. by apply H1.
        * pose proof (Hnolow F (H2 _ _ Hc Hsub)) as Hno. split.
          -- rewrite lookup_delete_ne by done. destruct (c !! A) eqn:EA; [|done].
             pose proof (h_reopen _ _ _ _ Hh _ _ _ EA HF). rewrite (Hno _ _ EA) in *. done.
          -- intros i k [_ Hi]%lookup_delete_Some Hlt. rewrite (Hno _ _ Hi) in Hlt. done.
      + intros i k [_ Hi]%lookup_delete_Some Hsub.
        destruct (Halt A F HF) as [[HcA H1]|H2]; [|by eapply H2].
        assert (lt (n_key D pn) F = false) as HF'.
        { destruct (lt (n_key D pn) F) eqn:El; [|done]. destruct (H1 _ _ Hc El) as (l & Hl & Hl').
          pose proof (chain_det _ _ _ _ Hln Hl). set_solver. }
        by eapply Hnolow. }
  assert (inv (nodes D o s) (delete n c)) as Hinv1.
  { destruct Hinv. split; auto. intros i k [_ Hi]%lookup_delete_Some. eauto. }
  destruct (kids_hist _ _ _ _ _ _ (<[n := n_key D pn]> E) ln Hkids) as (Hh2 & Ha2 & _); try done.
  { apply lookup_delete. }
  { rewrite lookup_insert. eauto. }
  exists (<[n := n_key D pn]> E). split.
  - destruct Hh2 as [R1 R2 R3 R4 R5]. split; try done.
    intros i a p b Ha Hp Hb Hcp _. destruct (decide (p = n)) as [->|Hne].
    + simplify_eq. destruct (i_par _ _ Hinv' _ _ _ Ha Hp) as (b' & Hb' & Hop & Hst & _ & Hle).
      simplify_eq. destruct (Hcov _ Hop) as (j & b2 & Hb2 & Hst2 & Hg2). specialize (Hg2 Hdd).
      assert (j = i) as -> by (eapply (i_inj _ _ Hinv'); eauto; congruence). simplify_eq. lia.
    + eapply R5; eauto. congruence.
  - intros A F HF. destruct (Ha2 A F HF) as [H1 H2]. destruct (decide (A ∈ ln)); auto.
Qed.

Lemma init_hist s :
  init D pr_new o s0 = Some s → ∃ c, good s c ∧ exact_hist (nodes D o s) c.
Proof.
  intros Hi. destruct init_good as (s1 & Hi' & Hg & _ & _ & Hns).
  rewrite Hi in Hi'. injection Hi' as <-. eexists. split; [exact Hg|].
  exists ∅. rewrite Hns. split; [split|].
  - intros i k F _. by rewrite lookup_empty.
  - intros i a F _ _. by rewrite lookup_empty.
  - intros i a p [-> <-]%list_lookup_singleton_Some. done.
  - intros i. rewrite lookup_empty. by intros [? ?].
  - intros i a p b [-> <-]%list_lookup_singleton_Some. done.
  - intros A F. by rewrite lookup_empty.
Qed.

Lemma running_hist s :
  running D pr_new pr_upd dropdups o lim s0 s → ∃ c, good s c ∧ exact_hist (nodes D o s) c.
Proof.
  induction 1 as [s Hi|s s' Hr (c & Hg & Hh) Hs]; [by apply init_hist|].
  by eapply round_hist.
Qed.

Lemma exact_solpath ns c i l fuel a :
  inv ns c → chain ns i l → ns !! i = Some a → (length l ≤ fuel)%nat →
  (∀ i a p b, i ∈ l → ns !! i = Some a → n_parent D a = Some p → ns !! p = Some b → p ∈ l →
     n_g D a = n_g D b + cost (n_state D b) (n_op D a)) →
  ∃ path os, solpath D fuel ns i = Some (path, os) ∧
    walk (reverse path) (reverse os) (n_g D a) ∧
    last (reverse path) = Some (n_state D a).
Proof.
  intros Hinv Hc. revert fuel a.
  induction Hc as [i b Hb Hp|i b p l Hb Hp Hc IH]; intros fuel a Ha Hlen Hex;
    rewrite Ha in Hb; injection Hb as <-.
  - destruct fuel as [|fuel]; [simpl in Hlen; lia|]. simpl. rewrite Ha. cbn [mbind option_bind].
    rewrite Hp. destruct (i_noroot _ _ Hinv _ _ Ha Hp) as (_ & Hs & Hg & _).
    eexists _, _. rewrite Hg. split_and!; [done|constructor|done].
  - destruct fuel as [|fuel]; [simpl in Hlen; lia|]. simpl. rewrite Ha. cbn [mbind option_bind].
    rewrite Hp. destruct (i_par _ _ Hinv _ _ _ Ha Hp) as (b & Hb & Hob & Hsb & Hrb & Hgb).
    destruct (IH fuel b Hb) as (path & os & -> & Hw & Hl).
    { simpl in Hlen. lia. }
    { intros. eapply Hex; eauto; set_solver. }
    cbn [mbind option_bind]. eexists _, _. split; [done|]. rewrite !reverse_cons. split.
    + rewrite (Hex i a p b); [| |done|done|done|].
      * rewrite Hsb. by apply walk_snoc.
      * set_solver.
      * destruct (chain_hd _ _ _ Hc) as [l' ->]. set_solver.
    + by rewrite last_snoc.
Qed.

Lemma search_end_exact fuel path os s' :
  search D pr_new pr_upd dropdups o lim s0 fuel = Some (Some (path, os), s') →
  ∃ c n pn, good s' c ∧ nodes D o s' !! n = Some pn ∧ c !! n = Some (n_key D pn) ∧
    (∀ m k', c !! m = Some k' → lt k' (n_key D pn) = false) ∧
    solution s0 (reverse path) (reverse os) (n_g D pn) ∧ last (reverse path) = Some (n_state D pn).
Proof.
  intros [Hr Hs]%search_running. destruct (running_hist _ Hr) as (c & Hgood & E & Hh & Halt).
  destruct (step_round _ _ Hgood) as (r & Hr' & Hround). rewrite Hs in Hr'. injection Hr' as <-.
  inversion Hround as [|n pn path' os' k Hlim Hn Hc Hmin Hgl Hsol Hk Hp|]; simplify_eq.
  pose proof Hgood as (_ & Hinv & _). destruct (i_chain _ _ Hinv _ _ Hn) as [l Hl].
  pose proof (chain_length _ _ _ Hl) as Hlen.
  destruct (exact_solpath _ _ _ _ (S (length (nodes D o s'))) _ Hinv Hl Hn) as (path2 & os2 & Hp2 & Hw & Hla).
  { lia. }
  { intros i a p b Hi Ha Hpa Hb Hpl. eapply (h_exact _ _ _ _ Hh); eauto.
    destruct (c !! p) as [k'|] eqn:Ecp; [exfalso|done].
    destruct (h_exp _ _ _ _ Hh _ _ _ Ha Hpa) as [F HF].
    pose proof (h_reopen _ _ _ _ Hh _ _ _ Ecp HF) as Hlt.
    destruct (chain_hd _ _ _ Hl) as [l' ->].
    assert (p ≠ n) as Hpn.
    { intros ->. pose proof (chain_NoDup _ _ _ Hl) as Hnd. apply NoDup_cons in Hnd as [Hnd _].
      destruct (chain_sub _ _ _ _ Hl Hi) as (l2 & Hl2 & Hle).
      inversion Hl2; simplify_eq. match goal with H : chain _ n _ |- _ =>
        pose proof (chain_det _ _ _ _ H Hl) as -> end. simpl in Hle. lia. }
    apply elem_of_cons in Hpl as [->|Hpl]; [done|].
    destruct (Halt p F HF) as [[HcA _]|H2]; [congruence|].
    assert (lt (n_key D pn) F = false) as HF' by (eapply H2; [done|]; by exists l').
    pose proof (sw_neg_trans lt SW _ _ _ HF' (Hmin _ _ Ecp)). congruence. }
  rewrite Hp in Hp2. injection Hp2 as <- <-.
  exists c, n, pn. split_and!; try done. destruct Hsol as (_ & Hh1 & Hg1). split_and!; done.
Qed.

End proofs.
