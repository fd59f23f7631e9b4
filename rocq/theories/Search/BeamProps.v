(** C43: beam search. *)
From stdpp Require Import prelude gmap.
From Coq Require Import ZArith Lia.
From Verif Require Import Common.Orders Common.Fuel Search.Model Search.Proofs Search.Props Search.Beam.
From Verif Require BinHeap.Model BinHeap.Proofs IntOpen.Model.

(** All that is used of the open list: it only ever returns nodes that were put into it.
    [ol_W s N]: everything in [s] is a number below [N]. *)
Record ol_weak {K} (o : openlist K) (clr : ol_T o → ol_T o) := OlWeak {
  ol_W : ol_T o → nat → Prop;
  olW_mono s N N' : ol_W s N → N ≤ N' → ol_W s N';
  olW_new N : ol_W (ol_new o) N;
  olW_push s n k s' N : ol_push o s n k = Some s' → ol_W s N → n < N → ol_W s' N;
  olW_update s n k s' N : ol_update o s n k = Some s' → ol_W s N → n < N → ol_W s' N;
  olW_pop s s' n N : ol_pop o s = Some (s', n) → ol_W s N → n < N ∧ ol_W s' N;
  olW_clear s N : ol_W s N → ol_W (clr s) N;
}.
Arguments ol_W {_ _ _}. Arguments olW_mono {_ _ _}. Arguments olW_new {_ _ _}.
Arguments olW_push {_ _ _}. Arguments olW_update {_ _ _}. Arguments olW_pop {_ _ _}.
Arguments olW_clear {_ _ _}.

(** ** Both open lists provide this. *)
Section heap.
  Import BinHeap.Model BinHeap.Proofs.
  Context {K : Type} (lt : K → K → bool) (k0 : K).

  Definition heap_clr : ol_T (heap_ol lt k0) → ol_T (heap_ol lt k0) := λ h, BinHeap.Model.ol_clear h.

  Lemma pop_members h h' r : pop lt h = Some (h', Some r) → r ∈ arr h ∧ ∀ e, e ∈ arr h' → e ∈ arr h.
  Proof.
    unfold pop. case_decide; [done|]. destruct (arr h !! 0) as [x|] eqn:E; [|done]. cbn [mbind option_bind].
    assert (Hx : x ∈ arr h) by by eapply elem_of_list_lookup_2.
    case_decide as Hlen.
    - destruct (last (arr h)) as [l|] eqn:El; [|done]. cbn [mbind option_bind].
      assert (Hl : l ∈ arr h) by by apply last_Some_elem_of.
      set (h1 := setarr (setarr h _) _).
      assert (H1 : ∀ e, e ∈ arr h1 → e ∈ arr h).
      { intros e He. simpl in He. destruct (arr h) as [|y t _] using rev_ind; [done|].
        rewrite last_snoc in El. injection El as ->.
        destruct t as [|z t]; [simpl in Hlen; lia|]. simpl in He.
        destruct (t ++ [l]) as [|w u] eqn:Etl; [by destruct t|]. rewrite <-Etl in He.
        rewrite removelast_last in He. set_solver. }
      destruct (arr h1 !! 0) as [top|]; [|done]. cbn [mbind option_bind].
      destruct (decide (0 < length (arr h1))) as [H0|H0].
      + destruct (pushdown_rearr lt (fuel (setind h1 top 0)) (setind h1 top 0) 0) as (h2 & i2 & -> & Hra);
          [unfold fuel; simpl; lia|done|]. cbn [mbind option_bind]. intros [= <- <-].
        split; [done|]. intros e He. simpl in He. rewrite (ra_perm _ _ Hra) in He. by apply H1.
      + destruct (pushdown lt (fuel (setind h1 top 0)) (setind h1 top 0) 0) as [[h2 i2]|] eqn:Ep; [|done].
        exfalso. apply H0. simpl. rewrite removelast_firstn_len, take_length, insert_length. lia.
    - intros [= <- <-]. split; [done|]. intros e He. simpl in He.
      destruct (arr h) as [|y t _] using rev_ind; [done|]. rewrite removelast_last in He. set_solver.
  Qed.

  Lemma pop_succeeds h : empty h = false → is_Some ('(h', r) ← BinHeap.Model.ol_pop lt h; n ← r; Some (h', n)).
  Proof.
    unfold empty, BinHeap.Model.ol_pop, pop. intros He%bool_decide_eq_false. rewrite decide_False by done.
    destruct (arr h) as [|x t] eqn:E; [done|]. cbn [lookup list_lookup mbind option_bind].
    case_decide as Hlen; [|cbn [mbind option_bind]; eauto].
    destruct (last (x :: t)) as [l|] eqn:El; [|by apply last_None in El]. cbn [mbind option_bind].
    set (h1 := setarr (setarr h _) _).
    assert (H0 : 0 < length (arr h1)).
    { simpl in *. destruct t; simpl in *; lia. }
    destruct (arr h1 !! 0) as [top|] eqn:Et; [|apply lookup_ge_None in Et; lia]. cbn [mbind option_bind].
    destruct (pushdown_rearr lt (fuel (setind h1 top 0)) (setind h1 top 0) 0) as (h2 & i2 & -> & _);
      [unfold fuel; simpl; lia|done|]. cbn [mbind option_bind]. eauto.
  Qed.

  Lemma heap_weak : ol_weak (heap_ol lt k0) heap_clr.
  Proof.
    refine (OlWeak _ (heap_ol lt k0) heap_clr (λ h N, ∀ e, e ∈ arr h → e < N) _ _ _ _ _ _); simpl.
    - intros s N N' H Hle e He. specialize (H e He). lia.
    - intros N e He. by apply elem_of_nil in He.
    - intros s n k s' N Hp H Hn e He. unfold BinHeap.Model.ol_push in Hp.
      destruct (push_rearr lt (setkey s n k) n) as (h' & Hp' & HP & _). rewrite Hp in Hp'. simplify_eq.
      rewrite HP in He. apply elem_of_cons in He as [->|He]; [done|]. by apply H.
    - intros s n k s' N Hp H Hn e He. unfold ol_post_update in Hp. case_decide as Hi.
      + destruct (push_rearr lt (setkey (ol_pre_update s n) n k) n) as (h' & Hp' & HP & _).
        rewrite Hp in Hp'. simplify_eq.
        rewrite HP in He. apply elem_of_cons in He as [->|He]; [done|]. by apply H.
      + set (s1 := setkey (ol_pre_update s n) n k) in *.
        destruct (decide (Z.of_nat (length (arr s1)) ≤ ind s1 n)%Z) as [Hl|Hl].
        { unfold update in Hp. rewrite decide_True in Hp by (right; exact Hl). done. }
        destruct (update_rearr lt s1 (Z.to_nat (ind s1 n))) as (h' & Hp' & Hra); [lia|].
        rewrite Z2Nat.id in Hp' by lia. rewrite Hp in Hp'. simplify_eq.
        rewrite (ra_perm _ _ Hra) in He. by apply H.
    - intros s s' n N Hp H. unfold BinHeap.Model.ol_pop in Hp.
      destruct (pop lt s) as [[h' [r|]]|] eqn:E; simplify_eq/=.
      apply pop_members in E as [Hr He]. split; [by apply H|]. intros e Hin. apply H. by apply He.
    - intros s N H e He. by apply elem_of_nil in He.
  Qed.
End heap.

Section buckets.
  Import IntOpen.Model.

  Definition int_clr : ol_T int_ol → ol_T int_ol := λ s, IntOpen.Model.ol_clear s.

  Definition mq_below (N : nat) (q : maxq) : Prop := ∀ b n, b ∈ bkts q → n ∈ b → n < N.

  Lemma elem_insert {A} (l : list A) i x y : y ∈ <[i := x]> l → y = x ∨ y ∈ l.
  Proof.
    intros (j & Hj)%elem_of_list_lookup_1. destruct (decide (i = j)) as [->|Hne].
    - assert (j < length l) by (apply lookup_lt_Some in Hj; by rewrite insert_length in Hj).
      rewrite list_lookup_insert in Hj by done. left. congruence.
    - rewrite list_lookup_insert_ne in Hj by done. right. by eapply elem_of_list_lookup_2.
  Qed.
  Lemma elem_resize {A} (l : list A) n x y : y ∈ resize n x l → y = x ∨ y ∈ l.
  Proof.
    intros (j & Hj)%elem_of_list_lookup_1.
    destruct (decide (length l ≤ n)).
    - rewrite resize_ge in Hj by done. apply elem_of_list_lookup_2 in Hj.
      apply elem_of_app in Hj as [Hj|Hj]; [by right|]. apply elem_of_replicate in Hj as [-> _]. by left.
    - rewrite resize_le in Hj by lia. right. apply elem_of_list_lookup_2 in Hj.
      by apply elem_of_take in Hj as (i & Hi & _); eapply elem_of_list_lookup_2.
  Qed.
  Lemma elem_removelast {A} (l : list A) y : y ∈ removelast l → y ∈ l.
  Proof.
    destruct l as [|z l _] using rev_ind; [done|]. rewrite removelast_last. set_solver.
  Qed.
  Lemma elem_lookup {A} (l : list A) i (x : A) : l !! i = Some x → x ∈ l.
  Proof. apply elem_of_list_lookup_2. Qed.

  Lemma mq_new_below N : mq_below N mq_new.
  Proof. intros b n Hb Hn. apply elem_of_replicate in Hb as [-> _]. by apply elem_of_nil in Hn. Qed.

  Lemma mq_push_below N ind q n t q' ind' :
    mq_push ind q n t = Some (q', ind') → mq_below N q → n < N → mq_below N q'.
  Proof.
    unfold mq_push. intros H Hq Hn. set (bs := if decide (length (bkts q) ≤ t) then _ else _) in H.
    assert (Hbs : ∀ b, b ∈ bs → ∀ n, n ∈ b → n < N).
    { intros b Hb m Hm. subst bs. case_decide; [|by eapply Hq].
      apply elem_resize in Hb as [->|Hb]; [by apply elem_of_nil in Hm|by eapply Hq]. }
    destruct (bs !! t) as [b|] eqn:E; simplify_eq/=.
    intros b' m Hb' Hm. simpl in Hb'. apply elem_insert in Hb' as [->|Hb']; [|by eapply Hbs].
    apply elem_of_app in Hm as [Hm|Hm]; [eapply Hbs; [by eapply elem_lookup|done]|].
    by apply elem_of_list_singleton in Hm as ->.
  Qed.
  Lemma mq_rm_below N ind q n t q' ind' :
    mq_rm ind q n t = Some (q', ind') → mq_below N q → mq_below N q'.
  Proof.
    unfold mq_rm. intros H Hq. destruct (bkts q !! t) as [b|] eqn:E; [|done]. cbn [mbind option_bind] in H.
    case_decide; [done|]. destruct (mq_hole ind b (Z.to_nat (ind n))) as [[b1 ind1]|] eqn:Eh; [|done].
    simplify_eq/=. intros b' m Hb' Hm. simpl in Hb'.
    apply elem_insert in Hb' as [->|Hb']; [|by eapply Hq]. apply elem_removelast in Hm.
    assert (m ∈ b); [|by eapply Hq; [eapply elem_lookup|]].
    unfold mq_hole in Eh. case_decide; [|by simplify_eq].
    destruct (b !! (length b - 1)) as [l|] eqn:El; simplify_eq/=.
    apply elem_insert in Hm as [->|Hm]; [by eapply elem_lookup|done].
  Qed.
  Lemma mq_pop_below N ind q q' ind' n :
    mq_pop ind q = Some (q', ind', n) → mq_below N q → n < N ∧ mq_below N q'.
  Proof.
    unfold mq_pop. intros H Hq. destruct (mq_scan (bkts q) (mmax q)) as [m|]; [|done]. cbn [mbind option_bind] in H.
    destruct (bkts q !! m) as [b|] eqn:E; [|done]. cbn [mbind option_bind] in H.
    destruct (last b) as [l|] eqn:El; simplify_eq/=. split.
    - eapply Hq; [by eapply elem_lookup|]. by apply last_Some_elem_of.
    - intros b' x Hb' Hx. simpl in Hb'. apply elem_insert in Hb' as [->|Hb']; [|by eapply Hq].
      apply elem_removelast in Hx. eapply Hq; [by eapply elem_lookup|done].
  Qed.

  Lemma push_below N s n s' : ol_push s n = Some s' → (∀ q, q ∈ qs s → mq_below N q) → n < N →
    ∀ q, q ∈ qs s' → mq_below N q.
  Proof.
    unfold ol_push. intros H Hs Hn. case_decide; [done|].
    set (qs' := if decide (length (qs s) ≤ _) then _ else _) in H.
    assert (Hqs : ∀ q, q ∈ qs' → mq_below N q).
    { intros q Hq. subst qs'. case_decide; [|by apply Hs].
      apply elem_resize in Hq as [->|Hq]; [apply mq_new_below|by apply Hs]. }
    destruct (qs' !! _) as [q|] eqn:E; [|done]. cbn [mbind option_bind] in H.
    destruct (mq_push _ q n _) as [[q1 ind1]|] eqn:Ep; simplify_eq/=.
    intros q' Hq'. simpl in Hq'. apply elem_insert in Hq' as [->|Hq']; [|by apply Hqs].
    eapply mq_push_below; [done| |done]. apply Hqs. by eapply elem_lookup.
  Qed.

  Lemma int_weak : ol_weak int_ol int_clr.
  Proof.
    refine (OlWeak _ int_ol int_clr (λ s N, ∀ q, q ∈ qs s → mq_below N q) _ _ _ _ _ _); simpl.
    - intros s N N' H Hle q Hq b n Hb Hn. specialize (H q Hq b n Hb Hn). lia.
    - intros N q Hq. change (q ∈ replicate 100 mq_new) in Hq. apply elem_of_replicate in Hq as [-> _]. apply mq_new_below.
    - intros s n k s' N Hp H Hn. by eapply push_below.
    - intros s n k s' N Hp H Hn. destruct (IntOpen.Model.ol_pre_update s n) as [s1|] eqn:E; [|done].
      cbn [mbind option_bind] in Hp. unfold ol_post_update in Hp. case_decide; [|done].
      eapply push_below; [done| |done]. simpl. unfold IntOpen.Model.ol_pre_update in E.
      case_decide; [by simplify_eq|]. case_decide; [done|].
      destruct (qs s !! _) as [q|] eqn:Eq; [|done]. cbn [mbind option_bind] in E.
      destruct (mq_rm _ q n _) as [[q1 i1]|] eqn:Er; simplify_eq/=. intros q' Hq'. simpl in Hq'.
      apply elem_insert in Hq' as [->|Hq']; [|by apply H]. eapply mq_rm_below; [done|]. apply H.
      by eapply elem_lookup.
    - intros s s' n N Hp H. unfold IntOpen.Model.ol_pop in Hp.
      set (m := min s + _) in Hp. destruct (qs s !! m) as [q|] eqn:Eq; [|done]. cbn [mbind option_bind] in Hp.
      destruct (mq_pop (ind s) q) as [[[q1 i1] x]|] eqn:Er; [|done]. cbn [mbind option_bind] in Hp.
      case_decide; [|done]. simplify_eq/=.
      destruct (mq_pop_below N _ _ _ _ _ Er) as [Hn Hq1]; [apply H; by eapply elem_lookup|].
      split; [done|]. intros q' Hq'. apply elem_insert in Hq' as [->|Hq']; [done|by apply H].
    - intros s N H q Hq. by apply elem_of_nil in Hq.
  Qed.
End buckets.

(** ** Beam search *)
Section beam.
Set Default Proof Using "All".
Local Open Scope Z_scope.
Context (D : domain) (OK : domain_ok D) (h : St D → Z) (dropdups : bool).
Context (o : openlist (Z * Z)) (clr : ol_T o → ol_T o) (WK : ol_weak o clr).
Context (lim : limits) (width : nat) (s0 : St D).

Notation node := (node D (P:=Z)).
Notation pr_new := (astar_new h).
(** The lemmas about nodes are stated in Search/Proofs.v for some open list that keeps its
    contract, though they do not use it; here they get one that is not the one of the search. *)
Notation ho := (heap_ol astar_lt (0, 0)).
Let hok : ol_ok astar_lt nonneg_key ho := astar_heap_ok.
Notation inv := (inv D pr_new s0).
Notation kid := (kid D pr_new dropdups).

Lemma okk_any : ∀ g s, 0 ≤ g → (λ _ : Z * Z, True) (pr_new g s, g).
Proof. done. Qed.
Lemma astar_upd_new g g' s : astar_upd (pr_new g s) g g' = pr_new g' s.
Proof. unfold astar_upd, astar_new. lia. Qed.

Let TOL : ol_ok astar_lt (λ _, True) ho := heap_ok astar_lt (0, 0) astar_lt_sw.

Definition wgood (s : sstate D o) : Prop :=
  inv (nodes D o s) ∅ ∧ ol_W WK (open D o s) (length (nodes D o s)).

Lemma inv_weaken ns c : inv ns c → inv ns ∅.
Proof. intros [H1 H2 H3 H4 H5 H6 H7]. split; try done. Qed.

Lemma considerkid_wgood (s s' : sstate D o) n pn op :
  wgood s → nodes D o s !! n = Some pn → op ∈ ops (n_state D pn) →
  considerkid D pr_new astar_upd dropdups o s n op = Some s' →
  wgood s' ∧ nodes D o s' !! n = Some pn ∧ prog D (nodes D o s) ∅ (nodes D o s') ∅
  ∧ (nodes D o s' = nodes D o s → open D o s' = open D o s).
Proof.
  intros [Hinv HW] Hn Hop Hc. unfold considerkid in Hc. rewrite Hn in Hc.
  cbn [mbind option_bind] in Hc. rewrite edge_split in Hc.
  assert (Hfin : ∀ c', kid (nodes D o s) ∅ n pn op (nodes D o s') c' →
    (c' ≠ ∅ ∨ nodes D o s' = nodes D o s) →
    ol_W WK (open D o s') (length (nodes D o s')) →
    (nodes D o s' = nodes D o s → open D o s' = open D o s) →
    wgood s' ∧ nodes D o s' !! n = Some pn ∧ prog D (nodes D o s) ∅ (nodes D o s') ∅ ∧
      (nodes D o s' = nodes D o s → open D o s' = open D o s)).
  { intros c' Hk Hne HW' Hopen. split_and!; [split|..]; try done.
    - eapply (inv_weaken _ c'). eapply (kid_inv D pr_new astar_upd dropdups ho lim astar_lt _ OK TOL okk_any
        astar_upd_new s0 _ _ _ _ _ _ _ Hinv Hn Hop Hk).
    - by apply (kid_self D pr_new astar_upd dropdups ho lim astar_lt _ OK TOL okk_any
        astar_upd_new s0 _ _ _ _ _ _ _ Hinv Hn (lookup_empty n) Hop Hk).
    - destruct (kid_prog D pr_new astar_upd dropdups ho lim astar_lt _ OK TOL okk_any
        astar_upd_new s0 _ _ _ _ _ _ _ Hk) as [[Hns Hcc]|Hp]; [|by right].
      destruct Hne as [Hne|Hne]; [by rewrite Hcc in Hne|]. by left. }
  destruct (find_node D (nodes D o s) (dest (n_state D pn) op)) as [d|] eqn:Hf.
  - destruct (find_node_Some _ _ _ Hf) as (dn & Hd & Hst). rewrite Hd in Hc. cbn [mbind option_bind] in Hc.
    destruct (dropdups || _) eqn:Edd.
    { injection Hc as <-. apply (Hfin ∅); [|by right|done|done].
      eapply kid_old; [done|done|]. intros ->. rewrite orb_false_l in Edd. by apply bool_decide_eq_true in Edd. }
    apply orb_false_iff in Edd as [Edd Hlt]. apply bool_decide_eq_false in Hlt.
    destruct (i_pr D pr_new s0 _ _ Hinv _ _ Hd) as [Hpr Hgd].
    unfold improve in Hc. rewrite Hpr, astar_upd_new in Hc.
    set (g := n_g D pn + cost (n_state D pn) op) in *.
    set (a := Node D (Some n) (n_state D dn) op (revop (n_state D pn) op) g (pr_new g (n_state D dn))) in *.
    assert (Hd' : (d < length (nodes D o s))%nat) by by eapply lookup_lt_Some.
    assert (Hkid : kid (nodes D o s) ∅ n pn op (<[d := a]> (nodes D o s))
      (<[d := (pr_new g (n_state D dn), g)]> ∅)).
    { eapply kid_better; [exact Hd|exact Hst|exact Edd|reflexivity|subst g; lia|reflexivity]. }
    assert (Hdiff : <[d := a]> (nodes D o s) ≠ nodes D o s).
    { intros He. assert (Hx : <[d := a]> (nodes D o s) !! d = Some a) by by apply list_lookup_insert.
      rewrite He, Hd in Hx. injection Hx as Hx. apply (f_equal (n_g D)) in Hx. simpl in Hx. lia. }
    destruct (ol_mem o _ d).
    + destruct (ol_update o _ d _) as [q|] eqn:Eq; [|done]. injection Hc as <-.
      apply (Hfin (<[d := (pr_new g (n_state D dn), g)]> ∅)); [exact Hkid| | |].
      * left. apply insert_non_empty.
      * simpl. rewrite insert_length. eapply (olW_update WK); [exact Eq|exact HW|done].
      * simpl. done.
    + destruct (ol_push o _ d _) as [q|] eqn:Eq; [|done]. injection Hc as <-.
      apply (Hfin (<[d := (pr_new g (n_state D dn), g)]> ∅)); [exact Hkid| | |].
      * left. apply insert_non_empty.
      * simpl. rewrite insert_length. eapply (olW_push WK); [exact Eq|exact HW|done].
      * simpl. done.
  - destruct (ol_push o _ _ _) as [q|] eqn:Eq; [|done]. injection Hc as <-.
    eapply Hfin; simpl.
    + eapply kid_new; [|done..]. intros i a Ha. by eapply find_node_None.
    + left. apply insert_non_empty.
    + rewrite app_length. simpl.
      eapply (olW_push WK); [exact Eq| |lia]. eapply (olW_mono WK); [exact HW|lia].
    + intros He. apply (f_equal length) in He. rewrite app_length in He. simpl in He. lia.
Qed.

Lemma expand_ops_wgood n pn os : ∀ s s' : sstate D o,
  wgood s → nodes D o s !! n = Some pn → (∀ op, op ∈ os → op ∈ ops (n_state D pn)) →
  expand_ops D pr_new astar_upd dropdups o s n os = Some s' →
  wgood s' ∧ prog D (nodes D o s) ∅ (nodes D o s') ∅
  ∧ (nodes D o s' = nodes D o s → open D o s' = open D o s).
Proof.
  induction os as [|op os IH]; intros s s' Hg Hn Hos He.
  - injection He as <-. split; [done|]. split; [by left|done].
  - cbn [expand_ops] in He. rewrite Hn in He. cbn [mbind option_bind] in He. case_decide.
    + apply (IH s s' Hg Hn); [set_solver|done].
    + destruct (considerkid D _ _ _ o (add_gend D o s) n op) as [s1|] eqn:Ek; [|done].
      cbn [mbind option_bind] in He.
      destruct (considerkid_wgood (add_gend D o s) s1 n pn op Hg Hn) as (Hg1 & Hn1 & Hp1 & Ho1);
        [set_solver|done|].
      destruct (IH s1 s' Hg1 Hn1) as (Hg' & Hp' & Ho'); [set_solver|done|].
      split; [done|]. cbn [add_gend nodes open] in *. split.
      { by eapply (prog_trans D pr_new astar_upd dropdups ho lim astar_lt _ OK TOL okk_any
        astar_upd_new s0). }
      intros Heq. rewrite Heq in Hp'.
      assert (nodes D o s1 = nodes D o s) as E1.
      { destruct Hp1 as [[-> _]|[?|[? ?]]]; [done| |]; destruct Hp' as [[He' _]|[?|[? ?]]];
          try lia; try (rewrite He' in *; lia). }
      rewrite (Ho' (eq_trans Heq (eq_sym E1))). by apply Ho1.
Qed.

Lemma expand_wgood (s s' : sstate D o) n :
  wgood s → expand D pr_new astar_upd dropdups o s n = Some s' →
  wgood s' ∧ prog D (nodes D o s) ∅ (nodes D o s') ∅
  ∧ (nodes D o s' = nodes D o s → open D o s' = open D o s).
Proof.
  intros Hg He. unfold expand in He. destruct (nodes D o s !! n) as [pn|] eqn:Hn; [|done].
  cbn [mbind option_bind] in He. by apply (expand_ops_wgood n pn (ops (n_state D pn)) (add_expd D o s) s').
Qed.

Lemma fill_W N k : ∀ q q' b, ol_W WK q N → fill o k q = Some (q', b) →
  ol_W WK q' N ∧ ∀ n, n ∈ b → (n < N)%nat.
Proof.
  induction k as [|k IH]; intros q q' b HW Hf; simpl in Hf.
  - injection Hf as <- <-. split; [done|]. intros n Hn. by apply elem_of_nil in Hn.
  - destruct (ol_empty o q).
    { injection Hf as <- <-. split; [done|]. intros n Hn. by apply elem_of_nil in Hn. }
    destruct (ol_pop o q) as [[q1 x]|] eqn:Ep; [|done]. cbn [mbind option_bind] in Hf.
    destruct (fill o k q1) as [[q2 b2]|] eqn:Ef; [|done]. injection Hf as <- <-.
    destruct (olW_pop WK _ _ _ _ Ep HW) as [Hx HW1].
    destruct (IH _ _ _ HW1 Ef) as [HW2 Hb]. split; [done|].
    intros n [->|Hn]%elem_of_cons; [done|by apply Hb].
Qed.

Lemma process_wgood b : ∀ (s : sstate D o) r,
  wgood s → process D pr_new astar_upd dropdups o lim b s = Some r →
  match r with
  | inl s' => wgood s' ∧ prog D (nodes D o s) ∅ (nodes D o s') ∅
      ∧ (nodes D o s' = nodes D o s → open D o s' = open D o s)
  | inr (out, _) => ∃ path os k, out = Some (path, os) ∧
      solution s0 (reverse path) (reverse os) k
  end.
Proof.
  induction b as [|n b IH]; intros s r Hg Hp; cbn [process] in Hp.
  - injection Hp as <-. split; [done|]. split; [by left|done].
  - destruct (limit D o lim s).
    { injection Hp as <-. split; [done|]. split; [by left|done]. }
    destruct (nodes D o s !! n) as [pn|] eqn:Hn; [|done]. cbn [mbind option_bind] in Hp.
    destruct (isgoal (n_state D pn)) eqn:Hgoal.
    + destruct Hg as [Hinv _]. destruct (i_chain D pr_new s0 _ _ Hinv _ _ Hn) as [l Hl].
      destruct (chain_solpath D pr_new astar_upd dropdups ho lim astar_lt _ OK TOL okk_any
        astar_upd_new s0 _ _ _ _ (S (length (nodes D o s))) _ Hinv Hl Hn)
        as (path & os & k & Hsp & Hw & Hh & Hla & _).
      { pose proof (chain_length _ _ _ Hl). lia. }
      rewrite Hsp in Hp. cbn [mbind option_bind] in Hp. injection Hp as <-.
      exists path, os, k. split; [done|]. split; [done|]. split; [done|]. eauto.
    + destruct (expand D _ _ _ o s n) as [s1|] eqn:Ee; [|done]. cbn [mbind option_bind] in Hp.
      destruct (expand_wgood s s1 n Hg Ee) as (Hg1 & Hp1 & Ho1).
      pose proof (IH s1 r Hg1 Hp) as Hr. destruct r as [s'|[out s']]; [|done].
      destruct Hr as (Hg' & Hp' & Ho'). split; [done|]. split.
      { by eapply (prog_trans D pr_new astar_upd dropdups ho lim astar_lt _ OK TOL okk_any
        astar_upd_new s0). }
      intros Heq. rewrite Heq in Hp'.
      assert (nodes D o s1 = nodes D o s) as E1.
      { destruct Hp1 as [[-> _]|[?|[? ?]]]; [done| |]; destruct Hp' as [[He' _]|[?|[? ?]]];
          try lia; try (rewrite He' in *; lia). }
      rewrite (Ho' (eq_trans Heq (eq_sym E1))). by apply Ho1.
Qed.

Lemma bloop_wgood fuel : ∀ (s : sstate D o) out s',
  wgood s → bloop D pr_new astar_upd dropdups o clr lim width fuel s = Some (out, s') →
  match out with
  | None => True
  | Some (path, os) => ∃ k, solution s0 (reverse path) (reverse os) k
  end.
Proof.
  induction fuel as [|fuel IH]; intros s out s' Hg Hb; [done|]. simpl in Hb.
  destruct (ol_empty o (open D o s) || limit D o lim s); [by injection Hb as <- <-|].
  destruct (fill o width (open D o s)) as [[q b]|] eqn:Ef; [|done]. cbn [mbind option_bind] in Hb.
  destruct (fill_W (length (nodes D o s)) _ _ _ _ (proj2 Hg) Ef) as [HW _].
  destruct (process D _ _ _ o lim b _) as [r|] eqn:Ep; [|done]. cbn [mbind option_bind] in Hb.
  assert (Hg1 : wgood (set_open D o s (clr q))).
  { split; [exact (proj1 Hg)|]. simpl. by apply (olW_clear WK). }
  pose proof (process_wgood b _ _ Hg1 Ep) as Hr. destruct r as [s1|[out1 s1]].
  - by eapply IH; [apply Hr|].
  - injection Hb as -> ->. destruct Hr as (path & os & k & -> & Hs). eauto.
Qed.

Lemma init_wgood s : init D pr_new o s0 = Some s → wgood s.
Proof.
  intros Hi. destruct (init_good D pr_new astar_upd dropdups ho lim astar_lt _ OK TOL okk_any
        astar_upd_new s0) as (s1 & _ & (_ & Hinv & _) & _ & _ & Hns).
  unfold init in Hi. destruct (ol_push o _ _ _) as [q|] eqn:Eq; [|done]. injection Hi as <-.
  split; cbn [nodes open].
  - rewrite Hns in Hinv. exact (inv_weaken _ _ Hinv).
  - eapply (olW_push WK); [exact Eq|apply (olW_new WK)|simpl; lia].
Qed.

(** With -dropdups no node is put into the open list twice. *)
Context (push_ok : ∀ q n k, is_Some (ol_push o q n k)).
Context (pop_ok : ∀ q, ol_empty o q = false → is_Some (ol_pop o q)).
Context (clr_empty : ∀ q, ol_empty o (clr q) = true).
Context (Hdd : dropdups = true).

Lemma expand_ops_safe n pn os : ∀ s : sstate D o,
  wgood s → nodes D o s !! n = Some pn → (∀ op, op ∈ os → op ∈ ops (n_state D pn)) →
  is_Some (expand_ops D pr_new astar_upd dropdups o s n os).
Proof.
  induction os as [|op os IH]; intros s Hg Hn Hos; cbn [expand_ops]; [done|].
  rewrite Hn. cbn [mbind option_bind]. case_decide; [apply IH; [done..|set_solver]|].
  assert (Hs : is_Some (considerkid D pr_new astar_upd dropdups o (add_gend D o s) n op)).
  { unfold considerkid. cbn [add_gend nodes open]. rewrite Hn. cbn [mbind option_bind]. rewrite edge_split.
    destruct (find_node D (nodes D o s) _) as [d|] eqn:Hf.
    - destruct (find_node_Some _ _ _ Hf) as (dn & Hd & _). rewrite Hd, Hdd. cbn [mbind option_bind orb]. eauto.
    - destruct (push_ok (open D o s) (length (nodes D o s)) (astar_new h (n_g D pn + cost (n_state D pn) op)
        (dest (n_state D pn) op), n_g D pn + cost (n_state D pn) op)) as [q ->].
      cbn [mbind option_bind]. eauto. }
  destruct Hs as [s1 Hs]. rewrite Hs. cbn [mbind option_bind].
  destruct (considerkid_wgood (add_gend D o s) s1 n pn op Hg Hn) as (Hg1 & Hn1 & _); [set_solver|done|].
  apply IH; [done..|set_solver].
Qed.

Lemma process_safe b : ∀ s : sstate D o, wgood s → (∀ n, n ∈ b → (n < length (nodes D o s))%nat) →
  is_Some (process D pr_new astar_upd dropdups o lim b s).
Proof.
  induction b as [|n b IH]; intros s Hg Hb; cbn [process]; [eauto|].
  destruct (limit D o lim s); [eauto|].
  destruct (lookup_lt_is_Some_2 (nodes D o s) n) as [pn Hn]; [apply Hb; set_solver|].
  rewrite Hn. cbn [mbind option_bind]. destruct (isgoal _).
  - pose proof Hg as [Hinv _]. destruct (i_chain D pr_new s0 _ _ Hinv _ _ Hn) as [l Hl].
    destruct (chain_solpath D pr_new astar_upd dropdups ho lim astar_lt _ OK TOL okk_any
      astar_upd_new s0 _ _ _ _ (S (length (nodes D o s))) _ Hinv Hl Hn)
      as (path & os & k & Hsp & _).
    { pose proof (chain_length _ _ _ Hl). lia. }
    rewrite Hsp. cbn [mbind option_bind]. eauto.
  - destruct (expand_ops_safe n pn (ops (n_state D pn)) (add_expd D o s)) as [s1 Hs1]; [done..|].
    assert (He : expand D pr_new astar_upd dropdups o s n = Some s1).
    { unfold expand. rewrite Hn. exact Hs1. }
    rewrite He. cbn [mbind option_bind]. destruct (expand_wgood s s1 n Hg He) as (Hg1 & Hp & _).
    apply IH; [done|]. intros m Hm. assert (m < length (nodes D o s))%nat by (apply Hb; set_solver).
    destruct Hp as [[-> _]|[?|[? ?]]]; lia.
Qed.

Lemma fill_safe k : ∀ q, is_Some (fill o k q).
Proof.
  induction k as [|k IH]; intros q; simpl; [eauto|]. destruct (ol_empty o q) eqn:E; [eauto|].
  destruct (pop_ok q E) as [[q1 x] ->]. cbn [mbind option_bind].
  destruct (IH q1) as [[q2 b] ->]. cbn [mbind option_bind]. eauto.
Qed.

Lemma bloop_ends U (n1 n2 n3 : nat) :
  (∀ s, reachable s0 s → s ∈ U) →
  ∀ s : sstate D o, wgood s → n1 = (length U - length (nodes D o s))%nat →
    n2 = Z.to_nat (sumg D (nodes D o s)) → n3 = (if ol_empty o (open D o s) then 0 else 1)%nat →
  ∃ r, ends (λ n, bloop D pr_new astar_upd dropdups o clr lim width n s) r.
Proof.
  intros HU. revert n2 n3. induction n1 as [n1 IH1] using lt_wf_ind.
  induction n2 as [n2 IH2] using lt_wf_ind. induction n3 as [n3 IH3] using lt_wf_ind.
  intros s Hg -> -> ->.
  destruct (ol_empty o (open D o s) || limit D o lim s) eqn:Estop.
  { exists (None, s), 1%nat. intros [|n] Hn; [lia|]. simpl. by rewrite Estop. }
  pose proof Estop as [Hne _]%orb_false_iff.
  destruct (fill_safe width (open D o s)) as [[q b] Hf].
  destruct (fill_W (length (nodes D o s)) _ _ _ _ (proj2 Hg) Hf) as [HW Hb].
  set (s1 := set_open D o s (clr q)).
  assert (Hg1 : wgood s1) by (split; [exact (proj1 Hg)|]; simpl; by apply (olW_clear WK)).
  destruct (process_safe b s1 Hg1 Hb) as [r Hr].
  pose proof (process_wgood b s1 r Hg1 Hr) as Hp. destruct r as [s'|[out s']].
  - destruct Hp as (Hg' & Hprog & Hop). simpl in Hprog, Hop.
    cut (∃ r, ends (λ n, bloop D pr_new astar_upd dropdups o clr lim width n s') r).
    { intros [r [k Hk]]. exists r, (S k). intros [|n] Hn; [lia|]. simpl. rewrite Estop, Hf.
      cbn [mbind option_bind]. fold s1. rewrite Hr. cbn [mbind option_bind]. apply Hk. lia. }
    pose proof (nodes_bound D pr_new astar_upd dropdups ho lim astar_lt _ OK TOL okk_any
      astar_upd_new s0 _ _ _ (proj1 Hg) HU) as Hbd.
    pose proof (nodes_bound D pr_new astar_upd dropdups ho lim astar_lt _ OK TOL okk_any
      astar_upd_new s0 _ _ _ (proj1 Hg') HU) as Hbd'.
    pose proof (sumg_nonneg D pr_new astar_upd dropdups ho lim astar_lt _ OK TOL okk_any
      astar_upd_new s0 _ _ (proj1 Hg)) as Hsg.
    pose proof (sumg_nonneg D pr_new astar_upd dropdups ho lim astar_lt _ OK TOL okk_any
      astar_upd_new s0 _ _ (proj1 Hg')) as Hsg'.
    destruct Hprog as [[Hns _]|[Hlen|[Hlen Hsum]]].
    + apply (IH3 0%nat); [by rewrite Hne; lia|done|by rewrite Hns|by rewrite Hns|].
      by rewrite (Hop Hns), clr_empty.
    + eapply IH1; [|exact Hg'|done|done|done]. lia.
    + eapply (IH2 (Z.to_nat (sumg D (nodes D o s')))); [lia|exact Hg'|lia|done|done].
  - exists (out, s'), 1%nat. intros [|n] Hn; [lia|]. simpl. rewrite Estop, Hf.
    cbn [mbind option_bind]. fold s1. by rewrite Hr.
Qed.
End beam.

(** ** C43 *)

(** Whatever the width, the flags and the heuristic, and also when a discarded node is
    rediscovered: if the search survives and reports a path, it is a solution. *)
Theorem C43_beam_solution_real D (h : St D → Z) dropdups o clr lim width :
  domain_ok D → ol_weak o clr →
  ∀ s0 fuel path os s', beam D h dropdups o clr lim width s0 fuel = Some (Some (path, os), s') →
  ∃ k, solution s0 (reverse path) (reverse os) k.
Proof.
  intros OK WK s0 fuel path os s' Hb. unfold beam, bsearch in Hb.
  destruct (init D _ o s0) as [s|] eqn:Ei; [|done]. cbn [mbind option_bind] in Hb.
  pose proof (init_wgood D OK h dropdups o clr WK lim width s0 s Ei) as Hg.
  apply (bloop_wgood D OK h dropdups o clr WK lim width s0 fuel s (Some (path, os)) s' Hg Hb).
Qed.

Corollary C43_beam_heap_solution_real D (h : St D → Z) dropdups lim width :
  domain_ok D →
  ∀ s0 fuel path os s',
  beam D h dropdups (heap_ol astar_lt (0, 0)%Z) (heap_clr _ _) lim width s0 fuel = Some (Some (path, os), s') →
  ∃ k, solution s0 (reverse path) (reverse os) k.
Proof. intros OK. apply C43_beam_solution_real; [done|]. apply heap_weak. Qed.

Corollary C43_beam_int_solution_real D (h : St D → Z) dropdups lim width :
  domain_ok D →
  ∀ s0 fuel path os s',
  beam D h dropdups int_ol int_clr lim width s0 fuel = Some (Some (path, os), s') →
  ∃ k, solution s0 (reverse path) (reverse os) k.
Proof. intros OK. apply C43_beam_solution_real; [done|]. apply int_weak. Qed.

(** With -dropdups and the heap, the search survives and terminates on a finite state space. *)
Theorem C43_beam_dropdups_terminates D (h : St D → Z) lim width :
  domain_ok D → ∀ s0, finite_space s0 →
  ∃ r, ends (beam D h true (heap_ol astar_lt (0, 0)%Z) (heap_clr _ _) lim width s0) r.
Proof.
  intros OK s0 [U HU].
  assert (push_ok : ∀ q n k, is_Some (ol_push (heap_ol astar_lt (0, 0)%Z) q n k)).
  { intros q n k. simpl. unfold BinHeap.Model.ol_push.
    destruct (BinHeap.Proofs.push_rearr astar_lt (BinHeap.Model.setkey q n k) n) as (q' & -> & _). eauto. }
  assert (Hi : is_Some (init D (astar_new h) (heap_ol astar_lt (0, 0)%Z) s0)).
  { unfold init. destruct (push_ok (ol_new _) 0 (astar_new h 0 s0, 0%Z)) as [q ->]. cbn [mbind option_bind]. eauto. }
  destruct Hi as [s Hi].
  pose proof (init_wgood D OK h true _ _ (heap_weak astar_lt (0, 0)%Z) lim width s0 s Hi) as Hg.
  destruct (bloop_ends D OK h true _ _ (heap_weak astar_lt (0, 0)%Z) lim width s0 push_ok) with
    (U := U) (s := s) (n1 := length U - length (nodes D (heap_ol astar_lt (0, 0)%Z) s))
    (n2 := Z.to_nat (sumg D (nodes D (heap_ol astar_lt (0, 0)%Z) s)))
    (n3 := if ol_empty _ (open D (heap_ol astar_lt (0, 0)%Z) s) then 0 else 1) as [r Hr]; try done.
  - intros q Hne. simpl in *. by apply (pop_succeeds astar_lt (0, 0)%Z).
  - exists r. eapply ends_ext; [|exact Hr]. intros n. unfold beam, bsearch. by rewrite Hi.
Qed.

(** ** Examples *)

(** A discarded node (state 2) that is rediscovered over a cheaper path: its stale index makes
    the search run into undefined behaviour with either open list, unless -dropdups is given. *)
Definition stale_dom : domain := table_domain
  [(0, 1, 1%Z); (0, 2, 5%Z); (1, 2, 1%Z); (2, 3, 1%Z)] 3.

Example stale_ok : domain_ok stale_dom.
Proof. by apply table_ok. Qed.
Example stale_solvable : solution (D:=stale_dom) 0 [0; 1; 2; 3] [1; 2; 3] 3%Z.
Proof.
  split; [|split; [done|by exists 3]].
  apply (walk_step stale_dom 0 1 [2; 3] [2; 3] 2%Z); [vm_compute; set_solver|].
  apply (walk_step stale_dom 1 2 [3] [3] 1%Z); [vm_compute; set_solver|].
  apply (walk_step stale_dom 2 3 [] [] 0%Z); [vm_compute; set_solver|]. constructor.
Qed.
Theorem C43_beam_stale_index_aborts :
  ∀ fuel,
  beam stale_dom (λ _, 0%Z) false (heap_ol astar_lt (0, 0)%Z) (heap_clr _ _) no_limits 1 0 fuel = None ∧
  beam stale_dom (λ _, 0%Z) false int_ol int_clr no_limits 1 0 fuel = None.
Proof. intros [|[|[|fuel]]]; vm_compute; done. Qed.

Example stale_dropdups :
  summary (beam stale_dom (λ _, 0%Z) true (heap_ol astar_lt (0, 0)%Z) (heap_clr _ _) no_limits 1 0 10) =
    Some (None, 2, 3, 0, 1).
Proof. vm_compute. done. Qed.
Example stale_wide_heap :
  summary (beam stale_dom (λ _, 0%Z) false (heap_ol astar_lt (0, 0)%Z) (heap_clr _ _) no_limits 2 0 10) =
    Some (Some ([3; 2; 1; 0], [3; 2; 1]), 4, 5, 1, 2).
Proof. vm_compute. done. Qed.
Example stale_wide :
  summary (beam stale_dom (λ _, 0%Z) false int_ol int_clr no_limits 2 0 10) =
    Some (Some ([3; 2; 1; 0], [3; 2; 1]), 4, 5, 1, 2).
Proof. vm_compute. done. Qed.

Print Assumptions C43_beam_solution_real.
Print Assumptions C43_beam_heap_solution_real.
Print Assumptions C43_beam_int_solution_real.
Print Assumptions C43_beam_dropdups_terminates.
Print Assumptions C43_beam_stale_index_aborts.
