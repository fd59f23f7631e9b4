(** BUGSY is a best-first search of Search/Model.v whose open list may pick any
    of its nodes: whatever the utilities are, a run of the model in Bugsy/Model.v
    is matched, round by round, by a run of the search with the open list
    [choice_ol] below. *)
From stdpp Require Import prelude gmap.
From Coq Require Import ZArith Lia ZifyBool ZifyNat.
From Verif Require Import Common.Orders Common.Fuel BinHeap.Model BinHeap.Proofs.
From Verif Require Import Search.Model Search.Proofs Bugsy.Model.
Local Open Scope Z_scope.

Arguments pullup : simpl never.
Arguments pushdown : simpl never.
Arguments fuel : simpl never.

(** ** The heap as a set, for any comparison whatsoever *)
Section shape.
Context {K : Type} (lt : K → K → bool).
Implicit Types h : heap K.

Definition shape h : Prop := exact h ∧ ∀ e, e ∉ arr h → ind h e = -1.

Lemma rearr_shape h h' : rearr h h' → shape h → shape h'.
Proof.
  intros R [He Ho]. split; [by apply (ra_exact _ _ R)|].
  intros e Hn. rewrite (ra_perm _ _ R) in Hn. rewrite (ra_frame _ _ R) by done. by apply Ho.
Qed.

Lemma shape_setkey h e k : shape h → shape (setkey h e k).
Proof. done. Qed.

Lemma shape_ind h e : shape h → ind h e < 0 ↔ e ∉ arr h.
Proof.
  intros [[Hn He] Ho]. split.
  - intros Hi [i Hin]%elem_of_list_lookup. apply He in Hin. lia.
  - intros Hin. rewrite Ho; [lia|done].
Qed.

Lemma push_shape h e :
  shape h → e ∉ arr h →
  ∃ h', push lt h e = Some h' ∧ shape h' ∧ arr h' ≡ₚ e :: arr h ∧ key h' = key h.
Proof.
  intros [[Hnd Hex] Hout] He. unfold push.
  set (h1 := setind (setarr h (arr h ++ [e])) e (Z.of_nat (length (arr (setarr h (arr h ++ [e]))) - 1))).
  assert (arr h1 = arr h ++ [e]) as Harr by done.
  assert (length (arr h1) = S (length (arr h))) as Hl by (rewrite Harr, app_length; simpl; lia).
  assert (shape h1) as Hs1.
  { split; [split|].
    - rewrite Harr. apply NoDup_app. split; [done|]. split; [|apply NoDup_singleton].
      intros x Hx ->%elem_of_list_singleton. done.
    - intros i x Hx. rewrite Harr in Hx. unfold h1. cbn [setind setarr ind arr].
      apply lookup_app_Some in Hx as [Hx|[Hge Hx]].
      + case_decide as Hxe.
        * subst. by apply elem_of_list_lookup_2 in Hx.
        * by apply Hex.
      + apply list_lookup_singleton_Some in Hx as [? ->].
        rewrite decide_True by done. rewrite app_length. simpl. lia.
    - intros x Hx. rewrite Harr in Hx. apply not_elem_of_app in Hx as [Hx Hxe].
      rewrite elem_of_list_singleton in Hxe.
      unfold h1. cbn [setind setarr ind]. rewrite decide_False by done. by apply Hout. }
  destruct (pullup_rearr lt (fuel h1) h1 (length (arr h1) - 1)) as (h' & i' & Hpu & Hra & _).
  { unfold fuel. lia. }
  { lia. }
  rewrite Hpu. simpl. exists h'. split; [done|]. split; [by eapply rearr_shape|].
  split; [|by rewrite (ra_key _ _ Hra)].
  rewrite (ra_perm _ _ Hra), Harr. apply Permutation_app_comm.
Qed.

Lemma update_shape h e :
  shape h → e ∈ arr h →
  ∃ h', update lt h (ind h e) = Some h' ∧ shape h' ∧ arr h' ≡ₚ arr h ∧ key h' = key h.
Proof.
  intros Hs [i Hi]%elem_of_list_lookup. rewrite (proj2 (proj1 Hs) _ _ Hi).
  destruct (update_rearr lt h i) as (h' & -> & Hra); [by eapply lookup_lt_Some|].
  exists h'. split; [done|]. split; [by eapply rearr_shape|]. by destruct Hra.
Qed.

Lemma pop_shape h x l :
  shape h → arr h = x :: l →
  ∃ h', pop lt h = Some (h', Some x) ∧ shape h' ∧ arr h' ≡ₚ l ∧ key h' = key h.
Proof.
  intros [[Hnd Hex] Hout] Harr. unfold pop. rewrite decide_False by (rewrite Harr; simpl; lia).
  rewrite Harr. cbn [lookup list_lookup mbind option_bind].
  pose proof Hnd as Hnd0. rewrite Harr in Hnd. apply NoDup_cons in Hnd as [Hx Hnd].
  case_decide as Hlen.
  - destruct l as [|y l _] using rev_ind; [simpl in Hlen; lia|].
    change (x :: l ++ [y]) with ((x :: l) ++ [y]). rewrite last_snoc. cbn [mbind option_bind].
    set (h1 := setarr h (<[0%nat:=y]> ((x :: l) ++ [y]))).
    set (h2 := setarr h1 (removelast (arr h1))).
    assert (arr h2 = y :: l) as Harr2.
    { exact (removelast_last (y :: l) y). }
    change (arr (setarr h1 (removelast (arr h1)))) with (arr h2).
    rewrite Harr2. cbn [lookup list_lookup mbind option_bind].
    set (h3 := setind h2 y 0).
    assert (arr h3 = y :: l) as Harr3 by done.
    assert (y ∉ l) as Hyl.
    { intros Hy. apply NoDup_app in Hnd as (_ & Hnd & _). apply (Hnd y); [done|]. by apply elem_of_list_singleton. }
    destruct (pushdown_rearr lt (fuel h3) h3 0) as (h4 & i4 & Hpd & Hra).
    { unfold fuel. lia. }
    { rewrite Harr3. simpl. lia. }
    rewrite Hpd. simpl. eexists. split; [done|].
    assert (arr h4 ≡ₚ y :: l) as HP by (by rewrite (ra_perm _ _ Hra), Harr3).
    assert (exact h3) as Hex3.
    { split.
      - rewrite Harr3. apply NoDup_cons. split; [done|]. by apply NoDup_app in Hnd as (? & _).
      - intros i e Hi. rewrite Harr3 in Hi. unfold h3. cbn [setind ind].
        destruct i as [|i]; simpl in Hi.
        + injection Hi as <-. by rewrite decide_True.
        + rewrite decide_False by (intros ->; by apply elem_of_list_lookup_2 in Hi).
          apply Hex. rewrite Harr. simpl. by apply lookup_app_l_Some. }
    assert (x ∉ arr h4) as Hx4.
    { rewrite HP. intros [->|Hxl]%elem_of_cons; apply Hx; apply elem_of_app; [right|by left].
      by apply elem_of_list_singleton. }
    split; [split|split].
    + pose proof (ra_exact _ _ Hra Hex3) as [Hn4 He4]. split; [done|].
      intros i e Hi. cbn [setind ind arr] in *. rewrite decide_False; [by apply He4|].
      intros ->. by apply elem_of_list_lookup_2 in Hi.
    + intros e He. cbn [setind ind arr] in *. case_decide as Hxe; [done|].
      rewrite (ra_frame _ _ Hra) by (rewrite Harr3, <-HP; done).
      unfold h3. cbn [setind ind]. rewrite decide_False.
      * apply Hout. rewrite Harr. rewrite HP in He. intros Hin. apply He.
        rewrite elem_of_cons, elem_of_app, elem_of_list_singleton in Hin.
        rewrite elem_of_cons. naive_solver.
      * intros ->. apply He. rewrite HP. by left.
    + cbn [setind arr]. rewrite HP. by rewrite Permutation_app_comm.
    + cbn [setind key]. by rewrite (ra_key _ _ Hra).
  - destruct l as [|y l]; [|simpl in Hlen; lia]. cbn [mbind option_bind removelast].
    eexists. split; [done|]. split; [split; [split|]|].
    + cbn. apply NoDup_nil_2.
    + intros i e Hi. done.
    + intros e _. cbn [setind setarr ind]. case_decide as Hxe; [done|]. apply Hout.
      rewrite Harr. by intros ->%elem_of_list_singleton.
    + done.
Qed.
End shape.

(** ** The open list that picks any node *)

(** The state is the number of pops made and the set of contained nodes; the
    [i]-th pop takes node [f i] if it is there. *)
Definition choice_pop (f : nat → nat) (s : nat * gset nat) : option (nat * gset nat * nat) :=
  let n := if decide (f s.1 ∈ s.2) then Some (f s.1) else head (elements s.2) in
  n ← n; Some (S s.1, s.2 ∖ {[n]}, n).

Definition choice_ol (f : nat → nat) : openlist (unit * Z) := OpenList
  (nat * gset nat)%type
  (0%nat, ∅)
  (λ s n _, Some (s.1, {[n]} ∪ s.2))
  (choice_pop f)
  (λ s n _, Some (s.1, {[n]} ∪ s.2))
  (λ s, bool_decide (s.2 = ∅))
  (λ s n, bool_decide (n ∈ s.2)).

Definition nolt (a b : unit * Z) : bool := false.

Lemma choice_ok f : ol_ok nolt (λ _, True) (choice_ol f).
Proof.
  refine (OlOk _ nolt (λ _, True) (choice_ol f) (λ s c, s.2 = dom c) _ _ _ _ _ _); simpl.
  - by rewrite dom_empty_L.
  - intros s c n k Hs Hn _. eexists. split; [done|]. simpl. by rewrite Hs, dom_insert_L.
  - intros [i X] c Hs Hne. simpl in Hs. subst X. unfold choice_pop. cbn [fst snd].
    assert (∃ n, (if decide (f i ∈ dom c) then Some (f i) else head (elements (dom c))) = Some n ∧ n ∈ dom c)
      as (n & -> & Hn).
    { case_decide; [by eauto|]. destruct (elements (dom c)) as [|x l] eqn:E.
      - apply elements_empty_inv in E. apply dom_empty_inv in E. done.
      - exists x. split; [done|]. apply elem_of_elements. rewrite E. by left. }
    pose proof Hn as [k Hk]%elem_of_dom. exists (S i, dom c ∖ {[n]}), n, k.
    split; [done|]. split; [done|]. split; [done|]. simpl. by rewrite dom_delete_L.
  - intros s c n k k' Hs Hn _. eexists. split; [done|]. simpl. by rewrite Hs, dom_insert_L.
  - intros s c Hs. apply bool_decide_ext. rewrite Hs. split.
    + apply dom_empty_inv_L.
    + intros ->. apply dom_empty_L.
  - intros s c n Hs. apply bool_decide_ext. by rewrite Hs, elem_of_dom.
Qed.

(** ** The simulation *)
Section sim.
Context (D : domain) (hh dd : St D → Z).
Context {E K : Type} (lt : K → K → bool) (k0 : K) (est0 : E).
Context (util : nat → E → Z → fields → E * K).
Context (on_expand : nat → E → fields → E).
Context (on_kids : E → fields → list kidinfo → E).
Context (refresh : nat → E → option E).
Context (dropdups : bool) (lim : limits).
Context (s0 : St D).
Set Default Proof Using "All".

Notation bstate := (bstate D (E:=E) (K:=K)).
Notation computeutil := (computeutil D util).
Notation bconsider := (considerkid D hh dd lt util dropdups).
Notation bexpand_ops := (expand_ops D hh dd lt util dropdups).
Notation bexpand := (expand D hh dd lt util on_expand on_kids dropdups).
Notation bstep := (bstep D hh dd lt util on_expand on_kids refresh dropdups lim).
Notation binit := (binit D hh dd lt k0 est0 util).
Notation bloop := (bloop D hh dd lt util on_expand on_kids refresh dropdups lim).
Notation bsearch := (bsearch D hh dd lt k0 est0 util on_expand on_kids refresh dropdups lim).

Definition erase (n : node D (P:=fields)) : node D (P:=unit) :=
  Node D (n_parent D n) (n_state D n) (n_op D n) (n_pop D n) (n_g D n) tt.

Lemma erase_find ns t : find_node D (erase <$> ns) t = find_node D ns t.
Proof. induction ns as [|n ns IH]; [done|]. rewrite fmap_cons. cbn [find_node erase n_state]. case_decide; [done|]. by rewrite IH. Qed.

Lemma erase_solpath fuel ns i : solpath D fuel (erase <$> ns) i = solpath D fuel ns i.
Proof.
  revert i. induction fuel as [|fuel IH]; intros i; [done|]. simpl.
  rewrite list_lookup_fmap. destruct (ns !! i) as [n|]; [|done]. simpl.
  destruct (n_parent D n) as [p|]; [|done]. by rewrite IH.
Qed.

Section with_f.
Context (f : nat → nat).
Notation o := (choice_ol f).
Notation sstate := (sstate D o).
Notation pnew := (λ (_ : Z) (_ : St D), tt).
Notation pupd := (λ (_ : unit) (_ _ : Z), tt).

Record rel (i : nat) (b : bstate) (s : sstate) : Prop := Rel {
  r_nodes : nodes D o s = erase <$> b_nodes D b;
  r_count : (open D o s).1 = i;
  r_set : ∀ x, x ∈ arr (b_open D b) ↔ x ∈ (open D o s).2;
  r_shape : shape (b_open D b);
  r_bound : ∀ x, x ∈ arr (b_open D b) → (x < length (b_nodes D b))%nat;
  r_cnt : expd D o s = b_expd D b ∧ gend D o s = b_gend D b ∧
    reopnd D o s = b_reopnd D b ∧ dups D o s = b_dups D b }.

(** Only the estimates and the keys change. *)
Definition same (b b' : bstate) : Prop :=
  b_nodes D b' = b_nodes D b ∧ b_expd D b' = b_expd D b ∧ b_gend D b' = b_gend D b ∧
  b_reopnd D b' = b_reopnd D b ∧ b_dups D b' = b_dups D b ∧
  arr (b_open D b') = arr (b_open D b) ∧ ind (b_open D b') = ind (b_open D b).

Lemma computeutil_same (b : bstate) i n :
  b_nodes D b !! i = Some n → ∃ b', computeutil b i = Some b' ∧ same b b'.
Proof.
  intros Hn. unfold computeutil. rewrite Hn. cbn [mbind option_bind].
  destruct (util _ _ _ _) as [e k]. eexists. split; [done|]. done.
Qed.

Lemma shape_same (h h' : heap K) : arr h' = arr h → ind h' = ind h → shape h → shape h'.
Proof. unfold shape, exact. by intros -> ->. Qed.

Lemma same_rel i (b b' : bstate) s : same b b' → rel i b s → rel i b' s.
Proof.
  intros (E1 & E2 & E3 & E4 & E5 & E6 & E7) [H1 H2 H3 H4 H5 H6].
  split; rewrite ?E1, ?E2, ?E3, ?E4, ?E5, ?E6; try done. by eapply shape_same.
Qed.

Lemma consider_sim i (b : bstate) (s : sstate) n op pn :
  rel i b s → b_nodes D b !! n = Some pn →
  ∃ b' k s', bconsider b n op = Some (b', k) ∧
    Search.Model.considerkid D pnew pupd dropdups o s n op = Some s' ∧ rel i b' s' ∧
    ∃ pn', b_nodes D b' !! n = Some pn'.
Proof.
  intros [H1 H2 H3 H4 H5 (C1 & C2 & C3 & C4)] Hn. unfold considerkid, Search.Model.considerkid.
  rewrite H1, list_lookup_fmap, Hn. cbn [fmap option_fmap option_map mbind option_bind].
  cbn [erase n_state n_g]. destruct (edge (n_state D pn) op) as [[t c] rev].
  rewrite erase_find. destruct (find_node D (b_nodes D b) t) as [j|] eqn:Hf.
  - destruct (find_node_Some _ _ _ Hf) as (dn & Hd & Hst). rewrite list_lookup_fmap, Hd.
    cbn [fmap option_fmap option_map mbind option_bind erase n_state n_g].
    destruct (dropdups || bool_decide (n_g D dn ≤ n_g D pn + c)) eqn:Edd.
    { eexists _, _, _. split; [done|]. split; [done|]. split; [|by eauto].
      split; cbn [add_dups b_nodes b_open b_expd b_gend b_reopnd b_dups]; try done.
      cbn [Search.Model.add_dups expd gend reopnd dups]. auto. }
    unfold improve. cbn [Search.Model.add_dups nodes open expd gend reopnd dups ol_mem choice_ol].
    set (b1 := if decide (ind (b_open D (add_dups D b)) j < 0) then add_reopnd D (add_dups D b) else add_dups D b).
    set (nn := Node D (Some n) (n_state D dn) op rev (n_g D pn + c) _).
    assert (b_nodes D b1 = b_nodes D b ∧ b_open D b1 = b_open D b ∧ b_expd D b1 = b_expd D b ∧
            b_gend D b1 = b_gend D b ∧ b_dups D b1 = S (b_dups D b)) as (N1 & N2 & N3 & N4 & N5).
    { unfold b1. by destruct (decide _). }
    set (b2 := set_nodes D b1 (<[j:=nn]> (b_nodes D b1))).
    assert (b_nodes D b2 !! j = Some nn) as Hj.
    { unfold b2. cbn [set_nodes b_nodes]. apply list_lookup_insert. rewrite N1. by eapply lookup_lt_Some. }
    destruct (computeutil_same b2 j nn Hj) as (b3 & -> & S1 & S2 & S3 & S4 & S5 & S6 & S7).
    cbn [mbind option_bind]. unfold b2 in S1, S2, S3, S4, S5, S6, S7.
    cbn [set_nodes b_nodes b_open b_expd b_gend b_reopnd b_dups] in S1, S2, S3, S4, S5, S6, S7.
    rewrite N1 in S1. rewrite N2 in S6, S7. rewrite N3 in S2. rewrite N4 in S3. rewrite N5 in S5.
    assert (shape (b_open D b3)) as Hsh by by eapply shape_same.
    unfold pushupdate.
    assert (∀ b' : bstate, b_nodes D b' = <[j:=nn]> (b_nodes D b) →
      ∃ pn', b_nodes D b' !! n = Some pn') as Hpn'.
    { intros b' ->. apply lookup_lt_is_Some. rewrite insert_length. by eapply lookup_lt_Some. }
    destruct (decide (ind (b_open D b3) j < 0)) as [Hind|Hind].
    + assert (j ∉ arr (b_open D b3)) as Hnj by by apply shape_ind.
      destruct (push_shape lt _ _ Hsh Hnj) as (h' & -> & Hs' & HP & Hk). cbn [mbind option_bind].
      rewrite S6 in Hnj, HP. rewrite (bool_decide_eq_false_2 (j ∈ (open D o s).2)) by (by rewrite <-H3).
      eexists _, _, _. split; [done|]. split; [done|].
      split; [|apply Hpn'; cbn [set_open b_nodes]; done].
      split; cbn [set_open b_nodes b_open b_expd b_gend b_reopnd b_dups nodes open expd gend reopnd dups fst snd].
      * rewrite S1, H1, list_fmap_insert. done.
      * done.
      * intros x. rewrite HP, elem_of_cons, elem_of_union, elem_of_singleton, H3. done.
      * done.
      * intros x. rewrite HP, S1, insert_length, elem_of_cons. intros [->|Hx]; [by eapply lookup_lt_Some|auto].
      * rewrite S2, S3, S4, S5, C1, C2, C4. split_and!; try done.
        unfold b1. rewrite decide_True; [by cbn; rewrite C3|]. cbn [add_dups b_open]. by rewrite S7 in Hind.
    + assert (j ∈ arr (b_open D b3)) as Hnj.
      { destruct (decide (j ∈ arr (b_open D b3))); [done|]. exfalso. apply Hind. by apply shape_ind. }
      destruct (update_shape lt _ _ Hsh Hnj) as (h' & -> & Hs' & HP & Hk). cbn [mbind option_bind].
      rewrite S6 in Hnj, HP. rewrite (bool_decide_eq_true_2 (j ∈ (open D o s).2)) by (by rewrite <-H3).
      eexists _, _, _. split; [done|]. split; [done|].
      split; [|apply Hpn'; cbn [set_open b_nodes]; done].
      split; cbn [set_open b_nodes b_open b_expd b_gend b_reopnd b_dups nodes open expd gend reopnd dups fst snd].
      * rewrite S1, H1, list_fmap_insert. done.
      * done.
      * intros x. rewrite HP, elem_of_union, elem_of_singleton, H3. rewrite H3 in Hnj.
        split; [by right|]. intros [->|?]; done.
      * done.
      * intros x. rewrite HP, S1, insert_length. auto.
      * rewrite S2, S3, S4, S5, C1, C2, C4. split_and!; try done.
        unfold b1. rewrite decide_False; [done|]. cbn [add_dups b_open]. by rewrite S7 in Hind.
  - set (nn := Node D (Some n) t op rev (n_g D pn + c) _).
    set (b2 := set_nodes D b (b_nodes D b ++ [nn])).
    assert (b_nodes D b2 !! length (b_nodes D b) = Some nn) as Hj.
    { unfold b2. cbn [set_nodes b_nodes]. rewrite lookup_app_r by lia. by rewrite Nat.sub_diag. }
    destruct (computeutil_same b2 _ nn Hj) as (b3 & -> & S1 & S2 & S3 & S4 & S5 & S6 & S7).
    cbn [mbind option_bind]. unfold b2 in S1, S2, S3, S4, S5, S6, S7.
    cbn [set_nodes b_nodes b_open b_expd b_gend b_reopnd b_dups] in S1, S2, S3, S4, S5, S6, S7.
    assert (shape (b_open D b3)) as Hsh by by eapply shape_same.
    assert (length (b_nodes D b) ∉ arr (b_open D b3)) as Hnj.
    { rewrite S6. intros Hin. apply H5 in Hin. lia. }
    destruct (push_shape lt _ _ Hsh Hnj) as (h' & -> & Hs' & HP & Hk). cbn [mbind option_bind].
    rewrite S6 in Hnj, HP.
    eexists _, _, _. split; [done|]. cbn [ol_push choice_ol]. split; [done|].
    split.
    2:{ cbn [set_open b_nodes]. rewrite S1. exists pn. by apply lookup_app_l_Some. }
    split; cbn [set_open b_nodes b_open b_expd b_gend b_reopnd b_dups nodes open expd gend reopnd dups fst snd].
    + rewrite S1, fmap_app. done.
    + done.
    + intros x. rewrite HP, elem_of_cons, elem_of_union, elem_of_singleton, fmap_length, H3. done.
    + done.
    + intros x. rewrite HP, S1, app_length, elem_of_cons. simpl. intros [->|Hx]; [lia|]. apply H5 in Hx. lia.
    + rewrite S2, S3, S4, S5. done.
Qed.

Lemma expand_ops_sim os i (b : bstate) (s : sstate) n pn :
  rel i b s → b_nodes D b !! n = Some pn →
  ∃ b' ks s', bexpand_ops b n os = Some (b', ks) ∧
    Search.Model.expand_ops D pnew pupd dropdups o s n os = Some s' ∧ rel i b' s' ∧
    ∃ pn', b_nodes D b' !! n = Some pn'.
Proof.
  revert b s pn. induction os as [|op os IH]; intros b s pn Hr Hn; cbn [expand_ops Search.Model.expand_ops].
  { eexists _, _, _. split; [done|]. split; [done|]. eauto. }
  rewrite (r_nodes _ _ _ Hr), list_lookup_fmap, Hn.
  cbn [fmap option_fmap option_map mbind option_bind erase n_pop].
  case_decide as Hop; [by eapply IH|].
  assert (rel i (add_gend D b) (Search.Model.add_gend D o s)) as Hr'.
  { destruct Hr as [H1 H2 H3 H4 H5 (C1 & C2 & C3 & C4)].
    split; cbn [add_gend Search.Model.add_gend b_nodes b_open b_expd b_gend b_reopnd b_dups
      nodes open expd gend reopnd dups]; try done. auto. }
  destruct (consider_sim i _ _ n op pn Hr' Hn) as (b1 & k & s1 & -> & -> & Hr1 & pn1 & Hn1).
  cbn [mbind option_bind].
  destruct (IH b1 s1 pn1 Hr1 Hn1) as (b2 & ks & s2 & -> & -> & Hr2 & Hpn2).
  eexists _, _, _. split; [done|]. split; [done|]. done.
Qed.

Lemma recompute_same is (b : bstate) s i :
  rel i b s → (∀ j, j ∈ is → (j < length (arr (b_open D b)))%nat) →
  ∃ b', recompute D util b is = Some b' ∧ same b b'.
Proof.
  revert b. induction is as [|j is IH]; intros b Hr His; cbn [recompute].
  { eexists. split; [done|]. done. }
  destruct (lookup_lt_is_Some_2 (arr (b_open D b)) j) as [x Hx]; [apply His; by left|].
  rewrite Hx. cbn [mbind option_bind].
  destruct (lookup_lt_is_Some_2 (b_nodes D b) x) as [n Hn].
  { apply (r_bound _ _ _ Hr). by eapply elem_of_list_lookup_2. }
  destruct (computeutil_same b x n Hn) as (b1 & -> & Hs). cbn [mbind option_bind].
  destruct (IH b1) as (b2 & -> & Hs2).
  - by eapply same_rel.
  - intros j' Hj'. destruct Hs as (_ & _ & _ & _ & _ & -> & _). apply His. by right.
  - eexists. split; [done|]. destruct Hs as (E1 & E2 & E3 & E4 & E5 & E6 & E7).
    destruct Hs2 as (F1 & F2 & F3 & F4 & F5 & F6 & F7). split_and!; congruence.
Qed.

Lemma rebuild_rel is (b : bstate) s i :
  rel i b s → (∀ j, j ∈ is → (j < length (arr (b_open D b)))%nat) →
  ∃ b', rebuild D lt util b is = Some b' ∧ rel i b' s.
Proof.
  revert b. induction is as [|j is IH]; intros b Hr His; cbn [rebuild].
  { eexists. split; [done|]. done. }
  destruct (lookup_lt_is_Some_2 (arr (b_open D b)) j) as [x Hx]; [apply His; by left|].
  rewrite Hx. cbn [mbind option_bind].
  destruct (lookup_lt_is_Some_2 (b_nodes D b) x) as [n Hn].
  { apply (r_bound _ _ _ Hr). by eapply elem_of_list_lookup_2. }
  destruct (computeutil_same b x n Hn) as (b1 & -> & Hs). cbn [mbind option_bind].
  pose proof (same_rel _ _ _ _ Hs Hr) as Hr1.
  destruct Hs as (E1 & E2 & E3 & E4 & E5 & E6 & E7).
  destruct (pushdown_rearr lt (fuel (b_open D b1)) (b_open D b1) j) as (q & j' & -> & Hra).
  { unfold fuel. rewrite E6. assert (j < length (arr (b_open D b)))%nat by (apply His; by left). lia. }
  { rewrite E6. apply His. by left. }
  cbn [mbind option_bind]. apply IH.
  - destruct Hr1 as [H1 H2 H3 H4 H5 H6].
    split; cbn [set_open b_nodes b_open b_expd b_gend b_reopnd b_dups]; try done.
    + intros y. by rewrite (ra_perm _ _ Hra).
    + by eapply rearr_shape.
    + intros y. rewrite (ra_perm _ _ Hra). apply H5.
  - intros y Hy. cbn [set_open b_open]. rewrite (rearr_len _ _ Hra), E6. apply His. by right.
Qed.

Lemma downto_in a j : j ∈ downto a ↔ (j ≤ a)%nat.
Proof. unfold downto. rewrite elem_of_reverse, elem_of_seq. lia. Qed.

Lemma updateopen_rel (b : bstate) s i :
  rel i b s → ∃ b', updateopen D lt util refresh b = Some b' ∧ rel i b' s.
Proof.
  intros Hr. unfold updateopen. destruct (refresh _ _) as [e|]; [|by eauto].
  unfold reinitheap.
  assert (rel i (set_est D b e) s) as Hr1 by (destruct Hr; by split).
  cbn [set_est b_open]. case_decide as Hsz; [by eauto|].
  assert (length (arr (b_open D b)) / 2 < length (arr (b_open D b)))%nat as Hdiv.
  { apply Nat.div_lt; lia. }
  destruct (recompute_same (reverse (seq (S (length (arr (b_open D b)) / 2))
    (length (arr (b_open D b)) - 1 - length (arr (b_open D b)) / 2))) (set_est D b e) s i Hr1)
    as (b1 & -> & Hs).
  { intros j. rewrite elem_of_reverse, elem_of_seq. cbn [set_est b_open]. lia. }
  cbn [mbind option_bind]. apply rebuild_rel.
  - by eapply same_rel.
  - intros j. rewrite downto_in. destruct Hs as (_ & _ & _ & _ & _ & -> & _).
    cbn [set_est b_open]. lia.
Qed.

Lemma limit_rel i (b : bstate) s : rel i b s → limit D o lim s = blimit D lim b.
Proof. intros [_ _ _ _ _ (C1 & C2 & _ & _)]. unfold limit, blimit. by rewrite C1, C2. Qed.

Lemma empty_rel i (b : bstate) s : rel i b s → ol_empty o (open D o s) = empty (b_open D b).
Proof.
  intros Hr. cbn [ol_empty choice_ol]. unfold empty. apply bool_decide_ext. split.
  - intros Hs. destruct (arr (b_open D b)) as [|x l] eqn:Ea; [done|].
    exfalso. apply (not_elem_of_empty (C:=gset nat) x). rewrite <-Hs. apply (r_set _ _ _ Hr). rewrite Ea. by left.
  - intros Hs. apply nil_length_inv in Hs. apply set_eq. intros x. rewrite <-(r_set _ _ _ Hr), Hs.
    split; intros Hx; [by apply elem_of_nil in Hx|by apply not_elem_of_empty in Hx].
Qed.

(** One round, if the choices agree with the heap. *)
Lemma step_sim i (b : bstate) s :
  rel i b s → (∀ x l, arr (b_open D b) = x :: l → f i = x) →
  match bstep b with
  | Some (inl b') => ∃ s', Search.Model.step D pnew pupd dropdups o lim s = Some (inl s') ∧ rel (S i) b' s'
  | Some (inr out) => Search.Model.step D pnew pupd dropdups o lim s = Some (inr out)
  | None => Search.Model.step D pnew pupd dropdups o lim s = None
  end.
Proof.
  intros Hr Hf. unfold bstep, step. rewrite (empty_rel _ _ _ Hr), (limit_rel _ _ _ Hr).
  destruct (empty (b_open D b) || blimit D lim b) eqn:Ee; [done|].
  apply orb_false_iff in Ee as [Ee _]. unfold empty in Ee. apply bool_decide_eq_false in Ee.
  destruct (arr (b_open D b)) as [|x l] eqn:Ea; [done|]. specialize (Hf x l eq_refl).
  destruct (pop_shape lt _ x l (r_shape _ _ _ Hr) Ea) as (q & -> & Hsh & HP & Hk).
  cbn [mbind option_bind set_open b_nodes ol_pop choice_ol]. unfold choice_pop.
  rewrite (r_count _ _ _ Hr), Hf, decide_True.
  2:{ apply (r_set _ _ _ Hr). rewrite Ea. by left. }
  cbn [mbind option_bind Search.Model.set_open nodes].
  rewrite (r_nodes _ _ _ Hr), list_lookup_fmap.
  destruct (b_nodes D b !! x) as [pn|] eqn:Hn; [|done].
  cbn [fmap option_fmap option_map mbind option_bind erase n_state].
  destruct (isgoal (n_state D pn)) eqn:Egoal.
  { rewrite fmap_length, erase_solpath. by destruct (solpath D _ _ _). }
  assert (NoDup (x :: l)) as Hnd by (rewrite <-Ea; apply (r_shape _ _ _ Hr)).
  apply NoDup_cons in Hnd as [Hx _].
  unfold expand, Search.Model.expand. cbn [set_open b_nodes Search.Model.set_open nodes].
  rewrite Hn, (r_nodes _ _ _ Hr), list_lookup_fmap, Hn.
  cbn [fmap option_fmap option_map mbind option_bind erase n_state].
  set (b1 := set_est _ _ _). set (s1 := Search.Model.add_expd _ _ _).
  assert (rel (S i) b1 s1) as Hr1.
  { destruct Hr as [H1 H2 H3 H4 H5 (C1 & C2 & C3 & C4)].
    split; cbn [b1 s1 set_est set_open add_expd Search.Model.add_expd Search.Model.set_open
      b_nodes b_open b_expd b_gend b_reopnd b_dups nodes open expd gend reopnd dups fst snd]; try done.
    - intros y. rewrite HP, elem_of_difference, elem_of_singleton, <-H3, Ea, elem_of_cons.
      split; [|naive_solver]. intros Hy. split; [by right|]. by intros ->.
    - intros y. rewrite HP. intros Hy. apply H5. rewrite Ea. by right.
    - auto. }
  destruct (expand_ops_sim (ops (n_state D pn)) (S i) b1 s1 x pn Hr1 Hn)
    as (b2 & ks & s2 & -> & -> & Hr2 & pn2 & Hn2).
  cbn [mbind option_bind]. rewrite Hn2. cbn [mbind option_bind].
  set (b3 := set_est _ _ _).
  assert (rel (S i) b3 s2) as Hr3 by (destruct Hr2; by split).
  destruct (updateopen_rel _ _ _ Hr3) as (b4 & -> & Hr4). cbn [mbind option_bind]. eauto.
Qed.

Lemma init_sim :
  ∃ b s, binit s0 = Some b ∧ Search.Model.init D pnew o s0 = Some s ∧ rel 0 b s.
Proof.
  unfold binit. set (n0 := Node _ _ _ _ _ _ _). set (b0 := BState _ _ _ _ _ _ _ _).
  destruct (computeutil_same b0 0 n0 eq_refl) as (b1 & -> & S1 & S2 & S3 & S4 & S5 & S6 & S7).
  cbn [mbind option_bind].
  assert (shape (b_open D b1)) as Hsh.
  { eapply shape_same; [exact S6|exact S7|]. split; [split; [apply NoDup_nil_2|]|]; done. }
  destruct (push_shape lt _ 0%nat Hsh) as (h' & -> & Hs' & HP & Hk).
  { rewrite S6. apply not_elem_of_nil. }
  cbn [mbind option_bind]. rewrite S6 in HP. cbn [b0 b_open new arr] in HP.
  eexists _, _. split; [done|]. split; [done|].
  split; cbn [set_open b_nodes b_open b_expd b_gend b_reopnd b_dups nodes open expd gend reopnd dups fst snd
    ol_push ol_new choice_ol].
  - by rewrite S1.
  - done.
  - intros x. rewrite HP, elem_of_list_singleton. set_solver.
  - done.
  - intros x. rewrite HP, elem_of_list_singleton, S1. intros ->. simpl. lia.
  - rewrite S2, S3, S4, S5. done.
Qed.
End with_f.

(** The state after [i] rounds, if the search is still running then. *)
Fixpoint biter (i : nat) : option bstate :=
  match i with
  | O => binit s0
  | S i =>
    b ← biter i;
    r ← bstep b;
    match r with inl b' => Some b' | inr _ => None end
  end.

(** The node popped in round [i]. *)
Definition pops (i : nat) : nat :=
  default 0%nat (b ← biter i; head (arr (b_open D b))).

Notation oc := (choice_ol pops).
Notation pnew := (λ (_ : Z) (_ : St D), tt).
Notation pupd := (λ (_ : unit) (_ _ : Z), tt).

Lemma pops_agree i b x l : biter i = Some b → arr (b_open D b) = x :: l → pops i = x.
Proof. intros Hb Ha. unfold pops. rewrite Hb. simpl. by rewrite Ha. Qed.

Lemma iter_sim i b :
  biter i = Some b → ∃ s, running D pnew pupd dropdups oc lim s0 s ∧ rel pops i b s.
Proof.
  revert b. induction i as [|i IH]; intros b Hb; cbn [biter] in Hb.
  - destruct (init_sim pops) as (b' & s & Hb' & Hs & Hr). rewrite Hb in Hb'. injection Hb' as <-.
    exists s. split; [by constructor|done].
  - destruct (biter i) as [b1|] eqn:E1; [|done]. cbn [mbind option_bind] in Hb.
    destruct (IH b1 eq_refl) as (s & Hrun & Hr).
    pose proof (step_sim pops i b1 s Hr (λ x l Hx, pops_agree i b1 x l E1 Hx)) as Hs.
    destruct (bstep b1) as [[b2|out]|]; [|done..]. cbn [mbind option_bind] in Hb. injection Hb as <-.
    destruct Hs as (s' & Hs' & Hr'). exists s'. split; [by eapply running_step|done].
Qed.

Lemma brunning_iter b :
  brunning D hh dd lt k0 est0 util on_expand on_kids refresh dropdups lim s0 b → ∃ i, biter i = Some b.
Proof.
  induction 1 as [b Hi|b b' Hr [i IH] Hs].
  - by exists 0%nat.
  - exists (S i). cbn [biter]. rewrite IH. cbn [mbind option_bind]. by rewrite Hs.
Qed.

Lemma iter_brunning i b :
  biter i = Some b → brunning D hh dd lt k0 est0 util on_expand on_kids refresh dropdups lim s0 b.
Proof.
  revert b. induction i as [|i IH]; intros b Hb; cbn [biter] in Hb; [by constructor|].
  destruct (biter i) as [b1|] eqn:E1; [|done]. cbn [mbind option_bind] in Hb.
  destruct (bstep b1) as [[b2|out]|] eqn:E2; [|done..]. cbn [mbind option_bind] in Hb. injection Hb as <-.
  eapply brunning_step; [by apply IH|done].
Qed.

Lemma brunning_sim b :
  brunning D hh dd lt k0 est0 util on_expand on_kids refresh dropdups lim s0 b →
  ∃ i s, running D pnew pupd dropdups oc lim s0 s ∧ rel pops i b s.
Proof. intros [i Hi]%brunning_iter. exists i. by apply iter_sim. Qed.

(** The whole run. *)
Lemma loop_sim fuel i b s :
  biter i = Some b → rel pops i b s →
  match bloop fuel b with
  | Some (out, b') => ∃ j s', biter j = Some b' ∧ rel pops j b' s' ∧
      Search.Model.loop D pnew pupd dropdups oc lim fuel s = Some (out, s')
  | None => Search.Model.loop D pnew pupd dropdups oc lim fuel s = None
  end.
Proof.
  revert i b s. induction fuel as [|fuel IH]; intros i b s Hb Hr; [done|].
  cbn [bloop loop].
  pose proof (step_sim pops i b s Hr (λ x l Hx, pops_agree i b x l Hb Hx)) as Hs.
  destruct (bstep b) as [[b2|out]|] eqn:E2; cbn [mbind option_bind].
  - destruct Hs as (s' & -> & Hr'). cbn [mbind option_bind]. apply (IH (S i)); [|done].
    cbn [biter]. rewrite Hb. cbn [mbind option_bind]. by rewrite E2.
  - rewrite Hs. cbn [mbind option_bind]. eauto.
  - by rewrite Hs.
Qed.

Lemma search_sim fuel :
  match bsearch s0 fuel with
  | Some (out, b') => ∃ j s', biter j = Some b' ∧ rel pops j b' s' ∧
      Search.Model.search D pnew pupd dropdups oc lim s0 fuel = Some (out, s')
  | None => Search.Model.search D pnew pupd dropdups oc lim s0 fuel = None
  end.
Proof.
  destruct (init_sim pops) as (b & s & Hb & Hs & Hr). unfold bsearch, search.
  rewrite Hb, Hs. cbn [mbind option_bind]. by apply (loop_sim fuel 0).
Qed.
End sim.
