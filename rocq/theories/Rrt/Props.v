(** Properties C130 and C131: rapidly exploring random trees. *)
From stdpp Require Import prelude.
From Coq Require Import ZArith Lia ZifyBool ZifyNat.
From Verif.Search Require Import Domain Props.
From Verif.Kdtree Require Import Model Props.
From Verif Require Limits.Model.
From Verif.Rrt Require Import Model.
Local Open Scope Z_scope.

Section props.
Context (D : domain) {num : Type} (A : arith num) (ok : num → Prop) (L : laws A ok) (K : nat) (HK : (1 ≤ K)%nat).
Context (vec : St D → nat → num) (samp : nat → nat → num).
Context (Hvec : ∀ s, ok_point ok K (vec s)) (Hsamp : ∀ n, ok_point ok K (samp n)).
Notation "a ⪯ b" := (ltb A b a = false) (at level 70).
Notation runs := (runs D A K vec samp).
Notation iter := (iter D A K vec samp).
Notation scan := (scan D A K vec).
Notation sqd := (sqd A K).

(** ** The loop over the operators *)
Definition unused (used os : list (Op D)) : list (Op D) := filter (λ o, o ∉ used) os.

Lemma scan_gend s pt used os : ∀ best gend k gend', scan s pt used os best gend = (k, gend') → gend' ≤ gend + Z.of_nat (length os).
Proof.
  induction os as [|o os IH]; intros best gend k gend'; cbn [Model.scan length]; [intros [= _ <-]; lia|].
  case_decide; [intros H1%IH; lia|]. destruct (isgoal (dest s o)); [intros [= _ <-]; lia|].
  destruct best as [[d b]|]; [|intros H1%IH; lia]. destruct (ltb _ _ _); intros H1%IH; lia.
Qed.

Lemma scan_spec s pt used os : ∀ best gend k gend', scan s pt used os best gend = (k, gend') →
  match k with
  | inl o => o ∈ unused used os ∧ isgoal (dest s o) = true
  | inr best' =>
    (∀ o, o ∈ unused used os → isgoal (dest s o) = false) ∧
    match best' with
    | None => best = None ∧ unused used os = []
    | Some (d, o) =>
      (best = Some (d, o) ∨ o ∈ unused used os ∧ d = sqd pt (vec (dest s o))) ∧
      (∀ o', o' ∈ unused used os → d ⪯ sqd pt (vec (dest s o'))) ∧
      (∀ d' o', best = Some (d', o') → d ⪯ d')
    end
  end.
Proof.
  unfold unused. induction os as [|o os IH]; intros best gend k gend'; cbn [Model.scan].
  - intros [= <- <-]. cbn. split; [by intros o Ho%elem_of_nil|]. destruct best as [[d o]|]; [|done].
    split; [by left|]. split; [by intros o' Ho'%elem_of_nil|]. intros d' o' [= <- <-]. apply (lt_irrefl _ _ L).
  - rewrite filter_cons. destruct (decide (o ∈ used)) as [Hu|Hu].
    + rewrite decide_False by (by intros Hn). apply IH.
    + rewrite decide_True by done. destruct (isgoal (dest s o)) eqn:Eg; [intros [= <- <-]; split; [left|done]|].
      set (dst := sqd pt (vec (dest s o))).
      assert (Hcase : ∀ best2, scan s pt used os best2 (gend + 1) = (k, gend') →
        (best2 = Some (dst, o) ∧ (∀ d' o', best = Some (d', o') → dst ⪯ d')) ∨
        (∃ d b, best = Some (d, b) ∧ best2 = best ∧ d ⪯ dst) →
        match k with
        | inl o0 => o0 ∈ o :: filter (λ o, o ∉ used) os ∧ isgoal (dest s o0) = true
        | inr best' => (∀ o0, o0 ∈ o :: filter (λ o, o ∉ used) os → isgoal (dest s o0) = false) ∧
          match best' with
          | None => best = None ∧ o :: filter (λ o, o ∉ used) os = []
          | Some (d, o0) => (best = Some (d, o0) ∨ o0 ∈ o :: filter (λ o, o ∉ used) os ∧ d = sqd pt (vec (dest s o0))) ∧
            (∀ o', o' ∈ o :: filter (λ o, o ∉ used) os → d ⪯ sqd pt (vec (dest s o'))) ∧
            (∀ d' o', best = Some (d', o') → d ⪯ d')
          end
        end).
      { intros best2 Hs Hc. apply IH in Hs. destruct k as [o0|[[d o0]|]].
        - destruct Hs as [H1 H2]. split; [by right|done].
        - destruct Hs as (H1 & H2 & H3 & H4). split.
          + intros o1 [->|Ho1]%elem_of_cons; [done|by apply H1].
          + destruct Hc as [[-> Hc]|(d1 & b1 & Hb & -> & Hle)].
            * specialize (H4 _ _ eq_refl). split_and!.
              -- right. destruct H2 as [[= <- <-]|[H2 ->]]; [split; [left|done]|split; [by right|done]].
              -- intros o' [->|Ho']%elem_of_cons; [done|by apply H3].
              -- intros d' o' Hb. by apply (le_trans A ok L _ dst); [|eapply Hc].
            * split_and!.
              -- destruct H2 as [H2|[H2 H2']]; [by left|right; split; [by right|done]].
              -- intros o' [->|Ho']%elem_of_cons; [|by apply H3].
                 by apply (le_trans A ok L _ d1); [eapply H4|].
              -- done.
        - destruct Hs as (_ & Hn & _). destruct Hc as [[-> _]|(d1 & b1 & -> & -> & _)]; done. }
      destruct best as [[d b]|]; [|intros H; apply (Hcase _ H); left; split; [done|by intros]].
      destruct (ltb A dst d) eqn:El; intros H; apply (Hcase _ H).
      * left. split; [done|]. intros d' o' [= <- <-]. by apply (lt_asym _ _ L).
      * right. by exists d, b.
Qed.

(** ** The tree *)
(** A node is the root or a successor of an earlier node, by an operator recorded there. *)
Record tree_ok (s0 : St D) (ns : list (rnode D)) (es : list (@elem num)) : Prop := {
  to_root : ∃ u, ns !! 0%nat = Some (RNode None s0 nop u);
  to_kids i n : ns !! i = Some n → i ≠ 0%nat →
    ∃ p pn, n_par n = Some p ∧ (p < i)%nat ∧ ns !! p = Some pn ∧ n_op n ∈ ops (n_st pn) ∧ n_op n ∈ n_ops pn ∧
      n_st n = dest (n_st pn) (n_op n) ∧ isgoal (n_st n) = false;
  to_used i n o : ns !! i = Some n → o ∈ n_ops n → ∃ j m, ns !! j = Some m ∧ n_par m = Some i ∧ n_op m = o;
  to_once i n : ns !! i = Some n → NoDup (n_ops n);
  to_same i j n m : ns !! i = Some n → ns !! j = Some m → n_par n = n_par m → n_op n = n_op m → i ≠ 0%nat → j ≠ 0%nat → i = j;
  to_elems : es = imap (λ i n, Elem (vec (n_st n)) i) ns;
}.

Definition run_ok (s0 : St D) (n : nat) (r : rrt D) : Prop :=
  ∃ es, r_tree r = build A K es ∧ tree_ok s0 (r_nodes r) es.

Lemma init_ok s0 : run_ok s0 0 (init D A K vec s0).
Proof.
  exists [Elem (vec s0) 0%nat]. split; [done|]. split; cbn; try done.
  - by eexists.
  - intros [|i] n; cbn; done.
  - intros [|i] n o; cbn; [|done]. intros [= <-] Ho. by apply elem_of_nil in Ho.
  - intros [|i] n; cbn; [|done]. intros [= <-]. apply NoDup_nil. done.
  - intros [|i] [|j] n m; cbn; done.
Qed.

Lemma elems_ok s0 ns es : tree_ok s0 ns es → (∀ e, e ∈ es → ok_point ok K (point e)).
Proof.
  intros H e. rewrite (to_elems _ _ _ H). intros He. apply elem_of_lookup_imap in He as (i & n & -> & _). apply Hvec.
Qed.

Lemma nearest_ok s0 n r : run_ok s0 n r → ∃ e node, nearest A K (r_tree r) (samp n) = Some e ∧ r_nodes r !! data e = Some node ∧
  point e = vec (n_st node) ∧ ∀ j m, r_nodes r !! j = Some m → sqd (vec (n_st node)) (samp n) ⪯ sqd (vec (n_st m)) (samp n).
Proof.
  intros (es & Ht & H). pose proof (elems_ok _ _ _ H) as He.
  destruct (nearest A K (r_tree r) (samp n)) as [e|] eqn:E.
  - rewrite Ht in E. destruct (C15_nearest_is_minimal A ok L K es (samp n) e HK He (Hsamp n) E) as [Hin Hmin].
    pose proof Hin as Hin'. rewrite (to_elems _ _ _ H) in Hin'. apply elem_of_lookup_imap in Hin' as (i & node & -> & Hi). cbn.
    exists (Elem (vec (n_st node)) i), node. split_and!; try done. intros j m Hj. apply (Hmin (Elem (vec (n_st m)) j)).
    rewrite (to_elems _ _ _ H). apply elem_of_lookup_imap. by exists j, m.
  - exfalso. rewrite Ht in E. apply (C15_nearest_none_iff_empty A ok L K es (samp n) HK He (Hsamp n)) in E.
    rewrite (to_elems _ _ _ H) in E. destruct (to_root _ _ _ H) as [u Hu]. destruct (r_nodes r); done.
Qed.

Lemma climb_ok s0 ns es : tree_ok s0 ns es → ∀ fuel i n, ns !! i = Some n → (i < fuel)%nat →
  ∃ path os c, climb D fuel ns i = Some (path, os) ∧ walk (reverse path) (reverse os) c ∧
    head (reverse path) = Some s0 ∧ last (reverse path) = Some (n_st n).
Proof.
  intros H. induction fuel as [|fuel IH]; intros i n Hi Hf; [lia|]. cbn [climb]. rewrite Hi. cbn [mbind option_bind].
  destruct (decide (i = 0%nat)) as [->|Hne].
  - destruct (to_root _ _ _ H) as [u Hu]. rewrite Hu in Hi. injection Hi as <-. cbn.
    exists [s0], [], 0. cbn. split_and!; [done|constructor|done|done].
  - destruct (to_kids _ _ _ H i n Hi Hne) as (p & pn & Hp & Hlt & Hpn & Ho & _ & Hs & _). rewrite Hp.
    destruct (IH p pn Hpn) as (path & os & c & Hc & Hw & Hh & Hl); [lia|]. rewrite Hc. cbn [mbind option_bind].
    exists (n_st n :: path), (n_op n :: os), (c + cost (n_st pn) (n_op n)). rewrite !reverse_cons, last_snoc. split_and!; try done.
    + rewrite Hs. by apply walk_snoc.
    + destruct (reverse path); done.
Qed.

(** What one iteration does. *)
Lemma iter_ok s0 n r : run_ok s0 n r →
  ∃ e node, nearest A K (r_tree r) (samp n) = Some e ∧ r_nodes r !! data e = Some node ∧
    (∀ j m, r_nodes r !! j = Some m → sqd (vec (n_st node)) (samp n) ⪯ sqd (vec (n_st m)) (samp n)) ∧
  match iter n r with
  | None => False
  | Some (inl (path, os)) => (∃ c, solution s0 (reverse path) (reverse os) c ∧ os ≠ []) ∧
      ∃ o, o ∈ unused (n_ops node) (ops (n_st node)) ∧ isgoal (dest (n_st node) o) = true
  | Some (inr r') => run_ok s0 (S n) r' ∧ (∀ o, o ∈ unused (n_ops node) (ops (n_st node)) → isgoal (dest (n_st node) o) = false) ∧
      ((unused (n_ops node) (ops (n_st node)) = [] ∧ r_nodes r' = r_nodes r) ∨
       ∃ o, o ∈ unused (n_ops node) (ops (n_st node)) ∧
         (∀ o', o' ∈ unused (n_ops node) (ops (n_st node)) → sqd (samp n) (vec (dest (n_st node) o)) ⪯ sqd (samp n) (vec (dest (n_st node) o'))) ∧
         r_nodes r' = <[data e := RNode (n_par node) (n_st node) (n_op node) (o :: n_ops node)]> (r_nodes r)
           ++ [RNode (Some (data e)) (dest (n_st node) o) o []])
  end.
Proof.
  intros Hr. destruct (nearest_ok _ _ _ Hr) as (e & node & He & Hn & _ & Hmin). exists e, node. split_and!; [done..|].
  destruct Hr as (es & Ht & H). unfold Model.iter. rewrite He. cbn [mbind option_bind]. rewrite Hn. cbn [mbind option_bind].
  destruct (scan _ _ _ _ _ _) as [k gend] eqn:Es. apply scan_spec in Es. destruct k as [o|[[d o]|]].
  - destruct Es as [Ho Hg]. pose proof Ho as Hun. apply elem_of_list_filter in Ho as [_ Ho].
    destruct (climb_ok _ _ _ H (length (r_nodes r)) (data e) node Hn) as (path & os & c & Hc & Hw & Hh & Hl); [by eapply lookup_lt_Some|].
    rewrite Hc. cbn [mbind option_bind]. split; [|by exists o]. exists (c + cost (n_st node) o). rewrite !reverse_cons. split; [|done]. split; [by apply walk_snoc|].
    split; [destruct (reverse path); done|]. eexists. by rewrite last_snoc.
  - destruct Es as (Hg & Hb & Hm & _). destruct Hb as [|[Ho ->]]; [done|]. split; [|split; [done|]].
    + pose proof (lookup_lt_Some _ _ _ Hn) as Hlt. apply elem_of_list_filter in Ho as Ho'. destruct Ho' as [Hu Ho'].
      set (ns' := <[data e := RNode (n_par node) (n_st node) (n_op node) (o :: n_ops node)]> (r_nodes r)).
      assert (Hold : ∀ i n', (ns' ++ [RNode (Some (data e)) (dest (n_st node) o) o []]) !! i = Some n' →
        (∃ n0, r_nodes r !! i = Some n0 ∧ n_par n' = n_par n0 ∧ n_st n' = n_st n0 ∧ n_op n' = n_op n0 ∧
           n_ops n' = if decide (i = data e) then o :: n_ops n0 else n_ops n0) ∨
        i = length (r_nodes r) ∧ n' = RNode (Some (data e)) (dest (n_st node) o) o []).
      { intros i n' Hi. apply lookup_app_Some in Hi as [Hi|[Hl Hi]].
        - left. unfold ns' in Hi. apply list_lookup_insert_Some in Hi as [(<- & <- & _)|[Hne Hi]].
          + exists node. by rewrite decide_True.
          + exists n'. by rewrite decide_False.
        - right. unfold ns' in Hi, Hl. rewrite insert_length in Hi, Hl. apply list_lookup_singleton_Some in Hi as [Hi <-]. split; [lia|done]. }
      assert (Hnew : ∀ i n0, r_nodes r !! i = Some n0 → ∃ n', (ns' ++ [RNode (Some (data e)) (dest (n_st node) o) o []]) !! i = Some n' ∧
         n_par n' = n_par n0 ∧ n_st n' = n_st n0 ∧ n_op n' = n_op n0 ∧ n_ops n' = if decide (i = data e) then o :: n_ops n0 else n_ops n0).
      { intros i n0 Hi. pose proof (lookup_lt_Some _ _ _ Hi). rewrite lookup_app_l by (unfold ns'; by rewrite insert_length). unfold ns'.
        destruct (decide (i = data e)) as [->|Hne].
        - rewrite list_lookup_insert by done. rewrite Hn in Hi. injection Hi as <-. by eexists.
        - rewrite list_lookup_insert_ne by done. by exists n0. }
      assert (Hkid : (ns' ++ [RNode (Some (data e)) (dest (n_st node) o) o []]) !! length (r_nodes r) = Some (RNode (Some (data e)) (dest (n_st node) o) o [])).
      { rewrite lookup_app_r by (unfold ns'; rewrite insert_length; lia). unfold ns'. rewrite insert_length, Nat.sub_diag. done. }
      exists (es ++ [Elem (vec (dest (n_st node) o)) (length (r_nodes r))]). cbn [r_tree r_nodes n_st]. split; [rewrite Ht; unfold build; by rewrite foldl_app|].
      fold ns'. split.
      * destruct (to_root _ _ _ H) as [u Hu0]. destruct (Hnew _ _ Hu0) as (n' & Hn' & H1 & H2 & H3 & H4). destruct n' as [a b c' d']. cbn in H1, H2, H3. subst. by eexists.
      * intros i n' Hi Hne. destruct (Hold i n' Hi) as [(n0 & H0 & H1 & H2 & H3 & _)|[-> ->]].
        -- destruct (to_kids _ _ _ H i n0 H0 Hne) as (p & pn & Hp & Hpi & Hpn & Hop & Hou & Hs & Hgo).
           destruct (Hnew _ _ Hpn) as (pn' & Hpn' & G1 & G2 & G3 & G4). exists p, pn'. rewrite H1, H2, H3, G2, G4. split_and!; try done.
           case_decide; [by right|done].
        -- destruct (Hnew _ _ Hn) as (nd' & Hnd' & G1 & G2 & G3 & G4). rewrite decide_True in G4 by done. cbn.
           exists (data e), nd'. rewrite G2, G4. split_and!; try done; [left|]. by apply Hg.
      * intros i n' o' Hi Ho2. destruct (Hold i n' Hi) as [(n0 & H0 & H1 & H2 & H3 & H4)|[-> ->]]; [|by apply elem_of_nil in Ho2].
        rewrite H4 in Ho2. destruct (decide (i = data e)) as [->|Hne].
        -- apply elem_of_cons in Ho2 as [->|Ho2]; [eexists _, _; split; [exact Hkid|done]|].
           destruct (to_used _ _ _ H _ _ _ H0 Ho2) as (j & m & Hj & Hm1 & Hm2). destruct (Hnew _ _ Hj) as (m' & Hm' & G1 & G2 & G3 & _). exists j, m'. by rewrite G1, G3.
        -- destruct (to_used _ _ _ H _ _ _ H0 Ho2) as (j & m & Hj & Hm1 & Hm2). destruct (Hnew _ _ Hj) as (m' & Hm' & G1 & G2 & G3 & _). exists j, m'. by rewrite G1, G3.
      * intros i n' Hi. destruct (Hold i n' Hi) as [(n0 & H0 & H1 & H2 & H3 & H4)|[-> ->]]; [|apply NoDup_nil; done].
        rewrite H4. pose proof (to_once _ _ _ H _ _ H0). case_decide as Hd; [|done]. subst i. rewrite Hn in H0. injection H0 as <-. by apply NoDup_cons.
      * assert (Hfresh : ∀ i n0, r_nodes r !! i = Some n0 → i ≠ 0%nat → n_par n0 = Some (data e) → n_op n0 = o → False).
        { intros i n0 Hi Hne Hp Hop. destruct (to_kids _ _ _ H _ _ Hi Hne) as (p & pn & Hp' & _ & Hpn & _ & Hou & _). rewrite Hp in Hp'. injection Hp' as <-.
          rewrite Hn in Hpn. injection Hpn as <-. apply Hu. by rewrite <-Hop. }
        intros i j n1 n2 Hi Hj Hpe Hoe Hi0 Hj0.
        destruct (Hold i n1 Hi) as [(m1 & M1 & G1 & _ & G3 & _)|[-> ->]]; destruct (Hold j n2 Hj) as [(m2 & M2 & G1' & _ & G3' & _)|[-> ->]]; cbn in *; try done.
        -- apply (to_same _ _ _ H i j m1 m2); congruence.
        -- exfalso. apply (Hfresh i m1); congruence.
        -- exfalso. apply (Hfresh j m2); congruence.
      * rewrite imap_app. cbn. unfold ns'. rewrite insert_length, Nat.add_0_r. f_equal. rewrite (to_elems _ _ _ H).
        apply list_eq. intros i. rewrite !list_lookup_imap. destruct (decide (i = data e)) as [->|Hne].
        -- rewrite list_lookup_insert by done. rewrite Hn. done.
        -- by rewrite list_lookup_insert_ne.
    + right. exists o. done.
  - destruct Es as (Hg & _ & Hnil). split; [|split; [done|by left]]. by exists es.
Qed.

Lemma runs_ok s0 n : match runs s0 n with
  | None => False
  | Some (inl (path, os)) => ∃ c, solution s0 (reverse path) (reverse os) c ∧ os ≠ []
  | Some (inr r) => run_ok s0 n r
  end.
Proof.
  induction n as [|n IH]; cbn [Model.runs]; [apply init_ok|]. destruct (runs s0 n) as [[[path os]|r]|]; [done| |done]. cbn [mbind option_bind].
  destruct (iter_ok s0 n r IH) as (e & node & _ & _ & _ & Hi). destruct (iter n r) as [[[path os]|r']|]; [by destruct Hi|by destruct Hi|done].
Qed.

(** C130: the search never asks for a node that is not there, and if it ends its result is a solution. *)
Theorem C130_result_valid s0 n : runs s0 n ≠ None ∧
  ∀ path os, runs s0 n = Some (inl (path, os)) → ∃ c, solution s0 (reverse path) (reverse os) c ∧ os ≠ [].
Proof.
  pose proof (runs_ok s0 n) as H. destruct (runs s0 n) as [[[path os]|r]|]; [|done|done]. split; [done|]. by intros ? ? [= <- <-].
Qed.

(** C130: the nodes form a tree of states that can be reached, one for each operator tried; none but the root is a goal. *)
Theorem C130_tree s0 n r : runs s0 n = Some (inr r) →
  (∃ u, r_nodes r !! 0%nat = Some (RNode None s0 nop u)) ∧ size (r_tree r) = length (r_nodes r) ∧
  (∀ i m, r_nodes r !! i = Some m → reachable s0 (n_st m)) ∧
  (∀ i m, r_nodes r !! i = Some m → i ≠ 0%nat → ∃ p pn, n_par m = Some p ∧ (p < i)%nat ∧ r_nodes r !! p = Some pn ∧
    n_op m ∈ ops (n_st pn) ∧ n_st m = dest (n_st pn) (n_op m) ∧ isgoal (n_st m) = false) ∧
  (∀ i j m m', r_nodes r !! i = Some m → r_nodes r !! j = Some m' → i ≠ 0%nat → j ≠ 0%nat →
    n_par m = n_par m' → n_op m = n_op m' → i = j).
Proof.
  intros E. pose proof (runs_ok s0 n) as H. rewrite E in H. destruct H as (es & Ht & H). split_and!.
  - apply (to_root _ _ _ H).
  - rewrite Ht, C16_size_counts_insertions, (to_elems _ _ _ H). apply imap_length.
  - intros i m Hi. destruct (climb_ok _ _ _ H (S i) i m Hi) as (path & os & c & _ & Hw & Hh & Hl); [lia|]. by exists (reverse path), (reverse os), c.
  - intros i m Hi Hne. destruct (to_kids _ _ _ H i m Hi Hne) as (p & pn & ? & ? & ? & ? & _ & ? & ?). by exists p, pn.
  - intros i j m m' Hi Hj Hi0 Hj0 Hp Ho. by apply (to_same _ _ _ H i j m m').
Qed.

(** C131: an iteration takes the node nearest to the sample and adds the successor nearest to the sample by an operator not
    tried there before, or nothing if all were tried; it ends the search if one of those leads to a goal. *)
Theorem C131_extends s0 n r : runs s0 n = Some (inr r) → ∃ i node, r_nodes r !! i = Some node ∧
  (∀ j m, r_nodes r !! j = Some m → sqd (vec (n_st node)) (samp n) ⪯ sqd (vec (n_st m)) (samp n)) ∧
  let tried o := ∃ j m, r_nodes r !! j = Some m ∧ n_par m = Some i ∧ n_op m = o in
  ((∃ o, o ∈ ops (n_st node) ∧ ¬ tried o ∧ isgoal (dest (n_st node) o) = true) ↔ ∃ res, runs s0 (S n) = Some (inl res)) ∧
  ∀ r', runs s0 (S n) = Some (inr r') →
    (∀ o, o ∈ ops (n_st node) → tried o) ∧ r_nodes r' = r_nodes r ∨
    ∃ o m, o ∈ ops (n_st node) ∧ ¬ tried o ∧
      (∀ o', o' ∈ ops (n_st node) → ¬ tried o' → sqd (samp n) (vec (dest (n_st node) o)) ⪯ sqd (samp n) (vec (dest (n_st node) o'))) ∧
      length (r_nodes r') = S (length (r_nodes r)) ∧ r_nodes r' !! length (r_nodes r) = Some m ∧
      n_par m = Some i ∧ n_op m = o ∧ n_st m = dest (n_st node) o ∧
      ∀ j x, r_nodes r !! j = Some x → ∃ x', r_nodes r' !! j = Some x' ∧ n_par x' = n_par x ∧ n_op x' = n_op x ∧ n_st x' = n_st x.
Proof.
  intros E. pose proof (runs_ok s0 n) as Hr. rewrite E in Hr. destruct (iter_ok s0 n r Hr) as (e & node & _ & Hn & Hmin & Hi).
  exists (data e), node. split; [done|]. split; [done|].
  destruct Hr as (es & Ht & H). cbn zeta. set (tried := λ o, ∃ j m, r_nodes r !! j = Some m ∧ n_par m = Some (data e) ∧ n_op m = o).
  assert (Hu : ∀ o, o ∈ n_ops node ↔ tried o).
  { intros o. split; [apply (to_used _ _ _ H); done|]. intros (j & m & Hj & Hp & Ho). destruct (decide (j = 0%nat)) as [->|Hne].
    - destruct (to_root _ _ _ H) as [u Hu]. rewrite Hu in Hj. injection Hj as <-. done.
    - destruct (to_kids _ _ _ H j m Hj Hne) as (p & pn & Hp' & _ & Hpn & _ & Hou & _). rewrite Hp in Hp'. injection Hp' as <-.
      rewrite Hn in Hpn. injection Hpn as <-. by rewrite <-Ho. }
  assert (Hun : ∀ o, o ∈ unused (n_ops node) (ops (n_st node)) ↔ o ∈ ops (n_st node) ∧ ¬ tried o).
  { intros o. unfold unused. rewrite elem_of_list_filter, <-Hu. tauto. }
  cbn [Model.runs]. rewrite E. cbn [mbind option_bind]. split.
  - split.
    + intros (o & Ho & Hnt & Hg). destruct (iter n r) as [[res|r']|]; [by exists res| |done]. destruct Hi as (_ & Hng & _).
      rewrite (Hng o) in Hg; [done|]. by apply Hun.
    + intros [[path os] Hres]. rewrite Hres in Hi. destruct Hi as (_ & o & Ho & Hg). exists o. apply Hun in Ho. tauto.
  - intros r' Hr'. rewrite Hr' in Hi. destruct Hi as (_ & _ & [[Hnil Heq]|(o & Ho & Hbest & Heq)]).
    + left. split; [|done]. intros o Ho. destruct (decide (o ∈ n_ops node)) as [Hd|Hd]; [by apply Hu|]. exfalso.
      assert (o ∈ unused (n_ops node) (ops (n_st node))) as Hin by (apply elem_of_list_filter; done). rewrite Hnil in Hin. by apply elem_of_nil in Hin.
    + right. pose proof (lookup_lt_Some _ _ _ Hn) as Hlt. apply Hun in Ho as Ho'. destruct Ho' as [Ho1 Ho2].
      eexists o, _. rewrite Heq. split; [done|]. split; [done|]. split; [intros o' Ha Hb; apply Hbest; by apply Hun|].
      split; [rewrite app_length, insert_length; cbn; lia|]. split; [rewrite lookup_app_r by (rewrite insert_length; lia); by rewrite insert_length, Nat.sub_diag|].
      cbn. split_and!; try done. intros j x Hj. pose proof (lookup_lt_Some _ _ _ Hj). rewrite lookup_app_l by (by rewrite insert_length).
      destruct (decide (j = data e)) as [->|Hne].
      * rewrite list_lookup_insert by done. rewrite Hn in Hj. injection Hj as <-. by eexists.
      * rewrite list_lookup_insert_ne by done. by exists x.
Qed.

(** C131: if no goal can be reached then the search goes on for ever: it looks at no limit. *)
Theorem C131_no_goal s0 n : (∀ s, reachable s0 s → isgoal s = false) → ∃ r, runs s0 n = Some (inr r) ∧ r_expd r = Z.of_nat n.
Proof.
  intros Hno. induction n as [|n (r & E & Hx)]; [by eexists|]. cbn [Model.runs]. rewrite E. cbn [mbind option_bind].
  pose proof (runs_ok s0 n) as Hr. rewrite E in Hr. pose proof (C130_result_valid s0 (S n)) as [Hnn Hv]. cbn [Model.runs] in Hnn, Hv. rewrite E in Hnn, Hv.
  cbn [mbind option_bind] in Hnn, Hv. destruct (iter n r) as [[[path os]|r']|] eqn:Ei; [| |done].
  - exfalso. destruct (Hv _ _ eq_refl) as (c & (Hw & Hh & t & Hl & Hg) & _). rewrite (Hno t) in Hg; [done|]. by eexists _, _, _.
  - exists r'. split; [done|]. unfold Model.iter in Ei.
    destruct (nearest _ _ _ _) as [e|]; [|done]. cbn [mbind option_bind] in Ei. destruct (r_nodes r !! data e) as [nd|]; [|done]. cbn [mbind option_bind] in Ei.
    destruct (scan _ _ _ _ _ _) as [[o|[[d o]|]] g].
    + destruct (climb _ _ _ _) as [[? ?]|]; done.
    + injection Ei as <-. cbn. lia.
    + injection Ei as <-. cbn. lia.
Qed.

(** *** Samples near every state *)
Definition finished (s0 : St D) (n : nat) : Prop := ∃ res, runs s0 n = Some (inl res).
(** In the n-th iteration the node [i] is the one nearest to the sample. *)
Definition picks (s0 : St D) (n i : nat) : Prop :=
  ∃ r e, runs s0 n = Some (inr r) ∧ nearest A K (r_tree r) (samp n) = Some e ∧ data e = i.
(** Each state that comes into the tree has a node that is picked over and over again while the search lasts. *)
Definition fair (s0 : St D) : Prop := ∀ n r i m, runs s0 n = Some (inr r) → r_nodes r !! i = Some m →
  ∃ n' r' j m', runs s0 n' = Some (inr r') ∧ r_nodes r' !! j = Some m' ∧ n_st m' = n_st m ∧
    ∀ k, ∃ k', (k ≤ k')%nat ∧ (finished s0 k' ∨ picks s0 k' j).

Lemma runs_mono s0 n r i m : runs s0 n = Some (inr r) → r_nodes r !! i = Some m → ∀ k r', (n ≤ k)%nat → runs s0 k = Some (inr r') →
  ∃ m', r_nodes r' !! i = Some m' ∧ n_st m' = n_st m ∧ ∀ o, o ∈ n_ops m → o ∈ n_ops m'.
Proof.
  intros E Hi. induction k as [|k IH]; intros r' Hle E'.
  - assert (n = 0%nat) as -> by lia. rewrite E in E'. injection E' as <-. by exists m.
  - destruct (decide (n = S k)) as [->|Hne]; [rewrite E in E'; injection E' as <-; by exists m|].
    cbn [Model.runs] in E'. destruct (runs s0 k) as [[?|r1]|] eqn:E1; [done| |done]. cbn [mbind option_bind] in E'.
    destruct (IH r1) as (m1 & H1 & H2 & H3); [lia|done|]. pose proof (runs_ok s0 k) as Hr. rewrite E1 in Hr.
    destruct (iter_ok s0 k r1 Hr) as (e & node & _ & Hn & _ & Hit). rewrite E' in Hit. destruct Hit as (_ & _ & [[_ ->]|(o & _ & _ & ->)]); [by exists m1|].
    pose proof (lookup_lt_Some _ _ _ H1). rewrite lookup_app_l by (by rewrite insert_length). destruct (decide (i = data e)) as [->|Hd].
    + rewrite list_lookup_insert by done. rewrite Hn in H1. injection H1 as ->. eexists. split; [done|]. cbn. split; [done|]. intros o' Ho'. right. by apply H3.
    + rewrite list_lookup_insert_ne by done. by exists m1.
Qed.

Lemma all_tried s0 j : (∀ k, ∃ k', (k ≤ k')%nat ∧ (finished s0 k' ∨ picks s0 k' j)) → ∀ b n r m, runs s0 n = Some (inr r) → r_nodes r !! j = Some m →
  (length (unused (n_ops m) (ops (n_st m))) ≤ b)%nat →
  ∃ n', finished s0 n' ∨ ∃ r' m', runs s0 n' = Some (inr r') ∧ r_nodes r' !! j = Some m' ∧ n_st m' = n_st m ∧
    ∀ o, o ∈ ops (n_st m) → o ∈ n_ops m' ∧ isgoal (dest (n_st m) o) = false.
Proof.
  intros Hpick. induction b as [|b IH]; intros n r m E Hj Hb.
  all: destruct (Hpick n) as (k & Hk & [Hf|(r1 & e & E1 & He & Hd)]); [exists k; by left|].
  all: destruct (runs_mono _ _ _ _ _ E Hj k r1 Hk E1) as (m1 & Hm1 & Hs1 & Hu1).
  all: pose proof (runs_ok s0 k) as Hr; rewrite E1 in Hr; destruct (iter_ok s0 k r1 Hr) as (e' & node & He' & Hn & _ & Hit).
  all: rewrite He in He'; injection He' as <-; rewrite Hd in Hn; rewrite Hm1 in Hn; injection Hn as <-.
  all: pose proof (runs_ok s0 (S k)) as Hr2; cbn [Model.runs] in Hr2; rewrite E1 in Hr2; cbn [mbind option_bind] in Hr2.
  all: destruct (iter k r1) as [[res|r2]|] eqn:Ei; [exists (S k); left; exists res; cbn [Model.runs]; rewrite E1; exact Ei| |done].
  all: destruct Hit as (_ & Hng & Hit).
  all: assert (Hsub : ∀ o, o ∈ unused (n_ops m1) (ops (n_st m1)) → o ∈ unused (n_ops m) (ops (n_st m)))
    by (intros o; unfold unused; rewrite !elem_of_list_filter, Hs1; intros [Ha Hc]; split; [|done]; intros Hx; apply Ha; by apply Hu1).
  all: destruct Hit as [[Hnil Heq]|(o & Ho & _ & Heq)].
  2: { exfalso. apply Hsub in Ho. destruct (unused (n_ops m) (ops (n_st m))); [by apply elem_of_nil in Ho|cbn in Hb; lia]. }
  3: {
    assert (E2 : runs s0 (S k) = Some (inr r2)) by (cbn [Model.runs]; rewrite E1; exact Ei).
    assert (Hm2 : r_nodes r2 !! j = Some (RNode (n_par m1) (n_st m1) (n_op m1) (o :: n_ops m1))).
    { rewrite Heq, Hd. rewrite lookup_app_l by (rewrite insert_length; by eapply lookup_lt_Some). apply list_lookup_insert. by eapply lookup_lt_Some. }
    destruct (IH _ _ _ E2 Hm2) as (n' & Hres); [|exists n'; cbn in Hres; by rewrite Hs1 in Hres]. cbn.
    enough (length (unused (o :: n_ops m1) (ops (n_st m1))) < length (unused (n_ops m) (ops (n_st m))))%nat by lia.
    clear -Ho Hs1 Hu1. rewrite Hs1 in *. unfold unused in *. apply elem_of_list_filter in Ho as [Hno Ho].
    assert (Hle : ∀ l, (length (filter (λ x, x ∉ o :: n_ops m1) l) ≤ length (filter (λ x, x ∉ n_ops m) l))%nat).
    { induction l as [|x l IH]; [done|]. rewrite !filter_cons. repeat case_decide; cbn; try lia. exfalso. set_solver. }
    induction (ops (n_st m)) as [|x l IH]; [by apply elem_of_nil in Ho|]. rewrite !filter_cons. specialize (Hle l).
    destruct (decide (x = o)) as [->|Hne].
    - rewrite decide_False by (intros Hx; apply Hx; left). rewrite decide_True by (intros Hx; by apply Hno, Hu1). cbn. lia.
    - apply elem_of_cons in Ho as [->|Ho]; [done|]. specialize (IH Ho). repeat case_decide; cbn; try lia. exfalso. set_solver. }
  all: exists (S k); right; exists r2, m1; split; [cbn [Model.runs]; rewrite E1; exact Ei|]; rewrite Heq; split; [done|]; split; [done|].
  all: intros o Ho; rewrite <-Hs1 in Ho.
  all: assert (Hin : o ∈ n_ops m1) by (destruct (decide (o ∈ n_ops m1)) as [Hx|Hx]; [done|]; exfalso;
    assert (o ∈ unused (n_ops m1) (ops (n_st m1))) as Hin by (apply elem_of_list_filter; done); rewrite Hnil in Hin; by apply elem_of_nil in Hin).
  all: split; [done|].
  all: destruct Hr as (es & _ & H); destruct (to_used _ _ _ H _ _ _ Hm1 Hin) as (x & mx & Hx & Hpx & Hox).
  all: destruct (decide (x = 0%nat)) as [->|Hx0]; [destruct (to_root _ _ _ H) as [u Hu]; rewrite Hu in Hx; by injection Hx as <-|].
  all: destruct (to_kids _ _ _ H _ _ Hx Hx0) as (p & pn & Hp & _ & Hpn & _ & _ & Hst & Hg); rewrite Hpx in Hp; injection Hp as <-.
  all: rewrite Hm1 in Hpn; injection Hpn as <-; rewrite <-Hs1, <-Hox, <-Hst; done.
Qed.

(** C131: if samples fall near every state again and again, and a goal can be reached by one operator or more, then the
    search ends. *)
Theorem C131_complete s0 ss os c : fair s0 → solution s0 ss os c → os ≠ [] → ∃ n path os', runs s0 n = Some (inl (path, os')).
Proof.
  intros Hfair (Hw & Hh & t & Hl & Hg) Hne.
  enough (∃ n, finished s0 n) as (n & [path os'] & Hf) by (by exists n, path, os').
  assert (Hgen : ∀ ss os c, walk ss os c → ∀ s, head ss = Some s → last ss = Some t → os ≠ [] →
    ∀ n r i m, runs s0 n = Some (inr r) → r_nodes r !! i = Some m → n_st m = s → ∃ n, finished s0 n).
  { clear ss os c Hw Hh Hl Hne. induction 1 as [s|s o ss os c Ho Hw IH]; [done|]. intros ? [= <-] Hl _ n r i m E Hi Hs.
    destruct (Hfair _ _ _ _ E Hi) as (n1 & r1 & j & m1 & E1 & Hj & Hs1 & Hp).
    destruct (all_tried s0 j Hp _ n1 r1 m1 E1 Hj (Nat.le_refl _)) as (n2 & [Hf|(r2 & m2 & E2 & Hm2 & Hs2 & Hall)]); [by exists n2|].
    rewrite Hs1, Hs in *. destruct (Hall o Ho) as [Hin Hng].
    pose proof (runs_ok s0 n2) as Hr. rewrite E2 in Hr. destruct Hr as (es & _ & H).
    destruct (to_used _ _ _ H _ _ _ Hm2 Hin) as (x & mx & Hx & Hpx & Hox).
    destruct (decide (x = 0%nat)) as [->|Hx0]; [destruct (to_root _ _ _ H) as [u Hu]; rewrite Hu in Hx; by injection Hx as <-|].
    destruct (to_kids _ _ _ H _ _ Hx Hx0) as (p & pn & Hp' & _ & Hpn & _ & _ & Hst & _). rewrite Hpx in Hp'. injection Hp' as <-.
    rewrite Hm2 in Hpn. injection Hpn as <-. rewrite Hs2, Hox in Hst.
    destruct os as [|o2 os].
    - exfalso. inversion Hw; subst. cbn in Hl. injection Hl as Hl. congruence.
    - apply (IH (dest s o)) with (n := n2) (r := r2) (i := x) (m := mx); done. }
  apply (Hgen ss os c Hw s0 Hh Hl Hne 0%nat (init D A K vec s0) 0%nat (RNode None s0 nop [])); done.
Qed.
End props.

(** ** Examples *)
(** A line of states 0 - 1 - 2 - 3 with steps to both sides, and a goal at 3. *)
Definition ln_dom : domain := table_domain
  [(0%nat, 1%nat, 1); (1%nat, 0%nat, 1); (1%nat, 2%nat, 1); (2%nat, 1%nat, 1); (2%nat, 3%nat, 1); (3%nat, 2%nat, 1)] 3.
Definition ln_vec (s : St ln_dom) (_ : nat) : Z := Z.of_nat s.
Definition ln_samp (n _ : nat) : Z := Z.of_nat n `mod` 4.
Definition ln_runs := runs ln_dom Zarith 1 ln_vec ln_samp.

Lemma ln_result : ln_runs 0%nat 8 = Some (inl ([3; 2; 1; 0]%nat, [3; 2; 1]%nat)).
Proof. vm_compute. reflexivity. Qed.
Lemma ln_sol : solution (D := ln_dom) 0%nat [0; 1; 2; 3]%nat [1; 2; 3]%nat 3.
Proof.
  split; [|split; [done|by exists 3%nat]].
  apply (walk_step ln_dom 0%nat 1%nat [2; 3]%nat [2; 3]%nat 2); [by apply elem_of_list_In; left|].
  apply (walk_step ln_dom 1%nat 2%nat [3%nat] [3%nat] 1); [by apply elem_of_list_In; right; left|].
  apply (walk_step ln_dom 2%nat 3%nat [] [] 0); [by apply elem_of_list_In; right; left|constructor].
Qed.
Lemma runs_stays D {num} (A : arith num) K vec samp s0 n res : runs D A K vec samp s0 n = Some (inl res) →
  ∀ k, (n ≤ k)%nat → runs D A K vec samp s0 k = Some (inl res).
Proof. intros E k Hk. induction Hk as [|k Hk IH]; [done|]. cbn [runs]. by rewrite IH. Qed.
Example C131_ex : fair ln_dom Zarith 1 ln_vec ln_samp 0%nat.
Proof.
  intros n r i m E Hi. exists n, r, i, m. split_and!; try done. intros k. exists (k + 8)%nat. split; [lia|]. left.
  eexists. apply (runs_stays _ _ _ _ _ _ 8); [exact ln_result|lia].
Qed.
Example C130_ex : ∃ r, ln_runs 0%nat 2 = Some (inr r) ∧ length (r_nodes r) = 3%nat.
Proof. eexists. split; [vm_compute; reflexivity|]. reflexivity. Qed.

(** A goal that is the initial state is not noticed: here it is a dead end. *)
Definition sg_dom : domain := table_domain [] 0.
Lemma sg_sol : solution (D := sg_dom) 0%nat [0%nat] [] 0.
Proof. split; [constructor|]. split; [done|]. by exists 0%nat. Qed.
Theorem C131_initial_goal_refuted :
  ¬ ∀ D {num} (A : arith num) ok K vec samp s0 ss os c, laws A ok → (1 ≤ K)%nat → (∀ s, ok_point ok K (vec s)) → (∀ n, ok_point ok K (samp n)) →
    fair D A K vec samp s0 → solution s0 ss os c → ∃ n res, runs D A K vec samp s0 n = Some (inl res).
Proof.
  intros H.
  assert (Hrun : ∀ n, ∃ x g, runs sg_dom Zarith 1 (λ _ _, 0) (λ _ _, 0) 0%nat n = Some (inr (Rrt (D := sg_dom) [RNode (D := sg_dom) None 0%nat 999%nat []] (insert Zarith 1 new (Elem (λ _, 0) 0%nat)) x g))).
  { induction n as [|n (x & g & IH)]; [by eexists _, _|]. cbn [runs]. rewrite IH. cbn [mbind option_bind]. by eexists _, _. }
  assert (Hfair : fair sg_dom Zarith 1 (λ _ _, 0) (λ _ _, 0) 0%nat).
  { intros n r i m E Hi. exists n, r, i, m. split_and!; try done. intros k. exists k. split; [lia|]. right.
    destruct (Hrun n) as (x & g & Hn). rewrite Hn in E. injection E as <-. destruct (Hrun k) as (x' & g' & Hk).
    eexists _, _. split; [exact Hk|]. split; [vm_compute; reflexivity|]. cbn in Hi. destruct i as [|i]; done. }
  destruct (H sg_dom Z Zarith (λ _, True) 1%nat (λ _ _, 0) (λ _ _, 0) 0%nat [0%nat] [] 0 Zlaws (Nat.le_refl _) (λ _ _ _, I) (λ _ _ _, I) Hfair sg_sol) as (n & res & E).
  destruct (Hrun n) as (x & g & Hn). rewrite Hn in E. done.
Qed.

(** The seed given with -s is not the one used: it is zero, whatever is given. *)
Theorem C131_seed argv seed : parseseed argv seed = 0 ∨ parseseed argv seed = seed.
Proof.
  assert (∀ n argv seed, (length argv ≤ n)%nat → parseseed argv seed = 0 ∨ parseseed argv seed = seed) as H; [|by apply (H (length argv))].
  clear. induction n as [|n IH]; intros [|a [|b tl]] seed Hl; cbn in Hl; try lia; try (by right).
  cbn [parseseed]. case_decide as Hd; [|apply (IH (b :: tl)); cbn; lia].
  left. subst a. assert (Limits.Model.strtoul f_s = 0) as -> by done. destruct (IH tl 0) as [H|H]; [lia|done|done].
Qed.
Theorem C131_seed_given pre v post seed : f_s ∉ pre → parseseed (pre ++ f_s :: v :: post) seed = 0.
Proof.
  induction pre as [|a pre IH]; intros Hn.
  - cbn [app parseseed]. rewrite decide_True by done. assert (Limits.Model.strtoul f_s = 0) as -> by done. destruct (C131_seed post 0); done.
  - cbn [app]. destruct (pre ++ f_s :: v :: post) as [|x l] eqn:El; [by destruct pre|].
    change (parseseed (a :: x :: l) seed) with (if decide (a = f_s) then parseseed l (Limits.Model.strtoul a) else parseseed (x :: l) seed).
    rewrite decide_False by (intros ->; apply Hn; left). apply IH. intros Hx. apply Hn. by right.
Qed.

Print Assumptions C130_result_valid.
Print Assumptions C130_tree.
Print Assumptions C131_extends.
Print Assumptions C131_no_goal.
Print Assumptions C131_complete.
Print Assumptions C131_initial_goal_refuted.
Print Assumptions C131_seed.
Print Assumptions C131_seed_given.
