(** Properties C01, C02, C03: BinHeap and the heap-backed OpenList. *)
From stdpp Require Import prelude fin_maps gmap sorting.
From Coq Require Import ZArith Lia.
From Verif.Common Require Import Orders.
From Verif.BinHeap Require Import Model Proofs.

(** ** Specification: a heap holds a finite map from elements to keys. *)
Section Spec.
  Context {K : Type} (lt : K → K → bool).

  (** The contents after an operation that returned [r]. *)
  Definition contents_step (c : gmap nat K) (o : op K) (r : option nat) : gmap nat K :=
    match o with
    | OPush e k | OUpdate e k | OPushUpdate e k => <[e := k]> c
    | OPop => match r with Some x => delete x c | None => c end
    | OAppend es => list_to_map es ∪ c
    | OReinit f => map_imap (λ e _, Some (f e)) c
    end.

  (** What the client must respect: an element is pushed or appended only when
      it is not contained, and updated only when it is. *)
  Definition legal (c : gmap nat K) (o : op K) : Prop :=
    match o with
    | OPush e _ => c !! e = None
    | OPop => True
    | OUpdate e _ => is_Some (c !! e)
    | OPushUpdate _ _ => True
    | OAppend es => NoDup es.*1 ∧ ∀ e, e ∈ es.*1 → c !! e = None
    | OReinit _ => True
    end.

  (** [reach h c]: some legal history leads from a new heap to [h], and [c] is
      what the history says is contained. *)
  Inductive reach : heap K → gmap nat K → Prop :=
    | reach_new key0 : reach (new key0) ∅
    | reach_step h c o h' r :
        reach h c → legal c o → step lt h o = Some (h', r) →
        reach h' (contents_step c o r).

  (** [x] is contained and nothing contained strictly precedes it. *)
  Definition minimal (c : gmap nat K) (x : nat) : Prop :=
    ∃ k, c !! x = Some k ∧ ∀ y ky, c !! y = Some ky → lt ky k = false.

  (** Pop until the heap says it is empty. *)
  Fixpoint drain (n : nat) (h : heap K) : option (list nat) :=
    match n with
    | 0 => None
    | S n =>
      '(h', r) ← pop lt h;
      match r with
      | None => Some []
      | Some x => xs ← drain n h'; Some (x :: xs)
      end
    end.
End Spec.

(** ** Proofs *)
Section Proofs.
  Context {K : Type} (lt : K → K → bool) (SW : strict_weak lt).
  Let asym := sw_asym lt SW.
  Let neg := sw_neg_trans lt SW.

  Definition repr (h : heap K) (c : gmap nat K) : Prop :=
    inv lt (λ _, True) h ∧ (∀ e, e ∈ arr h ↔ is_Some (c !! e)) ∧ (∀ e k, c !! e = Some k → key h e = k).

  Lemma setkey_key (h : heap K) e k x :
    key (setkey h e k) x = if decide (x = e) then k else key h x.
  Proof. done. Qed.

  Lemma repr_insert h h' c e k :
    repr h c → inv lt (λ _, True) h' → (∀ x, x ∈ arr h' ↔ x = e ∨ x ∈ arr h) →
    key h' = key (setkey h e k) → repr h' (<[e:=k]> c).
  Proof.
    intros (_ & Hin & Hk) Hinv' Hin' Hkey. split_and!; [done| |].
    - intros x. rewrite Hin', Hin, lookup_insert_is_Some'. naive_solver.
    - intros x kx. rewrite Hkey, setkey_key, lookup_insert_Some.
      case_decide; naive_solver.
  Qed.

  Lemma step_repr h c o :
    repr h c → legal c o →
    ∃ h' r, step lt h o = Some (h', r) ∧ repr h' (contents_step c o r) ∧
            match o with
            | OPop => match r with
                      | None => c = ∅
                      | Some x => minimal lt c x
                      end
            | _ => r = None
            end.
  Proof using SW.
    intros Hrepr Hlegal. pose proof Hrepr as (Hinv & Hin & Hk).
    assert (∀ e, c !! e = None → e ∉ arr h) as Hnin.
    { intros e He. rewrite Hin, He. by intros [??]. }
    assert (∀ e, e ∉ arr h → c !! e = None) as Hnin'.
    { intros e He. rewrite Hin in He. by apply eq_None_not_Some. }
    destruct o as [e k| |e k|e k|es|f]; simpl in *.
    - destruct (push_spec lt asym neg (λ _, True) h e k) as (h' & -> & Hinv' & HP & Hkey); [done|auto|].
      simpl. eexists _, _. split; [done|]. split; [|done].
      eapply repr_insert; [done..| |done].
      intros x. rewrite HP, elem_of_cons. done.
    - pose proof (pop_spec lt asym neg (λ _, True) h Hinv) as Hpop.
      destruct (arr h) as [|x l] eqn:Harr.
      + rewrite Hpop. eexists _, _. split; [done|]. split; [done|].
        apply map_empty. intros i. apply Hnin'. apply not_elem_of_nil.
      + destruct Hpop as (h' & -> & Hinv' & HP & Hkey & Hmin).
        eexists _, _. split; [done|].
        pose proof (inv_exact _ _ _ Hinv) as [Hnd _]. rewrite Harr in Hnd.
        rewrite HP in Hnd. apply NoDup_cons in Hnd as [Hx Hnd].
        split; [split_and!|].
        * done.
        * intros e. destruct (decide (e = x)) as [->|Hne].
          { rewrite lookup_delete. split; [done|by intros [??]]. }
          rewrite lookup_delete_ne by done. rewrite <-Hin, HP, elem_of_cons. naive_solver.
        * intros e k. rewrite lookup_delete_Some, Hkey. intros [_ ?]. by apply Hk.
        * destruct (c !! x) as [k|] eqn:Hcx.
          2:{ exfalso. apply (Hnin x Hcx). apply elem_of_cons. by left. }
          exists k. split; [done|]. intros y ky Hy.
          rewrite <-(Hk _ _ Hcx), <-(Hk _ _ Hy). apply Hmin.
          apply Hin. by eexists.
    - destruct (update_spec lt asym neg (λ _, True) h e k) as (h' & -> & Hinv' & HP & Hkey);
        [done|by apply Hin|].
      simpl. eexists _, _. split; [done|]. split; [|done].
      eapply repr_insert; [done..| |done].
      intros x. rewrite HP. apply Hin in Hlegal. naive_solver.
    - unfold pushupdate. case_decide as Hi.
      + assert (e ∉ arr h) as He.
        { intros He. apply elem_of_list_lookup in He as [i He].
          apply (proj2 (inv_exact _ _ _ Hinv)) in He. simpl in Hi. lia. }
        destruct (push_spec lt asym neg (λ _, True) h e k) as (h' & -> & Hinv' & HP & Hkey); [done|auto|].
        simpl. eexists _, _. split; [done|]. split; [|done].
        eapply repr_insert; [done..| |done].
        intros x. rewrite HP, elem_of_cons. done.
      + assert (e ∈ arr h) as He.
        { destruct (decide (e ∈ arr h)) as [|He]; [done|].
          apply (inv_out _ _ _ Hinv) in He; [|done]. simpl in Hi. lia. }
        destruct (update_spec lt asym neg (λ _, True) h e k) as (h' & -> & Hinv' & HP & Hkey); [done..|].
        simpl. eexists _, _. split; [done|]. split; [|done].
        eapply repr_insert; [done..| |done].
        intros x. rewrite HP. naive_solver.
    - destruct Hlegal as [Hnd Hfresh].
      destruct (append_spec lt asym neg (λ _, True) h es) as (h' & -> & Hinv' & HP & Hkey); [done..|auto|].
      simpl. eexists _, _. split; [done|]. split; [|done].
      split_and!; [done| |].
      + intros e. rewrite HP, elem_of_app, lookup_union_is_Some, Hin.
        split; intros [He|He]; auto; left.
        * destruct (list_to_map es !! e) eqn:E; [by eexists|].
          by apply not_elem_of_list_to_map in E.
        * destruct He as [k He]. apply elem_of_list_to_map_2 in He.
          apply elem_of_list_fmap. by exists (e, k).
      + intros e k He. rewrite Hkey. apply lookup_union_Some_raw in He as [He|[Hne He]].
        * apply elem_of_list_to_map_2 in He. by apply setkeys_key_in.
        * rewrite setkeys_key_other; [by apply Hk|]. by apply not_elem_of_list_to_map.
    - destruct (reinit_spec lt asym neg (λ _, True) (Heap (arr h) (ind h) f)) as (h' & -> & Hinv' & HP & Hkey).
      + apply Hinv.
      + apply Hinv.
      + simpl. eexists _, _. split; [done|]. split; [|done].
        split_and!; [done| |].
        * intros e. rewrite HP. simpl. rewrite Hin, map_lookup_imap.
          destruct (c !! e); simpl; rewrite !is_Some_alt; done.
        * intros e k. rewrite map_lookup_imap, Hkey. simpl.
          destruct (c !! e); simpl; by intros [= <-].
  Qed.

  Lemma reach_repr h c : reach lt h c → repr h c.
  Proof using SW.
    induction 1 as [key0|h c o h' r Hr IH Hl Hs].
    - split_and!.
      + split; simpl; [|split; [apply NoDup_nil_2|]|done]; done.
      + intros e. simpl. rewrite lookup_empty. split; [by intros ?%elem_of_nil|by intros [??]].
      + intros e k. by rewrite lookup_empty.
    - destruct (step_repr h c o) as (h'' & r' & Hs' & Hrepr & _); [done..|]. by simplify_eq.
  Qed.

  Lemma repr_size h c : repr h c → length (arr h) = base.size c.
  Proof.
    intros (Hinv & Hin & Hk).
    assert (list_to_set (arr h) =@{gset nat} dom c) as He.
    { apply set_eq. intros x. rewrite elem_of_list_to_set, elem_of_dom. apply Hin. }
    rewrite <-size_dom, <-He. symmetry. apply size_list_to_set. apply Hinv.
  Qed.
End Proofs.

Lemma StronglySorted_weaken {A} (R R' : A → A → Prop) l :
  StronglySorted R l → (∀ x y, x ∈ l → y ∈ l → R x y → R' x y) → StronglySorted R' l.
Proof.
  induction 1 as [|x l Hl IH Hx]; intros Himp; constructor.
  - apply IH. intros y z ??. apply Himp; by apply elem_of_cons; right.
  - rewrite Forall_forall in Hx |- *. intros y Hy.
    apply Himp; [by apply elem_of_cons; left|by apply elem_of_cons; right|auto].
Qed.

(** ** C01 *)

(** No legal operation runs outside the vector or aborts. *)
Theorem C01_legal_operations_succeed {K} (lt : K → K → bool) :
  strict_weak lt →
  ∀ h c o, reach lt h c → legal c o → is_Some (step lt h o).
Proof.
  intros SW h c o Hr Hl. apply (reach_repr _ SW) in Hr.
  destruct (step_repr _ SW h c o) as (h' & r & -> & _); by eauto.
Qed.

(** pop returns a minimum of what is contained, and nothing exactly when
    nothing is contained; [size] and [front] agree. *)
Theorem C01_pop_returns_minimum {K} (lt : K → K → bool) :
  strict_weak lt →
  ∀ h c, reach lt h c →
  ∃ h' r, pop lt h = Some (h', r) ∧ front h = r ∧
    match r with
    | None => c = ∅
    | Some x => minimal lt c x
    end.
Proof.
  intros SW h c Hr. apply (reach_repr _ SW) in Hr.
  destruct (step_repr _ SW h c OPop) as (h' & r & Hs & _ & Hm); [done..|].
  simpl in Hs. exists h', r. split_and!; [done| |done].
  unfold pop in Hs. unfold front. case_decide; [by simplify_eq|].
  destruct (arr h !! 0) eqn:E; simpl in Hs; [|done].
  destruct (if decide (1 < length (arr h)) then _ else _); simpl in Hs; by simplify_eq.
Qed.

(** The heap holds exactly the elements the history says, each once. *)
Theorem C01_heap_holds_contents {K} (lt : K → K → bool) :
  strict_weak lt →
  ∀ h c, reach lt h c →
    NoDup (arr h) ∧ (∀ e, e ∈ arr h ↔ is_Some (c !! e)) ∧ Model.size h = base.size c ∧
    (empty h = true ↔ c = ∅).
Proof.
  intros SW h c Hr. apply (reach_repr _ SW) in Hr.
  pose proof (repr_size _ _ _ Hr) as Hsz.
  split_and!.
  - apply Hr.
  - apply Hr.
  - done.
  - unfold empty. rewrite bool_decide_eq_true, Hsz. apply map_size_empty_iff.
Qed.

(** Popping until the heap is empty returns every contained element exactly
    once, in an order in which no later element precedes an earlier one. *)
Theorem C01_drain_sorts {K} (lt : K → K → bool) :
  strict_weak lt →
  ∀ h c, reach lt h c →
  ∃ xs, drain lt (S (base.size c)) h = Some xs ∧
    NoDup xs ∧ (∀ x, x ∈ xs ↔ is_Some (c !! x)) ∧
    StronglySorted (λ x y, ∀ kx ky, c !! x = Some kx → c !! y = Some ky → lt ky kx = false) xs.
Proof.
  intros SW h c Hr.
  remember (S (base.size c)) as n eqn:Hn.
  revert h c Hr Hn. induction n as [|n IH]; intros h c Hr Hn; [done|].
  injection Hn as ->.
  pose proof (reach_repr _ SW _ _ Hr) as Hrep.
  destruct (step_repr _ SW h c OPop) as (h' & r & Hs & _ & Hm); [done..|].
  pose proof (reach_step _ _ _ OPop _ _ Hr I Hs) as Hr'.
  simpl in Hs |- *. rewrite Hs. simpl. destruct r as [x|].
  - destruct Hm as (k & Hx & Hmin).
    assert (base.size c = S (base.size (delete x c))) as Hsz.
    { rewrite map_size_delete_Some by (by eexists).
      assert (base.size c ≠ 0); [|lia]. apply map_size_non_empty_iff.
      intros ->. done. }
    destruct (IH h' (delete x c)) as (xs & Hd & Hnd & Hin & Hsort); [done|done|].
    rewrite Hd. simpl. eexists. split; [done|].
    assert (x ∉ xs) as Hxs.
    { rewrite Hin, lookup_delete. by intros [??]. }
    split_and!.
    + by apply NoDup_cons.
    + intros y. rewrite elem_of_cons, Hin.
      destruct (decide (y = x)) as [->|].
      * rewrite Hx. split; [intros _; by eexists|by left].
      * rewrite lookup_delete_ne by done. naive_solver.
    + constructor.
      * eapply StronglySorted_weaken; [done|]. intros y z Hy Hz HR ky kz Hky Hkz.
        apply HR; rewrite lookup_delete_ne; naive_solver.
      * apply Forall_forall. intros y _ kx ky Hkx Hky. simplify_eq. by eapply Hmin.
  - subst c. eexists. split; [done|]. split_and!.
    + apply NoDup_nil_2.
    + intros x. rewrite lookup_empty. split; [by intros ?%elem_of_nil|by intros [??]].
    + constructor.
Qed.

(** ** C02 *)

(** The index last reported for a contained element is its position, and -1 for
    every element that is not contained. *)
Theorem C02_reported_indices_exact {K} (lt : K → K → bool) :
  strict_weak lt →
  ∀ h c, reach lt h c →
    (∀ i e, arr h !! i = Some e → ind h e = Z.of_nat i) ∧
    (∀ e, is_Some (c !! e) → ∃ i, ind h e = Z.of_nat i ∧ arr h !! i = Some e) ∧
    (∀ e, c !! e = None → ind h e = (-1)%Z).
Proof.
  intros SW h c Hr. destruct (reach_repr _ SW _ _ Hr) as (Hinv & Hin & Hk).
  pose proof (inv_exact _ _ _ Hinv) as [Hnd Hex].
  split_and!; [done| |].
  - intros e He. apply Hin, elem_of_list_lookup in He as [i Hi]. eauto.
  - intros e He. apply (inv_out _ _ _ Hinv); [|done]. rewrite Hin, He. by intros [??].
Qed.

(** pop reports -1 for the popped element, and update through the reported
    index repositions that very element: afterwards it carries the new key and
    the next pop is minimal with respect to it. *)
Theorem C02_popped_index_and_update {K} (lt : K → K → bool) :
  strict_weak lt →
  ∀ h c, reach lt h c →
    (∀ h' x, pop lt h = Some (h', Some x) → ind h' x = (-1)%Z) ∧
    (∀ e k, is_Some (c !! e) →
       ∃ h', update lt (setkey h e k) (ind h e) = Some h' ∧
         arr h' ≡ₚ arr h ∧ key h' e = k ∧
         ∃ h'' x, pop lt h' = Some (h'', Some x) ∧ minimal lt (<[e:=k]> c) x).
Proof.
  intros SW h c Hr. split.
  - intros h' x Hp.
    assert (reach lt h' (contents_step c OPop (Some x))) as Hr'.
    { by eapply (reach_step _ h c OPop). }
    apply (C02_reported_indices_exact _ SW) in Hr' as (_ & _ & H).
    apply H. simpl. apply lookup_delete.
  - intros e k He.
    destruct (step_repr _ SW h c (OUpdate e k)) as (h' & r & Hs & Hrep & ->);
      [by apply reach_repr|done|].
    assert (reach lt h' (<[e:=k]> c)) as Hr'.
    { by eapply (reach_step _ h c (OUpdate e k)). }
    simpl in Hs. destruct (update lt (setkey h e k) (ind h e)) as [h1|] eqn:Hu; [|done].
    simpl in Hs. injection Hs as ->.
    exists h'. split_and!; [done| | |].
    + pose proof (C01_heap_holds_contents _ SW _ _ Hr) as (Hnd & Hin & _).
      pose proof (C01_heap_holds_contents _ SW _ _ Hr') as (Hnd' & Hin' & _).
      apply NoDup_Permutation; [done..|]. intros x. rewrite Hin, Hin'.
      rewrite lookup_insert_is_Some'. naive_solver.
    + apply Hrep. apply lookup_insert.
    + destruct (C01_pop_returns_minimum _ SW _ _ Hr') as (h'' & [x|] & Hp & _ & Hm).
      * eauto.
      * by apply insert_non_empty in Hm.
Qed.

(** ** C03: after OpenList::clear, membership is stale. *)

(** Push a list of nodes. *)
Fixpoint pushes {K} (lt : K → K → bool) (h : heap K) (es : list nat) : option (heap K) :=
  match es with
  | [] => Some h
  | e :: es => h' ← ol_push lt h e; pushes lt h' es
  end.

(** For every reachable open list and every node in it: after clear the list is
    empty, yet mem still answers true, and post_update aborts. *)
Theorem C03_clear_leaves_stale_members {K} (lt : K → K → bool) :
  strict_weak lt →
  ∀ h c n, reach lt h c → is_Some (c !! n) →
    ol_empty (ol_clear h) = true ∧
    ol_mem (ol_clear h) n = true ∧
    ol_post_update lt (ol_clear h) n = None.
Proof.
  intros SW h c n Hr Hn.
  destruct (C02_reported_indices_exact _ SW _ _ Hr) as (_ & H & _).
  destruct (H n Hn) as (i & Hi & _).
  split_and!.
  - done.
  - unfold ol_mem. simpl. rewrite Hi. rewrite bool_decide_eq_false_2 by lia. done.
  - unfold ol_post_update. simpl. rewrite Hi. rewrite decide_False by lia.
    unfold update. simpl. rewrite decide_True by lia. done.
Qed.

(** If enough other nodes have been pushed since, post_update of such a node
    succeeds without inserting it. *)
Theorem C03_stale_post_update_drops_node {K} (lt : K → K → bool) :
  strict_weak lt →
  ∀ h c n es, reach lt h c → is_Some (c !! n) → n ∉ es →
    (ind h n < Z.of_nat (length es))%Z →
    ∃ h1 h2, pushes lt (ol_clear h) es = Some h1 ∧
      ol_post_update lt h1 n = Some h2 ∧ n ∉ arr h2 ∧ arr h2 ≡ₚ es.
Proof.
  intros SW h c n es Hr Hn Hes Hlt.
  destruct (C02_reported_indices_exact _ SW _ _ Hr) as (_ & H & _).
  destruct (H n Hn) as (i & Hi & _).
  assert (∀ h0, n ∉ arr h0 → ∃ h1, pushes lt h0 es = Some h1 ∧ arr h1 ≡ₚ es ++ arr h0 ∧
                 ind h1 n = ind h0 n) as Hpush.
  { clear Hlt. induction es as [|e es IH]; intros h0 Hn0; simpl.
    - eauto.
    - apply not_elem_of_cons in Hes as [Hne Hes].
      unfold ol_push. destruct (push_rearr lt h0 e) as (h1 & -> & HP & _ & Hind). simpl.
      destruct (IH Hes h1) as (h2 & Hps & HP2 & Hi2).
      { by rewrite HP, not_elem_of_cons. }
      exists h2. split_and!; [done| |].
      + rewrite HP2, HP. by rewrite Permutation_middle.
      + rewrite Hi2. apply Hind. by apply not_elem_of_cons. }
  destruct (Hpush (ol_clear h)) as (h1 & Hps & HP & Hi1); [apply not_elem_of_nil|].
  simpl in HP, Hi1. rewrite app_nil_r in HP. rewrite Hi in Hlt, Hi1.
  destruct (update_rearr lt h1 i) as (h2 & Hu & Hra).
  { rewrite HP. lia. }
  exists h1, h2. split_and!; [done| | |].
  - unfold ol_post_update. rewrite Hi1. by rewrite decide_False by lia.
  - by rewrite (ra_perm _ _ Hra), HP.
  - by rewrite (ra_perm _ _ Hra), HP.
Qed.

(** ** Non-vacuity *)

(** A legal history with every kind of operation: what it reaches and pops. *)
Definition ex_ops : list (op Z) :=
  [OPush 1 5%Z; OPush 2 3%Z; OPush 3 4%Z; OUpdate 1 1%Z; OPop; OAppend [(7, 2%Z); (8, 9%Z)];
   OPushUpdate 8 0%Z; OPushUpdate 9 6%Z; OReinit (λ e, Z.of_nat e)].

Definition legalb (c : gmap nat Z) (o : op Z) : bool :=
  match o with
  | OPush e _ => bool_decide (c !! e = None)
  | OPop | OPushUpdate _ _ | OReinit _ => true
  | OUpdate e _ => bool_decide (is_Some (c !! e))
  | OAppend es => bool_decide (NoDup es.*1) && forallb (λ e, bool_decide (c !! e = None)) es.*1
  end.

Lemma legalb_legal c o : legalb c o = true → legal c o.
Proof.
  destruct o; simpl; rewrite ?bool_decide_eq_true; try done.
  rewrite andb_true_iff, bool_decide_eq_true, forallb_forall.
  intros [? H]. split; [done|]. intros e He. apply elem_of_list_In, H in He.
  by apply bool_decide_eq_true in He.
Qed.

Fixpoint steps (h : heap Z) (c : gmap nat Z) (os : list (op Z)) : option (heap Z * gmap nat Z) :=
  match os with
  | [] => Some (h, c)
  | o :: os =>
    if legalb c o then '(h', r) ← step Z.ltb h o; steps h' (contents_step c o r) os else None
  end.

Lemma steps_reach h c os h' c' :
  reach Z.ltb h c → steps h c os = Some (h', c') → reach Z.ltb h' c'.
Proof.
  revert h c. induction os as [|o os IH]; intros h c Hr Hs; simpl in Hs; [by simplify_eq|].
  destruct (legalb c o) eqn:Hl; [|done]. apply legalb_legal in Hl.
  destruct (step Z.ltb h o) as [[h1 r]|] eqn:Hst; [|done]. simpl in Hs.
  eapply IH; [|done]. by eapply reach_step.
Qed.

Example ex_reach :
  ∃ h c, reach Z.ltb h c ∧
       map_to_list c ≡ₚ [(2, 2%Z); (3, 3%Z); (7, 7%Z); (8, 8%Z); (9, 9%Z)] ∧
       drain Z.ltb 6 h = Some [2; 3; 7; 8; 9].
Proof.
  assert (∃ h c, steps (new (λ _, 0%Z)) ∅ ex_ops = Some (h, c) ∧
       map_to_list c ≡ₚ [(2, 2%Z); (3, 3%Z); (7, 7%Z); (8, 8%Z); (9, 9%Z)] ∧
       drain Z.ltb 6 h = Some [2; 3; 7; 8; 9]) as (h & c & Hs & Hc & Hd).
  { set (P := λ s : option (heap Z * gmap nat Z), match s with
       | Some (h, c) => bool_decide (map_to_list c ≡ₚ [(2, 2%Z); (3, 3%Z); (7, 7%Z); (8, 8%Z); (9, 9%Z)])
           && bool_decide (drain Z.ltb 6 h = Some [2; 3; 7; 8; 9])
       | None => false end).
    assert (P (steps (new (λ _, 0%Z)) ∅ ex_ops) = true) as HP by (vm_compute; reflexivity).
    destruct (steps _ _ _) as [[h c]|]; [|done]. cbv beta iota delta [P] in HP.
    apply andb_true_iff in HP as [H1 H2].
    apply bool_decide_eq_true in H1, H2. exists h, c. split_and!; [reflexivity|exact H1|exact H2]. }
  exists h, c. split_and!; [|exact Hc|exact Hd].
  eapply steps_reach; [constructor|exact Hs].
Qed.

(** The hypotheses of both C03 theorems are met in that state. *)
Example ex_C03 :
  ∃ h c n es, reach Z.ltb h c ∧ is_Some (c !! n) ∧ n ∉ es ∧ (ind h n < Z.of_nat (length es))%Z.
Proof.
  destruct ex_reach as (h & c & Hr & Hc & _).
  assert (c !! 9 = Some 9%Z) as H9.
  { apply elem_of_map_to_list. rewrite Hc. by do 4 right; left. }
  exists h, c, 9, (repeat 1 (S (Z.to_nat (ind h 9)))).
  split_and!; [done|by rewrite H9| |].
  - rewrite elem_of_list_In. intros H. apply repeat_spec in H. done.
  - rewrite repeat_length. lia.
Qed.

Print Assumptions C01_legal_operations_succeed.
Print Assumptions C01_pop_returns_minimum.
Print Assumptions C01_heap_holds_contents.
Print Assumptions C01_drain_sorts.
Print Assumptions C02_reported_indices_exact.
Print Assumptions C02_popped_index_and_update.
Print Assumptions C03_clear_leaves_stale_members.
Print Assumptions C03_stale_post_update_drops_node.
