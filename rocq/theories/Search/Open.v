(** The open list as the searches see it, and its two implementations.

    The searches of search/ keep their frontier in OpenList<Node, Node, Cost>
    (search/search.hpp:96-143 for any cost type, 151-260 when the cost type is
    int) or directly in a BinHeap (search/wastar.hpp:175).  [openlist] collects
    the calls they make; [heap_ol] and [int_ol] are the two modelled
    implementations, from BinHeap/Model.v and IntOpen/Model.v.  [ol_ok] is what
    a search may rely on, and both implementations are proved to provide it.

    A node is a [nat] (its address); [K] is what the priority functions read
    from it.  [None]: the program does not survive the call. *)
From stdpp Require Import prelude gmap.
From Coq Require Import ZArith Lia.
From Verif Require Import Common.Orders.
From Verif Require BinHeap.Model BinHeap.Props IntOpen.Model IntOpen.Props.

Record openlist (K : Type) := OpenList {
  ol_T : Type;
  ol_new : ol_T;
  (** The client writes the priority fields of the node, then calls push. *)
  ol_push : ol_T → nat → K → option ol_T;
  ol_pop : ol_T → option (ol_T * nat);
  (** pre_update(n); the client writes the priority fields of n;
      post_update(n) (search/astar.hpp:132-139). *)
  ol_update : ol_T → nat → K → option ol_T;
  ol_empty : ol_T → bool;
  ol_mem : ol_T → nat → bool;
}.
Arguments OpenList {_}. Arguments ol_T {_}. Arguments ol_new {_}. Arguments ol_push {_}.
Arguments ol_pop {_}. Arguments ol_update {_}. Arguments ol_empty {_}. Arguments ol_mem {_}.

(** What an open list ordered by [lt] guarantees, for keys satisfying [okk]:
    there is a reading [ol_R] of its state as the map from contained nodes to
    keys for which every call does what its name says, and pop returns a node
    that no contained node precedes. *)
Record ol_ok {K} (lt : K → K → bool) (okk : K → Prop) (o : openlist K) := OlOk {
  ol_R : ol_T o → gmap nat K → Prop;
  olR_new : ol_R (ol_new o) ∅;
  olR_push s c n k : ol_R s c → c !! n = None → okk k →
    ∃ s', ol_push o s n k = Some s' ∧ ol_R s' (<[n:=k]> c);
  olR_pop s c : ol_R s c → c ≠ ∅ →
    ∃ s' n k, ol_pop o s = Some (s', n) ∧ c !! n = Some k ∧
      (∀ m k', c !! m = Some k' → lt k' k = false) ∧ ol_R s' (delete n c);
  olR_update s c n k k' : ol_R s c → c !! n = Some k → okk k' →
    ∃ s', ol_update o s n k' = Some s' ∧ ol_R s' (<[n:=k']> c);
  olR_empty s c : ol_R s c → ol_empty o s = bool_decide (c = ∅);
  olR_mem s c n : ol_R s c → ol_mem o s n = bool_decide (is_Some (c !! n));
}.
Arguments ol_R {_ _ _ _}. Arguments olR_new {_ _ _ _}. Arguments olR_push {_ _ _ _}.
Arguments olR_pop {_ _ _ _}. Arguments olR_update {_ _ _ _}. Arguments olR_empty {_ _ _ _}.
Arguments olR_mem {_ _ _ _}.

(** ** The binary heap, search/search.hpp:96-143. [k0]: what the priority fields
    of a node hold before they are first written. *)
Section heap.
  Import BinHeap.Model BinHeap.Props.
  Context {K : Type} (lt : K → K → bool) (k0 : K).

  Definition heap_ol : openlist K := OpenList
    (heap K)
    (new (λ _, k0))
    (λ h n k, BinHeap.Model.ol_push lt (setkey h n k) n)
    (λ h, '(h', r) ← BinHeap.Model.ol_pop lt h; n ← r; Some (h', n))
    (λ h n k, BinHeap.Model.ol_post_update lt (setkey (BinHeap.Model.ol_pre_update h n) n k) n)
    (λ h, BinHeap.Model.ol_empty h)
    (λ h n, BinHeap.Model.ol_mem h n).

  Lemma heap_ok : strict_weak lt → ol_ok lt (λ _, True) heap_ol.
  Proof.
    intros SW.
    refine (OlOk _ lt (λ _, True) heap_ol (reach lt) _ _ _ _ _ _); simpl.
    - constructor.
    - intros s c n k Hr Hn _.
      destruct (C01_legal_operations_succeed lt SW s c (OPush n k) Hr Hn) as [[h' r] Hs].
      pose proof (reach_step _ _ _ _ _ _ Hr (Hn : legal c (OPush n k)) Hs) as Hr'.
      simpl in Hs. destruct (push lt (setkey s n k) n) as [h1|] eqn:E; [|done].
      simplify_eq/=. eauto.
    - intros s c Hr Hne.
      destruct (C01_pop_returns_minimum lt SW s c Hr) as (h' & r & Hp & _ & Hm).
      pose proof (reach_step _ _ _ OPop _ _ Hr I Hp) as Hr'.
      destruct r as [x|]; [|done]. destruct Hm as (k & Hk & Hmin).
      exists h', x, k. unfold BinHeap.Model.ol_pop. rewrite Hp. split_and!; done.
    - intros s c n k k' Hr Hn _.
      assert (legal c (OUpdate n k')) as Hl by (simpl; eauto).
      destruct (C01_legal_operations_succeed lt SW s c (OUpdate n k') Hr Hl) as [[h' r] Hs].
      pose proof (reach_step _ _ _ _ _ _ Hr Hl Hs) as Hr'.
      simpl in Hs. destruct (update lt (setkey s n k') (ind s n)) as [h1|] eqn:E; [|done].
      simplify_eq/=. exists h'. split; [|done].
      unfold ol_post_update, ol_pre_update. simpl.
      destruct (C02_reported_indices_exact _ SW _ _ Hr) as (_ & Hi & _).
      destruct (Hi n) as (i & Hi' & _); [eauto|]. rewrite Hi' in *.
      rewrite decide_False by lia. done.
    - intros s c Hr.
      destruct (C01_heap_holds_contents _ SW _ _ Hr) as (_ & _ & _ & He).
      unfold BinHeap.Model.ol_empty. destruct (empty s).
      + symmetry. apply bool_decide_eq_true. by apply He.
      + symmetry. apply bool_decide_eq_false. intros H. apply He in H. done.
    - intros s c n Hr.
      destruct (C02_reported_indices_exact _ SW _ _ Hr) as (_ & Hi & Hn).
      unfold BinHeap.Model.ol_mem. destruct (c !! n) as [k|] eqn:E.
      + destruct (Hi n) as (i & Hi' & _); [eauto|]. rewrite Hi'.
        rewrite bool_decide_eq_false_2 by lia. by rewrite bool_decide_eq_true_2 by eauto.
      + rewrite (Hn n E). rewrite bool_decide_eq_true_2 by done.
        rewrite bool_decide_eq_false_2; [done|]. intros [? ?]. done.
  Qed.
End heap.

(** ** The bucketed list for int costs, search/search.hpp:151-260.  Keys are
    (prio, tieprio); they are non-negative. *)
Section buckets.
  Import IntOpen.Model IntOpen.Props.

  Definition int_ol : openlist (Z * Z) := OpenList
    ol
    (IntOpen.Model.ol_new (λ _, 0%Z) (λ _, 0%Z))
    (λ s n k, IntOpen.Model.ol_push (ol_write s n k.1 k.2) n)
    (λ s, IntOpen.Model.ol_pop s)
    (λ s n k, s ← IntOpen.Model.ol_pre_update s n; IntOpen.Model.ol_post_update (ol_write s n k.1 k.2) n)
    (λ s, IntOpen.Model.ol_empty s)
    (λ s n, IntOpen.Model.ol_mem s n).

  (** Smaller prio first, then larger tieprio. *)
  Definition int_lt (a b : Z * Z) : bool :=
    if decide (a.1 = b.1) then bool_decide (b.2 < a.2)%Z else bool_decide (a.1 < b.1)%Z.

  Lemma int_ok : ol_ok int_lt (λ k, 0 ≤ k.1 ∧ 0 ≤ k.2)%Z int_ol.
  Proof.
    refine (OlOk _ int_lt (λ k, 0 ≤ k.1 ∧ 0 ≤ k.2)%Z int_ol reach _ _ _ _ _ _); simpl.
    - constructor.
    - intros s c n [p t] Hr Hn [Hp Ht]. simpl in *.
      assert (legal c (OPush n p t)) as Hl by (simpl; eauto).
      destruct (C04_legal_operations_succeed s c _ Hr Hl) as [[s' r] Hs].
      pose proof (reach_step _ _ _ _ _ Hr Hl Hs) as Hr'. simpl in Hs.
      destruct (IntOpen.Model.ol_push (ol_write s n p t) n) eqn:E; [|done]. simplify_eq/=. eauto.
    - intros s c Hr Hne.
      destruct (C04_pop_returns_first s c Hr Hne) as (s' & n & Hp & p & t & Hn & Hf).
      exists s', n, (p, t). split_and!; [done|done| |].
      + intros m [p' t'] Hm. apply Hf in Hm. unfold int_lt. simpl.
        case_decide; apply bool_decide_eq_false; lia.
      + assert (step s OPop = Some (s', Some n)) as Hs by (simpl; by rewrite Hp).
        apply (reach_step _ _ _ _ _ Hr (Hne : legal c OPop) Hs).
    - intros s c n k [p t] Hr Hn [Hp Ht]. simpl in *.
      assert (legal c (OUpdate n p t)) as Hl by (simpl; eauto).
      destruct (C04_legal_operations_succeed s c _ Hr Hl) as [[s' r] Hs].
      pose proof (reach_step _ _ _ _ _ Hr Hl Hs) as Hr'. simpl in Hs.
      destruct (IntOpen.Model.ol_pre_update s n) as [s1|]; [|done]. simpl in *.
      destruct (IntOpen.Model.ol_post_update (ol_write s1 n p t) n) eqn:E; [|done]. simplify_eq/=. eauto.
    - intros s c Hr. destruct (C04_empty_mem_exact _ _ Hr) as [He _].
      destruct (IntOpen.Model.ol_empty s).
      + symmetry. apply bool_decide_eq_true. by apply He.
      + symmetry. apply bool_decide_eq_false. intros H. apply He in H. done.
    - intros s c n Hr. destruct (C04_empty_mem_exact _ _ Hr) as [_ Hm]. specialize (Hm n).
      destruct (IntOpen.Model.ol_mem s n).
      + symmetry. apply bool_decide_eq_true. by apply Hm.
      + symmetry. apply bool_decide_eq_false. intros H. apply Hm in H. done.
  Qed.
End buckets.
