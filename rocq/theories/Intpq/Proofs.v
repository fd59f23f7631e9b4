(** Lemmas about the integer priority queue. *)
From stdpp Require Import prelude.
From Coq Require Import ZArith Lia ZifyNat.
From Verif.Intpq Require Import Model.
Ltac Zify.zify_post_hook ::= Z.div_mod_to_equations.

Lemma upd_same {A} (f : nat → A) e v : upd f e v e = v.
Proof. unfold upd. by rewrite decide_True. Qed.
Lemma upd_other {A} (f : nat → A) e v x : x ≠ e → upd f e v x = f x.
Proof. intros. unfold upd. by rewrite decide_False. Qed.

(** ** Doubly linked chains *)
Fixpoint linked (nxt prev : nat → option nat) (p : nat) (l : list nat) : Prop :=
  match l with
  | [] => True
  | a :: l => prev a = Some p ∧ nxt a = head l ∧ linked nxt prev a l
  end.

(** The first element of a bucket is its own predecessor. *)
Definition bucket nxt prev (l : list nat) : Prop :=
  match l with [] => True | a :: _ => linked nxt prev a l end.

Lemma linked_frame nxt prev nxt' prev' p l :
  linked nxt prev p l → (∀ a, a ∈ l → nxt' a = nxt a ∧ prev' a = prev a) →
  linked nxt' prev' p l.
Proof.
  revert p. induction l as [|a l IH]; intros p Hl Hf; [done|]. simpl in *.
  destruct Hl as (H1 & H2 & H3).
  destruct (Hf a) as [-> ->]; [by left|]. split_and!; [done..|].
  apply IH; [done|]. intros b Hb. apply Hf. by right.
Qed.

Lemma bucket_frame nxt prev nxt' prev' l :
  bucket nxt prev l → (∀ a, a ∈ l → nxt' a = nxt a ∧ prev' a = prev a) →
  bucket nxt' prev' l.
Proof. destruct l; [done|]. apply linked_frame. Qed.

(** Writing the predecessor of the first element. *)
Definition set_prev_head (prev : nat → option nat) (h : option nat) (v : nat) : nat → option nat :=
  match h with Some f => upd prev f (Some v) | None => prev end.

Lemma set_prev_head_other prev l v x : x ∉ l → set_prev_head prev (head l) v x = prev x.
Proof.
  destruct l as [|a l]; simpl; [done|]. intros H%not_elem_of_cons.
  apply upd_other. naive_solver.
Qed.

Lemma linked_set_prev nxt prev p v l :
  NoDup l → linked nxt prev p l → linked nxt (set_prev_head prev (head l) v) v l.
Proof.
  destruct l as [|a l]; simpl; [done|].
  intros [Ha Hnd]%NoDup_cons (H1 & H2 & H3).
  rewrite upd_same. split_and!; [done..|].
  eapply linked_frame; [done|]. intros b Hb. split; [done|].
  apply upd_other. by intros ->.
Qed.

Lemma linked_bucket_tail nxt prev p a l :
  NoDup (a :: l) → linked nxt prev p (a :: l) →
  ∀ v, linked nxt (set_prev_head prev (head l) v) v l.
Proof.
  intros [_ Hnd]%NoDup_cons (_ & _ & H3) v. by eapply linked_set_prev.
Qed.

(** Unlinking an interior element [e] with predecessor [q]. *)
Lemma linked_unlink nxt prev p l1 q e l2 :
  NoDup (l1 ++ q :: e :: l2) → linked nxt prev p (l1 ++ q :: e :: l2) →
  prev e = Some q ∧ nxt e = head l2 ∧
  linked (upd nxt q (head l2)) (set_prev_head prev (head l2) q) p (l1 ++ q :: l2).
Proof.
  revert p. induction l1 as [|a l1 IH]; intros p Hnd Hl; simpl in *.
  - destruct Hl as (H1 & H2 & H3 & H4 & H5).
    apply NoDup_cons in Hnd as [Hq Hnd]. apply NoDup_cons in Hnd as [He Hnd].
    apply not_elem_of_cons in Hq as [Hqe Hq].
    split_and!; [done|done| | |].
    + by rewrite set_prev_head_other.
    + by rewrite upd_same.
    + eapply linked_frame; [by eapply linked_set_prev|].
      intros b Hb. split; [|done]. apply upd_other. by intros ->.
  - destruct Hl as (H1 & H2 & H3). apply NoDup_cons in Hnd as [Ha Hnd].
    destruct (IH a Hnd H3) as (H4 & H5 & H6).
    split_and!; [done|done| | |done].
    + rewrite set_prev_head_other; [done|]. intros ?. apply Ha. set_solver.
    + rewrite upd_other by set_solver. rewrite H2. by destruct l1.
Qed.

(** ** The queue *)

(** Elements of priority [p], most recently pushed first. *)
Definition chain (c : list (nat * nat)) (p : nat) : list nat :=
  (filter (λ x, x.2 = p) c).*1.

Lemma elem_of_chain c p e : e ∈ chain c p ↔ (e, p) ∈ c.
Proof.
  unfold chain. rewrite elem_of_list_fmap. split.
  - intros ([x q] & -> & [Hq Hx]%elem_of_list_filter). csimpl in *. by subst.
  - intros H. exists (e, p). split; [done|]. by apply elem_of_list_filter.
Qed.

Lemma chain_cons c e p q :
  chain ((e, p) :: c) q = if decide (p = q) then e :: chain c q else chain c q.
Proof. unfold chain. rewrite filter_cons. csimpl. by case_decide. Qed.

Lemma NoDup_chain c p : NoDup c.*1 → NoDup (chain c p).
Proof.
  induction c as [|[e q] c IH]; [done|]. csimpl. intros [He Hnd]%NoDup_cons.
  rewrite chain_cons. case_decide; [|by apply IH].
  apply NoDup_cons. split; [|by apply IH].
  subst q. intros Hin%elem_of_chain. apply He. apply elem_of_list_fmap. by exists (e, p).
Qed.

Lemma chain_unique (c : list (nat * nat)) e p q :
  NoDup c.*1 → (e, p) ∈ c → (e, q) ∈ c → p = q.
Proof.
  induction c as [|[x y] c IH]; intros Hnd Hp Hq; [by apply elem_of_nil in Hp|].
  csimpl in Hnd. apply NoDup_cons in Hnd as [Hx Hnd].
  assert (∀ r, (x, r) ∈ c → False) as Hno.
  { intros r Hr. apply Hx. apply elem_of_list_fmap. by exists (x, r). }
  apply elem_of_cons in Hp as [Hp|Hp]; apply elem_of_cons in Hq as [Hq|Hq].
  - congruence.
  - injection Hp as -> ->. by apply Hno in Hq.
  - injection Hq as -> ->. by apply Hno in Hp.
  - by apply IH.
Qed.

Definition without (e : nat) (c : list (nat * nat)) : list (nat * nat) :=
  filter (λ x, x.1 ≠ e) c.

Lemma elem_of_without e c x p : (x, p) ∈ without e c ↔ x ≠ e ∧ (x, p) ∈ c.
Proof. unfold without. rewrite elem_of_list_filter. done. Qed.

Lemma NoDup_without e c : NoDup c.*1 → NoDup (without e c).*1.
Proof.
  unfold without. induction c as [|[x p] c IH]; [done|]. csimpl.
  intros [Hx Hnd]%NoDup_cons. rewrite filter_cons. csimpl. case_decide; [|by apply IH].
  csimpl. apply NoDup_cons. split; [|by apply IH].
  intros ([y q] & -> & Hy)%elem_of_list_fmap. apply Hx. apply elem_of_list_fmap.
  exists (y, q). split; [done|]. by apply elem_of_list_filter in Hy as [_ ?].
Qed.

Lemma chain_without e c p : chain (without e c) p = filter (λ x, x ≠ e) (chain c p).
Proof.
  unfold without. induction c as [|[x q] c IH]; [done|].
  rewrite chain_cons, filter_cons. csimpl. repeat case_decide; subst.
  - rewrite chain_cons, decide_True, filter_cons, decide_True by done. by rewrite IH.
  - rewrite chain_cons, decide_False by done. done.
  - rewrite filter_cons, decide_False by tauto. done.
  - done.
Qed.

Lemma filter_id {A} (P : A → Prop) `{∀ x, Decision (P x)} (l : list A) :
  (∀ x, x ∈ l → P x) → filter P l = l.
Proof.
  induction l as [|x l IH]; intros Hl; [done|]. rewrite filter_cons, decide_True.
  - f_equal. apply IH. intros y Hy. apply Hl. by right.
  - apply Hl. by left.
Qed.

Lemma length_without e p (c : list (nat * nat)) :
  NoDup c.*1 → (e, p) ∈ c → S (length (without e c)) = length c.
Proof.
  unfold without. induction c as [|[x q] c IH]; intros Hnd Hin; [by apply elem_of_nil in Hin|].
  csimpl in Hnd. apply NoDup_cons in Hnd as [Hx Hnd]. rewrite filter_cons. csimpl.
  apply elem_of_cons in Hin as [[= -> ->]|Hin].
  - rewrite decide_False by tauto. f_equal. f_equal. apply filter_id.
    intros [y r] Hy <-. apply Hx. apply elem_of_list_fmap. by exists (y, r).
  - rewrite decide_True; csimpl.
    + f_equal. by apply IH.
    + intros ->. apply Hx. apply elem_of_list_fmap. by exists (e, p).
Qed.

Record repr (s : pq) (c : list (nat * nat)) : Prop := {
  r_nodup : NoDup c.*1;
  r_fill : fill s = Z.of_nat (length c);
  r_prio : ∀ e p, (e, p) ∈ c → p < length (bins s) ∧ pend s ≤ p;
  r_bins : ∀ p b, bins s !! p = Some b → b = head (chain c p);
  r_link : ∀ p, bucket (nxt s) (prev s) (chain c p);
  r_out : ∀ e, prev s e = None ↔ e ∉ c.*1 }.

Lemma r_prev s c e p : repr s c → (e, p) ∈ c → is_Some (prev s e).
Proof.
  intros Hr Hin. apply not_eq_None_Some. rewrite (r_out _ _ Hr). intros H. apply H.
  apply elem_of_list_fmap. by exists (e, p).
Qed.

Lemma new_repr sz nxt0 : repr (new sz nxt0) [].
Proof.
  split; csimpl.
  - constructor.
  - done.
  - intros e p H. by apply elem_of_nil in H.
  - intros p b [-> _]%lookup_replicate. done.
  - done.
  - intros e. split; [intros _; apply not_elem_of_nil|done].
Qed.

(** prio for which line 29 is defined: 1.5 (prio + 1) fits an unsigned int. *)
Definition prio_ok (p : nat) : Prop := (3 * (Z.of_nat p + 1) / 2 < 2 ^ 32)%Z.

Lemma push_spec s c e p :
  repr s c → e ∉ c.*1 → prio_ok p →
  ∃ s', push s e p = Some s' ∧ repr s' ((e, p) :: c).
Proof.
  intros Hr He Hp. unfold push.
  set (g := if decide (length (bins s) ≤ p) then _ else _).
  assert (∃ k, g = Some (PQ (fill s) (pend s) (bins s ++ replicate k None) (nxt s) (prev s)) ∧
               p < length (bins s) + k) as (k & -> & Hk).
  { subst g. case_decide as Hd.
    - unfold grow_size. unfold prio_ok in Hp. case_decide.
      + csimpl. unfold resize. rewrite decide_False.
        * eexists. split; [done|]. subst. unfold Initsz. csimpl. lia.
        * unfold Initsz. lia.
      + rewrite (Z.mod_small (Z.of_nat p + 1)) by lia.
        rewrite decide_True by lia. csimpl. unfold resize. rewrite decide_False by lia.
        eexists. split; [done|]. lia.
    - exists 0. csimpl. rewrite app_nil_r. split; [by destruct s|lia]. }
  csimpl.
  destruct Hr as [Hnd Hfill Hprio Hbins Hlink Hout].
  destruct (lookup_lt_is_Some_2 (bins s ++ replicate k None) p) as [b Hb].
  { rewrite app_length, replicate_length. done. }
  rewrite Hb. csimpl.
  assert (∀ q b, (bins s ++ replicate k None) !! q = Some b → b = head (chain c q)) as Hbins'.
  { intros q b' Hq. apply lookup_app_Some in Hq as [Hq|[Hge Hq]]; [by apply Hbins|].
    apply lookup_replicate in Hq as [-> _].
    destruct (chain c q) as [|x l] eqn:E; [done|].
    assert ((x, q) ∈ c) as Hx. { apply elem_of_chain. rewrite E. by left. }
    apply Hprio in Hx. lia. }
  assert (b = head (chain c p)) as -> by by apply Hbins'.
  assert (∀ q, e ∉ chain c q) as Hech.
  { intros q H%elem_of_chain. apply He. apply elem_of_list_fmap. by exists (e, q). }
  change (match head (chain c p) with Some f => upd (prev s) f (Some e) | None => prev s end)
    with (set_prev_head (prev s) (head (chain c p)) e).
  eexists. split; [done|]. split; csimpl.
  - by apply NoDup_cons.
  - rewrite Hfill. lia.
  - rewrite insert_length, app_length, replicate_length.
    intros x q [[= -> ->]|Hx]%elem_of_cons.
    + split; [done|]. case_decide; lia.
    + pose proof (Hprio _ _ Hx) as [??]. split; [lia|].
      case_decide as Hd; [|done]. destruct Hd as [Hd|Hd]; [|lia].
      rewrite Hfill in Hd. destruct c; [by apply elem_of_nil in Hx|csimpl in Hd; lia].
  - intros q b' Hq. rewrite chain_cons. case_decide as Hpq.
    + subst q. rewrite list_lookup_insert in Hq.
      * by injection Hq as <-.
      * rewrite app_length, replicate_length. done.
    + rewrite list_lookup_insert_ne in Hq by done. by apply Hbins'.
  - intros q. rewrite chain_cons. case_decide as Hpq.
    + subst q. csimpl. rewrite !upd_same. split_and!; [done..|].
      eapply linked_frame.
      * apply (linked_set_prev (nxt s) (prev s) (match chain c p with [] => 0 | a :: _ => a end)).
        -- by apply NoDup_chain.
        -- specialize (Hlink p). by destruct (chain c p).
      * intros a Ha. assert (a ≠ e) by (intros ->; by eapply Hech).
        rewrite !upd_other by done. done.
    + eapply bucket_frame; [apply Hlink|]. intros a Ha.
      assert (a ≠ e) by (intros ->; by eapply Hech). rewrite !upd_other by done.
      split; [done|]. apply set_prev_head_other.
      intros Ha'. apply elem_of_chain in Ha, Ha'. by apply Hpq, (chain_unique c a).
  - intros x. destruct (decide (x = e)) as [->|Hxe].
    + rewrite upd_same. split; [done|]. intros H. destruct H. by left.
    + rewrite upd_other by done. rewrite not_elem_of_cons.
      destruct (decide (x ∈ chain c p)) as [Hx|Hx].
      * split; [|intros [_ H]; destruct H; apply elem_of_list_fmap;
                 exists (x, p); split; [done|by apply elem_of_chain]].
        destruct (chain c p) as [|f l] eqn:E; [by apply elem_of_nil in Hx|]. csimpl.
        destruct (decide (x = f)) as [->|]; [by rewrite upd_same|].
        rewrite upd_other by done. rewrite Hout. done.
      * rewrite set_prev_head_other by done. rewrite Hout. naive_solver.
Qed.

(** Removing the head [e] of bucket [p]. *)
Lemma rm_head_repr s c e p l end' :
  repr s c → chain c p = e :: l →
  (∀ x q, (x, q) ∈ c → end' ≤ q) →
  repr (PQ (fill s - 1) end' (<[p := nxt s e]> (bins s)) (nxt s)
          (upd (set_prev_head (prev s) (nxt s e) (default 0 (nxt s e))) e None))
       (without e c).
Proof.
  intros Hr Hch Hend. pose proof Hr as [Hnd Hfill Hprio Hbins Hlink Hout].
  assert ((e, p) ∈ c) as He. { apply elem_of_chain. rewrite Hch. by left. }
  pose proof (Hlink p) as Hl. rewrite Hch in Hl. csimpl in Hl. destruct Hl as (Hpe & Hne & Hl).
  pose proof (NoDup_chain c p Hnd) as Hndc. rewrite Hch in Hndc.
  pose proof Hndc as Hndc'. apply NoDup_cons in Hndc' as [Hel Hndl].
  assert (chain (without e c) p = l) as Hchp.
  { rewrite chain_without, Hch, filter_cons, decide_False by tauto. apply filter_id.
    intros x Hx ->. done. }
  assert (∀ q, q ≠ p → chain (without e c) q = chain c q) as Hchq.
  { intros q Hq. rewrite chain_without. apply filter_id. intros x Hx ->.
    apply elem_of_chain in Hx. apply Hq. by eapply chain_unique. }
  split; csimpl.
  - by apply NoDup_without.
  - rewrite Hfill, <-(length_without e p c) by done. lia.
  - rewrite insert_length. intros x q [_ Hx]%elem_of_without.
    split; [by eapply Hprio|by eapply Hend].
  - intros q b Hq. destruct (decide (q = p)) as [->|Hqp].
    + rewrite list_lookup_insert in Hq by (by eapply Hprio). injection Hq as <-.
      by rewrite Hchp.
    + rewrite list_lookup_insert_ne in Hq by done. rewrite Hchq by done. by apply Hbins.
  - intros q. destruct (decide (q = p)) as [->|Hqp].
    + rewrite Hchp, Hne. destruct l as [|f l]; [done|].
      change (default 0 (head (f :: l))) with f.
      cbn [bucket].
      eapply linked_frame; [exact (linked_set_prev _ _ e f _ Hndl Hl)|].
      intros a Ha. split; [done|]. apply upd_other. intros ->. done.
    + rewrite Hchq by done. eapply bucket_frame; [apply Hlink|]. intros a Ha.
      split; [done|].
      assert (a ∉ e :: l) as Hae.
      { rewrite <-Hch. intros Ha'. apply elem_of_chain in Ha, Ha'.
        apply Hqp. by eapply chain_unique. }
      apply not_elem_of_cons in Hae as [??].
      rewrite upd_other by done. rewrite Hne. by apply set_prev_head_other.
  - intros x. destruct (decide (x = e)) as [->|Hxe].
    + rewrite upd_same. split; [|done]. intros _ ([y q] & -> & Hy)%elem_of_list_fmap.
      apply elem_of_without in Hy as [? _]. done.
    + rewrite upd_other by done.
      assert (x ∈ (without e c).*1 ↔ x ∈ c.*1) as Hiff.
      { rewrite !elem_of_list_fmap. split.
        - intros ([y q] & -> & [_ Hy]%elem_of_without). by exists (y, q).
        - intros ([y q] & -> & Hy). exists (y, q). split; [done|]. by apply elem_of_without. }
      rewrite Hiff, <-Hout, Hne.
      destruct (decide (x ∈ l)) as [Hx|Hx].
      * destruct l as [|f l]; [by apply elem_of_nil in Hx|]. csimpl.
        destruct (decide (x = f)) as [->|]; [|by rewrite upd_other].
        rewrite upd_same. split; [done|]. intros Hf. csimpl in Hl. naive_solver.
      * by rewrite set_prev_head_other.
Qed.

Lemma set_prev_head_default (pr : nat → option nat) (o : option nat) :
  set_prev_head pr o (default 0 o) = match o with Some f => upd pr f (Some f) | None => pr end.
Proof. by destruct o. Qed.

Lemma skip_spec l :
  (∀ i, i < skip l → l !! i = Some None) ∧
  match l !! skip l with Some None => False | _ => True end.
Proof.
  induction l as [|[x|] l [IH1 IH2]]; csimpl.
  - split; [lia|done].
  - split; [lia|done].
  - split; [|done]. intros [|i] Hi; [done|]. apply IH1. lia.
Qed.

(** The entry popped from [c]: among those of least priority, the first in the
    list, i.e. the most recently pushed. *)
Lemma pop_spec s c :
  repr s c →
  if decide (c = []) then pop s = Some (s, None)
  else ∃ s' e p l, pop s = Some (s', Some e) ∧ repr s' (without e c) ∧
         chain c p = e :: l ∧ ∀ x q, (x, q) ∈ c → p ≤ q.
Proof.
  intros Hr. pose proof Hr as [Hnd Hfill Hprio Hbins Hlink Hout]. unfold pop.
  case_decide as Hc.
  { subst c. by rewrite decide_True. }
  rewrite decide_False; [|destruct c; csimpl in *; [done|lia]].
  set (k := skip (drop (pend s) (bins s))).
  destruct (skip_spec (drop (pend s) (bins s))) as [Hsk1 Hsk2].
  assert (∀ x q, (x, q) ∈ c → pend s + k ≤ q) as Hge.
  { intros x q Hx. destruct (Hprio _ _ Hx) as [Hq1 Hq2].
    destruct (decide (pend s + k ≤ q)) as [|Hlt]; [done|]. exfalso.
    assert (bins s !! q = Some None) as Hq.
    { rewrite <-(Hsk1 (q - pend s)); [|fold k; lia]. rewrite lookup_drop. f_equal. lia. }
    apply Hbins in Hq. apply elem_of_chain in Hx.
    destruct (chain c q); [by apply elem_of_nil in Hx|done]. }
  assert (∃ x q, (x, q) ∈ c) as (x0 & q0 & Hx0).
  { destruct c as [|[x q] c]; [done|]. exists x, q. by left. }
  destruct (lookup_lt_is_Some_2 (bins s) (pend s + k)) as [b Hb].
  { pose proof (Hge _ _ Hx0). pose proof (Hprio _ _ Hx0). lia. }
  rewrite lookup_drop in Hsk2. fold k in Hsk2. rewrite Hb in Hsk2 |- *. csimpl.
  pose proof (Hbins _ _ Hb) as Hbh.
  destruct b as [e|]; [|done]. csimpl.
  destruct (chain c (pend s + k)) as [|e' l] eqn:Hch; [done|]. csimpl in Hbh. injection Hbh as <-.
  exists (PQ (fill s - 1) (pend s + k) (<[pend s + k:=nxt s e]> (bins s)) (nxt s)
    (upd match nxt s e with Some f => upd (prev s) f (Some f) | None => prev s end e None)).
  exists e, (pend s + k), l. split_and!; [done| |done|done].
  rewrite <-set_prev_head_default. by eapply rm_head_repr.
Qed.

Lemma linked_notin_prev nxt prev p l e q :
  linked nxt prev p l → e ∈ l → prev e = Some q → q = p ∨ q ∈ l.
Proof.
  revert p. induction l as [|a l IH]; intros p Hl He Hq; [by apply elem_of_nil in He|].
  destruct Hl as (H1 & H2 & H3). apply elem_of_cons in He as [->|He].
  - left. congruence.
  - right. destruct (IH a H3 He Hq) as [->|]; [by left|by right].
Qed.

Lemma rm_spec s c e p :
  repr s c → (e, p) ∈ c →
  ∃ s', rm s e p = Some s' ∧ repr s' (without e c).
Proof.
  intros Hr He. pose proof Hr as [Hnd Hfill Hprio Hbins Hlink Hout]. unfold rm, mem, fst_in.
  destruct (r_prev _ _ _ _ Hr He) as [q Hq]. rewrite Hq.
  pose proof (Hlink p) as Hl. pose proof (NoDup_chain c p Hnd) as Hndc.
  assert (e ∈ chain c p) as Hech by by apply elem_of_chain.
  destruct (chain c p) as [|a l] eqn:Hch; [by apply elem_of_nil in Hech|].
  pose proof Hl as Hl0. csimpl in Hl0. destruct Hl0 as (Ha & Hna & Hlt).
  destruct (decide (e = a)) as [->|Hea].
  - assert (q = a) as -> by congruence. rewrite bool_decide_eq_true_2 by done.
    rewrite decide_True by (by eapply Hprio).
    eexists. split; [done|]. rewrite <-set_prev_head_default.
    eapply rm_head_repr; [done..|]. intros x r Hx. by eapply Hprio.
  - assert (e ∈ l) as Hel by (apply elem_of_cons in Hech; tauto).
    assert (q ≠ e) as Hqe.
    { intros ->. apply elem_of_list_split in Hel as (l1 & l2 & ->).
      destruct l1 as [|b l1 _] using rev_ind.
      - csimpl in Hlt. destruct Hlt as (Hpe & _). congruence.
      - rewrite <-app_assoc in *. csimpl in *.
        destruct (linked_unlink (nxt s) (prev s) a l1 b e l2) as (Hpe & _).
        { by apply NoDup_cons in Hndc as [_ ?]. }
        { done. }
        assert (b = e) as -> by congruence.
        apply NoDup_cons in Hndc as [_ Hndc].
        apply NoDup_app in Hndc as (_ & _ & Hndc). apply NoDup_cons in Hndc as [Hb _].
        apply Hb. by left. }
    rewrite bool_decide_eq_false_2 by congruence. csimpl.
    assert (∃ l1 l2, a :: l = l1 ++ q :: e :: l2) as (l1 & l2 & Hsplit).
    { apply elem_of_list_split in Hel as (l1 & l2 & ->).
      destruct l1 as [|b l1 _] using rev_ind.
      - csimpl in Hlt. destruct Hlt as (Hpe & _). exists [], l2. csimpl. congruence.
      - exists (a :: l1), l2. rewrite <-app_assoc. csimpl. f_equal. f_equal.
        rewrite <-app_assoc in Hlt, Hndc. simpl in Hlt, Hndc.
        destruct (linked_unlink (nxt s) (prev s) a l1 b e l2) as (Hpe & _).
        { by apply NoDup_cons in Hndc as [_ ?]. }
        { done. }
        congruence. }
    rewrite Hsplit in Hl, Hndc.
    assert (linked (nxt s) (prev s) a (l1 ++ q :: e :: l2)) as Hlk.
    { rewrite <-Hsplit. by split_and!. }
    destruct (linked_unlink _ _ _ _ _ _ _ Hndc Hlk) as (Hpe & Hne & Hnew).
    assert (chain (without e c) p = l1 ++ q :: l2) as Hchp.
    { rewrite chain_without, Hch, Hsplit, filter_app.
      rewrite (filter_cons _ q), decide_True by done.
      rewrite (filter_cons _ e), decide_False by tauto.
      apply NoDup_app in Hndc as (_ & Hd1 & Hd2).
      apply NoDup_cons in Hd2 as [Hd2 Hd3]. apply NoDup_cons in Hd3 as [Hd3 _].
      rewrite !filter_id; [done| |].
      - intros x Hx ->. done.
      - intros x Hx ->. apply (Hd1 e Hx). right. by left. }
    assert (∀ r, r ≠ p → chain (without e c) r = chain c r) as Hchr.
    { intros r Hrp. rewrite chain_without. apply filter_id. intros x Hx ->.
      apply elem_of_chain in Hx. apply Hrp. by eapply chain_unique. }
    assert (∀ r x, r ≠ p → x ∈ chain c r → x ∉ l1 ++ q :: e :: l2) as Hdis.
    { intros r x Hrp Hx Hx'. rewrite <-Hsplit, <-Hch in Hx'.
      apply elem_of_chain in Hx, Hx'. apply Hrp. by eapply chain_unique. }
    rewrite Hne.
    change (match head l2 with Some f => upd (prev s) f (Some q) | None => prev s end)
      with (set_prev_head (prev s) (head l2) q).
    eexists. split; [done|]. split; csimpl.
    + by apply NoDup_without.
    + rewrite Hfill, <-(length_without e p c) by done. lia.
    + intros x r [_ Hx]%elem_of_without. by eapply Hprio.
    + intros r b Hb. destruct (decide (r = p)) as [->|Hrp].
      * rewrite Hchp. apply Hbins in Hb. rewrite Hch, Hsplit in Hb.
        rewrite Hb. by destruct l1.
      * rewrite Hchr by done. by apply Hbins.
    + intros r. destruct (decide (r = p)) as [->|Hrp].
      * rewrite Hchp. assert (∃ l', l1 ++ q :: l2 = a :: l') as [l' Hl'].
        { destruct l1; csimpl in *; simplify_eq; eauto. }
        rewrite Hl'. cbn [bucket]. rewrite <-Hl'.
        eapply linked_frame; [exact Hnew|]. intros x Hx. split; [done|].
        apply upd_other. intros ->.
        apply NoDup_app in Hndc as (_ & Hd1 & Hd2).
        apply NoDup_cons in Hd2 as [Hd2 Hd3]. apply NoDup_cons in Hd3 as [Hd3 _].
        apply elem_of_app in Hx as [Hx|Hx].
        -- apply (Hd1 e Hx). right. by left.
        -- apply elem_of_cons in Hx as [->|Hx]; [|done]. apply Hd2. by left.
      * rewrite Hchr by done. eapply bucket_frame; [apply Hlink|].
        intros x Hx. pose proof (Hdis _ _ Hrp Hx) as Hno.
        rewrite upd_other by set_solver. split; [done|].
        rewrite upd_other by set_solver. apply set_prev_head_other. set_solver.
    + intros x. destruct (decide (x = e)) as [->|Hxe].
      * rewrite upd_same. split; [|done]. intros _ ([y r] & -> & Hy)%elem_of_list_fmap.
        by apply elem_of_without in Hy as [? _].
      * rewrite upd_other by done.
        assert (x ∈ (without e c).*1 ↔ x ∈ c.*1) as Hiff.
        { rewrite !elem_of_list_fmap. split.
          - intros ([y r] & -> & [_ Hy]%elem_of_without). by exists (y, r).
          - intros ([y r] & -> & Hy). exists (y, r). split; [done|]. by apply elem_of_without. }
        rewrite Hiff, <-Hout.
        destruct l2 as [|f l2]; [done|]. csimpl.
        destruct (decide (x = f)) as [->|]; [|by rewrite upd_other].
        rewrite upd_same. split; [done|]. intros Hf.
        assert ((f, p) ∈ c) as Hfc.
        { apply elem_of_chain. rewrite Hch, Hsplit. set_solver. }
        by destruct (r_prev _ _ _ _ Hr Hfc) as [? ?]; congruence.
Qed.
