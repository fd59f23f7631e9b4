(** Lemmas about the chained hash tables. *)
From stdpp Require Import prelude.
From Coq Require Import Lia.
From Verif.Hash Require Import Model.

(** ** Chains *)

Fixpoint chain (nx : nat → option nat) (p : option nat) (l : list nat) : Prop :=
  match l with
  | [] => p = None
  | e :: l => p = Some e ∧ chain nx (nx e) l
  end.

Lemma upd_same nx e v : upd nx e v e = v.
Proof. unfold upd. by rewrite decide_True. Qed.
Lemma upd_other nx e v x : x ≠ e → upd nx e v x = nx x.
Proof. intros. unfold upd. by rewrite decide_False. Qed.

Lemma chain_ext nx nx' p l : (∀ e, e ∈ l → nx' e = nx e) → chain nx p l → chain nx' p l.
Proof.
  revert p. induction l as [|e l IH]; intros p He Hc; [done|].
  destruct Hc as [-> Hc]. split; [done|]. rewrite He by by left.
  apply IH; [|done]. intros x Hx. apply He. by right.
Qed.
Lemma chain_upd nx e v p l : e ∉ l → chain nx p l → chain (upd nx e v) p l.
Proof. intros He. apply chain_ext. intros x Hx. apply upd_other. congruence. Qed.

Lemma chain_nil nx l : chain nx None l → l = [].
Proof. destruct l; [done|]. by intros []. Qed.

Lemma chains_ext nx nx' bs cs :
  (∀ e, e ∈ concat cs → nx' e = nx e) → Forall2 (chain nx) bs cs → Forall2 (chain nx') bs cs.
Proof.
  intros He H. induction H as [|b c bs cs Hb H IH]; constructor.
  - eapply chain_ext; [|done]. intros e Hin. apply He. simpl. apply elem_of_app. by left.
  - apply IH. intros e Hin. apply He. simpl. apply elem_of_app. by right.
Qed.

(** ** Pushing onto the chain of a bucket *)

Definition push (h : nat → nat) (cs : list (list nat)) (e : nat) : list (list nat) :=
  alter (cons e) (h e mod length cs) cs.

Lemma push_length h cs e : length (push h cs e) = length cs.
Proof. apply alter_length. Qed.

Lemma foldl_push_length h cs l : length (foldl (push h) cs l) = length cs.
Proof.
  revert cs. induction l as [|e l IH]; intros cs; [done|]. simpl. rewrite IH. apply push_length.
Qed.

Lemma concat_alter (cs : list (list nat)) i c e :
  cs !! i = Some c → concat (alter (cons e) i cs) ≡ₚ e :: concat cs.
Proof.
  revert i. induction cs as [|c' cs IH]; intros i Hi; [done|].
  destruct i as [|i].
  - simpl in *. simplify_eq. done.
  - change (c' ++ concat (alter (cons e) i cs) ≡ₚ e :: c' ++ concat cs).
    rewrite (IH i) by done. by rewrite Permutation_middle.
Qed.

Lemma push_perm h cs e : cs ≠ [] → concat (push h cs e) ≡ₚ e :: concat cs.
Proof.
  intros Hne. destruct (lookup_lt_is_Some_2 cs (h e mod length cs)) as [c Hc].
  { apply Nat.mod_upper_bound. by destruct cs. }
  by eapply concat_alter.
Qed.

Lemma foldl_push_perm h cs l : cs ≠ [] → concat (foldl (push h) cs l) ≡ₚ l ++ concat cs.
Proof.
  revert cs. induction l as [|e l IH]; intros cs Hne; [done|]. simpl. rewrite IH.
  - rewrite push_perm by done. by rewrite Permutation_middle.
  - intros H. apply (f_equal length) in H. rewrite push_length in H. by destruct cs.
Qed.

Definition placed (h : nat → nat) (cs : list (list nat)) : Prop :=
  ∀ i c e, cs !! i = Some c → e ∈ c → h e mod length cs = i.

Lemma push_placed h cs e : placed h cs → placed h (push h cs e).
Proof.
  intros Hp i c x Hi Hx. rewrite push_length. unfold push in Hi.
  destruct (decide (i = h e mod length cs)) as [->|Hne].
  - rewrite list_lookup_alter in Hi. destruct (cs !! _) as [c0|] eqn:Hc; [|done].
    simpl in Hi. injection Hi as <-. apply elem_of_cons in Hx as [->|Hx]; [done|].
    by eapply Hp.
  - rewrite list_lookup_alter_ne in Hi by done. by eapply Hp.
Qed.
Lemma foldl_push_placed h cs l : placed h cs → placed h (foldl (push h) cs l).
Proof.
  revert cs. induction l as [|e l IH]; intros cs Hp; [done|]. simpl. apply IH. by apply push_placed.
Qed.

Section proofs.
Context {K : Type} (key : nat → K) (hash : K → nat) (eqk : K → K → bool).
Notation H := (λ e, hash (key e)).

Lemma link_spec b nx e cs :
  Forall2 (chain nx) b cs → e ∉ concat cs → b ≠ [] →
  ∃ b' nx', link b nx e (hash (key e)) = Some (b', nx') ∧
    Forall2 (chain nx') b' (push H cs e) ∧ (∀ x, x ≠ e → nx' x = nx x) ∧ b' ≠ [].
Proof.
  intros Hc He Hb. unfold link, push.
  assert (length b ≠ 0) by by destruct b.
  rewrite decide_False by done.
  pose proof (Forall2_length _ _ _ Hc) as Hlen. rewrite <-Hlen.
  set (i := hash (key e) mod length b).
  destruct (lookup_lt_is_Some_2 b i) as [p Hp]. { by apply Nat.mod_upper_bound. }
  rewrite Hp. simpl. do 2 eexists. split; [done|]. split_and!.
  - assert (Forall2 (chain (upd nx e p)) b cs) as Hc'.
    { eapply chains_ext; [|done]. intros x Hx. apply upd_other. congruence. }
    destruct (Forall2_lookup_l _ _ _ _ _ Hc' Hp) as (c & Hcs & Hch).
    apply Forall2_lookup. intros j.
    destruct (decide (j = i)) as [->|Hj].
    + rewrite list_lookup_insert by by apply Nat.mod_upper_bound.
      rewrite list_lookup_alter, Hcs. simpl. constructor. split; [done|]. by rewrite upd_same.
    + rewrite list_lookup_insert_ne, list_lookup_alter_ne by done.
      by apply Forall2_lookup.
  - intros x Hx. by apply upd_other.
  - intros H0. apply (f_equal length) in H0. rewrite insert_length in H0. done.
Qed.

Lemma move_spec fuel b nx p l cs :
  length l ≤ fuel → chain nx p l → Forall2 (chain nx) b cs → b ≠ [] →
  NoDup l → (∀ e, e ∈ l → e ∉ concat cs) →
  ∃ b' nx', move key hash fuel b nx p = Some (b', nx') ∧
    Forall2 (chain nx') b' (foldl (push H) cs l) ∧ (∀ x, x ∉ l → nx' x = nx x) ∧ b' ≠ [].
Proof.
  revert fuel b nx p cs. induction l as [|e l IH]; intros fuel b nx p cs Hf Hp Hc Hb Hnd Hdis.
  - simpl in Hp. subst p. exists b, nx. by destruct fuel.
  - destruct Hp as [-> Hp]. destruct fuel as [|fuel]; simpl in Hf; [lia|]. simpl.
    destruct (link_spec b nx e cs Hc) as (b1 & nx1 & -> & Hc1 & Hnx1 & Hb1);
      [by apply Hdis; left|done|]. simpl.
    apply NoDup_cons in Hnd as [Hel Hnd].
    assert (cs ≠ []) as Hcs.
    { intros ->. apply Hb. by eapply Forall2_nil_inv_r. }
    destruct (IH fuel b1 nx1 (nx e) (push H cs e)) as (b2 & nx2 & -> & Hc2 & Hnx2 & Hb2).
    + lia.
    + eapply chain_ext; [|done]. intros x Hx. apply Hnx1. congruence.
    + done.
    + done.
    + done.
    + intros x Hx. rewrite push_perm by done. intros Hx'. apply elem_of_cons in Hx' as [->|Hx'].
      * done.
      * eapply Hdis; [by right|done].
    + exists b2, nx2. split_and!; [done|done| |done]. intros x Hx.
      apply not_elem_of_cons in Hx as [Hx1 Hx2]. rewrite Hnx2 by done. by apply Hnx1.
Qed.

Lemma move_all_spec fuel old : ∀ b nx ocs cs,
  length (concat ocs) ≤ fuel → Forall2 (chain nx) old ocs → Forall2 (chain nx) b cs → b ≠ [] →
  NoDup (concat ocs) → (∀ e, e ∈ concat ocs → e ∉ concat cs) →
  ∃ b' nx', move_all key hash fuel b nx old = Some (b', nx') ∧
    Forall2 (chain nx') b' (foldl (push H) cs (concat ocs)) ∧
    (∀ x, x ∉ concat ocs → nx' x = nx x) ∧ b' ≠ [].
Proof.
  induction old as [|p old IH]; intros b nx ocs cs Hf Ho Hc Hb Hnd Hdis.
  - apply Forall2_nil_inv_l in Ho as ->. by exists b, nx.
  - apply Forall2_cons_inv_l in Ho as (l & ocs' & Hl & Ho & ->). simpl in *.
    rewrite app_length in Hf. apply NoDup_app in Hnd as (Hnl & Hlo & Hno).
    destruct (move_spec fuel b nx p l cs) as (b1 & nx1 & -> & Hc1 & Hnx1 & Hb1);
      [lia|done|done|done|done| |].
    { intros e He. apply Hdis. apply elem_of_app. by left. }
    simpl.
    assert (cs ≠ []) as Hcs. { intros ->. apply Hb. by eapply Forall2_nil_inv_r. }
    destruct (IH b1 nx1 ocs' (foldl (push H) cs l)) as (b2 & nx2 & -> & Hc2 & Hnx2 & Hb2).
    + lia.
    + eapply chains_ext; [|done]. intros x Hx. apply Hnx1. intros Hxl. by eapply Hlo.
    + done.
    + done.
    + done.
    + intros e He. rewrite foldl_push_perm by done. intros He'.
      apply elem_of_app in He' as [He'|He']; [by eapply Hlo|].
      eapply Hdis; [|done]. apply elem_of_app. by right.
    + exists b2, nx2. split_and!; [done| | |done].
      * by rewrite foldl_app.
      * intros x Hx. rewrite elem_of_app in Hx. rewrite Hnx2 by tauto. apply Hnx1. tauto.
Qed.

(** ** Representation *)

Record repr (t : table) (cs : list (list nat)) : Prop := {
  r_chains : Forall2 (chain (nxt t)) (bins t) cs;
  r_nodup : NoDup (concat cs);
  r_placed : placed H cs;
  r_fill : fill t = length (concat cs) }.

Lemma concat_replicate_nil n : concat (replicate n ([] : list nat)) = [].
Proof. induction n; simpl; auto. Qed.

Lemma replicate_chains nx n : Forall2 (chain nx) (replicate n None) (replicate n []).
Proof. induction n; simpl; constructor; done. Qed.

Lemma replicate_placed n : placed H (replicate n []).
Proof. intros i c e Hi He. apply lookup_replicate in Hi as [-> _]. by apply elem_of_nil in He. Qed.

Lemma new_repr sz nx : repr (new sz nx) (replicate sz []).
Proof.
  split; simpl.
  - apply replicate_chains.
  - rewrite concat_replicate_nil. constructor.
  - apply replicate_placed.
  - by rewrite concat_replicate_nil.
Qed.

Lemma clear_repr t : repr (clear t) (replicate (length (bins t)) []).
Proof.
  split; simpl.
  - apply replicate_chains.
  - rewrite concat_replicate_nil. constructor.
  - apply replicate_placed.
  - by rewrite concat_replicate_nil.
Qed.

Lemma resize_spec fuel t cs sz :
  repr t cs → sz ≠ 0 → length (concat cs) ≤ fuel →
  ∃ t' cs', resize key hash fuel t sz = Some t' ∧ repr t' cs' ∧ concat cs' ≡ₚ concat cs ∧
    length (bins t') = sz.
Proof.
  intros [Hc Hnd Hp Hf] Hsz Hfuel. unfold resize.
  assert (replicate sz ([] : list nat) ≠ []) as Hne by by destruct sz.
  destruct (move_all_spec fuel (bins t) (replicate sz None) (nxt t) cs (replicate sz []))
    as (b' & nx' & -> & Hc' & _ & Hb').
  - done.
  - done.
  - apply replicate_chains.
  - by destruct sz.
  - done.
  - intros e _. rewrite concat_replicate_nil. apply not_elem_of_nil.
  - simpl.
    assert (concat (foldl (push H) (replicate sz []) (concat cs)) ≡ₚ concat cs) as Hperm.
    { rewrite foldl_push_perm by done. by rewrite concat_replicate_nil, app_nil_r. }
    do 2 eexists. split; [done|]. split_and!; [|done|].
    + split; simpl.
      * done.
      * by rewrite Hperm.
      * apply foldl_push_placed, replicate_placed.
      * by rewrite Hperm.
    + simpl. apply Forall2_length in Hc'. by rewrite Hc', foldl_push_length, replicate_length.
Qed.

Lemma add_spec ff fuel t cs e :
  repr t cs → e ∉ concat cs → length (concat cs) ≤ fuel →
  ∃ t' cs', add key hash ff fuel t e = Some t' ∧ repr t' cs' ∧ concat cs' ≡ₚ e :: concat cs ∧
    bins t' ≠ [].
Proof.
  intros Hr He Hfuel. unfold add.
  assert (∃ t1 cs1, (if decide (length (bins t) ≤ fill t * ff)
     then resize key hash fuel t (if decide (length (bins t) = 0) then 1024 else length (bins t) * 2)
     else Some t) = Some t1 ∧ repr t1 cs1 ∧ concat cs1 ≡ₚ concat cs ∧ bins t1 ≠ [])
    as (t1 & cs1 & -> & Hr1 & Hp1 & Hb1).
  { case_decide as Hd.
    - set (sz := if decide (length (bins t) = 0) then 1024 else length (bins t) * 2).
      assert (sz ≠ 0) as Hsz by (unfold sz; case_decide; lia).
      destruct (resize_spec fuel t cs sz Hr Hsz Hfuel) as (t1 & cs1 & -> & Hr1 & Hp1 & Hl).
      exists t1, cs1. split_and!; [done..|]. intros H0. rewrite H0 in Hl. done.
    - exists t, cs. split_and!; [done..|]. intros H0. rewrite H0 in Hd. simpl in Hd. lia. }
  simpl. destruct Hr1 as [Hc Hnd Hp Hf].
  assert (e ∉ concat cs1) as He1 by by rewrite Hp1.
  destruct (link_spec (bins t1) (nxt t1) e cs1 Hc He1 Hb1) as (b & nx & -> & Hc2 & _ & Hb2).
  simpl.
  assert (cs1 ≠ []) as Hcs1. { intros ->. apply Hb1. by eapply Forall2_nil_inv_r. }
  do 2 eexists. split; [done|]. split_and!; [| |done].
  - split; simpl.
    + done.
    + rewrite push_perm by done. by apply NoDup_cons.
    + by apply push_placed.
    + rewrite push_perm by done. simpl. lia.
  - rewrite push_perm by done. by rewrite Hp1.
Qed.

(** ** Searching a chain *)

Fixpoint first (k : K) (l : list nat) : option nat :=
  match l with
  | [] => None
  | e :: l => if eqk (key e) k then Some e else first k l
  end.

Lemma first_Some k l e : first k l = Some e → e ∈ l ∧ eqk (key e) k = true.
Proof.
  induction l as [|x l IH]; simpl; [done|]. destruct (eqk (key x) k) eqn:E.
  - intros [= ->]. split; [by left|done].
  - intros H. destruct (IH H). split; [by right|done].
Qed.
Lemma first_None k l : first k l = None → ∀ e, e ∈ l → eqk (key e) k = false.
Proof.
  induction l as [|x l IH]; simpl; intros Hf e He; [by apply elem_of_nil in He|].
  destruct (eqk (key x) k) eqn:E; [done|].
  apply elem_of_cons in He as [->|He]; [done|]. by apply IH.
Qed.

Lemma walk_spec fuel nx p k l :
  chain nx p l → length l ≤ fuel → walk key eqk fuel nx p k = Some (first k l).
Proof.
  revert fuel p. induction l as [|e l IH]; intros fuel p Hc Hf.
  - simpl in Hc. subst p. by destruct fuel.
  - destruct Hc as [-> Hc]. simpl in Hf. destruct fuel as [|fuel]; [lia|]. simpl.
    destruct (eqk (key e) k); [done|]. apply IH; [done|lia].
Qed.

Lemma bin_lookup t cs i :
  repr t cs → i < length (bins t) →
  ∃ p c, bins t !! i = Some p ∧ cs !! i = Some c ∧ chain (nxt t) p c.
Proof.
  intros [Hc _ _ _] Hi. destruct (lookup_lt_is_Some_2 _ _ Hi) as [p Hp].
  destruct (Forall2_lookup_l _ _ _ _ _ Hc Hp) as (c & Hcs & Hch). eauto.
Qed.

Lemma concat_length_lookup (cs : list (list nat)) i c :
  cs !! i = Some c → length c ≤ length (concat cs).
Proof.
  revert i. induction cs as [|c' cs IH]; intros i Hi; [done|]. simpl. rewrite app_length.
  destruct i as [|i]; simpl in Hi; [simplify_eq; lia|]. apply IH in Hi. lia.
Qed.
Lemma elem_of_concat (cs : list (list nat)) e :
  e ∈ concat cs ↔ ∃ i c, cs !! i = Some c ∧ e ∈ c.
Proof.
  induction cs as [|c' cs IH]; simpl.
  - split; [by intros ?%elem_of_nil|]. by intros (i & c & Hi & _).
  - rewrite elem_of_app, IH. split.
    + intros [He|(i & c & Hi & He)]; [by exists 0, c'|by exists (S i), c].
    + intros ([|i] & c & Hi & He); simpl in Hi; [simplify_eq; by left|right; eauto].
Qed.

Hypothesis hash_compat : ∀ a b, eqk a b = true → hash a = hash b.

Lemma bucket_complete t cs k c e :
  repr t cs → cs !! (hash k mod length (bins t)) = Some c →
  e ∈ concat cs → eqk (key e) k = true → e ∈ c.
Proof.
  intros Hr Hc He Hk. apply elem_of_concat in He as (i & c' & Hi & He).
  pose proof (r_placed _ _ Hr i c' e Hi He) as Hpl. simpl in Hpl.
  rewrite (hash_compat _ _ Hk) in Hpl.
  rewrite <-(Forall2_length _ _ _ (r_chains _ _ Hr)) in Hpl.
  rewrite Hpl, Hi in Hc. by simplify_eq.
Qed.

Lemma find_spec fuel t cs k :
  repr t cs → length (concat cs) ≤ fuel → bins t ≠ [] →
  ∃ o, find key hash eqk fuel t k = Some o ∧
    (∀ e, o = Some e → e ∈ concat cs ∧ eqk (key e) k = true) ∧
    (o = None → ∀ e, e ∈ concat cs → eqk (key e) k = false).
Proof.
  intros Hr Hf Hb. unfold find. assert (length (bins t) ≠ 0) as Hn by by destruct (bins t).
  rewrite decide_False by done.
  destruct (bin_lookup t cs (hash k mod length (bins t)) Hr) as (p & c & -> & Hcs & Hch).
  { by apply Nat.mod_upper_bound. }
  simpl. rewrite (walk_spec _ _ _ _ c) by (done || pose proof (concat_length_lookup _ _ _ Hcs); lia).
  eexists. split; [done|]. split.
  - intros e He. apply first_Some in He as [He Hk]. split; [|done].
    apply elem_of_concat. eauto.
  - intros Hno e He. destruct (eqk (key e) k) eqn:E; [|done].
    rewrite <-E. eapply first_None; [done|]. by eapply bucket_complete.
Qed.

(** walk2 returns the predecessor ([q] if the first element matches). *)
Lemma walk2_spec fuel nx q p k l :
  chain nx p l → length l ≤ fuel →
  match first k l with
  | None => ∃ q', walk2 key eqk fuel nx q p k = Some (q', None)
  | Some e => ∃ a b, l = a ++ e :: b ∧ (∀ x, x ∈ a → eqk (key x) k = false) ∧
      eqk (key e) k = true ∧
      walk2 key eqk fuel nx q p k = Some (default q (Some <$> last a), Some e)
  end.
Proof.
  revert fuel q p. induction l as [|x l IH]; intros fuel q p Hc Hf.
  - simpl in *. subst p. exists q. by destruct fuel.
  - destruct Hc as [-> Hc]. simpl in Hf. destruct fuel as [|fuel]; [lia|]. simpl.
    destruct (eqk (key x) k) eqn:E.
    + exists [], l. split_and!; [done| |done|done]. intros y Hy. by apply elem_of_nil in Hy.
    + specialize (IH fuel (Some x) (nx x) Hc ltac:(lia)). destruct (first k l) as [e|].
      * destruct IH as (a & b & -> & Ha & He & Hw). exists (x :: a), b. split_and!; [done| |done|].
        -- intros y Hy. apply elem_of_cons in Hy as [->|Hy]; [done|]. by apply Ha.
        -- rewrite Hw. destruct a as [|y a]; simpl; [done|].
           destruct (last (y :: a)) eqn:El; [done|by apply last_None in El].
      * done.
Qed.

Lemma decfill_spec t cs e : repr t cs → e ∈ concat cs → ∃ n, decfill t = Some n ∧ fill t = S n.
Proof.
  intros Hr He. unfold decfill. destruct (fill t) as [|n] eqn:E; [|by exists n].
  rewrite (r_fill _ _ Hr) in E. apply length_zero_iff_nil in E. rewrite E in He.
  by apply elem_of_nil in He.
Qed.

Lemma concat_insert_perm (cs : list (list nat)) i c c' e :
  cs !! i = Some c → c ≡ₚ e :: c' → concat cs ≡ₚ e :: concat (<[i := c']> cs).
Proof.
  revert i. induction cs as [|d cs IH]; intros i Hi Hp; [done|]. destruct i as [|i].
  - simpl in *. simplify_eq. by rewrite Hp.
  - change (d ++ concat cs ≡ₚ e :: d ++ concat (<[i := c']> cs)).
    rewrite (IH i) by done. by rewrite Permutation_middle.
Qed.

Lemma insert_placed cs i c c' :
  placed H cs → cs !! i = Some c → (∀ e, e ∈ c' → e ∈ c) → placed H (<[i := c']> cs).
Proof.
  intros Hp Hi Hsub j d e Hj He. rewrite insert_length.
  destruct (decide (j = i)) as [->|Hne].
  - rewrite list_lookup_insert in Hj by by eapply lookup_lt_Some. simplify_eq.
    eapply Hp; [done|]. by apply Hsub.
  - rewrite list_lookup_insert_ne in Hj by done. by eapply Hp.
Qed.

(** Removing the head of a chain. *)
Lemma unlink_head t cs i e c n :
  repr t cs → cs !! i = Some (e :: c) → fill t = S n →
  repr (Tbl n (<[i := nxt t e]> (bins t)) (nxt t)) (<[i := c]> cs).
Proof.
  intros [Hc Hnd Hp Hf] Hi Hn.
  pose proof (concat_insert_perm cs i (e :: c) c e Hi (reflexivity _)) as Hperm.
  split; simpl.
  - apply Forall2_lookup. intros j. destruct (decide (j = i)) as [->|Hj].
    + pose proof (lookup_lt_Some _ _ _ Hi). rewrite !list_lookup_insert by
        (try done; by rewrite (Forall2_length _ _ _ Hc)).
      constructor. destruct (Forall2_lookup_r _ _ _ _ _ Hc Hi) as (p & _ & [_ ?]). done.
    + rewrite !list_lookup_insert_ne by done. by apply Forall2_lookup.
  - rewrite Hperm in Hnd. by apply NoDup_cons in Hnd as [_ ?].
  - eapply insert_placed; [done|done|]. intros x Hx. by right.
  - rewrite Hperm in Hf. simpl in Hf. lia.
Qed.

Lemma chain_app_inv nx p a l : chain nx p (a ++ l) → ∃ q, chain nx q l.
Proof.
  revert p. induction a as [|x a IH]; intros p Hc; [eauto|]. destruct Hc as [-> Hc]. eauto.
Qed.

Lemma chain_unlink nx p a pr e b :
  chain nx p (a ++ pr :: e :: b) → NoDup (a ++ pr :: e :: b) →
  chain (upd nx pr (nx e)) p (a ++ pr :: b).
Proof.
  revert p. induction a as [|x a IH]; intros p Hc Hnd.
  - simpl in *. destruct Hc as (-> & Hpr & Hb). split; [done|]. rewrite upd_same.
    apply chain_upd; [|done]. apply NoDup_cons in Hnd as [Hnd _]. set_solver.
  - simpl in *. destruct Hc as [-> Hc]. apply NoDup_cons in Hnd as [Hx Hnd].
    split; [done|]. rewrite upd_other by set_solver. by apply IH.
Qed.

(** Removing an interior element, done right (closedlist.hpp:119). *)
Lemma unlink_interior t cs i a pr e b n :
  repr t cs → cs !! i = Some (a ++ pr :: e :: b) → fill t = S n →
  repr (Tbl n (bins t) (upd (nxt t) pr (nxt t e))) (<[i := a ++ pr :: b]> cs).
Proof.
  intros [Hc Hnd Hp Hf] Hi Hn.
  assert (a ++ pr :: e :: b ≡ₚ e :: a ++ pr :: b) as Hpc by solve_Permutation.
  pose proof (concat_insert_perm cs i _ _ e Hi Hpc) as Hperm.
  assert (NoDup (a ++ pr :: e :: b)) as Hndc.
  { destruct (elem_of_list_split_length _ _ _ Hi) as (l1 & l2 & Hcs' & _).
    rewrite Hcs' in Hnd. rewrite concat_app in Hnd. simpl in Hnd.
    apply NoDup_app in Hnd as (_ & _ & Hnd). by apply NoDup_app in Hnd as (? & _ & _). }
  split; simpl.
  - apply Forall2_lookup. intros j. destruct (decide (j = i)) as [->|Hj].
    + rewrite list_lookup_insert by by eapply lookup_lt_Some.
      destruct (Forall2_lookup_r _ _ _ _ _ Hc Hi) as (p & -> & Hch).
      constructor. by apply chain_unlink.
    + rewrite list_lookup_insert_ne by done.
      pose proof (proj1 (Forall2_lookup _ _ _) Hc j) as Hj'.
      destruct (bins t !! j) as [p|] eqn:Ep, (cs !! j) as [c|] eqn:Ec; inversion Hj'; subst;
        constructor.
      apply chain_upd; [|done]. intros Hpr.
      (* pr would be in two chains *)
      assert (pr ∈ a ++ pr :: e :: b) as Hpr' by set_solver.
      pose proof (Hp _ _ _ Ec Hpr). pose proof (Hp _ _ _ Hi Hpr'). congruence.
  - rewrite Hperm in Hnd. by apply NoDup_cons in Hnd as [_ ?].
  - eapply insert_placed; [done|done|]. intros x. rewrite !elem_of_app, !elem_of_cons. tauto.
  - rewrite Hperm in Hf. simpl in Hf. lia.
Qed.

Lemma remove_spec fuel t cs k :
  repr t cs → length (concat cs) ≤ fuel → bins t ≠ [] →
  ∃ t' o cs', remove key hash eqk fuel t k = Some (t', o) ∧ repr t' cs' ∧ bins t' ≠ [] ∧
    match o with
    | Some e => eqk (key e) k = true ∧ concat cs ≡ₚ e :: concat cs'
    | None => (∀ e, e ∈ concat cs → eqk (key e) k = false) ∧ cs' = cs
    end.
Proof.
  intros Hr Hf Hb. unfold remove. assert (length (bins t) ≠ 0) as Hn by by destruct (bins t).
  rewrite decide_False by done.
  set (i := hash k mod length (bins t)).
  assert (i < length (bins t)) as Hi by by apply Nat.mod_upper_bound.
  destruct (bin_lookup t cs i Hr Hi) as (p & c & Hp & Hcs & Hch).
  rewrite Hp. cbn [mbind option_bind].
  pose proof (walk2_spec fuel (nxt t) p p k c Hch
    ltac:(pose proof (concat_length_lookup _ _ _ Hcs); lia)) as Hw.
  destruct (first k c) as [e|] eqn:Efst.
  - destruct Hw as (a & b & -> & Ha & He & ->). cbn [mbind option_bind].
    assert (e ∈ concat cs) as Hin.
    { apply elem_of_concat. exists i, (a ++ e :: b). split; [done|]. set_solver. }
    destruct (decfill_spec t cs e Hr Hin) as (n & -> & Hfill). cbn [mbind option_bind].
    destruct a as [|x a _] using rev_ind.
    + simpl in *. destruct Hch as [-> Hch]. simpl. rewrite decide_True by done.
      do 3 eexists. split; [done|]. split_and!.
      * by eapply unlink_head.
      * simpl. intros H0. apply (f_equal length) in H0. rewrite insert_length in H0. done.
      * done.
      * by apply concat_insert_perm with (c := e :: b).
    + rewrite last_snoc. simpl. rewrite <-app_assoc in *. simpl in *.
      assert (x ≠ e). { intros ->. rewrite Ha in He; [done|]. set_solver. }
      rewrite decide_False by done.
      do 3 eexists. split; [done|]. split_and!.
      * by eapply unlink_interior.
      * done.
      * done.
      * eapply concat_insert_perm; [done|]. solve_Permutation.
  - destruct Hw as (q' & ->). cbn [mbind option_bind].
    do 3 eexists. split; [done|]. split_and!; [done|done| |done].
    intros e He. destruct (eqk (key e) k) eqn:E; [|done]. rewrite <-E.
    eapply first_None; [done|]. by eapply bucket_complete.
Qed.

End proofs.
