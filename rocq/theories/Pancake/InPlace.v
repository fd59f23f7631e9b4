(** In-place edges and the closed list: C53. *)
From stdpp Require Import prelude.
From Coq Require Import ZArith Lia.
From Verif Require Import Common.Fuel Hash.Model Hash.Proofs Hash.ClosedProps Pancake.Model.
Local Open Scope nat_scope.

Section first.
Context {K : Type} (eqk : K → K → bool).

Lemma first_ext (key1 key2 : nat → K) k l : (∀ e, e ∈ l → key1 e = key2 e) →
  first key1 eqk k l = first key2 eqk k l.
Proof.
  induction l as [|e l IH]; intros He; [done|]. simpl. rewrite (He e) by set_solver.
  rewrite IH by set_solver. done.
Qed.
Lemma first_only (key' : nat → K) k l n : n ∈ l → eqk (key' n) k = true →
  (∀ e, e ∈ l → e ≠ n → eqk (key' e) k = false) → first key' eqk k l = Some n.
Proof.
  induction l as [|e l IH]; intros Hn Hk Ho; [by apply elem_of_nil in Hn|]. simpl.
  destruct (decide (e = n)) as [->|Hne]; [by rewrite Hk|]. rewrite (Ho e) by set_solver.
  apply IH; [set_solver|done|set_solver].
Qed.
Lemma first_none (key' : nat → K) k l : (∀ e, e ∈ l → eqk (key' e) k = false) → first key' eqk k l = None.
Proof.
  induction l as [|e l IH]; intros Ho; [done|]. simpl. rewrite (Ho e) by set_solver. apply IH. set_solver.
Qed.
End first.

(** A closed list that was never touched while an edge existed: [reach key hash eqk t C] of
    Hash/ClosedProps.v says that [t] holds the nodes [C], whose states are given by [key]. *)
Section inplace.
Context {K : Type} (key : nat → K) (hash : K → nat) (eqk : K → K → bool).
Hypothesis eqk_refl : ∀ a, eqk a a = true.
Hypothesis eqk_sym : ∀ a b, eqk a b = true → eqk b a = true.
Hypothesis hash_compat : ∀ a b, eqk a b = true → hash a = hash b.

Lemma find_bucket (key' : nat → K) t cs k : repr key hash t cs → bins t ≠ [] →
  ∃ c, cs !! (hash k mod length (bins t)) = Some c ∧
    ends (λ f, find key' hash eqk f t k) (first key' eqk k c).
Proof.
  intros Hr Hb. assert (length (bins t) ≠ 0) as Hn by by destruct (bins t).
  destruct (bin_lookup key hash t cs (hash k mod length (bins t)) Hr) as (p & c & Hp & Hcs & Hch).
  { by apply Nat.mod_upper_bound. }
  exists c. split; [done|]. exists (length c). intros f Hf. unfold find. rewrite decide_False by done.
  rewrite Hp. simpl. by apply walk_spec.
Qed.

(** The child [k] of [n] is new.  If it falls into the bucket of its parent, the lookup made while
    the edge exists returns the parent. *)
Theorem C53_child_taken_for_parent t C n k :
  reach key hash eqk t C → n ∈ C → (∀ x, x ∈ C → eqk (key x) k = false) →
  hash k mod length (bins t) = hash (key n) mod length (bins t) →
  ends (λ f, find key hash eqk f t k) None ∧
  ends (λ f, find (during key n k) hash eqk f t k) (Some n).
Proof.
  intros Hreach Hn Hnew Hbin.
  pose proof (reach_inv key hash eqk eqk_refl eqk_sym hash_compat t C Hreach) as (Hb & Hd & cs & Hr & Hp).
  destruct (find_bucket key t cs k Hr Hb) as (c & Hc & H1).
  destruct (find_bucket (during key n k) t cs k Hr Hb) as (c' & Hc' & H2).
  rewrite Hc in Hc'. injection Hc' as <-.
  assert (HcC : ∀ e, e ∈ c → e ∈ C). { intros e He. rewrite <-Hp. apply elem_of_concat. eauto. }
  assert (Hnc : n ∈ c).
  { rewrite <-Hp in Hn. apply elem_of_concat in Hn as (i & c0 & Hi & Hn).
    pose proof (r_placed _ _ _ _ Hr i c0 n Hi Hn) as Hpl. simpl in Hpl.
    rewrite <-(Forall2_length _ _ _ (r_chains _ _ _ _ Hr)) in Hpl.
    rewrite Hbin, Hpl, Hi in Hc. by injection Hc as ->. }
  split.
  - rewrite (first_none eqk key k c) in H1; [done|]. intros e He. by apply Hnew, HcC.
  - rewrite (first_only eqk (during key n k) k c n) in H2; [done|done| |].
    + unfold during. rewrite decide_True by done. apply eqk_refl.
    + intros e He Hne. unfold during. rewrite decide_False by done. by apply Hnew, HcC.
Qed.

(** If it falls into another bucket the lookup is right. *)
Theorem C53_other_bucket_right t C n k :
  reach key hash eqk t C → n ∈ C →
  hash k mod length (bins t) ≠ hash (key n) mod length (bins t) →
  ∃ o, ends (λ f, find key hash eqk f t k) o ∧ ends (λ f, find (during key n k) hash eqk f t k) o.
Proof.
  intros Hreach Hn Hbin.
  pose proof (reach_inv key hash eqk eqk_refl eqk_sym hash_compat t C Hreach) as (Hb & Hd & cs & Hr & Hp).
  destruct (find_bucket key t cs k Hr Hb) as (c & Hc & H1).
  destruct (find_bucket (during key n k) t cs k Hr Hb) as (c' & Hc' & H2).
  rewrite Hc in Hc'. injection Hc' as <-. exists (first key eqk k c). split; [done|].
  rewrite (first_ext eqk key (during key n k)); [done|]. intros e He. unfold during.
  rewrite decide_False; [done|]. intros ->.
  pose proof (r_placed _ _ _ _ Hr _ c n Hc He) as Hpl. simpl in Hpl.
  rewrite <-(Forall2_length _ _ _ (r_chains _ _ _ _ Hr)) in Hpl. done.
Qed.

(** resize files the nodes by the states they have at that time. *)
Lemma resize_rehash (key' : nat → K) fuel t cs sz :
  repr key hash t cs → sz ≠ 0 → length (concat cs) ≤ fuel →
  ∃ t', resize key' hash fuel t sz = Some t' ∧
    repr key' hash t' (foldl (push (λ e, hash (key' e))) (replicate sz []) (concat cs)) ∧
    length (bins t') = sz.
Proof.
  intros [Hc Hnd Hp Hf] Hsz Hfuel. unfold resize.
  assert (replicate sz ([] : list nat) ≠ []) as Hne by by destruct sz.
  destruct (move_all_spec key' hash fuel (bins t) (replicate sz None) (nxt t) cs (replicate sz []))
    as (b' & nx' & -> & Hc' & _ & Hb').
  - done.
  - done.
  - apply replicate_chains.
  - by destruct sz.
  - done.
  - intros e _. rewrite concat_replicate_nil. apply not_elem_of_nil.
  - simpl.
    assert (concat (foldl (push (λ e, hash (key' e))) (replicate sz []) (concat cs)) ≡ₚ concat cs) as Hperm.
    { rewrite foldl_push_perm by done. by rewrite concat_replicate_nil, app_nil_r. }
    eexists. split; [done|]. split.
    + split; simpl.
      * done.
      * by rewrite Hperm.
      * apply foldl_push_placed. intros i c e Hi He. apply lookup_replicate in Hi as [-> _].
        by apply elem_of_nil in He.
      * by rewrite Hperm.
    + simpl. apply Forall2_length in Hc'. by rewrite Hc', foldl_push_length, replicate_length.
Qed.

(** If adding the new child makes the table grow, the parent is filed under the child's hash;
    once the edge is gone the parent cannot be found any more, unless both hashes agree modulo the
    new size. *)
Theorem C53_resize_loses_parent t C n k kid :
  reach key hash eqk t C → n ∈ C → kid ∉ C → (∀ x, x ∈ C → eqk (key x) k = false) →
  length (bins t) ≤ fill t * Fillfact →
  hash k mod (length (bins t) * 2) ≠ hash (key n) mod (length (bins t) * 2) →
  ∃ t', ends (λ f, add (during (after key kid k) n k) hash Fillfact f t kid) t' ∧
    ends (λ f, find (after key kid k) hash eqk f t' (key n)) None.
Proof.
  intros Hreach Hn Hkid Hnew Hgrow Hbin.
  pose proof (reach_inv key hash eqk eqk_refl eqk_sym hash_compat t C Hreach) as (Hb & Hd & cs & Hr & Hp).
  assert (length (bins t) ≠ 0) as Hne by by destruct (bins t).
  set (key' := during (after key kid k) n k).
  set (cs1 := foldl (push (λ e, hash (key' e))) (replicate (length (bins t) * 2) []) (concat cs)).
  assert (∃ t1, repr key' hash t1 cs1 ∧ length (bins t1) = length (bins t) * 2 ∧
    ∀ fuel, length (concat cs) ≤ fuel → resize key' hash fuel t (length (bins t) * 2) = Some t1)
    as (t1 & Hr1 & Hl1 & Hres).
  { destruct (resize_rehash key' (length (concat cs)) t cs (length (bins t) * 2) Hr) as (t1 & H1 & Hr1 & Hl1); [lia|done|].
    exists t1. split_and!; [done..|]. intros fuel Hf. revert H1 Hf. unfold resize.
    assert (∀ m m' b nx p r, move key' hash m b nx p = Some r → m ≤ m' →
            move key' hash m' b nx p = Some r) as Hmove.
    { clear. induction m as [|m IH]; intros [|m'] b nx [x|] r H Hm; simpl in *; try done; try lia.
      destruct (link b nx x _) as [[b1 nx1]|]; [|done]. simpl in *. apply (IH m'); [done|lia]. }
    assert (∀ m m' old b nx r, move_all key' hash m b nx old = Some r → m ≤ m' →
            move_all key' hash m' b nx old = Some r) as Hall.
    { clear -Hmove. intros m m' old. induction old as [|p old IH]; intros b nx r H Hm; [done|].
      simpl in *. destruct (move key' hash m b nx p) as [[b1 nx1]|] eqn:E; [|done].
      rewrite (Hmove _ _ _ _ _ _ E Hm). simpl in *. by apply IH. }
    intros H1 Hf. destruct (move_all key' hash (length (concat cs)) _ _ _) as [[b1 nx1]|] eqn:E; [|done].
    by rewrite (Hall _ _ _ _ _ _ E Hf). }
  assert (Hb1 : bins t1 ≠ []) by (intros H0; rewrite H0 in Hl1; simpl in Hl1; lia).
  assert (Hp1 : concat cs1 ≡ₚ C).
  { unfold cs1. rewrite foldl_push_perm by (destruct (bins t); simpl; done).
    by rewrite concat_replicate_nil, app_nil_r. }
  destruct (link_spec key' hash (bins t1) (nxt t1) kid cs1 (r_chains _ _ _ _ Hr1)) as (b2 & nx2 & Hlink & Hc2 & _ & Hb2);
    [by rewrite Hp1|done|].
  set (t2 := Tbl (fill t1 + 1) b2 nx2). set (cs2 := push (λ e, hash (key' e)) cs1 kid) in *.
  assert (Hcs1 : cs1 ≠ []). { intros H0. rewrite H0 in *. apply Hb1. eapply Forall2_nil_inv_r, (r_chains _ _ _ _ Hr1). }
  assert (Hr2 : repr key' hash t2 cs2).
  { destruct Hr1 as [H1 H2 H3 H4]. split; simpl.
    - done.
    - unfold cs2. rewrite push_perm by done. apply NoDup_cons. split; [by rewrite Hp1|done].
    - by apply push_placed.
    - unfold cs2. rewrite push_perm by done. simpl. lia. }
  assert (Hl2 : length (bins t2) = length (bins t) * 2).
  { pose proof (Forall2_length _ _ _ Hc2) as Hlen. pose proof (Forall2_length _ _ _ (r_chains _ _ _ _ Hr1)) as Hlen1.
    unfold cs2 in Hlen. rewrite push_length in Hlen. simpl. lia. }
  exists t2. split.
  - exists (length (concat cs)). intros f Hf. unfold add. rewrite decide_True by done.
    rewrite decide_False by done. rewrite Hres by done. simpl. rewrite Hlink. done.
  - assert (length (bins t2) ≠ 0) as Hn2 by lia.
    destruct (bin_lookup key' hash t2 cs2 (hash (key n) mod length (bins t2)) Hr2) as (p & c & Hpb & Hcs & Hch).
    { by apply Nat.mod_upper_bound. }
    exists (length c). intros f Hf. unfold find. rewrite decide_False by done. rewrite Hpb. cbn [mbind option_bind].
    rewrite (walk_spec _ _ _ _ _ _ c) by done. f_equal. apply first_none. intros e He.
    assert (e ≠ n) as Hen.
    { intros ->. pose proof (r_placed _ _ _ _ Hr2 _ c n Hcs He) as Hpl. simpl in Hpl.
      rewrite <-(Forall2_length _ _ _ Hc2) in Hpl. change (length b2) with (length (bins t2)) in Hpl.
      rewrite Hl2 in Hpl. apply Hbin. rewrite <-Hpl. unfold key', during. by rewrite decide_True. }
    unfold after. case_decide as Hek.
    + destruct (eqk k (key n)) eqn:E; [|done]. apply eqk_sym in E. by rewrite Hnew in E.
    + assert (HeC : e ∈ C).
      { assert (e ∈ concat cs2) as Hin by (apply elem_of_concat; eauto). unfold cs2 in Hin.
        rewrite push_perm in Hin by done. apply elem_of_cons in Hin as [?|Hin]; [done|]. by rewrite <-Hp1. }
      destruct (eqk (key e) (key n)) eqn:E; [|done]. by rewrite (Hd e n) in Hen.
Qed.
End inplace.

(** So A-star throws a new child away if it falls into the bucket of its parent. *)
Theorem C53_new_child_dropped {K} (key : nat → K) hash eqk (g : nat → Z) t C n k c :
  (∀ a, eqk a a = true) → (∀ a b, eqk a b = true → eqk b a = true) →
  (∀ a b, eqk a b = true → hash a = hash b) →
  reach key hash eqk t C → n ∈ C → (∀ x, x ∈ C → eqk (key x) k = false) → (0 ≤ c)%Z →
  ends (λ f, dropped key hash eqk g f t n k c)
    (bool_decide (hash k mod length (bins t) = hash (key n) mod length (bins t))).
Proof.
  intros Hrefl Hsym Hcompat Hreach Hn Hnew Hc. unfold dropped. case_bool_decide as Hbin.
  - destruct (C53_child_taken_for_parent key hash eqk Hrefl Hsym Hcompat t C n k) as [_ [f Hf]]; [done..|].
    exists f. intros f' Hle. rewrite (Hf f' Hle). simpl. f_equal. apply bool_decide_eq_true. lia.
  - destruct (C53_other_bucket_right key hash eqk Hrefl Hsym Hcompat t C n k Hreach Hn Hbin) as (o & [f1 H1] & [f2 H2]).
    pose proof (reach_inv key hash eqk Hrefl Hsym Hcompat t C Hreach) as (Hb & _ & cs & Hr & Hp).
    destruct (find_ends key hash eqk Hcompat t cs k Hb Hr) as (o' & [f3 H3] & Ho').
    assert (o = o') as <-.
    { specialize (H1 (f1 + f3) ltac:(lia)). specialize (H3 (f1 + f3) ltac:(lia)). congruence. }
    exists f2. intros f' Hle. rewrite (H2 f' Hle). simpl. destruct o as [e|]; [|done].
    destruct Ho' as [He Hk]. rewrite Hp in He. rewrite (Hnew e He) in Hk. done.
Qed.

(** A child that is known already and falls into another bucket is compared with the right node: it is thrown away if
    that node's path is at most as dear as the one through [n], and kept otherwise. *)
Theorem C53_old_child_compared {K} (key : nat → K) hash eqk (g : nat → Z) t C n k c x :
  (∀ a, eqk a a = true) → (∀ a b, eqk a b = true → eqk b a = true) →
  (∀ a b d, eqk a b = true → eqk b d = true → eqk a d = true) →
  (∀ a b, eqk a b = true → hash a = hash b) →
  reach key hash eqk t C → n ∈ C → x ∈ C → eqk (key x) k = true →
  hash k mod length (bins t) ≠ hash (key n) mod length (bins t) →
  ends (λ f, dropped key hash eqk g f t n k c) (bool_decide (g x ≤ g n + c)%Z).
Proof.
  intros Hrefl Hsym Htrans Hcompat Hreach Hn Hx Hk Hbin. unfold dropped.
  destruct (C53_other_bucket_right key hash eqk Hrefl Hsym Hcompat t C n k Hreach Hn Hbin) as (o & [f1 H1] & [f2 H2]).
  pose proof (reach_inv key hash eqk Hrefl Hsym Hcompat t C Hreach) as (Hb & Hd & cs & Hr & Hp).
  destruct (find_ends key hash eqk Hcompat t cs k Hb Hr) as (o' & [f3 H3] & Ho').
  assert (o = o') as <-.
  { specialize (H1 (f1 + f3) ltac:(lia)). specialize (H3 (f1 + f3) ltac:(lia)). congruence. }
  exists f2. intros f' Hle. rewrite (H2 f' Hle). simpl. destruct o as [e|].
  - destruct Ho' as [He Hke]. rewrite Hp in He. rewrite (Hd e x); [done|done|done|].
    eapply Htrans; [exact Hke|]. by apply Hsym.
  - rewrite (Ho' x) in Hk; [done|]. by rewrite Hp.
Qed.

(** ** Examples: stacks of three cakes; flipping turns 0 2 1 into 2 0 1 and 1 2 0. *)
Definition ex_eqk (a b : list Z) : bool := bool_decide (a = b).
Definition ex_key (n : nat) : list Z := match n with 0 => [0; 2; 1]%Z | _ => [2; 0; 1]%Z end.
Definition ex_hash (l : list Z) : nat := match l with [2; 0; 1]%Z => 5 | [1; 2; 0]%Z => 4 | _ => 3 end.
Definition ex_table : table := default (new 2 (λ _, None)) (add ex_key ex_hash Fillfact 1 (new 2 (λ _, None)) 0).
Example ex_reach : reach ex_key ex_hash ex_eqk ex_table [0].
Proof.
  apply (reach_add _ _ _ (new 2 (λ _, None)) []).
  - constructor. lia.
  - intros x Hx. by apply elem_of_nil in Hx.
  - exists 1. intros [|n] Hn; [lia|]. done.
Qed.
(** 5 and 3 fall into the same of two buckets, 4 does not; the next node added makes the table grow. *)
Example ex_dropped :
  dropped ex_key ex_hash ex_eqk (λ _, 0%Z) 9 ex_table 0 [2; 0; 1]%Z 1 = Some true ∧
  dropped ex_key ex_hash ex_eqk (λ _, 0%Z) 9 ex_table 0 [1; 2; 0]%Z 1 = Some false ∧
  length (bins ex_table) = 2 ∧ fill ex_table * Fillfact = 3.
Proof. done. Qed.

Print Assumptions C53_child_taken_for_parent.
Print Assumptions C53_other_bucket_right.
Print Assumptions C53_resize_loses_parent.
(** The stack 1 2 0 is known, for 4; reaching it again for 1 is an improvement, for 5 it is not. *)
Definition ex_key2 (n : nat) : list Z := match n with 0 => [0; 2; 1]%Z | _ => [1; 2; 0]%Z end.
Definition ex_table2 : table := default (new 2 (λ _, None)) (add ex_key2 ex_hash 3 1 ex_table 1).
Example ex_old_child :
  dropped ex_key2 ex_hash ex_eqk (λ x, if decide (x = 1) then 4%Z else 0%Z) 9 ex_table2 0 [1; 2; 0]%Z 1 = Some false ∧
  dropped ex_key2 ex_hash ex_eqk (λ x, if decide (x = 1) then 4%Z else 0%Z) 9 ex_table2 0 [1; 2; 0]%Z 5 = Some true.
Proof. vm_compute. done. Qed.

Print Assumptions C53_new_child_dropped.
Print Assumptions C53_old_child_compared.
