(** Property C14: the object pool. *)
From stdpp Require Import prelude.
From Coq Require Import Lia ZArith ZifyBool ZifyNat.
From Verif.Pool Require Import Model.

(** ** Specification *)

(** Histories of a pool with block size [sz] >= 1.  [live] are the objects handed out
    and not put back, [peak] is the largest number of live objects so far. *)
Inductive reach (sz : nat) : pool → list slot → nat → Prop :=
  | reach_new m : reach sz (new sz m) [] 0
  | reach_get p live peak p' o :
      reach sz p live peak → get p = Some (p', o) →
      reach sz p' (o :: live) (peak `max` S (length live))
  | reach_put p live peak o live' :
      reach sz p live peak → live ≡ₚ o :: live' → reach sz (put p o) live' peak
  | reach_scribble p live peak o v :
      reach sz p live peak → o ∈ live → reach sz (scribble p o v) live peak.

(** ** Invariant *)

Fixpoint chain (m : slot → option slot) (p : option slot) (l : list slot) : Prop :=
  match l with
  | [] => p = None
  | e :: l => p = Some e ∧ chain m (m e) l
  end.

Lemma chain_upd m o v p l : o ∉ l → chain m p l → chain (upd m o v) p l.
Proof.
  revert p. induction l as [|e l IH]; intros p Ho Hc; [done|].
  destruct Hc as [-> Hc]. split; [done|]. apply not_elem_of_cons in Ho as [Ho1 Ho2].
  unfold upd at 2. rewrite decide_False by done. by apply IH.
Qed.

(** Slots handed out so far, in block order: number [i] is (i / sz, i mod sz). *)
Definition slots (sz n : nat) : list slot := (λ i, (i / sz, i mod sz)) <$> seq 0 n.

Lemma slots_S sz n : slots sz (S n) = slots sz n ++ [(n / sz, n mod sz)].
Proof. unfold slots. rewrite seq_S, fmap_app. done. Qed.

Lemma slots_elem sz n o : 1 ≤ sz → (o ∈ slots sz n ↔ o.2 < sz ∧ o.1 * sz + o.2 < n).
Proof.
  intros Hsz. unfold slots. rewrite elem_of_list_fmap. destruct o as [a b]; simpl. split.
  - intros (i & [= -> ->] & Hi). apply elem_of_seq in Hi.
    pose proof (Nat.mod_upper_bound i sz ltac:(lia)). pose proof (Nat.div_mod_eq i sz). lia.
  - intros [Hb Hn]. exists (a * sz + b). split.
    + f_equal.
      * rewrite Nat.div_add_l by lia. rewrite Nat.div_small by lia. lia.
      * rewrite Nat.add_comm, Nat.mod_add by lia. by rewrite Nat.mod_small.
    + apply elem_of_seq. lia.
Qed.

Lemma slots_nodup sz n : 1 ≤ sz → NoDup (slots sz n).
Proof.
  intros Hsz. induction n as [|n IH]; [constructor|]. rewrite slots_S. apply NoDup_app.
  split_and!; [done| |apply NoDup_singleton].
  intros o Ho. apply slots_elem in Ho as [_ Ho]; [|done].
  rewrite elem_of_list_singleton. intros ->. simpl in Ho.
  pose proof (Nat.div_mod_eq n sz). lia.
Qed.

Inductive inv (sz : nat) (p : pool) (live : list slot) (peak : nat) : Prop :=
  | Inv (fr : list slot) :
      blksz p = sz → chain (mem p) (freed p) fr → live ++ fr ≡ₚ slots sz peak →
      (0 ≤ blk p)%Z → peak = Z.to_nat (blk p) * sz + nxt p → nxt p ≤ sz →
      (nxt p = 0 → blk p = 0%Z) → nblks p = Z.to_nat (blk p) + 1 → inv sz p live peak.

Lemma get_inv sz p live peak :
  1 ≤ sz → inv sz p live peak →
  ∃ p' o, get p = Some (p', o) ∧ inv sz p' (o :: live) (peak `max` S (length live)) ∧
    o ∉ live ∧ o.2 < sz ∧ o.1 < nblks p'.
Proof.
  intros Hsz [fr Hbs Hch Hperm Hblk Hcnt Hnxt Hpos Hblocks].
  pose proof (slots_nodup sz peak Hsz) as Hnd. rewrite <-Hperm in Hnd.
  assert (length live + length fr = peak) as Hlen.
  { rewrite <-app_length. rewrite Hperm. unfold slots. by rewrite fmap_length, seq_length. }
  unfold get. destruct fr as [|o fr].
  - simpl in Hch. rewrite Hch. rewrite app_nil_r in Hperm. simpl in Hlen.
    (* fresh slot *)
    assert (∃ p1, (if decide (nxt p = blksz p) then newblk p else p) = p1 ∧
      blksz p1 = sz ∧ freed p1 = None ∧ (0 ≤ blk p1)%Z ∧ peak = Z.to_nat (blk p1) * sz + nxt p1 ∧
      nxt p1 < sz ∧ nblks p1 = Z.to_nat (blk p1) + 1) as (p1 & -> & Hbs1 & Hf1 & Hb1 & Hc1 & Hn1 & Hk1).
    { eexists. split; [done|]. case_decide as Hd; simpl.
      - split_and!; [done|done|lia| |lia|].
        + replace (Z.to_nat (blk p + 1)) with (Z.to_nat (blk p) + 1) by lia. lia.
        + rewrite decide_True by lia. lia.
      - split_and!; try done; lia. }
    rewrite decide_True by lia. rewrite decide_True by lia.
    assert ((peak / sz, peak mod sz) = (Z.to_nat (blk p1), nxt p1)) as Heq.
    { f_equal.
      - rewrite Hc1. rewrite Nat.div_add_l by lia. rewrite Nat.div_small by lia. lia.
      - rewrite Hc1. rewrite Nat.add_comm, Nat.mod_add by lia. by rewrite Nat.mod_small. }
    do 2 eexists. split; [done|]. split_and!.
    + replace (peak `max` S (length live)) with (S peak) by lia.
      exists []; simpl; try done; try lia.
      rewrite app_nil_r, slots_S, Heq, Hperm.
      apply Permutation_cons_append.
    + rewrite Hperm. rewrite slots_elem by done. simpl. lia.
    + simpl. lia.
    + simpl. lia.
  - destruct Hch as [-> Hch]. simpl in Hlen. do 2 eexists. split; [done|].
    apply NoDup_app in Hnd as (_ & Hdis & Hndf).
    assert (o ∈ slots sz peak) as Ho. { rewrite <-Hperm. set_solver. }
    apply slots_elem in Ho as [Ho1 Ho2]; [|done].
    split_and!.
    + replace (peak `max` S (length live)) with peak by lia.
      exists fr; simpl; try done.
      rewrite <-Hperm. by rewrite Permutation_middle.
    + intros Hol. eapply Hdis; [done|by left].
    + done.
    + simpl. nia.
Qed.

Lemma reach_inv sz p live peak : 1 ≤ sz → reach sz p live peak → inv sz p live peak.
Proof.
  intros Hsz. induction 1 as [m|p live peak p' o Hr IH Hg|p live peak o live' Hr IH Hp
    |p live peak o v Hr IH Ho].
  - exists []; simpl; try done; try lia.
  - destruct (get_inv sz p live peak Hsz IH) as (p1 & o1 & Hg1 & Hi & _).
    rewrite Hg in Hg1. by simplify_eq.
  - destruct IH as [fr Hbs Hch Hperm Hblk Hcnt Hnxt Hpos Hblocks].
    pose proof (slots_nodup sz peak Hsz) as Hnd. rewrite <-Hperm, Hp in Hnd. simpl in Hnd.
    apply NoDup_cons in Hnd as [Ho Hnd].
    exists (o :: fr); simpl; try done.
    + split; [done|]. unfold upd at 2. rewrite decide_True by done. apply chain_upd; [set_solver|done].
    + rewrite <-Hperm, Hp. simpl. by rewrite Permutation_middle.
  - destruct IH as [fr Hbs Hch Hperm Hblk Hcnt Hnxt Hpos Hblocks].
    pose proof (slots_nodup sz peak Hsz) as Hnd. rewrite <-Hperm in Hnd.
    apply NoDup_app in Hnd as (_ & Hdis & _).
    exists fr; simpl; try done. apply chain_upd; [|done]. by apply Hdis.
Qed.

(** ** C14 *)

(** get always succeeds and returns a slot inside an allocated block that is not live. *)
Theorem C14_get_returns_free_slot sz p live peak :
  1 ≤ sz → reach sz p live peak →
  ∃ p' o, get p = Some (p', o) ∧ o ∉ live ∧ o.1 < blocks p' ∧ o.2 < sz.
Proof.
  intros Hsz Hr. destruct (get_inv sz p live peak Hsz (reach_inv _ _ _ _ Hsz Hr))
    as (p' & o & Hg & _ & H1 & H2 & H3). exists p', o. done.
Qed.

(** Live objects are pairwise different. *)
Theorem C14_live_objects_distinct sz p live peak :
  1 ≤ sz → reach sz p live peak → NoDup live.
Proof.
  intros Hsz Hr. destruct (reach_inv _ _ _ _ Hsz Hr) as [fr Hbs Hch Hperm _ _ _ _ _].
  pose proof (slots_nodup sz peak Hsz) as Hnd. rewrite <-Hperm in Hnd.
  by apply NoDup_app in Hnd as (? & _).
Qed.

(** The number of blocks is the least that holds the peak number of live objects
    (one block exists from the start). *)
Theorem C14_blocks_minimal_for_peak sz p live peak :
  1 ≤ sz → reach sz p live peak →
  peak ≤ blocks p * sz ∧ (blocks p = 1 ∨ (blocks p - 1) * sz < peak).
Proof.
  intros Hsz Hr. destruct (reach_inv _ _ _ _ Hsz Hr) as [fr Hbs Hch Hperm Hblk Hcnt Hnxt Hpos Hblocks].
  unfold blocks. rewrite Hblocks. split; [nia|].
  destruct (decide (nxt p = 0)) as [H0|H0].
  - left. rewrite (Hpos H0). lia.
  - right. nia.
Qed.

(** ** Non-vacuity: block size 2, three gets, one put after the user overwrote the
    objects, one get that reuses the slot. *)
Example ex_pool : ∃ p live, reach 2 p live 3 ∧ length live = 3 ∧ blocks p = 2.
Proof.
  assert (∀ p live peak, reach 2 p live peak →
     ∃ p' o, reach 2 p' (o :: live) (peak `max` S (length live))) as Hget.
  { intros p live peak Hr. destruct (C14_get_returns_free_slot 2 p live peak ltac:(lia) Hr)
      as (p' & o & Hg & _). exists p', o. by eapply reach_get. }
  destruct (Hget (new 2 (λ _, None)) [] 0 (reach_new 2 _)) as (p1 & o1 & H1).
  destruct (Hget _ _ _ H1) as (p2 & o2 & H2). destruct (Hget _ _ _ H2) as (p3 & o3 & H3).
  assert (o3 ∈ [o3; o2; o1]) as Hin by set_solver.
  pose proof (reach_scribble _ _ _ _ o3 (Some (7, 7)) H3 Hin) as H4.
  pose proof (reach_put _ _ _ _ o3 [o2; o1] H4 (reflexivity _)) as H5.
  destruct (Hget _ _ _ H5) as (p6 & o6 & H6). simpl in H6.
  exists p6, [o6; o2; o1]. split; [exact H6|]. split; [done|].
  destruct (C14_blocks_minimal_for_peak 2 _ _ _ ltac:(lia) H6) as [Ha Hb]. lia.
Qed.

Print Assumptions C14_get_returns_free_slot.
Print Assumptions C14_live_objects_distinct.
Print Assumptions C14_blocks_minimal_for_peak.
