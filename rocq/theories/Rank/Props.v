(** C25: ranking of (partial) permutations. *)
From stdpp Require Import prelude.
From Coq Require Import ZArith Lia ZifyBool ZifyNat.
From Verif.Arith Require Import Model Props.
From Verif.Rank Require Import Model.
Open Scope Z_scope.

(** ** Specification: sequences without repetition over 0..sz-1, in lexicographic order. *)

Definition pperm (sz : Z) (n : nat) (p : list nat) : Prop :=
  length p = n ∧ NoDup p ∧ (∀ x, x ∈ p → Z.of_nat x < sz).

Definition lexlt (p q : list nat) : Prop :=
  ∃ u x y v w, p = u ++ x :: v ∧ q = u ++ y :: w ∧ (x < y)%nat.

(** ** The tree *)

(** number of used elements below node k of level l *)
Definition cnt (b l k : nat) (U : list nat) : nat := length (filter (λ q, q / 2 ^ (b - l) = k)%nat U).
Definition below (x : nat) (U : list nat) : nat := length (filter (λ q, q < x)%nat U).

Definition treeat (b : nat) (tree : list Z) (C : nat → list nat) : Prop :=
  length tree = (2 ^ (b + 1) + 1)%nat ∧
  ∀ l k, (l ≤ b)%nat → (k < 2 ^ l)%nat → tree !! (2 ^ l + k)%nat = Some (Z.of_nat (cnt b l k (C l))).

Lemma pow2_pos n : (0 < 2 ^ n)%nat.
Proof. apply Nat.neq_0_lt_0. by apply Nat.pow_nonzero. Qed.
Lemma pow2_S n : (2 ^ S n = 2 * 2 ^ n)%nat.
Proof. done. Qed.

Lemma node_inj l k l' k' : (k < 2 ^ l)%nat → (k' < 2 ^ l')%nat → (2 ^ l + k = 2 ^ l' + k')%nat → l = l' ∧ k = k'.
Proof.
  intros Hk Hk' E. assert (l = l') as ->; [|split; [done|lia]].
  destruct (Nat.lt_trichotomy l l') as [H|[H|H]]; [|done|].
  - assert (2 ^ S l ≤ 2 ^ l')%nat by (apply Nat.pow_le_mono_r; lia). rewrite pow2_S in *. lia.
  - assert (2 ^ S l' ≤ 2 ^ l)%nat by (apply Nat.pow_le_mono_r; lia). rewrite pow2_S in *. lia.
Qed.

Lemma cnt_cons b l k x U :
  cnt b l k (x :: U) = ((if decide (x / 2 ^ (b - l) = k)%nat then 1 else 0) + cnt b l k U)%nat.
Proof. unfold cnt. rewrite filter_cons. by case_decide. Qed.
Lemma below_cons y x U : below y (x :: U) = ((if decide (x < y)%nat then 1 else 0) + below y U)%nat.
Proof. unfold below. rewrite filter_cons. by case_decide. Qed.
Lemma below_app y U V : below y (U ++ V) = (below y U + below y V)%nat.
Proof. unfold below. by rewrite filter_app, app_length. Qed.
Lemma cnt_le b l k U : (cnt b l k U ≤ length U)%nat.
Proof. apply filter_length. Qed.
Lemma below_le x U : (below x U ≤ length U)%nat.
Proof. apply filter_length. Qed.

Lemma incr_tree b tree C x U l : (l ≤ b)%nat → (x < 2 ^ b)%nat → treeat b tree C → C l = U →
  Z.of_nat (length U) + 1 < 2^32 →
  ∃ tree', incr (2 ^ l + x / 2 ^ (b - l)) tree = Some tree' ∧
    treeat b tree' (λ l', if decide (l' = l) then x :: U else C l').
Proof.
  intros Hl Hx [Hlen Ht] HC HU. unfold incr.
  assert (x / 2 ^ (b - l) < 2 ^ l)%nat as Hk.
  { apply Nat.div_lt_upper_bound; [apply Nat.pow_nonzero; lia|]. rewrite <-Nat.pow_add_r.
    by replace (b - l + l)%nat with b by lia. }
  rewrite (Ht l _ Hl Hk), HC. cbn [mbind option_bind]. eexists. split; [done|].
  split; [by rewrite insert_length|]. intros l' k' Hl' Hk'.
  destruct (decide (2 ^ l + x / 2 ^ (b - l) = 2 ^ l' + k')%nat) as [E|E].
  - apply node_inj in E as [<- <-]; [|done..].
    rewrite list_lookup_insert by (eapply lookup_lt_Some; by apply Ht).
    f_equal. rewrite decide_True by done. rewrite cnt_cons, decide_True by done.
    unfold u32. pose proof (cnt_le b l (x / 2 ^ (b - l)) U). rewrite Z.mod_small; lia.
  - rewrite list_lookup_insert_ne by done. rewrite Ht by done. do 2 f_equal.
    case_decide as Hd; [|done]. subst l'. rewrite HC, cnt_cons, decide_False; [done|]. intros <-. by apply E.
Qed.

(** used elements smaller than x in the subtree of level l that contains x *)
Definition within (b l x : nat) (U : list nat) : nat :=
  length (filter (λ q, q < x ∧ q / 2 ^ (b - l) = x / 2 ^ (b - l))%nat U).

Lemma within_le b l x U : (within b l x U ≤ below x U)%nat.
Proof.
  unfold within, below. induction U as [|q U IH]; [done|]. rewrite !filter_cons.
  repeat case_decide; cbn [length]; lia.
Qed.

Lemma filter_cons_len {A} (P : A → Prop) `{∀ x, Decision (P x)} q U :
  length (filter P (q :: U)) = ((if decide (P q) then 1 else 0) + length (filter P U))%nat.
Proof. rewrite filter_cons. by case_decide. Qed.

Lemma within_step b j x U : (S j ≤ b)%nat →
  within b j x U = (within b (S j) x U +
    if odd (x / 2 ^ (b - S j)) then cnt b (S j) (x / 2 ^ (b - S j) - 1) U else 0)%nat.
Proof.
  intros Hj. unfold within, cnt. set (m := (2 ^ (b - S j))%nat).
  assert (2 ^ (b - j) = m * 2)%nat as ->.
  { unfold m. replace (b - j)%nat with (S (b - S j)) by lia. rewrite pow2_S. lia. }
  assert (0 < m)%nat as Hm by apply pow2_pos.
  assert (∀ q, (q / (m * 2) = (q / m) / 2)%nat) as Hdd by (intros q; rewrite Nat.div_div by lia; done).
  unfold odd. induction U as [|q U IH]; [by destruct (negb _)|].
  rewrite !filter_cons_len. pose proof (Hdd q) as Hq2. pose proof (Hdd x) as Hx2. revert IH.
  generalize (length (filter (λ q, q < x ∧ q / (m * 2) = x / (m * 2)) U)%nat).
  generalize (length (filter (λ q, q < x ∧ q / m = x / m) U)%nat).
  generalize (length (filter (λ q, q / m = x / m - 1) U)%nat). intros n1 n2 n3 IH.
  assert (q < x → q / m ≤ x / m)%nat as Hmono by (intros; apply Nat.div_le_mono; lia).
  assert (q / m < x / m → q < x)%nat as Hmono2.
  { intros H. destruct (Nat.lt_ge_cases q x) as [|H']; [done|]. apply (Nat.div_le_mono _ _ m) in H'; lia. }
  destruct (Nat.eqb_spec ((x / m) mod 2) 0) as [E|E]; cbn [negb] in *.
  - assert ((q < x ∧ q / (m * 2) = x / (m * 2))%nat ↔ (q < x ∧ q / m = x / m)%nat) as Hiff;
      [|rewrite (decide_ext _ _ _ _ Hiff); clear -IH; lia].
    rewrite Hq2, Hx2. clear -E Hmono. set (a := (q / m)%nat) in *. set (c := (x / m)%nat) in *. clearbody a c. zify. Z.div_mod_to_equations. lia.
  - assert (x / m - 1 < x / m)%nat. { destruct (x / m)%nat eqn:E0; [by destruct E|lia]. }
    assert ((q < x ∧ q / (m * 2) = x / (m * 2))%nat ↔ (q < x ∧ q / m = x / m)%nat ∨ (q / m = x / m - 1)%nat) as Hiff.
    { rewrite Hq2, Hx2. clear -E Hmono Hmono2. set (a := (q / m)%nat) in *. set (c := (x / m)%nat) in *. clearbody a c. zify. Z.div_mod_to_equations. lia. }
    assert ((q < x ∧ q / m = x / m)%nat → ¬ (q / m = x / m - 1)%nat) as Hex.
    { clear -H. generalize dependent (x / m)%nat. generalize (q / m)%nat. intros; lia. }
    rewrite (decide_ext _ _ _ _ Hiff). clear -IH Hex.
    destruct (decide (q < x ∧ q / m = x / m)%nat) as [D1|D1], (decide (q / m = x / m - 1)%nat) as [D2|D2].
    + by apply Hex in D1.
    + rewrite decide_True by (by left). lia.
    + rewrite decide_True by (by right). lia.
    + rewrite decide_False by (by intros [?|?]). lia.
Qed.

Lemma div_div2 b j x : (S j ≤ b)%nat → (x / 2 ^ (b - S j) / 2 = x / 2 ^ (b - j))%nat.
Proof.
  intros Hj. rewrite Nat.div_div by (try lia; apply Nat.pow_nonzero; lia). f_equal.
  replace (b - j)%nat with (S (b - S j)) by lia. rewrite pow2_S. lia.
Qed.

Lemma climb_ok b x U : (x < 2 ^ b)%nat → Z.of_nat x < 2^30 → Z.of_nat (length U) + 1 < 2^32 → (below x U ≤ x)%nat →
  ∀ j tree, (j ≤ b)%nat →
  treeat b tree (λ l, if decide (j < l)%nat then x :: U else U) →
  ∃ tree', climb j tree (Z.of_nat x - Z.of_nat (within b j x U)) (2 ^ j + x / 2 ^ (b - j)) =
      Some (tree', Z.of_nat x - Z.of_nat (within b 0 x U), 1%nat) ∧
    treeat b tree' (λ l, if decide (0 < l)%nat then x :: U else U).
Proof.
  intros Hx Hx30 HU Hbel. induction j as [|j IH]; intros tree Hj Ht.
  - exists tree. cbn [climb]. split; [|done]. rewrite Nat.sub_0_r, Nat.div_small by done. done.
  - cbn [climb].
    assert (parent (2 ^ S j + x / 2 ^ (b - S j)) = 2 ^ j + x / 2 ^ (b - j))%nat as ->.
    { unfold parent. rewrite pow2_S. rewrite (Nat.mul_comm 2), Nat.div_add_l by lia. by rewrite div_div2. }
    assert (odd (2 ^ S j + x / 2 ^ (b - S j)) = odd (x / 2 ^ (b - S j))) as ->.
    { unfold odd. rewrite pow2_S. rewrite Nat.add_comm, (Nat.mul_comm 2). by rewrite Nat.mod_add by lia. }
    pose proof (within_step b j x U Hj) as Hw. pose proof (within_le b j x U) as Hwle.
    assert (x / 2 ^ (b - S j) < 2 ^ S j)%nat as Hk.
    { apply Nat.div_lt_upper_bound; [apply Nat.pow_nonzero; lia|]. rewrite <-Nat.pow_add_r.
      by replace (b - S j + S j)%nat with b by lia. }
    assert ((if odd (x / 2 ^ (b - S j)) then t ← tree !! left (2 ^ j + x / 2 ^ (b - j));
       Some (u32 (Z.of_nat x - Z.of_nat (within b (S j) x U) - t)) else Some (Z.of_nat x - Z.of_nat (within b (S j) x U)))
       = Some (Z.of_nat x - Z.of_nat (within b j x U))) as ->.
    { destruct (odd (x / 2 ^ (b - S j))) eqn:Ho; [|f_equal; lia].
      assert (left (2 ^ j + x / 2 ^ (b - j)) = 2 ^ S j + (x / 2 ^ (b - S j) - 1))%nat as ->.
      { unfold left. rewrite <-div_div2 by done. rewrite pow2_S. unfold odd in Ho.
        set (c := (x / 2 ^ (b - S j))%nat) in *. clearbody c. clear -Ho. zify. Z.div_mod_to_equations. lia. }
      destruct Ht as [_ Ht]. rewrite (Ht (S j)) by lia. cbn [mbind option_bind].
      rewrite decide_False by lia. f_equal. unfold u32.
      rewrite Z.mod_small; lia. }
    cbn [mbind option_bind].
    destruct (incr_tree b tree _ x U (S j) Hj Hx Ht) as (tree' & -> & Ht'); [by rewrite decide_False by lia|done|].
    cbn [mbind option_bind]. apply IH; [lia|]. destruct Ht' as [Hlen Ht']. split; [done|].
    intros l k Hl Hk'. rewrite Ht' by done. do 3 f_equal. repeat case_decide; try done; lia.
Qed.

Lemma climb_full b x U tree : (x < 2 ^ b)%nat → Z.of_nat x < 2^30 → Z.of_nat (length U) + 1 < 2^32 → (below x U ≤ x)%nat →
  treeat b tree (λ _, U) →
  ∃ tree' tree'' nd, climb b tree (Z.of_nat x) (2 ^ b + x) = Some (tree', Z.of_nat x - Z.of_nat (below x U), nd) ∧
    incr nd tree' = Some tree'' ∧ treeat b tree'' (λ _, x :: U).
Proof.
  intros Hx Hx30 HU Hbel Ht.
  destruct (climb_ok b x U Hx Hx30 HU Hbel b tree) as (tree' & Hc & Ht'); [lia| |].
  { destruct Ht as [Hlen Ht]. split; [done|]. intros l k Hl Hk. rewrite decide_False by lia. by apply Ht. }
  rewrite Nat.sub_diag in Hc. cbn [Nat.pow] in Hc. rewrite Nat.div_1_r in Hc.
  assert (within b b x U = 0)%nat as Hw0.
  { unfold within. rewrite Nat.sub_diag. cbn [Nat.pow]. clear. induction U as [|q U IH]; [done|].
    rewrite filter_cons_len, IH, decide_False; [done|]. rewrite !Nat.div_1_r. lia. }
  assert (within b 0 x U = below x U) as Hwb.
  { unfold within, below. clear -Hx. induction U as [|q U IH]; [done|]. rewrite !filter_cons_len, IH. f_equal.
    assert (q < x ∧ q / 2 ^ (b - 0) = x / 2 ^ (b - 0) ↔ q < x)%nat as Hiff; [|by rewrite (decide_ext _ _ _ _ Hiff)].
    rewrite Nat.sub_0_r, (Nat.div_small x) by done.
    split; [tauto|]. intros Hq. split; [done|]. apply Nat.div_small. lia. }
  rewrite Hw0, Hwb, Z.sub_0_r in Hc.
  destruct (incr_tree b tree' _ x U 0 ltac:(lia) Hx Ht') as (tree'' & Hi & Ht''); [done|done|].
  rewrite Nat.sub_0_r, Nat.div_small in Hi by done. cbn [Nat.pow Nat.add] in Hi.
  exists tree', tree'', 1%nat. split; [done|]. split; [done|].
  destruct Ht'' as [Hlen Ht'']. split; [done|].
  intros l k Hl Hk. rewrite Ht'' by done. do 3 f_equal. repeat case_decide; try done; lia.
Qed.

(** ** The rank as a mixed radix number *)

Definition digit (U : list nat) (x : nat) : Z := Z.of_nat x - Z.of_nat (below x U).
Fixpoint exact (sz : Z) (U p : list nat) (acc : Z) : Z :=
  match p with
  | [] => acc
  | x :: p => exact sz (x :: U) p (acc * (sz - Z.of_nat (length U)) + digit U x)
  end.

Lemma below_bound x U : NoDup U → (below x U ≤ x)%nat.
Proof.
  intros HU. unfold below. transitivity (length (seq 0 x)); [|by rewrite seq_length]. apply submseteq_length.
  apply NoDup_submseteq; [by apply NoDup_filter|]. intros q [Hq _]%elem_of_list_filter. apply elem_of_seq. lia.
Qed.
Lemma below_diff x y U : (x ≤ y)%nat → NoDup U → (below y U ≤ below x U + (y - x))%nat.
Proof.
  intros Hxy HU.
  assert (below y U = below x U + length (filter (λ q, x ≤ q < y)%nat U))%nat as ->.
  { clear HU. unfold below. induction U as [|q U IH]; [done|]. rewrite !filter_cons. repeat case_decide; cbn [length]; lia. }
  assert (length (filter (λ q, x ≤ q < y)%nat U) ≤ length (seq x (y - x)))%nat.
  { apply submseteq_length. apply NoDup_submseteq; [by apply NoDup_filter|].
    intros q [Hq _]%elem_of_list_filter. apply elem_of_seq. lia. }
  rewrite seq_length in *. lia.
Qed.
Lemma below_not x U : x ∉ U → below (S x) U = below x U.
Proof.
  intros Hx. unfold below. f_equal. induction U as [|q U IH]; [done|]. rewrite !filter_cons.
  apply not_elem_of_cons in Hx as [Hne Hx]. rewrite (IH Hx). repeat case_decide; try done; lia.
Qed.
Lemma below_in x U : NoDup U → x ∈ U → below (S x) U = S (below x U).
Proof.
  intros HU Hx. unfold below. induction U as [|q U IH]; [by apply elem_of_nil in Hx|].
  apply NoDup_cons in HU as [Hq HU]. rewrite !filter_cons.
  apply elem_of_cons in Hx as [<-|Hx].
  - rewrite decide_True, decide_False by lia. cbn [length]. f_equal. exact (below_not x U Hq).
  - assert (q ≠ x) by (intros ->; done). specialize (IH HU Hx).
    repeat case_decide; cbn [length]; try lia.
Qed.

Lemma digit_lt x y U : NoDup U → x ∉ U → (x < y)%nat → digit U x < digit U y.
Proof.
  intros HU Hx Hxy. unfold digit. pose proof (below_not x U Hx). pose proof (below_diff (S x) y U ltac:(lia) HU). lia.
Qed.
Lemma digit_rng sz x U : NoDup U → x ∉ U → Z.of_nat x < sz → (∀ q, q ∈ U → Z.of_nat q < sz) →
  0 ≤ digit U x < sz - Z.of_nat (length U).
Proof.
  intros HU Hx Hxs HUs. split.
  - unfold digit. pose proof (below_bound x U HU). lia.
  - pose proof (digit_lt x (Z.to_nat sz) U HU Hx ltac:(lia)) as H. unfold digit in H at 2.
    assert (below (Z.to_nat sz) U = length U) as E; [|lia].
    unfold below. f_equal. clear -HUs. induction U as [|q U IH]; [done|]. rewrite filter_cons.
    assert (Z.of_nat q < sz) by (apply HUs; by left). rewrite decide_True by lia. f_equal. apply IH.
    intros. apply HUs. by right.
Qed.

(** every digit is taken *)
Lemma digit_onto sz U d : NoDup U → (∀ q, q ∈ U → Z.of_nat q < sz) → 0 ≤ d < sz - Z.of_nat (length U) →
  ∃ x, x ∉ U ∧ Z.of_nat x < sz ∧ digit U x = d.
Proof.
  intros HU HUs Hd.
  assert (∀ n, (∃ x, x ∉ U ∧ (x < n)%nat ∧ digit U x = d) ∨ digit U n ≤ d) as H.
  { induction n as [|n [(x & Hx & Hlt & E)|IH]].
    - right. unfold digit. pose proof (below_bound 0 U HU). lia.
    - left. exists x. split; [done|]. split; [lia|done].
    - destruct (decide (n ∈ U)) as [Hin|Hin].
      + right. unfold digit in *. rewrite below_in by done. lia.
      + destruct (decide (digit U n = d)) as [E|E].
        * left. exists n. split; [done|]. split; [lia|done].
        * right. unfold digit in *. rewrite below_not by done. lia. }
  destruct (H (Z.to_nat sz)) as [(x & Hx & Hlt & E)|Hle].
  - exists x. split; [done|]. split; [lia|done].
  - exfalso. unfold digit in Hle.
    assert (below (Z.to_nat sz) U ≤ length U)%nat by apply below_le. lia.
Qed.

Lemma exact_acc sz U p acc :
  exact sz U p acc = acc * falling (sz - Z.of_nat (length U)) (length p) + exact sz U p 0.
Proof.
  revert U acc. induction p as [|x p IH]; intros U acc; [simpl; lia|].
  cbn [exact falling length]. rewrite IH, (IH _ (0 * _ + _)). cbn [length].
  replace (sz - Z.of_nat (S (length U))) with (sz - Z.of_nat (length U) - 1) by lia. lia.
Qed.

Lemma falling_nonneg n : ∀ x, Z.of_nat n ≤ x → 0 < falling x n.
Proof. induction n as [|n IH]; intros x Hx; [simpl; lia|]. simpl. specialize (IH (x - 1) ltac:(lia)). nia. Qed.

Lemma pperm_len sz n p : pperm sz n p → Z.of_nat n ≤ Z.max 0 sz.
Proof.
  intros (<- & Hnd & Hs). assert (length p ≤ length (seq 0 (Z.to_nat sz)))%nat as H.
  { apply submseteq_length, NoDup_submseteq; [done|]. intros x Hx. apply elem_of_seq. specialize (Hs x Hx). lia. }
  rewrite seq_length in H. lia.
Qed.

(** The state of the loop: U has been used, p is still to come. *)
Definition good (sz : Z) (U p : list nat) : Prop := NoDup (U ++ p) ∧ (∀ x, x ∈ U ++ p → Z.of_nat x < sz).

Lemma good_cons sz U x p : good sz U (x :: p) → good sz (x :: U) p.
Proof.
  unfold good. intros [H1 H2].
  assert (U ++ x :: p ≡ₚ (x :: U) ++ p) as E by (symmetry; apply Permutation_middle).
  split; [by rewrite <-E|]. intros y. rewrite <-E. apply H2.
Qed.
Lemma good_parts sz U x p : good sz U (x :: p) → NoDup U ∧ x ∉ U ∧ Z.of_nat x < sz ∧ (∀ q, q ∈ U → Z.of_nat q < sz).
Proof.
  intros [H1 H2]. apply NoDup_app in H1 as (HU & Hd & _). split_and!.
  - done.
  - intros Hx. apply (Hd x Hx). by left.
  - apply H2. rewrite elem_of_app, elem_of_cons. auto.
  - intros q Hq. apply H2. rewrite elem_of_app. auto.
Qed.
Lemma good_len sz U p : 0 ≤ sz → good sz U p → Z.of_nat (length U + length p) ≤ sz.
Proof.
  intros Hsz [H1 H2]. pose proof (pperm_len sz (length (U ++ p)) (U ++ p)) as H. rewrite app_length in H.
  assert (pperm sz (length U + length p) (U ++ p)); [|specialize (H ltac:(done)); lia].
  split_and!; [by rewrite app_length|done|done].
Qed.

Lemma exact_rng sz U p : 0 ≤ sz → good sz U p →
  0 ≤ exact sz U p 0 < falling (sz - Z.of_nat (length U)) (length p).
Proof.
  intros Hsz. revert U. induction p as [|x p IH]; intros U Hg; [simpl; lia|].
  cbn [exact falling length]. rewrite Z.mul_0_l, Z.add_0_l, exact_acc. cbn [length].
  pose proof (good_parts _ _ _ _ Hg) as (HU & Hx & Hxs & HUs).
  pose proof (digit_rng sz x U HU Hx Hxs HUs). specialize (IH (x :: U) (good_cons _ _ _ _ Hg)). cbn [length] in IH.
  replace (sz - Z.of_nat (S (length U))) with (sz - Z.of_nat (length U) - 1) in * by lia.
  set (f := falling _ _) in *. nia.
Qed.

Lemma exact_lt sz U u x y v w : 0 ≤ sz → good sz U (u ++ x :: v) → good sz U (u ++ y :: w) →
  length v = length w → (x < y)%nat → exact sz U (u ++ x :: v) 0 < exact sz U (u ++ y :: w) 0.
Proof.
  intros Hsz Hg1 Hg2 Hlen Hxy.
  assert (∀ acc, exact sz U (u ++ x :: v) acc < exact sz U (u ++ y :: w) acc) as H; [|apply H].
  revert U Hg1 Hg2. induction u as [|z u IH]; intros U Hg1 Hg2 acc; cbn [app exact].
  - pose proof (good_parts _ _ _ _ Hg1) as (HU & Hx & _).
    pose proof (digit_lt x y U HU Hx Hxy).
    rewrite (exact_acc _ (x :: U)), (exact_acc _ (y :: U)). cbn [length].
    pose proof (exact_rng sz (x :: U) v Hsz (good_cons _ _ _ _ Hg1)) as H1.
    pose proof (exact_rng sz (y :: U) w Hsz (good_cons _ _ _ _ Hg2)) as H2.
    cbn [length] in *. rewrite Hlen in *. set (f := falling _ _) in *. nia.
  - apply IH; by apply good_cons.
Qed.

Lemma exact_onto sz n : ∀ r, Z.of_nat n ≤ sz → 0 ≤ r < falling sz n → ∃ p, pperm sz n p ∧ exact sz [] p 0 = r.
Proof.
  assert (∀ p x U acc, exact sz U (p ++ [x]) acc =
    exact sz U p acc * (sz - Z.of_nat (length U + length p)) + digit (p ++ U) x) as Hsnoc.
  { induction p as [|y p IH]; intros x U acc.
    - cbn [app exact length]. by rewrite Nat.add_0_r.
    - cbn [app exact length]. rewrite IH. cbn [length]. f_equal; [f_equal; lia|].
      unfold digit, below. do 2 f_equal. apply Permutation_length. f_equiv. by rewrite Permutation_middle. }
  induction n as [|n IH]; intros r Hn Hr.
  - simpl in Hr. exists []. split; [|simpl; lia]. split_and!; [done|constructor|]. intros x Hx. by apply elem_of_nil in Hx.
  - rewrite falling_snoc in Hr. set (m := sz - Z.of_nat n) in *.
    destruct (IH (r / m)) as (p & Hp & E); [lia| |].
    { split; [apply Z.div_pos; lia|]. apply Z.div_lt_upper_bound; lia. }
    destruct Hp as (Hlen & Hnd & Hs).
    destruct (digit_onto sz p (r mod m)) as (x & Hx & Hxs & Hd); [done|done| |].
    { rewrite Hlen. apply Z.mod_pos_bound. lia. }
    exists (p ++ [x]). split.
    + split_and!.
      * rewrite app_length. cbn [length]. lia.
      * apply NoDup_app. split_and!; [done| |apply NoDup_singleton].
        intros y Hy ->%elem_of_list_singleton. done.
      * intros y [Hy| ->%elem_of_list_singleton]%elem_of_app; [by apply Hs|done].
    + rewrite Hsnoc, E, app_nil_r, Hd. cbn [length Nat.add]. rewrite Hlen. fold m.
      pose proof (Z.div_mod r m ltac:(lia)). lia.
Qed.

(** ** The program computes the number *)

Lemma exact_mono_bound sz U p acc : 0 ≤ sz → good sz U p → 0 ≤ acc → acc ≤ exact sz U p acc.
Proof.
  intros Hsz Hg Hacc. rewrite exact_acc. pose proof (exact_rng _ _ _ Hsz Hg).
  pose proof (good_len _ _ _ Hsz Hg). pose proof (falling_nonneg (length p) (sz - Z.of_nat (length U)) ltac:(lia)). nia.
Qed.

Lemma rankloop_ok r p : 0 ≤ r_sz r < 2^29 → r_sz r < 2 ^ Z.of_nat (r_bits r) →
  ∀ U tree acc, good (r_sz r) U p → treeat (r_bits r) tree (λ _, U) →
  0 ≤ acc → exact (r_sz r) U p acc < 2^64 →
  rankloop r (length p) (Z.of_nat (length U) + 1) p tree acc = Some (exact (r_sz r) U p acc).
Proof.
  intros Hsz Hbits. induction p as [|x p IH]; intros U tree acc Hg Ht Hacc Hov; [done|].
  cbn [rankloop length].
  pose proof (good_parts _ _ _ _ Hg) as (HU & Hx & Hxs & HUs).
  pose proof (good_len (r_sz r) _ _ ltac:(lia) Hg) as Hlen. cbn [length] in Hlen.
  destruct (climb_full (r_bits r) x U tree) as (t1 & t2 & nd & -> & Hi & Ht2).
  - apply Nat2Z.inj_lt. rewrite Nat2Z.inj_pow. change (Z.of_nat 2) with 2. lia.
  - lia.
  - lia.
  - by apply below_bound.
  - done.
  - cbn [mbind option_bind]. rewrite Hi. cbn [mbind option_bind].
    replace (Z.of_nat (length U) + 1 + 1) with (Z.of_nat (length (x :: U)) + 1) by (cbn [length]; lia).
    replace (r_sz r + 1 - (Z.of_nat (length U) + 1)) with (r_sz r - Z.of_nat (length U)) by lia.
    assert (u32 (r_sz r - Z.of_nat (length U)) = r_sz r - Z.of_nat (length U)) as ->.
    { unfold u32. apply Z.mod_small. lia. }
    change (Z.of_nat x - Z.of_nat (below x U)) with (digit U x).
    cbn [exact] in Hov |- *.
    pose proof (digit_rng (r_sz r) x U HU Hx Hxs HUs).
    assert (0 ≤ acc * (r_sz r - Z.of_nat (length U)) + digit U x) as Hnn by nia.
    pose proof (exact_mono_bound (r_sz r) (x :: U) p _ ltac:(lia) (good_cons _ _ _ _ Hg) Hnn).
    assert (u64 (acc * (r_sz r - Z.of_nat (length U)) + digit U x) = acc * (r_sz r - Z.of_nat (length U)) + digit U x) as ->.
    { unfold u64. apply Z.mod_small. lia. }
    apply IH; [by apply good_cons|done|done|done].
Qed.

Lemma rank_exact sz n r p : 0 ≤ sz < 2^29 → new_ranker sz n = Some r → falling sz n ≤ 2^64 → pperm sz n p →
  rank r p = Some (exact sz [] p 0).
Proof.
  intros Hsz Hr Hov (Hlen & Hnd & Hs). unfold new_ranker in Hr. case_match; [|done]. injection Hr as <-.
  assert (good sz [] p) as Hg by done.
  pose proof (exact_rng sz [] p ltac:(lia) Hg) as Hrng. cbn [length] in Hrng. rewrite Z.sub_0_r, Hlen in Hrng.
  unfold rank. cbn [r_n r_treesz]. rewrite <-Hlen.
  change 1 with (Z.of_nat (@length nat []) + 1) at 1.
  apply (rankloop_ok (mk_ranker sz (Z.to_nat (ilog2 sz)) (length p) _)).
  - done.
  - cbn [r_sz r_bits]. destruct (C26_ilog2 sz ltac:(lia)) as [H0 H1].
    destruct (decide (sz = 0)) as [->|]; [done|]. specialize (H1 ltac:(lia)).
    assert (0 ≤ ilog2 sz). { destruct (Z.lt_ge_cases (ilog2 sz) 0) as [Hneg|]; [|done]. rewrite (Z.pow_neg_r 2 (ilog2 sz)) in H1 by done. lia. }
    rewrite Z2Nat.id by done. lia.
  - done.
  - cbn [r_bits]. set (b := Z.to_nat (ilog2 sz)). split; [by rewrite replicate_length|].
    intros l k Hl Hk. apply lookup_replicate. split; [done|].
    assert (2 ^ S l ≤ 2 ^ (b + 1))%nat by (apply Nat.pow_le_mono_r; lia). rewrite pow2_S in *. lia.
  - done.
  - cbn [r_sz]. lia.
Qed.

(** ** Theorems *)

(** Rankers up to size 2^29 - 1 can be built. *)
Theorem C25_constructible sz n : 0 ≤ sz < 2^29 → ∃ r, new_ranker sz n = Some r.
Proof.
  intros Hsz. unfold new_ranker. rewrite (proj2 (Nat.leb_le _ _)); [by eexists|].
  destruct (C26_ilog2 sz ltac:(lia)) as [H0 H1]. destruct (decide (sz = 0)) as [->|]; [simpl; lia|].
  destruct (H1 ltac:(lia)) as [H2 _]. assert (ilog2 sz ≤ 29); [|lia].
  destruct (Z.le_gt_cases (ilog2 sz) 29) as [|Hgt]; [done|].
  assert (2^29 ≤ 2^(ilog2 sz - 1)) by (apply Z.pow_le_mono_r; lia). lia.
Qed.

(** The rank is defined and below the number of sequences. *)
Theorem C25_rank_in_range sz n r p : 0 ≤ sz < 2^29 → new_ranker sz n = Some r → falling sz n ≤ 2^64 → pperm sz n p →
  ∃ k, rank r p = Some k ∧ 0 ≤ k < falling sz n.
Proof.
  intros Hsz Hr Hov Hp. exists (exact sz [] p 0). split; [by apply (rank_exact sz n)|].
  destruct Hp as (<- & Hnd & Hs). pose proof (exact_rng sz [] p ltac:(lia)) as H. cbn [length] in H.
  rewrite Z.sub_0_r in H. by apply H.
Qed.

(** Ranks are ordered as the sequences are lexicographically. *)
Theorem C25_rank_monotone sz n r p q kp kq : 0 ≤ sz < 2^29 → new_ranker sz n = Some r → falling sz n ≤ 2^64 →
  pperm sz n p → pperm sz n q → rank r p = Some kp → rank r q = Some kq →
  (kp < kq ↔ lexlt p q) ∧ (kp = kq ↔ p = q).
Proof.
  intros Hsz Hr Hov Hp Hq Ep Eq. rewrite (rank_exact sz n) in Ep, Eq by done. injection Ep as <-. injection Eq as <-.
  destruct Hp as (Hlp & Hp), Hq as (Hlq & Hq).
  assert (∀ p q, length p = n → length q = n → good sz [] p → good sz [] q → lexlt p q → exact sz [] p 0 < exact sz [] q 0) as Hlt.
  { clear p q Hlp Hlq Hp Hq. intros p q Hlp Hlq Hp Hq (u & x & y & v & w & -> & -> & Hxy).
    apply exact_lt; [lia|done|done| |done]. rewrite app_length in *. cbn [length] in *. lia. }
  assert (∀ p q : list nat, length p = length q → p = q ∨ lexlt p q ∨ lexlt q p) as Htot.
  { clear. induction p as [|x p IH]; intros [|y q] E; try done; [by left|].
    destruct (Nat.lt_trichotomy x y) as [H|[<-|H]].
    - right; left. by exists [], x, y, p, q.
    - destruct (IH q) as [->|[(u & a & b & v & w & -> & -> & H)|(u & a & b & v & w & -> & -> & H)]]; [by injection E|by left| |].
      + right; left. by exists (x :: u), a, b, v, w.
      + right; right. by exists (x :: u), a, b, v, w.
    - right; right. by exists [], y, x, q, p. }
  pose proof (Hlt p q Hlp Hlq Hp Hq) as H1. pose proof (Hlt q p Hlq Hlp Hq Hp) as H2.
  destruct (Htot p q ltac:(lia)) as [->|[H|H]].
  - split; [|done]. split; [lia|]. intros H. specialize (H1 H). lia.
  - specialize (H1 H). split; [done|]. split; [lia|]. intros ->. lia.
  - specialize (H2 H). split; [|split; [lia|intros ->; lia]]. split; [lia|]. intros H'. specialize (H1 H'). lia.
Qed.

(** Every number below the count is a rank. *)
Theorem C25_rank_onto sz n r k : 0 ≤ sz < 2^29 → new_ranker sz n = Some r → Z.of_nat n ≤ sz → falling sz n ≤ 2^64 →
  0 ≤ k < falling sz n → ∃ p, pperm sz n p ∧ rank r p = Some k.
Proof.
  intros Hsz Hr Hn Hov Hk. destruct (exact_onto sz n k Hn Hk) as (p & Hp & E).
  exists p. split; [done|]. rewrite <-E. by apply (rank_exact sz n).
Qed.

(** ** Instances *)

Definition r9 : option ranker := new_ranker 9 4.
Example rank_ex1 : (r ← r9; rank r [3; 0; 8; 5]%nat) = Some 1047.
Proof. vm_compute. done. Qed.
Example rank_ex2 : (r ← r9; rank r [8; 7; 6; 5]%nat) = Some (9 * 8 * 7 * 6 - 1).
Proof. vm_compute. done. Qed.
Example pperm_ex : pperm 9 4 [3; 0; 8; 5]%nat ∧ falling 9 4 ≤ 2^64 ∧ lexlt [3; 0; 8; 5]%nat [3; 1; 0; 2]%nat.
Proof.
  split; [split_and!; [done| |]|split; [vm_compute; discriminate|]].
  - by apply (bool_decide_unpack _).
  - intros x Hx. repeat (apply elem_of_cons in Hx as [->|Hx]; [lia|]). by apply elem_of_nil in Hx.
  - exists [3]%nat, 0%nat, 1%nat, [8; 5]%nat, [0; 2]%nat. split_and!; [done|done|lia].
Qed.

Print Assumptions C25_constructible.
Print Assumptions C25_rank_in_range.
Print Assumptions C25_rank_monotone.
Print Assumptions C25_rank_onto.
