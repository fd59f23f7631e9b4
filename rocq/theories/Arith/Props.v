(** C26-C29: integer helpers, checked arithmetic, random integers. *)
From stdpp Require Import prelude.
From Coq Require Import ZArith Lia ZifyBool ZifyNat.
From Verif.Arith Require Import Model.
Open Scope Z_scope.

(** ** ilog2 *)

Lemma mask_zero k v : 0 < k → 0 ≤ v < 2^(2*k) →
  (Z.land v ((2^k - 1) * 2^k) = 0 ↔ v < 2^k).
Proof.
  intros Hk Hv. rewrite <-Z.shiftl_mul_pow2 by lia.
  assert (2^k - 1 = Z.ones k) as -> by (rewrite Z.ones_equiv; lia).
  assert (2^(2*k) = 2^k * 2^k) as E by (rewrite <-Z.pow_add_r by lia; f_equal; lia).
  assert (0 < 2^k) by (apply Z.pow_pos_nonneg; lia).
  split.
  - intros H0. assert (Z.shiftr (Z.land v (Z.shiftl (Z.ones k) k)) k = 0) as H1.
    { rewrite H0. by rewrite Z.shiftr_0_l. }
    rewrite Z.shiftr_land in H1. rewrite Z.shiftr_shiftl_l, Z.sub_diag, Z.shiftl_0_r in H1 by lia.
    rewrite Z.land_ones, Z.shiftr_div_pow2 in H1 by lia.
    rewrite Z.mod_small in H1.
    + by apply Z.div_small_iff in H1; lia.
    + split; [apply Z.div_pos; lia|]. apply Z.div_lt_upper_bound; lia.
  - intros Hlt. apply Z.bits_inj'. intros n Hn. rewrite Z.land_spec, Z.bits_0.
    destruct (decide (n < k)) as [Hnk|Hnk].
    + rewrite Z.shiftl_spec_low by lia. apply andb_false_r.
    + assert (Z.testbit v n = false) as ->; [|done].
      destruct (decide (v = 0)) as [->|]; [apply Z.bits_0|].
      apply Z.bits_above_log2; [lia|]. assert (Z.log2 v < k); [|lia]. apply Z.log2_lt_pow2; lia.
Qed.

Lemma logstep_spec mask k lg v : 0 < k → mask = (2^k - 1) * 2^k → 0 < v < 2^(2*k) →
  ∃ lg' v', logstep mask k (lg, v) = (lg', v') ∧ 0 < v' < 2^k ∧ lg' + Z.log2 v' = lg + Z.log2 v.
Proof.
  intros Hk -> Hv. unfold logstep. destruct (Z.eqb_spec (Z.land v ((2^k - 1) * 2^k)) 0) as [H|H].
  - apply mask_zero in H; [|lia|lia]. exists lg, v. split; [done|]. split; [lia|done].
  - rewrite mask_zero in H by lia. eexists _, _. split; [done|].
    assert (0 < 2^k) by (apply Z.pow_pos_nonneg; lia).
    assert (2^(2*k) = 2^k * 2^k) as E by (rewrite <-Z.pow_add_r by lia; f_equal; lia).
    assert (k ≤ Z.log2 v) by (apply Z.log2_le_pow2; lia).
    rewrite Z.log2_shiftr by lia. rewrite Z.shiftr_div_pow2 by lia. split.
    + split; [apply Z.div_str_pos; lia|]. apply Z.div_lt_upper_bound; lia.
    + lia.
Qed.

(** ilog2 is the number of significant bits: 2^(ilog2 v - 1) ≤ v < 2^(ilog2 v). *)
Theorem C26_ilog2 v : 0 ≤ v < 2^32 →
  (v = 0 → ilog2 v = 0) ∧ (0 < v → 2^(ilog2 v - 1) ≤ v < 2^(ilog2 v)).
Proof.
  intros Hv. unfold ilog2. destruct (Z.eqb_spec v 0) as [->|Hne]; [by split; [|lia]|]. split; [done|]. intros _.
  destruct (logstep_spec 4294901760 16 0 v) as (l1 & v1 & -> & H1 & E1); [lia|done|lia|].
  destruct (logstep_spec 65280 8 l1 v1) as (l2 & v2 & -> & H2 & E2); [lia|done|lia|].
  destruct (logstep_spec 240 4 l2 v2) as (l3 & v3 & -> & H3 & E3); [lia|done|lia|].
  destruct (logstep_spec 12 2 l3 v3) as (l4 & v4 & -> & H4 & E4); [lia|done|lia|].
  destruct (logstep_spec 2 1 l4 v4) as (l5 & v5 & -> & H5 & E5); [lia|done|lia|]. simpl fst.
  assert (v5 = 1) as -> by lia. change (Z.log2 1) with 0 in E5.
  replace (l5 + 1) with (Z.succ (Z.log2 v)) by lia.
  replace (Z.succ (Z.log2 v) - 1) with (Z.log2 v) by lia. apply Z.log2_spec. lia.
Qed.

(** ** ipow, fallfact *)

Lemma u64_mul_l a b : u64 (u64 a * b) = u64 (a * b).
Proof. unfold u64. apply Zmult_mod_idemp_l. Qed.

Theorem C26_ipow b (e : nat) : 0 ≤ b < 2^32 → ipow b e = (b ^ Z.of_nat e) mod 2^64.
Proof.
  intros Hb. unfold ipow. assert (∀ e r, 0 ≤ r < 2^64 → ipowloop e b r = u64 (r * b ^ Z.of_nat e)) as H.
  { clear e. induction e as [|e IH]; intros r Hr.
    - simpl. rewrite Z.mul_1_r. symmetry. by apply Z.mod_small.
    - cbn [ipowloop]. rewrite IH by (apply Z.mod_pos_bound; lia). rewrite u64_mul_l. f_equal.
      rewrite Nat2Z.inj_succ, Z.pow_succ_r by lia. lia. }
  rewrite H by lia. by rewrite Z.mul_1_l.
Qed.

(** The falling factorial x (x-1) ... (x-n+1). *)
Fixpoint falling (x : Z) (n : nat) : Z :=
  match n with 0%nat => 1 | S n => x * falling (x - 1) n end.

Lemma falling_snoc x n : falling x (S n) = falling x n * (x - Z.of_nat n).
Proof.
  revert x. induction n as [|n IH]; intros x; [simpl; lia|].
  change (falling x (S (S n))) with (x * falling (x - 1) (S n)). rewrite IH.
  change (falling x (S n)) with (x * falling (x - 1) n). lia.
Qed.
Lemma falling_zero x n : 0 ≤ x < Z.of_nat n → falling x n = 0.
Proof.
  revert x. induction n as [|n IH]; intros x Hx; [lia|]. simpl.
  destruct (decide (x = 0)) as [->|]; [done|]. rewrite IH by lia. lia.
Qed.

(** Correct (modulo 2^64) for at least one factor - also for n > x, where it is 0. *)
Theorem C26_fallfact x n : 0 ≤ x < 2^32 → (1 ≤ n)%nat → Z.of_nat n < 2^32 →
  fallfact x n = falling x n mod 2^64.
Proof.
  intros Hx Hn Hn'. unfold fallfact.
  assert (∀ k i f, (1 ≤ i)%nat → Z.of_nat (i + k) < 2^32 → f = u64 (falling x i) →
    ffloop k x (Z.of_nat i) f = u64 (falling x (i + k))) as H.
  { induction k as [|k IH]; intros i f Hi Hik ->; [simpl; by rewrite Nat.add_0_r|].
    cbn [ffloop]. replace (Z.of_nat i + 1) with (Z.of_nat (S i)) by lia.
    rewrite (IH (S i)); [f_equal; f_equal; lia|lia|lia|]. rewrite u64_mul_l. rewrite falling_snoc.
    destruct (decide (Z.of_nat i ≤ x)).
    - do 2 f_equal. unfold u32. apply Z.mod_small. lia.
    - rewrite falling_zero by lia. done. }
  change 1 with (Z.of_nat 1) at 1. rewrite (H (n - 1)%nat 1%nat x).
  - replace (1 + (n - 1))%nat with n by lia. done.
  - lia.
  - lia.
  - simpl. unfold u64. rewrite Z.mod_small; lia.
Qed.

(** With no factors the result is x; the empty product would be 1. *)
Theorem C26_fallfact_zero_refuted x : x ≠ 1 → fallfact x 0 = x ∧ fallfact x 0 ≠ falling x 0.
Proof. done. Qed.

(** ** Checked arithmetic *)

(** What a checked operation with exact result [z] in a type with range [lo..hi] should do. *)
Definition checked (lo hi z : Z) : res := if (lo <=? z) && (z <=? hi) then Ret z else Throw.

Definition signed_rng (k z : Z) : Prop := - 2^k ≤ z ≤ 2^k - 1.
Definition unsigned_rng (k z : Z) : Prop := 0 ≤ z ≤ 2^k - 1.

Ltac cases := repeat
  match goal with
  | |- context [?a <? ?b] => destruct (Z.ltb_spec a b)
  | |- context [?a <=? ?b] => destruct (Z.leb_spec a b)
  | |- context [?a =? ?b] => destruct (Z.eqb_spec a b)
  end.

Theorem C27_signed_add k a b : 0 ≤ k → signed_rng k a → signed_rng k b →
  sadd k a b = checked (- 2^k) (2^k - 1) (a + b).
Proof.
  intros Hk Ha Hb. unfold sadd, checked, ltchk, gtchk, ret, smin, smax, signed_rng in *.
  assert (0 < 2^k) by (apply Z.pow_pos_nonneg; lia). set (M := 2^k) in *. clearbody M.
  cases; cbn [andb orb negb]; try done; cases; cbn [andb orb negb]; try done; exfalso; lia.
Qed.

Theorem C27_unsigned_add k a b : 0 ≤ k → unsigned_rng k a → unsigned_rng k b →
  uadd k a b = checked 0 (2^k - 1) (a + b).
Proof.
  intros Hk Ha Hb. unfold uadd, checked, umax, wrap, unsigned_rng in *.
  rewrite (Z.mod_small (2^k - 1 - b)) by lia.
  destruct (Z.ltb_spec (2^k - 1 - b) a).
  - rewrite (proj2 (andb_false_iff _ _)); [done|]. right. lia.
  - rewrite (proj2 (andb_true_iff _ _)) by lia. f_equal. apply Z.mod_small. lia.
Qed.

Theorem C27_unsigned_mul k a b : 0 ≤ k → unsigned_rng k a → unsigned_rng k b →
  umul k a b = checked 0 (2^k - 1) (a * b).
Proof.
  intros Hk Ha Hb. unfold umul, checked, umax, wrap, unsigned_rng in *.
  assert (a * b = 0 ∨ (0 < a ∧ 0 < b)) as [H0|[Hpa Hpb]] by nia.
  - rewrite H0. assert ((0 <? a) && (0 <? b) = false) as -> by (apply andb_false_iff; nia). simpl.
    rewrite Z.mod_0_l by lia. rewrite (proj2 (Z.leb_le _ _)) by lia. done.
  - rewrite (proj2 (Z.ltb_lt 0 a)), (proj2 (Z.ltb_lt 0 b)) by lia. simpl andb.
    destruct (Z.ltb_spec ((2^k - 1) / b) a) as [H|H].
    + assert (2^k - 1 < a * b).
      { destruct (Z.lt_ge_cases (2^k - 1) (a * b)) as [|Hle]; [done|].
        assert (a ≤ (2^k - 1) / b); [|lia]. apply Z.div_le_lower_bound; lia. }
      rewrite (proj2 (andb_false_iff _ _)); [done|]. right. lia.
    + assert (a * b ≤ 2^k - 1).
      { pose proof (Z.mul_div_le (2^k - 1) b Hpb). nia. }
      rewrite (proj2 (andb_true_iff _ _)) by nia. f_equal. apply Z.mod_small. nia.
Qed.

Corollary C27_can_mul k a b : 0 ≤ k → unsigned_rng k a → unsigned_rng k b →
  can_umul k a b = true ↔ a * b < 2^k.
Proof.
  intros Hk Ha Hb. unfold can_umul. rewrite C27_unsigned_mul by done. unfold checked, unsigned_rng in *.
  destruct ((0 <=? a * b) && (a * b <=? 2 ^ k - 1)) eqn:E; nia.
Qed.

Theorem C27_division k a b : 0 ≤ k →
  (signed_rng k a → signed_rng k b →
   sdiv k a b = if decide (b = 0) then Throw else checked (- 2^k) (2^k - 1) (a ÷ b)) ∧
  (unsigned_rng k a → unsigned_rng k b → udiv a b = if decide (b = 0) then Throw else checked 0 (2^k - 1) (a ÷ b)).
Proof.
  intros Hk. unfold sdiv, udiv, ret, checked, signed_rng, unsigned_rng, smin, smax.
  assert (0 < 2^k) by (apply Z.pow_pos_nonneg; lia). split; intros Ha Hb.
  - case_decide as Hz; [subst; done|]. rewrite (proj2 (Z.eqb_neq b 0)) by done. simpl orb.
    destruct (decide (a = - 2^k ∧ b = -1)) as [[-> ->]|Hnot].
    + rewrite Z.eqb_refl. simpl. replace (- 2^k ÷ -1) with (2^k).
      2:{ rewrite <-(Z.opp_involutive (-1)) at 1. rewrite Z.quot_opp_r by lia.
          rewrite Z.quot_opp_l by lia. rewrite Z.quot_1_r. lia. }
      rewrite (proj2 (andb_false_iff _ _)); [done|]. right. lia.
    + assert ((a =? - 2^k) && (b =? -1) = false) as -> by (apply andb_false_iff; lia).
      assert (- 2^k ≤ a ÷ b ≤ 2^k - 1).
      { assert (b = -1 ∨ b = 1 ∨ (1 < Z.abs b)) as [->|[->|Hb1]] by lia.
        - change (-1) with (- (1)). rewrite Z.quot_opp_r by lia. rewrite Z.quot_1_r. lia.
        - rewrite Z.quot_1_r. lia.
        - assert (Z.abs (a ÷ b) * 2 ≤ Z.abs a); [|lia].
          rewrite <-Z.quot_abs by lia. pose proof (Z.mul_quot_le (Z.abs a) (Z.abs b) ltac:(lia) ltac:(lia)).
          assert (0 ≤ Z.abs a ÷ Z.abs b) by (apply Z.quot_pos; lia). nia. }
      rewrite (proj2 (andb_true_iff _ _)) by lia. done.
  - case_decide as Hz; [subst; done|]. rewrite (proj2 (Z.eqb_neq b 0)) by done.
    rewrite Z.quot_div_nonneg by lia.
    assert (0 ≤ a / b ≤ 2^k - 1).
    { split; [apply Z.div_pos; lia|]. assert (a / b ≤ a) by (apply Z.div_le_upper_bound; nia). lia. }
    rewrite (proj2 (andb_true_iff _ _)) by lia. done.
Qed.

(** Unsigned subtraction: the check is the one of addition.  The result is correct only if a ≥ b
    and a + b fits. *)
Theorem C28_unsigned_sub k a b : 0 ≤ k → unsigned_rng k a → unsigned_rng k b →
  (a + b ≤ 2^k - 1 → b ≤ a → usub k a b = Ret (a - b)) ∧
  (a + b ≤ 2^k - 1 → a < b → usub k a b = Ret (2^k + a - b)) ∧
  (2^k - 1 < a + b → usub k a b = Throw).
Proof.
  intros Hk Ha Hb. unfold usub, umax, wrap, unsigned_rng in *.
  rewrite (Z.mod_small (2^k - 1 - b)) by lia. split_and!; intros H.
  - intros Hab. rewrite (proj2 (Z.ltb_ge _ _)) by lia. f_equal. apply Z.mod_small. lia.
  - intros Hab. rewrite (proj2 (Z.ltb_ge _ _)) by lia. f_equal. symmetry. apply (Z.mod_unique _ _ (-1)); lia.
  - by rewrite (proj2 (Z.ltb_lt _ _)) by lia.
Qed.

(** Hence both kinds of wrong answers exist in every width of at least one bit. *)
Corollary C28_unsigned_sub_refuted k : 0 < k →
  usub k 0 1 = Ret (2^k - 1) ∧ usub k (2^k - 1) 1 = Throw.
Proof.
  intros Hk. assert (2^1 ≤ 2^k) by (apply Z.pow_le_mono_r; lia). split.
  - destruct (C28_unsigned_sub k 0 1) as (_ & H2 & _); [lia|unfold unsigned_rng; lia|unfold unsigned_rng; lia|].
    rewrite H2 by lia. f_equal. lia.
  - destruct (C28_unsigned_sub k (2^k - 1) 1) as (_ & _ & H3); [lia|unfold unsigned_rng; lia|unfold unsigned_rng; lia|].
    rewrite H3 by lia. done.
Qed.

(** Signed subtraction is exact except for 0 - MIN, which overflows unnoticed. *)
Theorem C28_signed_sub k a b : 0 ≤ k → signed_rng k a → signed_rng k b →
  ssub k a b = if decide (a = 0 ∧ b = - 2^k) then UB else checked (- 2^k) (2^k - 1) (a - b).
Proof.
  intros Hk Ha Hb. unfold ssub, checked, ltchk, gtchk, ret, smin, smax, signed_rng in *.
  assert (0 < 2^k) by (apply Z.pow_pos_nonneg; lia). set (M := 2^k) in *. clearbody M.
  case_decide as Hd.
  - destruct Hd as [-> ->]. cases; cbn [andb orb negb]; try done; cases; cbn [andb orb negb]; try done; exfalso; lia.
  - cases; cbn [andb orb negb]; try done; cases; cbn [andb orb negb]; try done; exfalso; lia.
Qed.

(** Signed multiplication is exact except (a) it is undefined whenever it divides MIN by -1, i.e. for a factor -1
    with a positive other factor, or a second factor -1 with a negative (not MIN) first, and (b) a product
    MAX+1 of two negative factors, neither MIN, overflows unnoticed. *)
Definition smul_bad (k a b : Z) : Prop :=
  (a = -1 ∧ 0 < b) ∨ (0 < a ∧ b = -1) ∨ (- 2^k < a < 0 ∧ b = -1) ∨
  (- 2^k < a < 0 ∧ - 2^k < b < 0 ∧ a * b = 2^k).

Lemma ret_in k z : signed_rng k z → ret k z = Ret z.
Proof. intros H. unfold ret, smin, smax, signed_rng in *. by rewrite (proj2 (andb_true_iff _ _)) by lia. Qed.
Lemma ret_out k z : z < - 2^k ∨ 2^k - 1 < z → ret k z = UB.
Proof. intros H. unfold ret, smin, smax. rewrite (proj2 (andb_false_iff _ _)); [done|]. lia. Qed.

Lemma quot_neg_neg x y : 0 < y → - x ÷ - y = x ÷ y.
Proof. intros. rewrite Z.quot_opp_r, Z.quot_opp_l by lia. lia. Qed.

Theorem C28_signed_mul k a b : 1 ≤ k → signed_rng k a → signed_rng k b →
  (smul_bad k a b → smul k a b = UB) ∧
  (¬ smul_bad k a b → smul k a b = checked (- 2^k) (2^k - 1) (a * b)).
Proof.
  intros Hk Ha Hb. unfold smul_bad, signed_rng in *.
  assert (2^1 ≤ 2^k) as HM by (apply Z.pow_le_mono_r; lia). change (2^1) with 2 in HM.
  assert (∀ x y, 0 < x → 0 < y → (2^k ÷ y < x ↔ 2^k < x * y)) as Hq.
  { intros x y Hx Hy. rewrite Z.quot_div_nonneg by lia. split; intros H.
    - destruct (Z.lt_ge_cases (2^k) (x * y)) as [|Hle]; [done|].
      assert (x ≤ 2^k / y); [|lia]. apply Z.div_le_lower_bound; lia.
    - pose proof (Z.mul_div_le (2^k) y Hy). nia. }
  assert (∀ x y, 0 < x → 0 < y → ((2^k - 1) ÷ y < x ↔ 2^k - 1 < x * y)) as Hq1.
  { intros x y Hx Hy. rewrite Z.quot_div_nonneg by lia. split; intros H.
    - destruct (Z.lt_ge_cases (2^k - 1) (x * y)) as [|Hle]; [done|].
      assert (x ≤ (2^k - 1) / y); [|lia]. apply Z.div_le_lower_bound; lia.
    - pose proof (Z.mul_div_le (2^k - 1) y Hy). nia. }
  assert (∀ y, 2 ≤ y → 0 ≤ 2^k ÷ y ≤ 2^k - 1) as Hqr.
  { intros y Hy. rewrite Z.quot_div_nonneg by lia. split; [apply Z.div_pos; lia|].
    assert (2^k / y < 2^k); [|lia]. apply Z.div_lt; lia. }
  assert (∀ y, 1 ≤ y → 0 ≤ (2^k - 1) ÷ y ≤ 2^k - 1) as Hqr1.
  { intros y Hy. rewrite Z.quot_div_nonneg by lia. split; [apply Z.div_pos; lia|].
    apply Z.div_le_upper_bound; nia. }
  assert (∀ z, checked (- 2^k) (2^k - 1) z = if decide (- 2^k ≤ z ≤ 2^k - 1) then Ret z else Throw) as Hchk.
  { intros z. unfold checked. case_decide.
    - by rewrite (proj2 (andb_true_iff _ _)) by lia.
    - rewrite (proj2 (andb_false_iff _ _)); [done|]. lia. }
  unfold smul, smin, smax.
  destruct (Z.lt_trichotomy a 0) as [Ha0|[->|Ha0]], (Z.lt_trichotomy b 0) as [Hb0|[->|Hb0]].
  - (* both negative *)
    rewrite (proj2 (Z.ltb_lt a 0)), (proj2 (Z.ltb_lt b 0)) by done.
    rewrite (proj2 (Z.ltb_ge 0 a)), (proj2 (Z.ltb_ge 0 b)) by lia. cbn [andb].
    rewrite Hchk.
    destruct (decide (a = - 2^k ∨ b = - 2^k)) as [Hmin|Hmin].
    { assert ((a =? - 2^k) || (b =? - 2^k) = true) as -> by (apply orb_true_iff; lia).
      split; [lia|]. intros _. rewrite decide_False by nia. done. }
    assert ((a =? - 2^k) || (b =? - 2^k) = false) as -> by (apply orb_false_iff; lia).
    destruct (decide (b = -1)) as [->|Hb1].
    { change (-1) with (- (1)). rewrite quot_neg_neg, Z.quot_1_r by lia. rewrite ret_out by lia. split; [done|].
      intros []. lia. }
    rewrite <-(Z.opp_involutive b). rewrite quot_neg_neg by lia.
    pose proof (Hqr (- b) ltac:(lia)). rewrite ret_in by (unfold signed_rng; lia).
    unfold gtchk. rewrite ret_in by (unfold signed_rng; lia).
    pose proof (Hq (- a) (- b) ltac:(lia) ltac:(lia)) as Hqab.
    destruct (Z.ltb_spec a (- (2^k ÷ - b))) as [Hlt|Hge].
    + assert (2^k < a * b) by (replace (a * b) with (- a * - b) by lia; apply Hqab; lia).
      split; [nia|]. intros _. rewrite decide_False by nia. done.
    + assert (a * b ≤ 2^k).
      { replace (a * b) with (- a * - b) by lia. apply Z.nlt_ge. intros H1. apply Hqab in H1. lia. }
      replace (a * - - b) with (a * b) by lia.
      destruct (decide (a * b = 2^k)) as [He|He].
      * rewrite ret_out by lia. split; [done|]. intros []. lia.
      * rewrite ret_in by (unfold signed_rng; nia). split; [nia|]. intros _. by rewrite decide_True by nia.
  - rewrite Z.mul_0_r, Hchk. rewrite (proj2 (Z.ltb_lt a 0)) by done. rewrite (proj2 (Z.ltb_ge 0 a)) by lia. cbn [andb].
    change (0 <? 0) with false. cbn [andb].
    rewrite ret_in by (unfold signed_rng; lia). split; [lia|]. intros _. by rewrite decide_True by lia.
  - (* a negative, b positive *)
    rewrite (proj2 (Z.ltb_lt a 0)), (proj2 (Z.ltb_lt 0 b)) by done.
    rewrite (proj2 (Z.ltb_ge 0 a)), (proj2 (Z.ltb_ge b 0)) by lia. cbn [andb]. rewrite Hchk.
    unfold ltchk.
    destruct (decide (a = -1)) as [->|Ha1].
    { change (-1) with (- (1)). rewrite quot_neg_neg, Z.quot_1_r by lia. rewrite ret_out by lia. split; [done|].
      intros []. lia. }
    rewrite <-(Z.opp_involutive a). rewrite quot_neg_neg by lia. rewrite !Z.opp_involutive.
    pose proof (Hqr (- a) ltac:(lia)). rewrite ret_in by (unfold signed_rng; lia).
    pose proof (Hq b (- a) ltac:(lia) ltac:(lia)) as Hqab.
    split; [lia|]. intros _.
    destruct (Z.ltb_spec (2^k ÷ - a) b) as [Hlt|Hge].
    + apply Hqab in Hlt. rewrite decide_False by nia. done.
    + assert (b * - a ≤ 2^k). { apply Z.nlt_ge. intros H1. apply Hqab in H1. lia. }
      rewrite decide_True by nia. apply ret_in. unfold signed_rng. nia.
  - rewrite Z.mul_0_l, Hchk. change (0 <? 0) with false. cbn [andb].
    rewrite ret_in by (unfold signed_rng; lia). split; [lia|]. intros _. by rewrite decide_True by lia.
  - rewrite Z.mul_0_l, Hchk. change (0 <? 0) with false. cbn [andb].
    rewrite ret_in by (unfold signed_rng; lia). split; [lia|]. intros _. by rewrite decide_True by lia.
  - rewrite Z.mul_0_l, Hchk. change (0 <? 0) with false. cbn [andb].
    rewrite ret_in by (unfold signed_rng; lia). split; [lia|]. intros _. by rewrite decide_True by lia.
  - (* a positive, b negative *)
    rewrite (proj2 (Z.ltb_lt b 0)), (proj2 (Z.ltb_lt 0 a)) by done.
    rewrite (proj2 (Z.ltb_ge 0 b)), (proj2 (Z.ltb_ge a 0)) by lia. cbn [andb]. rewrite Hchk.
    unfold ltchk.
    destruct (decide (b = -1)) as [->|Hb1].
    { change (-1) with (- (1)). rewrite quot_neg_neg, Z.quot_1_r by lia. rewrite ret_out by lia. split; [done|].
      intros []. lia. }
    rewrite <-(Z.opp_involutive b). rewrite quot_neg_neg by lia. rewrite !Z.opp_involutive.
    pose proof (Hqr (- b) ltac:(lia)). rewrite ret_in by (unfold signed_rng; lia).
    pose proof (Hq a (- b) ltac:(lia) ltac:(lia)) as Hqab.
    split; [lia|]. intros _.
    destruct (Z.ltb_spec (2^k ÷ - b) a) as [Hlt|Hge].
    + apply Hqab in Hlt. rewrite decide_False by nia. done.
    + assert (a * - b ≤ 2^k). { apply Z.nlt_ge. intros H1. apply Hqab in H1. lia. }
      rewrite decide_True by nia. apply ret_in. unfold signed_rng. nia.
  - rewrite Z.mul_0_r, Hchk. change (0 <? 0) with false. rewrite !andb_false_r.
    rewrite ret_in by (unfold signed_rng; lia). split; [lia|]. intros _. by rewrite decide_True by lia.
  - (* both positive *)
    rewrite (proj2 (Z.ltb_lt 0 a)), (proj2 (Z.ltb_lt 0 b)) by done.
    rewrite (proj2 (Z.ltb_ge a 0)), (proj2 (Z.ltb_ge b 0)) by lia. cbn [andb]. rewrite Hchk.
    unfold ltchk. pose proof (Hqr1 b ltac:(lia)). rewrite ret_in by (unfold signed_rng; lia).
    pose proof (Hq1 a b ltac:(lia) ltac:(lia)) as Hqab.
    split; [lia|]. intros _.
    destruct (Z.ltb_spec ((2^k - 1) ÷ b) a) as [Hlt|Hge].
    + apply Hqab in Hlt. rewrite decide_False by nia. done.
    + assert (a * b ≤ 2^k - 1). { apply Z.nlt_ge. intros H1. apply Hqab in H1. lia. }
      rewrite decide_True by nia. apply ret_in. unfold signed_rng. nia.
Qed.

(** E.g. multiplying by -1 is undefined in every signed type. *)
Corollary C28_signed_mul_refuted k : 2 ≤ k → smul k 1 (-1) = UB ∧ smul k (-1) 1 = UB ∧ smul k (-2) (- 2^(k-1)) = UB.
Proof.
  intros Hk. assert (2^2 ≤ 2^k) by (apply Z.pow_le_mono_r; lia). change (2^2) with 4 in *.
  assert (2^k = 2 * 2^(k-1)) as E by (rewrite <-Z.pow_succ_r by lia; f_equal; lia).
  assert (∀ a b, signed_rng k a → signed_rng k b → smul_bad k a b → smul k a b = UB) as Hm.
  { intros a b Ha Hb. apply C28_signed_mul; [lia|done|done]. }
  split_and!; apply Hm; unfold smul_bad, signed_rng; lia.
Qed.

(** ** Random numbers *)

(** x ^ (x >> k) *)
Definition xsr (k x : Z) : Z := Z.lxor x (Z.shiftr x k).
Definition xsl (k x : Z) : Z := Z.lxor x (u64 (Z.shiftl x k)).
Arguments xsr : simpl never.
Arguments xsl : simpl never.
Definition in64 (z : Z) : Prop := 0 ≤ z < 2^64.

Lemma lxor_in64 a b : in64 a → in64 b → in64 (Z.lxor a b).
Proof.
  unfold in64. intros Ha Hb. assert (0 ≤ Z.lxor a b) by (apply Z.lxor_nonneg; lia). split; [done|].
  destruct (decide (Z.lxor a b = 0)) as [->|]; [lia|].
  apply Z.log2_lt_pow2; [lia|]. pose proof (Z.log2_lxor a b ltac:(lia) ltac:(lia)).
  assert (∀ x, 0 ≤ x < 2^64 → Z.log2 x < 64) as Hl.
  { intros x Hx. destruct (decide (x = 0)) as [->|]; [done|]. apply Z.log2_lt_pow2; lia. }
  pose proof (Hl a Ha). pose proof (Hl b Hb). lia.
Qed.
Lemma xsr_in64 k x : 0 ≤ k → in64 x → in64 (xsr k x).
Proof.
  intros Hk Hx. apply lxor_in64; [done|]. unfold in64 in *. rewrite Z.shiftr_div_pow2 by done.
  assert (0 < 2^k) by (apply Z.pow_pos_nonneg; lia).
  split; [apply Z.div_pos; lia|]. assert (x / 2^k ≤ x); [|lia]. apply Z.div_le_upper_bound; nia.
Qed.
Lemma xsl_in64 k x : in64 x → in64 (xsl k x).
Proof. intros Hx. apply lxor_in64; [done|]. unfold in64, u64. apply Z.mod_pos_bound. lia. Qed.

Lemma xsr_twice k x : 0 ≤ k → xsr k (xsr k x) = xsr (2 * k) x.
Proof.
  intros Hk. unfold xsr. apply Z.bits_inj'. intros n Hn. rewrite !Z.lxor_spec.
  rewrite !Z.shiftr_spec by lia. rewrite !Z.lxor_spec. rewrite !Z.shiftr_spec by lia.
  replace (n + k + k) with (n + 2 * k) by lia. destruct (Z.testbit x n), (Z.testbit x (n + k)), (Z.testbit x (n + 2 * k)); done.
Qed.
Lemma xsr_big k x : 64 ≤ k → in64 x → xsr k x = x.
Proof.
  intros Hk Hx. unfold xsr, in64 in *. rewrite Z.shiftr_div_pow2 by lia.
  rewrite Z.div_small; [apply Z.lxor_0_r|]. assert (2^64 ≤ 2^k) by (apply Z.pow_le_mono_r; lia). lia.
Qed.
Lemma u64_bits z n : 0 ≤ n → Z.testbit (u64 z) n = (n <? 64) && Z.testbit z n.
Proof.
  intros Hn. unfold u64. destruct (Z.ltb_spec n 64).
  - by rewrite Z.mod_pow2_bits_low.
  - by rewrite Z.mod_pow2_bits_high by lia.
Qed.
Lemma xsl_twice k x : 32 ≤ k → in64 x → xsl k (xsl k x) = x.
Proof.
  intros Hk Hx. unfold xsl. apply Z.bits_inj'. intros n Hn. rewrite !Z.lxor_spec.
  rewrite !u64_bits by lia. rewrite !Z.shiftl_spec by lia. rewrite !Z.lxor_spec.
  destruct (decide (n < k)) as [Hlt|Hge].
  - rewrite !(Z.testbit_neg_r _ (n - k)) by lia. destruct (Z.testbit x n), (n <? 64); done.
  - rewrite u64_bits by lia. rewrite Z.shiftl_spec by lia.
    destruct (Z.ltb_spec n 64).
    + rewrite (Z.testbit_neg_r _ (n - k - k)) by lia.
      destruct (Z.testbit x n), (Z.testbit x (n - k)), (n - k <? 64); done.
    + destruct (Z.testbit x n); done.
Qed.

(** An inverse of [bits]. *)
Definition Mulinv : Z := 6415128727920758069.

Lemma bits_alt v : bits v = u64 (xsr 4 (xsl 35 (xsr 21 v)) * Mul).
Proof. done. Qed.

(** The inverse of one step of the generator. *)
Definition unbits (w : Z) : Z :=
  let v := u64 (w * Mulinv) in
  let v := Nat.iter 15 (xsr 4) v in
  let v := xsl 35 v in
  Nat.iter 3 (xsr 21) v.

Lemma iter_xsr_in64 n k x : 0 ≤ k → in64 x → in64 (Nat.iter n (xsr k) x).
Proof. intros Hk Hx. induction n as [|n IH]; [done|]. simpl. by apply xsr_in64. Qed.
Lemma xsr_iter_double n k x : 0 ≤ k → Nat.iter (n + n) (xsr k) x = Nat.iter n (xsr (2 * k)) x.
Proof.
  intros Hk. induction n as [|n IH]; [done|]. rewrite Nat.add_succ_r. cbn [Nat.add]. rewrite !Nat.iter_succ.
  rewrite xsr_twice, IH by lia. done.
Qed.
Lemma xsr_iter4 k x : 16 ≤ k → in64 x → Nat.iter 4 (xsr k) x = x.
Proof.
  intros Hk Hx. rewrite (xsr_iter_double 2), (xsr_iter_double 1) by lia. apply xsr_big; [lia|done].
Qed.
Lemma xsr_iter16 x : in64 x → Nat.iter 16 (xsr 4) x = x.
Proof.
  intros Hx. rewrite (xsr_iter_double 8), (xsr_iter_double 4) by lia. by apply xsr_iter4.
Qed.
Lemma u64_id z : in64 z → u64 z = z.
Proof. intros. by apply Z.mod_small. Qed.
Lemma in64_u64 z : in64 (u64 z).
Proof. unfold in64, u64. apply Z.mod_pos_bound. lia. Qed.
Lemma mulinv a b z : (a * b) mod 2^64 = 1 → in64 z → u64 (u64 (z * a) * b) = z.
Proof.
  intros Hab Hz. rewrite u64_mul_l. replace (z * a * b) with (z * (a * b)) by lia.
  unfold u64. rewrite <-Zmult_mod_idemp_r, Hab, Z.mul_1_r. by apply Z.mod_small.
Qed.

(** One step of the generator permutes the 64-bit states. *)
Theorem C29_bits_bijective :
  (∀ v, in64 v → in64 (bits v)) ∧
  (∀ v w, in64 v → in64 w → bits v = bits w → v = w) ∧
  (∀ w, in64 w → ∃ v, in64 v ∧ bits v = w).
Proof.
  assert (∀ v, in64 v → unbits (bits v) = v) as Hinv.
  { intros v Hv. rewrite bits_alt. unfold unbits.
    rewrite mulinv; [|done|apply xsr_in64; [lia|]; apply xsl_in64; by apply xsr_in64].
    rewrite <-Nat.iter_succ_r. rewrite xsr_iter16 by (apply xsl_in64; by apply xsr_in64).
    rewrite xsl_twice; [|lia|by apply xsr_in64].
    rewrite <-Nat.iter_succ_r. by apply xsr_iter4. }
  split_and!.
  - intros v Hv. rewrite bits_alt. apply in64_u64.
  - intros v w Hv Hw E. by rewrite <-(Hinv v), <-(Hinv w), E.
  - intros w Hw. exists (unbits w).
    assert (in64 (u64 (w * Mulinv))) as H1 by apply in64_u64.
    assert (in64 (Nat.iter 15 (xsr 4) (u64 (w * Mulinv)))) as H2 by (apply iter_xsr_in64; [lia|done]).
    assert (in64 (xsl 35 (Nat.iter 15 (xsr 4) (u64 (w * Mulinv))))) as H3 by by apply xsl_in64.
    split; [unfold unbits; apply iter_xsr_in64; [lia|done]|].
    rewrite bits_alt. unfold unbits. rewrite <-Nat.iter_succ.
    rewrite xsr_iter4 by (lia || done). rewrite xsl_twice by (lia || done).
    rewrite <-Nat.iter_succ. rewrite xsr_iter16 by done. by apply mulinv.
Qed.

(** The zero state is a fixed point and no other state leads to it; the only seed that
    constructs it is the constant Vini. *)
Theorem C29_zero_state :
  bits 0 = 0 ∧ (∀ v, in64 v → bits v = 0 → v = 0) ∧
  (∀ seed, in64 seed → newrand seed = 0 ↔ seed = Vini).
Proof.
  destruct C29_bits_bijective as (_ & Hinj & _). assert (in64 0) as H0 by (unfold in64; lia).
  assert (in64 Vini) as HV by (unfold in64, Vini; lia).
  assert (∀ v, in64 v → bits v = 0 → v = 0) as Hz by (intros v Hv E; apply Hinj; done).
  split_and!; [done|done|]. intros seed Hs. unfold newrand. split.
  - intros E%Hz; [|by apply lxor_in64]. symmetry. by apply Z.lxor_eq.
  - intros ->. by rewrite Z.lxor_nilpotent.
Qed.

Lemma toint64_rng z : in64 z → - 2^63 ≤ toint64 z ≤ 2^63 - 1.
Proof. unfold in64, toint64. intros. destruct (Z.ltb_spec z (2^63)); lia. Qed.

(** integer(min, max) is defined, lies in the closed range, and advances the generator by one step
    (or not at all if min = max), if the bounds are ordered and both [max + 1] and the size of the
    range are representable. *)
Theorem C29_integer_in_range v min max :
  in64 v → - 2^63 ≤ min → min ≤ max → max + 1 ≤ 2^63 - 1 → max + 1 - min ≤ 2^63 - 1 →
  ∃ v' r, integer v min max = Some (v', r) ∧ min ≤ r ≤ max ∧
    r = min + bits v mod (max + 1 - min) ∧ v' = (if decide (min = max) then v else bits v).
Proof.
  intros Hv Hmin Hmm Hm1 Hr. unfold integer. destruct (Z.eqb_spec min max) as [->|Hne].
  - exists v, max. rewrite decide_True by done. split_and!; [done|lia|lia| |done].
    replace (max + 1 - max) with 1 by lia. rewrite Z.mod_1_r. lia.
  - assert (long (max + 1) = true) as -> by (unfold long; lia).
    assert (long (max + 1 - min) = true) as -> by (unfold long; lia). cbn [negb orb].
    assert (u64 (max + 1 - min) = max + 1 - min) as -> by (apply u64_id; unfold in64; lia).
    rewrite (proj2 (Z.eqb_neq _ _)) by lia. rewrite decide_False by done.
    set (d := max + 1 - min) in *. set (w := bits v).
    assert (0 ≤ w mod d < d) as Hd by (apply Z.mod_pos_bound; lia).
    eexists _, _. split; [done|].
    assert (toint64 (u64 (w mod d + u64 min)) = min + w mod d) as ->.
    { unfold u64. rewrite Zplus_mod_idemp_r. unfold toint64.
      destruct (decide (0 ≤ w mod d + min)) as [Hp|Hp].
      - rewrite (Z.mod_small (w mod d + min)) by lia. rewrite (proj2 (Z.ltb_lt _ _)) by lia. lia.
      - assert ((w mod d + min) mod 2^64 = w mod d + min + 2^64) as ->.
        { symmetry. apply (Z.mod_unique _ _ (-1)); lia. }
        rewrite (proj2 (Z.ltb_ge _ _)) by lia. lia. }
    split_and!; lia.
Qed.

(** Every value of the range is returned in some state. *)
Theorem C29_integer_onto min max x :
  - 2^63 ≤ min → min ≤ x ≤ max → max + 1 ≤ 2^63 - 1 → max + 1 - min ≤ 2^63 - 1 →
  ∃ v v', in64 v ∧ integer v min max = Some (v', x).
Proof.
  intros Hmin Hx Hm1 Hr. destruct C29_bits_bijective as (_ & _ & Hsurj).
  destruct (Hsurj (x - min)) as (v & Hv & E); [unfold in64; lia|]. exists v.
  destruct (C29_integer_in_range v min max) as (v' & r & Hi & Hrng & Hre & _); [done|lia..|].
  exists v'. split; [done|]. rewrite Hi. do 2 f_equal. rewrite Hre, E.
  rewrite Z.mod_small; lia.
Qed.

(** Bounds that are not representable: INT64_MAX as upper bound overflows, and so does a range
    of 2^63 or more values. *)
Theorem C29_integer_limits v min max : min ≠ max →
  2^63 - 1 < max + 1 ∨ 2^63 - 1 < max + 1 - min → integer v min max = None.
Proof.
  intros Hne H. unfold integer. rewrite (proj2 (Z.eqb_neq _ _)) by done.
  assert (negb (long (max + 1)) || negb (long (max + 1 - min)) = true) as ->; [|done].
  apply orb_true_iff. unfold long. rewrite !negb_true_iff, !andb_false_iff. lia.
Qed.

(** ** Instances *)

Example ilog2_ex : ilog2 1000 = 10 ∧ ilog2 4294967295 = 32 ∧ ilog2 1 = 1.
Proof. vm_compute. done. Qed.
Example fallfact_ex : fallfact 16 3 = 16 * 15 * 14 ∧ fallfact 3 5 = 0 ∧ fallfact 16 0 = 16 ∧ ipow 3 5 = 243.
Proof. vm_compute. done. Qed.
Example fallfact_hyp : fallfact 16 3 = falling 16 3 mod 2^64.
Proof. apply C26_fallfact; lia. Qed.
Example sadd_ex : sadd 31 2147483647 1 = Throw ∧ sadd 31 (-2147483648) 2147483647 = Ret (-1) ∧
  umul 64 (2^32) (2^32) = Throw ∧ umul 64 (2^32) (2^32 - 1) = Ret (2^64 - 2^32).
Proof. vm_compute. done. Qed.
Example smul_ex : smul 31 7 (-1) = UB ∧ smul 31 (-32768) (-65536) = UB ∧ smul 31 (-32768) (-65537) = Throw ∧ smul 31 (-3) (-5) = Ret 15.
Proof. vm_compute. done. Qed.
Example ssub_ex : ssub 31 0 (-2147483648) = UB ∧ ssub 31 1 (-2147483648) = Throw ∧ ssub 31 (-1) (-2147483648) = Ret 2147483647.
Proof. vm_compute. done. Qed.
Example newrand_ex : in64 (newrand 42).
Proof. unfold in64. vm_compute. split; [discriminate|done]. Qed.
Example integer_ex : ∃ v' r, integer (newrand 42) (-5) 5 = Some (v', r) ∧ -5 ≤ r ≤ 5.
Proof.
  pose proof newrand_ex as H. revert H. generalize (newrand 42). intros v Hv.
  destruct (C29_integer_in_range v (-5) 5) as (v' & r & H1 & H2 & _); [done|lia..|].
  exists v', r. split; [exact H1|exact H2].
Qed.

Print Assumptions C26_ilog2.
Print Assumptions C26_ipow.
Print Assumptions C26_fallfact.
Print Assumptions C26_fallfact_zero_refuted.
Print Assumptions C27_signed_add.
Print Assumptions C27_unsigned_add.
Print Assumptions C27_unsigned_mul.
Print Assumptions C27_can_mul.
Print Assumptions C27_division.
Print Assumptions C28_unsigned_sub.
Print Assumptions C28_unsigned_sub_refuted.
Print Assumptions C28_signed_sub.
Print Assumptions C28_signed_mul.
Print Assumptions C28_signed_mul_refuted.
Print Assumptions C29_bits_bijective.
Print Assumptions C29_zero_state.
Print Assumptions C29_integer_in_range.
Print Assumptions C29_integer_onto.
Print Assumptions C29_integer_limits.
