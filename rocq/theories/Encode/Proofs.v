(** Lemmas about the codings. *)
From stdpp Require Import prelude.
From Coq Require Import ZArith Lia ZifyBool ZifyNat.
From Verif.Encode Require Import Model.
Open Scope Z_scope.

Definition byte (b : Z) : Prop := 0 ≤ b < 256.

(** *** Run lengths *)

(** What a run-length code stands for. *)
Inductive parses : list Z → list Z → Prop :=
| p_nil : parses [] []
| p_run k c enc s : (3 ≤ k ≤ 127)%nat → parses enc s →
    parses ((257 - Z.of_nat k) :: c :: enc) (replicate k c ++ s)
| p_lit l enc s : (1 ≤ length l ≤ 127)%nat → parses enc s →
    parses ((Z.of_nat (length l) - 1) :: l ++ enc) (l ++ s).

Lemma parses_app e1 s1 e2 s2 : parses e1 s1 → parses e2 s2 → parses (e1 ++ e2) (s1 ++ s2).
Proof.
  intros H1 H2. induction H1 as [|k c enc s Hk H IH|l enc s Hl H IH]; [done| |].
  - rewrite <-app_assoc. by constructor.
  - rewrite <-!app_comm_cons. rewrite <-!app_assoc. by constructor.
Qed.

Lemma parses_lit l : (1 ≤ length l ≤ 127)%nat → parses ((Z.of_nat (length l) - 1) :: l) l.
Proof.
  intros H. pose proof (p_lit l [] [] H p_nil) as P. by rewrite !app_nil_r in P.
Qed.
Lemma parses_run k c : (3 ≤ k ≤ 127)%nat → parses [257 - Z.of_nat k; c] (replicate k c).
Proof. intros H. pose proof (p_run k c [] [] H p_nil) as P. by rewrite !app_nil_r in P. Qed.

Lemma rldec_parses enc s : parses enc s → ∀ fuel acc,
  (length enc ≤ fuel)%nat → rldec fuel enc acc = Some (acc ++ s).
Proof.
  induction 1 as [|k c enc s Hk H IH|l enc s Hl H IH]; intros fuel acc Hf.
  - destruct fuel; simpl; by rewrite app_nil_r.
  - destruct fuel as [|fuel]; simpl in Hf; [lia|]. cbn [rldec].
    assert (schar (257 - Z.of_nat k) = 1 - Z.of_nat k) as ->.
    { unfold schar. destruct (Z.ltb_spec (257 - Z.of_nat k) 128); lia. }
    rewrite (proj2 (Z.ltb_lt _ _)) by lia.
    rewrite (proj2 (Z.leb_le _ _)) by (unfold Maxrun; lia).
    rewrite IH by lia. rewrite <-app_assoc. do 3 f_equal. f_equal. lia.
  - destruct fuel as [|fuel]; simpl in Hf; [lia|]. cbn [rldec].
    rewrite app_length in Hf.
    assert (schar (Z.of_nat (length l) - 1) = Z.of_nat (length l) - 1) as ->.
    { unfold schar. destruct (Z.ltb_spec (Z.of_nat (length l) - 1) 128); lia. }
    rewrite (proj2 (Z.ltb_ge _ _)) by lia.
    rewrite (proj2 (Z.leb_le _ _)) by (unfold Maxrun; lia).
    replace (Z.to_nat (Z.of_nat (length l) - 1 + 1)) with (length l) by lia.
    rewrite decide_True by (rewrite app_length; lia).
    rewrite drop_app, take_app. rewrite IH by lia. by rewrite <-app_assoc.
Qed.

Lemma cntloop_spec c s : ∀ n, (n ≤ Maxrun)%nat →
  ∃ k, cntloop c n s = (n + k)%nat ∧ (n + k ≤ Maxrun)%nat ∧ (k ≤ length s)%nat ∧ take k s = replicate k c.
Proof.
  induction s as [|x s IH]; intros n Hn; simpl.
  - exists 0%nat. split_and!; [lia|lia|lia|done].
  - case_decide as Hlt; [|exists 0%nat; split_and!; [lia|lia|lia|done]].
    destruct (Z.eqb_spec x c) as [->|]; [|exists 0%nat; split_and!; [lia|lia|lia|done]].
    destruct (IH (S n)) as (k & H1 & H2 & H3 & H4); [lia|].
    exists (S k). rewrite H1. split_and!; [lia|lia|lia|]. simpl. by rewrite H4.
Qed.

Lemma cntsame_spec c s : (1 ≤ cntsame c s ≤ Maxrun)%nat ∧ (cntsame c s ≤ length (c :: s))%nat ∧
  take (cntsame c s) (c :: s) = replicate (cntsame c s) c.
Proof.
  unfold cntsame. destruct (cntloop_spec c s 1) as (k & -> & H2 & H3 & H4); [unfold Maxrun; lia|].
  simpl. rewrite H4. split_and!; try lia. done.
Qed.

Lemma flush_spec buf dst s : parses dst s → (length buf < Maxrun)%nat →
  ∃ dst', flush buf dst = Some dst' ∧ parses dst' (s ++ buf).
Proof.
  intros Hp Hb. unfold flush. case_decide as He.
  - exists dst. split; [done|]. destruct buf; [|done]. by rewrite app_nil_r.
  - rewrite decide_True by done. eexists. split; [done|].
    apply parses_app; [done|]. unfold tobyte. rewrite Z.mod_small by (unfold Maxrun in *; lia).
    apply parses_lit. unfold Maxrun in *. lia.
Qed.

Lemma rlloop_spec fuel : ∀ data buf dst s,
  (length data ≤ fuel)%nat → (length buf < Maxrun)%nat → parses dst s →
  ∃ out, rlloop fuel data buf dst = Some out ∧ parses out (s ++ buf ++ data).
Proof.
  induction fuel as [|fuel IH]; intros [|c rest] buf dst s Hf Hb Hp.
  - simpl. rewrite app_nil_r. by apply flush_spec.
  - simpl in Hf. lia.
  - simpl. rewrite app_nil_r. by apply flush_spec.
  - cbn [rlloop]. simpl in Hf. pose proof (cntsame_spec c rest) as (H1 & H2 & H3).
    set (k := cntsame c rest) in *.
    case_decide as Hk.
    + case_decide as Hfull.
      * destruct (IH rest [] (dst ++ [tobyte (Z.of_nat Maxrun - 1)] ++ buf ++ [c]) (s ++ buf ++ [c]))
          as (out & Ho & Hpo); [lia|unfold Maxrun; simpl; lia| |].
        { apply parses_app; [done|]. rewrite <-Hfull. unfold tobyte.
          rewrite Z.mod_small by (rewrite Hfull; unfold Maxrun; lia).
          apply parses_lit. rewrite Hfull. unfold Maxrun. lia. }
        exists out. split; [done|]. by rewrite <-!app_assoc in Hpo.
      * destruct (IH rest (buf ++ [c]) dst s) as (out & Ho & Hpo); [lia| |done|].
        { rewrite app_length in *. simpl in *. lia. }
        exists out. split; [done|]. by rewrite <-!app_assoc in Hpo.
    + destruct (flush_spec buf dst s Hp Hb) as (dst' & -> & Hp'). cbn [mbind option_bind].
      rewrite decide_True by lia.
      destruct (IH (drop k (c :: rest)) [] (dst' ++ [tobyte (1 - Z.of_nat k); c]) ((s ++ buf) ++ replicate k c))
        as (out & Ho & Hpo).
      * rewrite drop_length. simpl length. lia.
      * unfold Maxrun; simpl; lia.
      * apply parses_app; [done|]. unfold tobyte.
        replace ((1 - Z.of_nat k) mod 256) with (257 - Z.of_nat k).
        2:{ apply (Z.mod_unique _ _ (-1)); unfold Maxrun, Minrun in *; lia. }
        apply parses_run. unfold Maxrun, Minrun in *. lia.
      * exists out. split; [exact Ho|]. cbn [app] in Hpo. rewrite <-!app_assoc in Hpo.
        rewrite <-H3 in Hpo. by rewrite take_drop in Hpo.
Qed.

(** Encoded bytes are bytes. *)
Lemma parses_byte enc s : parses enc s → Forall byte s → Forall byte enc.
Proof.
  induction 1 as [|k c enc s Hk H IH|l enc s Hl H IH]; intros Hs; [done| |].
  - apply Forall_app in Hs as [Hr Hs]. constructor; [unfold byte; lia|]. constructor; [|by apply IH].
    destruct k as [|k]; [lia|]. by inversion Hr.
  - apply Forall_app in Hs as [Hr Hs]. constructor; [unfold byte; lia|]. apply Forall_app. auto.
Qed.

(** *** Bits *)

Lemma lor_add k a b : 0 ≤ k → 0 ≤ b < 2^k → Z.lor (a * 2^k) b = a * 2^k + b.
Proof.
  intros Hk Hb.
  assert (Z.land (a * 2^k) b = 0) as Hl.
  { apply Z.bits_inj'. intros n Hn. rewrite Z.land_spec, Z.bits_0.
    destruct (decide (n < k)) as [Hlt|Hge].
    - rewrite Z.mul_pow2_bits_low by lia. done.
    - assert (Z.testbit b n = false) as ->; [|apply andb_false_r].
      destruct (decide (b = 0)) as [->|]; [apply Z.bits_0|].
      apply Z.bits_above_log2; [lia|]. assert (Z.log2 b < k); [|lia]. apply Z.log2_lt_pow2; lia. }
  rewrite <-Z.lxor_lor by done. symmetry. by apply Z.add_nocarry_lxor.
Qed.

Lemma land63 b : Z.land b 63 = b mod 64.
Proof. apply (Z.land_ones b 6). lia. Qed.
Lemma land255 b : Z.land b 255 = b mod 256.
Proof. apply (Z.land_ones b 8). lia. Qed.
Lemma schar_land b : byte b → Z.land (schar b) 255 = b.
Proof.
  intros Hb. rewrite land255. unfold schar, byte in *. destruct (Z.ltb_spec b 128).
  - apply Z.mod_small. lia.
  - symmetry. apply (Z.mod_unique _ _ (-1)); lia.
Qed.

(** *** Base 64 *)

Lemma tab_inv i : 0 ≤ i < 64 →
  ∃ c, base64tab !! Z.to_nat i = Some c ∧ tab c = Some i ∧ c ≠ 61 ∧ byte c.
Proof.
  intros Hi.
  assert (forallb (λ n, match base64tab !! n with
    | Some c => bool_decide (tab c = Some (Z.of_nat n)) && negb (c =? 61) && (0 <=? c) && (c <? 256)
    | None => false end) (seq 0 64) = true) as H by (vm_compute; reflexivity).
  rewrite forallb_forall in H. specialize (H (Z.to_nat i)).
  rewrite Z2Nat.id in H by lia.
  destruct (base64tab !! Z.to_nat i) as [c|].
  - exists c. split; [done|].
    assert (In (Z.to_nat i) (seq 0 64)) as Hin by (apply in_seq; lia). specialize (H Hin).
    rewrite !andb_true_iff, bool_decide_eq_true, negb_true_iff in H. unfold byte. split_and!; try tauto; lia.
  - assert (In (Z.to_nat i) (seq 0 64)) as Hin by (apply in_seq; lia). specialize (H Hin). done.
Qed.

Lemma sextet_spec b : 0 ≤ b →
  ∃ c, sextet b = Some c ∧ tab c = Some (b mod 64) ∧ c ≠ 61 ∧ byte c ∧ c ∈ base64tab.
Proof.
  intros Hb. unfold sextet. rewrite land63.
  destruct (tab_inv (b mod 64)) as (c & H1 & H2 & H3 & H4); [apply Z.mod_pos_bound; lia|].
  exists c. split_and!; try done. by eapply elem_of_list_lookup_2.
Qed.

Lemma group64_spec b : 0 ≤ b < 2^24 →
  ∃ e0 e1 e2 e3, group64 b = Some [e0; e1; e2; e3] ∧
    tab e0 = Some (b / 2^18) ∧ tab e1 = Some (b / 2^12 mod 64) ∧
    tab e2 = Some (b / 2^6 mod 64) ∧ tab e3 = Some (b mod 64) ∧
    (∀ e, e ∈ [e0; e1; e2; e3] → e ≠ 61 ∧ byte e ∧ e ∈ base64tab).
Proof.
  intros Hb. unfold group64.
  destruct (sextet_spec b) as (e3 & -> & H31 & H32 & H33 & H34); [lia|]. cbn [mbind option_bind].
  rewrite !Z.shiftr_div_pow2 by lia.
  assert (b / 2^6 / 2^6 = b / 2^12) as E1 by (rewrite Z.div_div by lia; done).
  assert (b / 2^12 / 2^6 = b / 2^18) as E2 by (rewrite Z.div_div by lia; done).
  rewrite E1, E2.
  destruct (sextet_spec (b / 2^6)) as (e2 & -> & H21 & H22 & H23 & H24); [apply Z.div_pos; lia|].
  cbn [mbind option_bind].
  destruct (sextet_spec (b / 2^12)) as (e1 & -> & H11 & H12 & H13 & H14); [apply Z.div_pos; lia|].
  cbn [mbind option_bind].
  destruct (sextet_spec (b / 2^18)) as (e0 & -> & H01 & H02 & H03 & H04); [apply Z.div_pos; lia|].
  cbn [mbind option_bind].
  exists e0, e1, e2, e3. split; [done|].
  rewrite (Z.mod_small (b / 2^18)) in H01.
  2:{ split; [apply Z.div_pos; lia|]. apply Z.div_lt_upper_bound; lia. }
  split_and!; try done. intros e He. rewrite !elem_of_cons, elem_of_nil in He.
  destruct He as [->|[->|[->|[->|[]]]]]; done.
Qed.

(** What a base 64 text stands for. *)
Inductive parses64 : list Z → list Z → Prop :=
| q_nil : parses64 [] []
| q_3 e0 e1 e2 e3 d0 d1 d2 enc s : byte d0 → byte d1 → byte d2 →
    (let b := d0 * 65536 + d1 * 256 + d2 in
     tab e0 = Some (b / 2^18) ∧ tab e1 = Some (b / 2^12 mod 64) ∧
     tab e2 = Some (b / 2^6 mod 64) ∧ tab e3 = Some (b mod 64)) →
    (∀ e, e ∈ [e0; e1; e2; e3] → e ≠ 61 ∧ byte e ∧ e ∈ base64tab) →
    parses64 enc s → parses64 (e0 :: e1 :: e2 :: e3 :: enc) (d0 :: d1 :: d2 :: s)
| q_2 e0 e1 e2 d0 d1 : byte d0 → byte d1 →
    (let b := d0 * 65536 + d1 * 256 in
     tab e0 = Some (b / 2^18) ∧ tab e1 = Some (b / 2^12 mod 64) ∧ tab e2 = Some (b / 2^6 mod 64)) →
    (∀ e, e ∈ [e0; e1; e2] → e ≠ 61 ∧ byte e ∧ e ∈ base64tab) →
    parses64 [e0; e1; e2; 61] [d0; d1]
| q_1 e0 e1 d0 : byte d0 →
    (let b := d0 * 65536 in tab e0 = Some (b / 2^18) ∧ tab e1 = Some (b / 2^12 mod 64)) →
    (∀ e, e ∈ [e0; e1] → e ≠ 61 ∧ byte e ∧ e ∈ base64tab) →
    parses64 [e0; e1; 61; 61] [d0].

Lemma bits3 d0 d1 d2 : byte d0 → byte d1 → byte d2 →
  Z.lor (Z.lor (Z.shiftl d0 16) (Z.shiftl d1 8)) d2 = d0 * 65536 + d1 * 256 + d2.
Proof.
  intros H0 H1 H2. unfold byte in *. rewrite !Z.shiftl_mul_pow2 by lia.
  rewrite (lor_add 16 d0 (d1 * 2^8)) by lia.
  replace (d0 * 2^16 + d1 * 2^8) with ((d0 * 256 + d1) * 2^8) by lia.
  rewrite (lor_add 8) by lia. lia.
Qed.
Lemma bits2 d0 d1 : byte d0 → byte d1 → Z.lor (Z.shiftl d0 16) (Z.shiftl d1 8) = d0 * 65536 + d1 * 256.
Proof.
  intros H0 H1. unfold byte in *. rewrite !Z.shiftl_mul_pow2 by lia.
  rewrite (lor_add 16 d0 (d1 * 2^8)) by lia. lia.
Qed.

Lemma b64loop_spec n : ∀ data fuel acc, (length data ≤ n)%nat → (length data ≤ fuel)%nat → Forall byte data →
  ∃ enc, b64loop fuel data acc = Some (acc ++ enc) ∧ parses64 enc data.
Proof.
  induction n as [|n IH]; intros data fuel acc Hn Hf Hb.
  { destruct data; [|simpl in Hn; lia]. exists []. destruct fuel; simpl; rewrite app_nil_r; split; constructor. }
  destruct data as [|d0 rest]; [exists []; destruct fuel; simpl; rewrite app_nil_r; split; constructor|].
  destruct fuel as [|fuel]; [simpl in Hf; lia|]. simpl in Hf, Hn.
  inversion Hb as [|? ? Hd0 Hb']; subst. cbn [b64loop].
  destruct rest as [|d1 rest]; [|destruct rest as [|d2 rest]].
  - rewrite schar_land by done. rewrite Z.shiftl_mul_pow2 by lia.
    destruct (group64_spec (d0 * 2^16)) as (e0 & e1 & e2 & e3 & -> & T0 & T1 & T2 & T3 & Hall); [unfold byte in *; lia|].
    cbn [mbind option_bind]. rewrite decide_True by (simpl; lia). cbn [length].
    rewrite !decide_True by lia. cbn [drop].
    exists [e0; e1; 61; 61]. split.
    + destruct fuel; done.
    + constructor; [done|done|]. intros e He. apply Hall. set_solver.
  - inversion Hb' as [|? ? Hd1 _]; subst.
    rewrite !schar_land by done. rewrite bits2 by done.
    destruct (group64_spec (d0 * 65536 + d1 * 256)) as (e0 & e1 & e2 & e3 & -> & T0 & T1 & T2 & T3 & Hall);
      [unfold byte in *; lia|].
    cbn [mbind option_bind]. rewrite decide_True by (simpl; lia). cbn [length].
    rewrite (decide_False (P := (1 < 3 - 2)%nat)) by lia. rewrite decide_True by lia. cbn [drop].
    exists [e0; e1; e2; 61]. split.
    + destruct fuel; done.
    + constructor; [done|done|done|]. intros e He. apply Hall. set_solver.
  - inversion Hb' as [|? ? Hd1 Hb'']; subst. inversion Hb'' as [|? ? Hd2 Hb3]; subst.
    rewrite !schar_land by done. rewrite bits3 by done.
    destruct (group64_spec (d0 * 65536 + d1 * 256 + d2)) as (e0 & e1 & e2 & e3 & -> & T0 & T1 & T2 & T3 & Hall);
      [unfold byte in *; lia|].
    cbn [mbind option_bind]. rewrite decide_False by (simpl; lia). cbn [drop]. rewrite drop_0. simpl in Hf, Hn.
    destruct (IH rest fuel (acc ++ [e0; e1; e2; e3])) as (enc & -> & Hp); [lia|lia|done|].
    exists (e0 :: e1 :: e2 :: e3 :: enc). split; [by rewrite <-app_assoc|]. by constructor.
Qed.

Lemma dec_bits t0 t1 t2 t3 :
  0 ≤ t0 < 64 → 0 ≤ t1 < 64 → 0 ≤ t2 < 64 → 0 ≤ t3 < 64 →
  Z.lor (Z.lor (Z.lor (Z.shiftl t0 18) (Z.shiftl t1 12)) (Z.shiftl t2 6)) t3 =
    t0 * 2^18 + t1 * 2^12 + t2 * 2^6 + t3.
Proof.
  intros H0 H1 H2 H3. rewrite !Z.shiftl_mul_pow2 by lia.
  rewrite (lor_add 18) by lia.
  replace (t0 * 2^18 + t1 * 2^12) with ((t0 * 64 + t1) * 2^12) by lia. rewrite (lor_add 12) by lia.
  replace ((t0 * 64 + t1) * 2^12 + t2 * 2^6) with ((t0 * 4096 + t1 * 64 + t2) * 2^6) by lia.
  rewrite (lor_add 6) by lia. lia.
Qed.

Lemma byte_out b k : 0 ≤ b → 0 ≤ k → tobyte (Z.shiftr (Z.land b (255 * 2^k)) k) = b / 2^k mod 256.
Proof.
  intros Hb Hk. unfold tobyte. rewrite <-(Z.shiftl_mul_pow2 255 k) by lia.
  rewrite Z.shiftr_land. rewrite Z.shiftr_shiftl_l by lia. rewrite Z.sub_diag, Z.shiftl_0_r.
  rewrite land255, Z.shiftr_div_pow2 by lia. apply Z.mod_mod. lia.
Qed.

Lemma b64dec_spec enc s : parses64 enc s → ∀ fuel acc, (length enc ≤ fuel)%nat →
  b64dec fuel enc acc = Some (acc ++ s).
Proof.
  induction 1 as [|e0 e1 e2 e3 d0 d1 d2 enc s H0 H1 H2 T Hall Hp IH|e0 e1 e2 d0 d1 H0 H1 T Hall|e0 e1 d0 H0 T Hall];
    intros fuel acc Hf.
  - destruct fuel; simpl; by rewrite app_nil_r.
  - destruct fuel as [|fuel]; simpl in Hf; [lia|]. cbn [b64dec].
    set (b := d0 * 65536 + d1 * 256 + d2) in *. destruct T as (T0 & T1 & T2 & T3).
    assert (0 ≤ b < 2^24) as Hb by (subst b; unfold byte in *; lia).
    rewrite T0, T1. cbn [mbind option_bind].
    rewrite (proj2 (Z.eqb_neq e2 61)) by (apply Hall; set_solver).
    rewrite (proj2 (Z.eqb_neq e3 61)) by (apply Hall; set_solver).
    rewrite T2, T3. cbn [mbind option_bind].
    rewrite dec_bits.
    2:{ split; [apply Z.div_pos; lia|apply Z.div_lt_upper_bound; lia]. }
    2-4: apply Z.mod_pos_bound; lia.
    assert (b / 2 ^ 18 * 2 ^ 18 + (b / 2 ^ 12) mod 64 * 2 ^ 12 + (b / 2 ^ 6) mod 64 * 2 ^ 6 + b mod 64 = b) as ->.
    { clearbody b. change (2^18) with 262144. change (2^12) with 4096. change (2^6) with 64.
      Z.div_mod_to_equations. lia. }
    rewrite IH by lia. f_equal. rewrite <-!app_assoc. f_equal. cbn [app].
    change 16711680 with (255 * 2^16). change 65280 with (255 * 2^8).
    rewrite !byte_out by lia. unfold tobyte. rewrite land255.
    f_equal; [|f_equal; [|f_equal]]; subst b; unfold byte in *; change (2^16) with 65536; change (2^8) with 256;
      Z.div_mod_to_equations; lia.
  - destruct fuel as [|fuel]; simpl in Hf; [lia|]. cbn [b64dec].
    set (b := d0 * 65536 + d1 * 256) in *. destruct T as (T0 & T1 & T2).
    assert (0 ≤ b < 2^24) as Hb by (subst b; unfold byte in *; lia).
    rewrite T0, T1. cbn [mbind option_bind].
    rewrite (proj2 (Z.eqb_neq e2 61)) by (apply Hall; set_solver).
    rewrite Z.eqb_refl.
    rewrite T2. cbn [mbind option_bind].
    pose proof (dec_bits (b / 2^18) (b / 2^12 mod 64) (b / 2^6 mod 64) 0) as Hd.
    rewrite Z.lor_0_r in Hd. rewrite Hd; clear Hd.
    2:{ split; [apply Z.div_pos; lia|apply Z.div_lt_upper_bound; lia]. }
    2-3: apply Z.mod_pos_bound; lia. 2: lia.
    assert (b / 2 ^ 18 * 2 ^ 18 + (b / 2 ^ 12) mod 64 * 2 ^ 12 + (b / 2 ^ 6) mod 64 * 2 ^ 6 + 0 = b) as ->.
    { assert (b mod 64 = 0) by (subst b; Z.div_mod_to_equations; lia).
      clearbody b. change (2^18) with 262144. change (2^12) with 4096. change (2^6) with 64.
      Z.div_mod_to_equations. lia. }
    assert (∀ x, b64dec fuel [] x = Some x) as -> by (by destruct fuel).
    f_equal. rewrite <-!app_assoc. f_equal. cbn [app].
    change 16711680 with (255 * 2^16). change 65280 with (255 * 2^8).
    rewrite !byte_out by lia.
    f_equal; [|f_equal]; subst b; unfold byte in *; change (2^16) with 65536; change (2^8) with 256;
      Z.div_mod_to_equations; lia.
  - destruct fuel as [|fuel]; simpl in Hf; [lia|]. cbn [b64dec].
    set (b := d0 * 65536) in *. destruct T as (T0 & T1).
    assert (0 ≤ b < 2^24) as Hb by (subst b; unfold byte in *; lia).
    rewrite T0, T1. cbn [mbind option_bind]. rewrite Z.eqb_refl. cbn [mbind option_bind].
    pose proof (dec_bits (b / 2^18) (b / 2^12 mod 64) 0 0) as Hd.
    rewrite !Z.lor_0_r in Hd. rewrite Hd; clear Hd.
    2:{ split; [apply Z.div_pos; lia|apply Z.div_lt_upper_bound; lia]. }
    2: apply Z.mod_pos_bound; lia. 2-3: lia.
    assert (b / 2 ^ 18 * 2 ^ 18 + (b / 2 ^ 12) mod 64 * 2 ^ 12 + 0 * 2 ^ 6 + 0 = b) as ->.
    { assert (b mod 4096 = 0) by (subst b; Z.div_mod_to_equations; lia).
      clearbody b. change (2^18) with 262144. change (2^12) with 4096. change (2^6) with 64.
      Z.div_mod_to_equations. lia. }
    assert (∀ x, b64dec fuel [] x = Some x) as -> by (by destruct fuel).
    f_equal. f_equal.
    change 16711680 with (255 * 2^16). rewrite !byte_out by lia.
    f_equal. subst b; unfold byte in *. change (2^16) with 65536. Z.div_mod_to_equations; lia.
Qed.

Lemma parses64_length enc s : parses64 enc s → length enc = (4 * ((length s + 2) / 3))%nat.
Proof.
  induction 1 as [|e0 e1 e2 e3 d0 d1 d2 enc s H0 H1 H2 T Hall Hp IH|e0 e1 e2 d0 d1 H0 H1 T Hall|e0 e1 d0 H0 T Hall];
    cbn [length]; [done| |done|done].
  rewrite IH. replace (S (S (S (length s))) + 2)%nat with (1 * 3 + (length s + 2))%nat by lia.
  rewrite Nat.div_add_l by lia. lia.
Qed.
Lemma parses64_chars enc s : parses64 enc s → ∀ e, e ∈ enc → e ∈ base64tab ∨ e = 61.
Proof.
  induction 1 as [|e0 e1 e2 e3 d0 d1 d2 enc s H0 H1 H2 T Hall Hp IH|e0 e1 e2 d0 d1 H0 H1 T Hall|e0 e1 d0 H0 T Hall];
    intros e He.
  - by apply elem_of_nil in He.
  - change (e0 :: e1 :: e2 :: e3 :: enc) with ([e0; e1; e2; e3] ++ enc) in He.
    apply elem_of_app in He as [He|He]; [left; by apply Hall|by apply IH].
  - change [e0; e1; e2; 61] with ([e0; e1; e2] ++ [61]) in He.
    apply elem_of_app in He as [He|He]; [left; by apply Hall|right; by apply elem_of_list_singleton in He].
  - change [e0; e1; 61; 61] with ([e0; e1] ++ [61; 61]) in He.
    apply elem_of_app in He as [He|He]; [left; by apply Hall|right]. set_solver.
Qed.
