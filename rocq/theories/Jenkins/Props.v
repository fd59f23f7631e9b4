(** What the users of hashbytes rely on: the value depends on the bytes of the key and on nothing
    else. *)
From stdpp Require Import prelude.
From Coq Require Import ZArith Lia ZifyBool ZifyNat.
From Verif.Jenkins Require Import Model.
Open Scope Z_scope.

(** Memory holds bytes. *)
Definition bytes_only (m : nat → Z) : Prop := ∀ a, 0 ≤ m a < 256.
Definition word32 (x : Z) : Prop := 0 ≤ x < W32.
Definition ok (w : words) : Prop := word32 (wa w) ∧ word32 (wb w) ∧ word32 (wc w).

Lemma W32_val : W32 = 2 ^ 32.
Proof. reflexivity. Qed.

Lemma add32_word x y : word32 (add32 x y).
Proof. apply Z.mod_pos_bound. reflexivity. Qed.
Lemma sub32_word x y : word32 (sub32 x y).
Proof. apply Z.mod_pos_bound. reflexivity. Qed.
Lemma shl32_word x k : word32 (shl32 x k).
Proof. apply Z.mod_pos_bound. reflexivity. Qed.

Lemma word32_log x : word32 x ↔ 0 ≤ x ∧ ∀ i, 32 ≤ i → Z.testbit x i = false.
Proof.
  unfold word32. rewrite W32_val. split.
  - intros [H1 H2]. split; [done|]. intros i Hi.
    rewrite <-(Z.mod_small x (2 ^ 32)) by done. apply Z.mod_pow2_bits_high. lia.
  - intros [H1 H2]. split; [done|].
    assert (E : x = x mod 2 ^ 32).
    { apply Z.bits_inj'. intros i Hi. destruct (decide (i < 32)).
      - rewrite Z.mod_pow2_bits_low by lia. done.
      - rewrite Z.mod_pow2_bits_high by lia. apply H2. lia. }
    rewrite E. apply Z.mod_pos_bound. reflexivity.
Qed.

Lemma xor32_word x y : word32 x → word32 y → word32 (xor32 x y).
Proof.
  rewrite !word32_log. intros [Hx Hx'] [Hy Hy']. split; [by apply Z.lxor_nonneg|].
  intros i Hi. unfold xor32. rewrite Z.lxor_spec, Hx', Hy' by done. done.
Qed.

Lemma lor_word x y : word32 x → word32 y → word32 (Z.lor x y).
Proof.
  rewrite !word32_log. intros [Hx Hx'] [Hy Hy']. split; [by apply Z.lor_nonneg|].
  intros i Hi. rewrite Z.lor_spec, Hx', Hy' by done. done.
Qed.

Lemma shiftr_word x k : 0 ≤ k → word32 x → word32 (Z.shiftr x k).
Proof.
  rewrite !word32_log. intros Hk [Hx Hx']. split; [by apply Z.shiftr_nonneg|].
  intros i Hi. rewrite Z.shiftr_spec by lia. apply Hx'. lia.
Qed.

Lemma rot_word x k : k ≤ 32 → word32 x → word32 (rot x k).
Proof. intros Hk Hx. apply lor_word; [apply shl32_word|apply shiftr_word; [lia|done]]. Qed.

(** ** The mixing steps lose no information *)

Lemma add32_inj x x' y : word32 x → word32 x' → add32 x y = add32 x' y → x = x'.
Proof.
  unfold word32, add32. intros Hx Hx' E.
  assert (H : (x - x') mod W32 = 0).
  { replace (x - x') with ((x + y) - (x' + y)) by lia. rewrite Zminus_mod, E, Z.sub_diag. reflexivity. }
  apply Z.mod_divide in H; [|done]. destruct H as [q Hq]. unfold W32 in *. lia.
Qed.

Lemma sub32_inj x x' y : word32 x → word32 x' → sub32 x y = sub32 x' y → x = x'.
Proof.
  intros Hx Hx' E. apply (add32_inj x x' (- y)); [done..|].
  unfold add32. unfold sub32 in E. by rewrite !Z.add_opp_r.
Qed.

Lemma xor32_inj x x' y : xor32 x y = xor32 x' y → x = x'.
Proof.
  unfold xor32. intros E. rewrite <-(Z.lxor_0_r x), <-(Z.lxor_0_r x'), <-(Z.lxor_nilpotent y).
  by rewrite <-!Z.lxor_assoc, E.
Qed.

Lemma mixstep_word x y z k : k ≤ 32 → word32 x → word32 y → word32 z →
  word32 (mixstep x y z k).1 ∧ word32 (mixstep x y z k).2.
Proof.
  intros. split; cbn.
  - apply xor32_word; [apply sub32_word|by apply rot_word].
  - apply add32_word.
Qed.

Lemma mixstep_inj x y z x' z' k : word32 x → word32 x' → word32 z → word32 z' →
  mixstep x y z k = mixstep x' y z' k → x = x' ∧ z = z'.
Proof.
  intros Hx Hx' Hz Hz' E. unfold mixstep in E. injection E as E1 E2.
  apply add32_inj in E2; [|done..]. subst z'. apply xor32_inj in E1. by apply sub32_inj in E1.
Qed.

Lemma finalstep_inj x x' y k : word32 x → word32 x' → word32 y → finalstep x y k = finalstep x' y k → x = x'.
Proof.
  intros Hx Hx' Hy E. unfold finalstep in E.
  apply sub32_inj in E; [by apply xor32_inj in E|by apply xor32_word..].
Qed.

Lemma finalstep_word x y k : word32 (finalstep x y k).
Proof. apply sub32_word. Qed.

Ltac mixes H :=
  repeat match type of H with
  | context [mixstep ?x ?y ?z ?k] =>
    let W := fresh "W" in
    assert (W := mixstep_word x y z k ltac:(lia) ltac:(done) ltac:(done) ltac:(done));
    destruct (mixstep x y z k) eqn:?; cbn in W; destruct W
  end.

Lemma mix_ok w : ok w → ok (mix w).
Proof.
  destruct w as [a b c]. intros (Ha & Hb & Hc). cbn in Ha, Hb, Hc. unfold mix. cbn [wa wb wc].
  repeat match goal with
  | |- context [mixstep ?x ?y ?z ?k] =>
    let W := fresh "W" in
    assert (W := mixstep_word x y z k ltac:(lia) ltac:(done) ltac:(done) ltac:(done));
    destruct (mixstep x y z k); cbn [fst snd] in W; destruct W
  end.
  done.
Qed.

Lemma final_ok w : ok (final w).
Proof. destruct w as [a b c]. unfold final. repeat split; cbn [wa wb wc]; apply finalstep_word. Qed.

(** The comment of hash.c:75-80 on mix: "This is reversible, so any information in (a,b,c) before
    mix() is still in (a,b,c) after mix()." *)
Theorem C95_mix_reversible w w' : ok w → ok w' → mix w = mix w' → w = w'.
Proof.
  destruct w as [a b c], w' as [a' b' c']. intros (Ha & Hb & Hc) (Ha' & Hb' & Hc').
  cbn [wa wb wc] in Ha, Hb, Hc, Ha', Hb', Hc'. unfold mix. cbn [wa wb wc]. intros E.
  repeat match type of E with
  | context [mixstep ?x ?y ?z ?k] =>
    let W := fresh "W" in
    assert (W := mixstep_word x y z k ltac:(lia) ltac:(done) ltac:(done) ltac:(done));
    destruct (mixstep x y z k) eqn:?; cbn [fst snd] in W; destruct W
  end.
  injection E as -> -> ->.
  repeat match goal with
  | H1 : mixstep ?x ?y ?z ?k = (?u, ?v), H2 : mixstep ?x' ?y ?z' ?k = (?u, ?v) |- _ =>
    let E := fresh "E" in
    assert (E := mixstep_inj x y z x' z' k ltac:(done) ltac:(done) ltac:(done) ltac:(done) (eq_trans H1 (eq_sym H2)));
    destruct E; subst; clear H1
  end.
  done.
Qed.

Theorem C95_final_reversible w w' : ok w → ok w' → final w = final w' → w = w'.
Proof.
  destruct w as [a b c], w' as [a' b' c']. intros (Ha & Hb & Hc) (Ha' & Hb' & Hc').
  cbn [wa wb wc] in Ha, Hb, Hc, Ha', Hb', Hc'. unfold final. cbn [wa wb wc]. intros E.
  injection E as E1 E2 E3.
  rewrite E2 in E3. rewrite E1 in E2.
  set (c1 := finalstep c b 14) in *. set (c1' := finalstep c' b' 14) in *.
  set (a1 := finalstep a c1 11) in *. set (a1' := finalstep a' c1' 11) in *.
  set (b1 := finalstep b a1 25) in *. set (b1' := finalstep b' a1' 25) in *.
  set (c2 := finalstep c1 b1 16) in *. set (c2' := finalstep c1' b1' 16) in *.
  set (a2 := finalstep a1 c2 4) in *. set (a2' := finalstep a1' c2' 4) in *.
  assert (c2 = c2') as Ec2 by (eapply finalstep_inj in E3; [done|apply finalstep_word..]).
  assert (b1 = b1') as Eb1 by (eapply finalstep_inj in E2; [done|apply finalstep_word..]).
  assert (a1 = a1') as Ea1.
  { unfold a2, a2' in E1. rewrite Ec2 in E1. eapply finalstep_inj in E1; [done|apply finalstep_word..]. }
  assert (c1 = c1') as Ec1.
  { unfold c2, c2' in Ec2. rewrite Eb1 in Ec2. eapply finalstep_inj in Ec2; [done|apply finalstep_word..]. }
  assert (b = b') as ->.
  { unfold b1, b1' in Eb1. rewrite Ea1 in Eb1. eapply finalstep_inj in Eb1; [done|done|done|apply finalstep_word]. }
  assert (a = a') as ->.
  { unfold a1, a1' in Ea1. rewrite Ec1 in Ea1. eapply finalstep_inj in Ea1; [done|done|done|apply finalstep_word]. }
  unfold c1, c1' in Ec1. apply finalstep_inj in Ec1; [|done..]. by subst.
Qed.

(** ** The three ways of reading the key agree *)

Lemma add32_assoc x y z : add32 (add32 x y) z = add32 x (y + z).
Proof. unfold add32. rewrite Zplus_mod_idemp_l. f_equal. lia. Qed.
Lemma add32_0 x : word32 x → add32 x 0 = x.
Proof. intros H. unfold add32. rewrite Z.add_0_r. apply Z.mod_small, H. Qed.

Section alike.
Context (m : nat → Z) (Hm : bytes_only m).

Lemma rd16_word p i : 0 ≤ rd16 m p i < 65536.
Proof. unfold rd16. pose proof (Hm (p + 2 * i)%nat). pose proof (Hm (p + 2 * i + 1)%nat). lia. Qed.
Lemma rd32_word p i : 0 ≤ rd32 m p i < W32.
Proof.
  unfold rd32, W32. pose proof (Hm (p + 4 * i)%nat). pose proof (Hm (p + 4 * i + 1)%nat).
  pose proof (Hm (p + 4 * i + 2)%nat). pose proof (Hm (p + 4 * i + 3)%nat). lia.
Qed.

Lemma shl32_small x k c : 0 ≤ k → c = 2 ^ k → 0 ≤ x → x * c < W32 → shl32 x k = x * c.
Proof. intros Hk -> Hx Hlt. unfold shl32. rewrite Z.shiftl_mul_pow2 by done. apply Z.mod_small. lia. Qed.

Lemma pair16_rd32 p i : pair16 m p (2 * i)%nat = rd32 m p i.
Proof.
  unfold pair16. pose proof (rd16_word p (2 * i)%nat). pose proof (rd16_word p (2 * i + 1)%nat).
  rewrite (shl32_small _ 16 65536) by (done || unfold W32; lia).
  unfold add32. rewrite Z.mod_small by (unfold W32; lia).
  unfold rd16, rd32.
  replace (p + 2 * (2 * i))%nat with (p + 4 * i)%nat by lia.
  replace (p + 2 * (2 * i + 1))%nat with (p + 4 * i + 2)%nat by lia.
  replace (p + 4 * i + 2 + 1)%nat with (p + 4 * i + 3)%nat by lia. lia.
Qed.

Lemma pair16_0 p : pair16 m p 0 = rd32 m p 0.
Proof. exact (pair16_rd32 p 0). Qed.
Lemma pair16_2 p : pair16 m p 2 = rd32 m p 1.
Proof. exact (pair16_rd32 p 1). Qed.
Lemma pair16_4 p : pair16 m p 4 = rd32 m p 2.
Proof. exact (pair16_rd32 p 2). Qed.

Lemma shl_byte p i k : 0 ≤ k ≤ 24 → shl32 (rd8 m p i) k = rd8 m p i * 2 ^ k.
Proof.
  intros Hk. pose proof (Hm (p + i)%nat) as Hb. apply shl32_small; [lia|done|unfold rd8; lia|].
  assert (2 ^ k ≤ 2 ^ 24) by (apply Z.pow_le_mono_r; lia). change (2 ^ 24) with 16777216 in *. unfold W32, rd8.
  assert (0 < 2 ^ k) by (apply Z.pow_pos_nonneg; lia). nia.
Qed.

Lemma add4_rd32 x p i : add4 m x p (4 * i)%nat = add32 x (rd32 m p i).
Proof.
  unfold add4. rewrite !shl_byte by lia. rewrite !add32_assoc. f_equal.
  unfold rd8, rd32. rewrite !Nat.add_assoc.
  change (2 ^ 8) with 256. change (2 ^ 16) with 65536. change (2 ^ 24) with 16777216. lia.
Qed.

Lemma add4_0 x p : add4 m x p 0 = add32 x (rd32 m p 0).
Proof. exact (add4_rd32 x p 0). Qed.
Lemma add4_4 x p : add4 m x p 4 = add32 x (rd32 m p 1).
Proof. exact (add4_rd32 x p 1). Qed.
Lemma add4_8 x p : add4 m x p 8 = add32 x (rd32 m p 2).
Proof. exact (add4_rd32 x p 2). Qed.

Lemma loop16_32 fuel p len w : loop16 m fuel p len w = loop32 m fuel p len w.
Proof.
  revert p len w. induction fuel as [|fuel IH]; intros p len w; [done|]. cbn [loop16 loop32].
  case_bool_decide; [|done]. rewrite IH.
  rewrite pair16_0, pair16_2, pair16_4. done.
Qed.

Lemma loop8_32 fuel p len w : loop8 m fuel p len w = loop32 m fuel p len w.
Proof.
  revert p len w. induction fuel as [|fuel IH]; intros p len w; [done|]. cbn [loop8 loop32].
  case_bool_decide; [|done]. rewrite IH.
  rewrite add4_0, add4_4, add4_8. done.
Qed.

(** A masked read is the sum of the bytes left over. *)
Lemma mask1 p i : Z.land (rd32 m p i) 0xff = rd8 m p (4 * i)%nat.
Proof.
  change 0xff with (Z.ones 8). rewrite Z.land_ones by done. unfold rd32, rd8. change (2 ^ 8) with 256.
  pose proof (Hm (p + 4 * i)%nat).
  symmetry. apply (Z.mod_unique _ _ (m (p + 4 * i + 1)%nat + 256 * m (p + 4 * i + 2)%nat + 65536 * m (p + 4 * i + 3)%nat)); lia.
Qed.
Lemma mask2 p i : Z.land (rd32 m p i) 0xffff = rd8 m p (4 * i)%nat + 256 * rd8 m p (4 * i + 1)%nat.
Proof.
  change 0xffff with (Z.ones 16). rewrite Z.land_ones by done. unfold rd32, rd8. change (2 ^ 16) with 65536.
  rewrite !Nat.add_assoc. pose proof (Hm (p + 4 * i)%nat). pose proof (Hm (p + 4 * i + 1)%nat).
  symmetry. apply (Z.mod_unique _ _ (m (p + 4 * i + 2)%nat + 256 * m (p + 4 * i + 3)%nat)); lia.
Qed.
Lemma mask3 p i : Z.land (rd32 m p i) 0xffffff = rd8 m p (4 * i)%nat + 256 * rd8 m p (4 * i + 1)%nat + 65536 * rd8 m p (4 * i + 2)%nat.
Proof.
  change 0xffffff with (Z.ones 24). rewrite Z.land_ones by done. unfold rd32, rd8. change (2 ^ 24) with 16777216.
  rewrite !Nat.add_assoc. pose proof (Hm (p + 4 * i)%nat). pose proof (Hm (p + 4 * i + 1)%nat). pose proof (Hm (p + 4 * i + 2)%nat).
  symmetry. apply (Z.mod_unique _ _ (m (p + 4 * i + 3)%nat)); lia.
Qed.
Lemma mask4 p i : rd32 m p i = rd8 m p (4 * i)%nat + 256 * rd8 m p (4 * i + 1)%nat + 65536 * rd8 m p (4 * i + 2)%nat + 16777216 * rd8 m p (4 * i + 3)%nat.
Proof. unfold rd32, rd8. rewrite !Nat.add_assoc. done. Qed.

(** The words added for the last block, in terms of single bytes. *)
Definition byte_or_0 (p len i : nat) : Z := if bool_decide (i < len)%nat then rd8 m p i else 0.
Definition word_of (p len i : nat) : Z :=
  byte_or_0 p len (4 * i)%nat + 256 * byte_or_0 p len (4 * i + 1)%nat + 65536 * byte_or_0 p len (4 * i + 2)%nat + 16777216 * byte_or_0 p len (4 * i + 3)%nat.
Definition tail (p len : nat) (w : words) : option words :=
  if bool_decide (len = 0)%nat then None else Some (adds w (word_of p len 0%nat) (word_of p len 1%nat) (word_of p len 2%nat)).

Ltac each_len :=
  match goal with H : (?len ≤ 12)%nat |- _ => do 13 (destruct len as [|len]; [|try lia]) end.

Lemma words_eq a b c a' b' c' : a = a' → b = b' → c = c' → Words a b c = Words a' b' c'.
Proof. by intros -> -> ->. Qed.

Lemma tail32_tail p len w : (len ≤ 12)%nat → tail32 m p len w = tail p len w.
Proof.
  intros Hlen. unfold tail.
  do 13 (destruct len as [|len]; [first [reflexivity | rewrite bool_decide_false by done; unfold tail32, adds, word_of, byte_or_0; cbn [bool_decide];
    repeat (rewrite bool_decide_true by lia); repeat (rewrite bool_decide_false by lia);
    rewrite ?(mask1 p), ?(mask2 p), ?(mask3 p), ?(mask4 p);
    f_equal; apply words_eq; f_equal; lia] |]). lia.
Qed.

Lemma rd16_bytes p i : rd16 m p i = rd8 m p (2 * i)%nat + 256 * rd8 m p (2 * i + 1)%nat.
Proof. unfold rd16, rd8. by rewrite Nat.add_assoc. Qed.

Lemma tail16_tail p len w : ok w → (len ≤ 12)%nat → tail16 m p len w = tail p len w.
Proof.
  intros (Ha & Hb & Hc) Hlen. unfold tail.
  do 13 (destruct len as [|len]; [first [reflexivity | rewrite bool_decide_false by done; unfold tail16, adds, word_of, byte_or_0;
    repeat (rewrite bool_decide_true by lia); repeat (rewrite bool_decide_false by lia);
    rewrite ?pair16_0, ?pair16_2, ?pair16_4, ?mask4, ?(shl_byte p) by lia;
    rewrite ?rd16_bytes, ?add32_assoc;
    f_equal; apply words_eq; try (rewrite add32_0 by done; done); try (symmetry; rewrite add32_0 by done; done); f_equal;
    change (2 ^ 16) with 65536; cbn [Nat.mul Nat.add]; lia] |]). lia.
Qed.

Lemma add32_cong x y y' : y = y' → add32 x y = add32 x y'.
Proof. by intros ->. Qed.
Lemma add32_zero x y : word32 x → y = 0 → x = add32 x y.
Proof. intros Hx ->. symmetry. by apply add32_0. Qed.

Lemma word_of_S p i q : (i < 12)%nat → word_of p (S i) q =
  word_of p i q + (if bool_decide (i / 4 = q)%nat then rd8 m p i * 2 ^ (8 * Z.of_nat (i mod 4)) else 0).
Proof.
  intros Hi. unfold word_of, byte_or_0.
  pose proof (Nat.div_mod i 4 ltac:(done)) as E. pose proof (Nat.mod_upper_bound i 4 ltac:(done)) as Hr.
  set (r := (i mod 4)%nat) in *. set (d := (i / 4)%nat) in *. clearbody r d.
  destruct (decide (d = q)) as [Hd|Hd]; [rewrite (bool_decide_true (d = q)) by done|rewrite (bool_decide_false (d = q)) by done].
  - subst q i. destruct r as [|[|[|[|r]]]]; [..|lia];
      repeat first [rewrite bool_decide_true by lia|rewrite bool_decide_false by lia]; rewrite ?Nat.add_0_r;
      change (2 ^ (8 * Z.of_nat 0)) with 1; change (2 ^ (8 * Z.of_nat 1)) with 256;
      change (2 ^ (8 * Z.of_nat 2)) with 65536; change (2 ^ (8 * Z.of_nat 3)) with 16777216; lia.
  - rewrite Z.add_0_r.
    assert (G : ∀ k, (k < 4)%nat → bool_decide (4 * q + k < S i)%nat = bool_decide (4 * q + k < i)%nat)
      by (intros k Hk; apply bool_decide_ext; lia).
    pose proof (G 0%nat ltac:(lia)) as G0. rewrite Nat.add_0_r in G0. by rewrite G0, !G by lia.
Qed.

Lemma downfrom_words p n w : ok w → (n ≤ 12)%nat →
  downfrom m p n w = adds w (word_of p n 0) (word_of p n 1) (word_of p n 2).
Proof.
  revert w. induction n as [|i IH]; intros [a b c] (Ha & Hb & Hc) Hn; cbn [wa wb wc] in Ha, Hb, Hc.
  { cbn [downfrom]. unfold adds. cbn [wa wb wc]. apply words_eq; apply add32_zero; done. }
  cbn [downfrom]. rewrite !word_of_S by lia. unfold addbyte. cbn [wa wb wc].
  rewrite shl_byte by (pose proof (Nat.mod_upper_bound i 4 ltac:(done)); lia).
  set (x := rd8 m p i * _).
  assert (Hd : (i / 4 < 3)%nat) by (apply Nat.div_lt_upper_bound; lia).
  assert (Hq : ∀ k, (k = i / 4 ↔ 4 * k ≤ i < 4 * k + 4)%nat).
  { intros k. pose proof (Nat.div_mod i 4 ltac:(done)). pose proof (Nat.mod_upper_bound i 4 ltac:(done)). lia. }
  case_bool_decide as H8; [|case_bool_decide as H4].
  - rewrite IH by (lia || (split; [|split]; first [done|apply add32_word])). unfold adds. cbn [wa wb wc].
    assert ((i / 4)%nat = 2%nat) as -> by (symmetry; apply Hq; lia).
    rewrite (bool_decide_true (2 = 2)%nat), !bool_decide_false by done. rewrite !add32_assoc.
    apply words_eq; apply add32_cong; lia.
  - rewrite IH by (lia || (split; [|split]; first [done|apply add32_word])). unfold adds. cbn [wa wb wc].
    assert ((i / 4)%nat = 1%nat) as -> by (symmetry; apply Hq; lia).
    rewrite (bool_decide_true (1 = 1)%nat), !bool_decide_false by done. rewrite !add32_assoc.
    apply words_eq; apply add32_cong; lia.
  - rewrite IH by (lia || (split; [|split]; first [done|apply add32_word])). unfold adds. cbn [wa wb wc].
    assert ((i / 4)%nat = 0%nat) as -> by (symmetry; apply Hq; lia).
    rewrite (bool_decide_true (0 = 0)%nat), !bool_decide_false by done. rewrite !add32_assoc.
    apply words_eq; apply add32_cong; lia.
Qed.

Lemma tail8_tail p len w : ok w → (len ≤ 12)%nat → tail8 m p len w = tail p len w.
Proof.
  intros Hw Hlen. unfold tail, tail8. case_bool_decide; [done|]. rewrite bool_decide_true by done.
  by rewrite downfrom_words.
Qed.

(** ** The value depends on the key only *)

Lemma adds_ok w x y z : ok (adds w x y z).
Proof. repeat split; apply add32_word. Qed.

Lemma loop32_ok fuel p len w : ok w → ok (loop32 m fuel p len w).2.
Proof.
  revert p len w. induction fuel as [|fuel IH]; intros p len w Hw; [done|]. cbn [loop32].
  case_bool_decide; [|done]. apply IH, mix_ok, adds_ok.
Qed.

Lemma loop32_short fuel p len w : (len ≤ fuel)%nat → ((loop32 m fuel p len w).1.2 ≤ 12)%nat.
Proof.
  revert p len w. induction fuel as [|fuel IH]; intros p len w Hl; cbn [loop32]; [cbn; lia|].
  case_bool_decide; [|cbn; lia]. apply IH. lia.
Qed.

Definition whole (p len : nat) (pc pb : Z) : Z * Z :=
  let i := add32 (add32 0xdeadbeef (Z.of_nat len mod W32)) pc in
  let '(p, len, w) := loop32 m len p len (Words i i (add32 i pb)) in
  match tail p len w with
  | None => (wc w, wb w)
  | Some w => (wc (final w), wb (final w))
  end.

Lemma hashlittle2_whole p len pc pb : hashlittle2 m p len pc pb = whole p len pc pb.
Proof.
  unfold hashlittle2, whole.
  set (i := add32 (add32 0xdeadbeef (Z.of_nat len mod W32)) pc).
  set (w := Words i i (add32 i pb)).
  assert (Hw : ok w) by (repeat split; apply add32_word).
  rewrite loop16_32, loop8_32.
  pose proof (loop32_ok len p len w Hw) as Hok. pose proof (loop32_short len p len w ltac:(done)) as Hs.
  destruct (loop32 m len p len w) as [[p' len'] w']. cbn in Hok, Hs.
  repeat case_bool_decide.
  - by rewrite tail32_tail.
  - by rewrite tail16_tail.
  - by rewrite tail8_tail.
Qed.
End alike.

(** Two keys with the same bytes: at whatever addresses, in whatever surroundings. *)
Definition same_key (m m' : nat → Z) (p p' len : nat) : Prop := ∀ i, (i < len)%nat → m (p + i)%nat = m' (p' + i)%nat.

Lemma loop32_same m m' fuel p p' len w : same_key m m' p p' len →
  ∃ q q' n w', loop32 m fuel p len w = (q, n, w') ∧ loop32 m' fuel p' len w = (q', n, w') ∧ same_key m m' q q' n.
Proof.
  revert p p' len w. induction fuel as [|fuel IH]; intros p p' len w Hk; cbn [loop32]; [by eexists _, _, _, _|].
  case_bool_decide as Hl; [|by eexists _, _, _, _].
  assert (E : ∀ i, (i < 3)%nat → rd32 m p i = rd32 m' p' i).
  { intros i Hi. unfold rd32. rewrite <-!Nat.add_assoc. by rewrite !(Hk _) by lia. }
  rewrite !E by lia. apply IH. intros i Hi. rewrite <-!Nat.add_assoc. apply Hk. lia.
Qed.

Lemma tail_same m m' p p' len w : same_key m m' p p' len → tail m p len w = tail m' p' len w.
Proof.
  intros Hk. unfold tail, word_of.
  assert (E : ∀ i, byte_or_0 m p len i = byte_or_0 m' p' len i).
  { intros i. unfold byte_or_0, rd8. case_bool_decide; [|done]. by apply Hk. }
  by rewrite !E.
Qed.

(** The hash is a function of the bytes of the key: neither the alignment of the address (which of
    the three loops runs), nor the bytes behind the key (which the masked reads do look at), nor
    anything else matters. *)
Theorem C95_depends_on_key_only m m' p p' len : bytes_only m → bytes_only m' →
  same_key m m' p p' len → hashbytes m p len = hashbytes m' p' len.
Proof.
  intros Hm Hm' Hk. unfold hashbytes. rewrite !hashlittle2_whole by done. unfold whole.
  set (w := Words _ _ _).
  destruct (loop32_same m m' len p p' len w Hk) as (q & q' & n & w' & -> & -> & Hk').
  by rewrite (tail_same m m' q q' n w').
Qed.

Lemma word32_final w : word32 (wc (final w)) ∧ word32 (wb (final w)).
Proof. destruct (final_ok w) as (? & ? & ?). done. Qed.

(** It is an unsigned 64-bit number. *)
Theorem C95_in_range m p len : bytes_only m → 0 ≤ hashbytes m p len < 2 ^ 64.
Proof.
  intros Hm. unfold hashbytes. rewrite hashlittle2_whole by done. unfold whole.
  set (i := add32 (add32 0xdeadbeef (Z.of_nat len mod W32)) _). set (w := Words i i _).
  assert (Hw : ok w) by (repeat split; apply add32_word).
  pose proof (loop32_ok m len p len w Hw) as Hok.
  destruct (loop32 m len p len w) as [[p' len'] w']. cbn in Hok. destruct Hok as (Ha & Hb & Hc).
  assert (G : ∀ x y, word32 x → word32 y → 0 ≤ Z.lor (Z.shiftl y 32) x < 2 ^ 64).
  { intros x y Hx Hy. assert (E : Z.lor (Z.shiftl y 32) x = y * 2 ^ 32 + x).
    { rewrite <-Z.shiftl_mul_pow2 by done. rewrite <-Z.lxor_lor, <-Z.add_nocarry_lxor; [done| |]; apply Z.bits_inj'; intros n Hn;
        rewrite Z.land_spec, Z.bits_0; apply word32_log in Hx as [_ Hx];
        destruct (decide (n < 32)); [rewrite Z.shiftl_spec_low by lia|rewrite Hx by lia| rewrite Z.shiftl_spec_low by lia|rewrite Hx by lia];
        first [done|apply andb_false_r]. }
    rewrite E. unfold word32 in *. rewrite W32_val in *. change (2 ^ 64) with (2 ^ 32 * 2 ^ 32). nia. }
  unfold tail. case_bool_decide; cbn -[Z.pow]; apply G; try done; apply finalstep_word.
Qed.

(** The key "abc" at an even, at an odd and at a word address, with different bytes behind it. *)
Definition mem_of (l : list Z) (fill : Z) (a : nat) : Z := default fill (l !! a).
Example C95_example :
  same_key (mem_of [97; 98; 99] 1) (mem_of [0; 97; 98; 99] 255) 0 1 3 ∧
  hashbytes (mem_of [97; 98; 99] 1) 0 3 = hashbytes (mem_of [0; 97; 98; 99] 255) 1 3 ∧
  hashbytes (mem_of [97; 98; 99] 1) 0 3 = hashbytes (mem_of [9; 9; 97; 98; 99] 77) 2 3 ∧
  hashbytes (mem_of [97; 98; 99] 1) 0 3 ≠ hashbytes (mem_of [97; 98; 100] 1) 0 3.
Proof.
  split; [intros [|[|[|i]]] Hi; [done..|lia]|].
  split; [vm_compute; reflexivity|]. split; [vm_compute; reflexivity|]. vm_compute. intros E; discriminate E.
Qed.

(** The values published with lookup3 for this sentence and initial values 0. *)
Example C95_published :
  hashlittle2 (mem_of [70; 111; 117; 114; 32; 115; 99; 111; 114; 101; 32; 97; 110; 100; 32; 115; 101; 118; 101; 110; 32; 121; 101; 97; 114; 115; 32; 97; 103; 111] 0) 0 30 0 0 = (0x17770551, 0xce7226e6) ∧
  hashlittle2 (mem_of [0; 70; 111; 117; 114; 32; 115; 99; 111; 114; 101; 32; 97; 110; 100; 32; 115; 101; 118; 101; 110; 32; 121; 101; 97; 114; 115; 32; 97; 103; 111] 0) 1 30 0 0 = (0x17770551, 0xce7226e6) ∧
  hashlittle2 (mem_of [0; 0; 70; 111; 117; 114; 32; 115; 99; 111; 114; 101; 32; 97; 110; 100; 32; 115; 101; 118; 101; 110; 32; 121; 101; 97; 114; 115; 32; 97; 103; 111] 0) 2 30 0 1 = (0xe3607cae, 0xbd371de4) ∧
  hashlittle2 (mem_of [] 0) 0 0 0 0 = (0xdeadbeef, 0xdeadbeef).
Proof.
  split; [vm_compute; reflexivity|]. split; [vm_compute; reflexivity|]. split; vm_compute; reflexivity.
Qed.

Print Assumptions C95_mix_reversible.
Print Assumptions C95_final_reversible.
Print Assumptions C95_depends_on_key_only.
Print Assumptions C95_in_range.
