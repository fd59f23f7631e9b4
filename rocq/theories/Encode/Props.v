(** C21-C24: run-length, base 64 and ASCII-85 coding, control strings. *)
From stdpp Require Import prelude.
From Coq Require Import ZArith Lia ZifyBool ZifyNat.
From Verif.Encode Require Import Model Proofs.
Open Scope Z_scope.

(** ** Specification *)

(** A byte string: every element is a value 0..255. *)
Definition bytes (s : list Z) : Prop := Forall (λ b, 0 ≤ b < 256) s.

(** The 64 letters of MIME base 64: A-Z a-z 0-9 + /, and the padding character =. *)
Definition mime (c : Z) : Prop :=
  65 ≤ c ≤ 90 ∨ 97 ≤ c ≤ 122 ∨ 48 ≤ c ≤ 57 ∨ c = 43 ∨ c = 47 ∨ c = 61.

(** A decoder for ASCII-85, written from the definition of the format: groups of five digits '!'..'u',
    'z' for a zero word, a last group of k+1 digits for k bytes, padded with 'u'. *)
Definition word85 (c0 c1 c2 c3 c4 : Z) : Z :=
  ((((c0 - 33) * 85 + (c1 - 33)) * 85 + (c2 - 33)) * 85 + (c3 - 33)) * 85 + (c4 - 33).
Definition bytes4 (w : Z) : list Z := [w / 2^24; w / 2^16 mod 256; w / 2^8 mod 256; w mod 256].
Fixpoint dec85 (fuel : nat) (s : list Z) : list Z :=
  match fuel, s with
  | S fuel, 122 :: s => [0; 0; 0; 0] ++ dec85 fuel s
  | S fuel, c0 :: c1 :: c2 :: c3 :: c4 :: s => bytes4 (word85 c0 c1 c2 c3 c4) ++ dec85 fuel s
  | S fuel, [c0; c1; c2; c3] => take 3 (bytes4 (word85 c0 c1 c2 c3 117))
  | S fuel, [c0; c1; c2] => take 2 (bytes4 (word85 c0 c1 c2 117 117))
  | S fuel, [c0; c1] => take 1 (bytes4 (word85 c0 c1 117 117 117))
  | _, _ => []
  end.
Definition ascii85dec (s : list Z) : list Z := dec85 (length s) s.

(** ** Lemmas for ASCII 85 *)

Definition digs (w : Z) : list Z :=
  [w / 85^4 + 33; w / 85^3 mod 85 + 33; w / 85^2 mod 85 + 33; w / 85 mod 85 + 33; w mod 85 + 33].

Lemma pos_spec len i : 0 ≤ len → 0 ≤ i ≤ 4 → len + 4 < 2^32 → u32 (u32 (len - 1) + 5 - i) = len + (4 - i).
Proof.
  intros Hl Hi Hlt. unfold u32. replace ((len - 1) mod 2^32 + 5 - i) with ((len - 1) mod 2^32 + (5 - i)) by lia.
  rewrite Zplus_mod_idemp_l. rewrite Z.mod_small by lia. lia.
Qed.

Lemma put_spec (dst l : list Z) (k : nat) (x pos : Z) :
  pos = Z.of_nat (length dst + k) →
  (if pos <? Z.of_nat (length (dst ++ l)) then <[Z.to_nat pos := x]> (dst ++ l) else dst ++ l) =
  dst ++ <[k := x]> l.
Proof.
  intros ->. rewrite Nat2Z.id. destruct (Z.ltb_spec (Z.of_nat (length dst + k)) (Z.of_nat (length (dst ++ l)))) as [H|H].
  - by rewrite insert_app_r.
  - rewrite app_length in H. rewrite list_insert_ge by lia. done.
Qed.

Lemma digits85_spec dst n w : 0 ≤ w < 2^32 → (2 ≤ n ≤ 5)%nat → ¬ (w = 0 ∧ n = 5%nat) →
  Z.of_nat (length dst) + 4 < 2^32 → digits85 dst n w = Some (dst ++ take n (digs w)).
Proof.
  intros Hw Hn Hz Hlen. unfold digits85.
  assert ((w =? 0) && bool_decide (n = 5%nat) = false) as ->.
  { apply andb_false_iff. destruct (Z.eqb_spec w 0); [right|by left].
    apply bool_decide_eq_false. intros ->. by apply Hz. }
  cbn [digitsloop].
  rewrite (put_spec dst _ 4) by (rewrite pos_spec by lia; lia).
  rewrite (put_spec dst _ 3) by (rewrite pos_spec by lia; lia).
  rewrite (put_spec dst _ 2) by (rewrite pos_spec by lia; lia).
  rewrite (put_spec dst _ 1) by (rewrite pos_spec by lia; lia).
  rewrite (put_spec dst _ 0) by (rewrite pos_spec by lia; lia).
  rewrite !Z.div_div by lia.
  assert (w / (85 * (85 * (85 * (85 * 85)))) = 0) as ->.
  { apply Z.div_small. lia. }
  rewrite Z.eqb_refl. f_equal. f_equal.
  assert (∀ z, 0 ≤ z < 85 → tobyte (z + 33) = z + 33) as Ht by (intros z Hzr; apply Z.mod_small; lia).
  assert (∀ z, tobyte (z mod 85 + 33) = z mod 85 + 33) as Htm.
  { intros z. apply Ht. apply Z.mod_pos_bound. lia. }
  rewrite !Htm.
  assert ((w / (85 * (85 * (85 * 85)))) mod 85 = w / 85^4) as ->.
  { rewrite Z.mod_small; [done|]. split; [apply Z.div_pos; lia|]. apply Z.div_lt_upper_bound; lia. }
  destruct n as [|[|[|[|[|[|n]]]]]]; try lia; reflexivity.
Qed.

Definition word (d0 d1 d2 d3 : Z) : Z := d0 * 2^24 + d1 * 2^16 + d2 * 2^8 + d3.

Lemma u32_shift d : byte d → u32 (Z.shiftl d 24) = d * 2^24.
Proof. intros H. unfold u32, byte in *. rewrite Z.shiftl_mul_pow2 by lia. apply Z.mod_small. lia. Qed.
Lemma word_bits d0 d1 d2 d3 : byte d0 → byte d1 → byte d2 → byte d3 →
  Z.lor (Z.lor (Z.lor (u32 (Z.shiftl d0 24)) (Z.shiftl d1 16)) (Z.shiftl d2 8)) d3 = word d0 d1 d2 d3.
Proof.
  intros H0 H1 H2 H3. rewrite u32_shift by done. unfold byte, word in *. rewrite !Z.shiftl_mul_pow2 by lia.
  rewrite (lor_add 24) by lia.
  replace (d0 * 2^24 + d1 * 2^16) with ((d0 * 256 + d1) * 2^16) by lia. rewrite (lor_add 16) by lia.
  replace ((d0 * 256 + d1) * 2^16 + d2 * 2^8) with ((d0 * 65536 + d1 * 256 + d2) * 2^8) by lia.
  rewrite (lor_add 8) by lia. lia.
Qed.

Lemma digs_word w : 0 ≤ w < 2^32 →
  word85 (w / 85^4 + 33) (w / 85^3 mod 85 + 33) (w / 85^2 mod 85 + 33) (w / 85 mod 85 + 33) (w mod 85 + 33) = w.
Proof.
  intros Hw. unfold word85. change (85^4) with 52200625. change (85^3) with 614125. change (85^2) with 7225.
  Z.div_mod_to_equations. lia.
Qed.
Lemma bytes4_word d0 d1 d2 d3 : byte d0 → byte d1 → byte d2 → byte d3 →
  bytes4 (word d0 d1 d2 d3) = [d0; d1; d2; d3].
Proof.
  intros H0 H1 H2 H3. unfold bytes4, word, byte in *.
  change (2^24) with 16777216. change (2^16) with 65536. change (2^8) with 256.
  f_equal; [|f_equal; [|f_equal; [|f_equal]]]; Z.div_mod_to_equations; lia.
Qed.

(** Digits are between '!' and 'u'. *)
Lemma digs_range w c : 0 ≤ w < 2^32 → c ∈ digs w → 33 ≤ c ≤ 117.
Proof.
  intros Hw Hc. unfold digs in Hc. rewrite !elem_of_cons, elem_of_nil in Hc.
  assert (0 ≤ w / 85^4 < 85). { split; [apply Z.div_pos; lia|apply Z.div_lt_upper_bound; lia]. }
  pose proof (Z.mod_pos_bound (w / 85^3) 85 ltac:(lia)). pose proof (Z.mod_pos_bound (w / 85^2) 85 ltac:(lia)).
  pose proof (Z.mod_pos_bound (w / 85) 85 ltac:(lia)). pose proof (Z.mod_pos_bound w 85 ltac:(lia)).
  destruct Hc as [->|[->|[->|[->|[->|[]]]]]]; lia.
Qed.

(** One step of the decoder on digits. *)
Lemma dec85_full fuel c0 c1 c2 c3 c4 s : 33 ≤ c0 ≤ 117 →
  dec85 (S fuel) (c0 :: c1 :: c2 :: c3 :: c4 :: s) = bytes4 (word85 c0 c1 c2 c3 c4) ++ dec85 fuel s.
Proof.
  intros H. cbn [dec85]. destruct (decide (c0 = 122)) as [->|Hne]; [lia|].
  destruct c0 as [|p|p]; try done. do 7 (destruct p; try done).
Qed.
Lemma dec85_4 fuel c0 c1 c2 c3 : 33 ≤ c0 ≤ 117 →
  dec85 (S fuel) [c0; c1; c2; c3] = take 3 (bytes4 (word85 c0 c1 c2 c3 117)).
Proof.
  intros H. cbn [dec85]. destruct (decide (c0 = 122)) as [->|Hne]; [lia|].
  destruct c0 as [|p|p]; try done. do 7 (destruct p; try done).
Qed.
Lemma dec85_3 fuel c0 c1 c2 : 33 ≤ c0 ≤ 117 →
  dec85 (S fuel) [c0; c1; c2] = take 2 (bytes4 (word85 c0 c1 c2 117 117)).
Proof.
  intros H. cbn [dec85]. destruct (decide (c0 = 122)) as [->|Hne]; [lia|].
  destruct c0 as [|p|p]; try done. do 7 (destruct p; try done).
Qed.
Lemma dec85_2 fuel c0 c1 : 33 ≤ c0 ≤ 117 →
  dec85 (S fuel) [c0; c1] = take 1 (bytes4 (word85 c0 c1 117 117 117)).
Proof.
  intros H. cbn [dec85]. destruct (decide (c0 = 122)) as [->|Hne]; [lia|].
  destruct c0 as [|p|p]; try done. do 7 (destruct p; try done).
Qed.

(** Padding with 'u' changes the word only in the bytes that are cut off. *)
Lemma pad_word w c0 c1 c2 c3 c4 :
  word85 c0 c1 c2 c3 c4 = w → 33 ≤ c2 ≤ 117 → 33 ≤ c3 ≤ 117 → 33 ≤ c4 ≤ 117 →
  w ≤ word85 c0 c1 c2 c3 117 < w + 85 ∧ w ≤ word85 c0 c1 c2 117 117 < w + 7225 ∧
  w ≤ word85 c0 c1 117 117 117 < w + 614125.
Proof. unfold word85. lia. Qed.
Lemma pad_digs w : 0 ≤ w < 2^32 →
  w ≤ word85 (w / 85^4 + 33) (w / 85^3 mod 85 + 33) (w / 85^2 mod 85 + 33) (w / 85 mod 85 + 33) 117 < w + 85 ∧
  w ≤ word85 (w / 85^4 + 33) (w / 85^3 mod 85 + 33) (w / 85^2 mod 85 + 33) 117 117 < w + 7225 ∧
  w ≤ word85 (w / 85^4 + 33) (w / 85^3 mod 85 + 33) 117 117 117 < w + 614125.
Proof.
  intros Hw. pose proof (digs_word w Hw) as H.
  pose proof (Z.mod_pos_bound (w / 85^2) 85 ltac:(lia)).
  pose proof (Z.mod_pos_bound (w / 85) 85 ltac:(lia)). pose proof (Z.mod_pos_bound w 85 ltac:(lia)).
  apply (pad_word w _ _ _ _ (w mod 85 + 33) H); lia.
Qed.

Lemma a85loop_spec n : ∀ data fuel dst, (length data ≤ n)%nat → (length data ≤ fuel)%nat → Forall byte data →
  Z.of_nat (length dst + 2 * length data) + 5 < 2^32 →
  ∃ enc, a85loop fuel data dst = Some (dst ++ enc) ∧
    (∀ c, c ∈ enc → 33 ≤ c ≤ 117 ∨ c = 122) ∧
    ∀ fuel', (length enc ≤ fuel')%nat → dec85 fuel' enc = data.
Proof.
  induction n as [|n IH]; intros data fuel dst Hn Hf Hb Hlen.
  { destruct data; [|simpl in Hn; lia]. exists []. split; [destruct fuel; simpl; by rewrite app_nil_r|].
    split; [intros c Hc; by apply elem_of_nil in Hc|]. intros [|fuel'] _; done. }
  destruct data as [|d0 [|d1 [|d2 [|d3 rest]]]].
  - exists []. split; [destruct fuel; simpl; by rewrite app_nil_r|].
    split; [intros c Hc; by apply elem_of_nil in Hc|]. intros [|fuel'] _; done.
  - inversion Hb as [|? ? H0 _]; subst. exists (take 2 (digs (word d0 0 0 0))).
    assert (0 ≤ word d0 0 0 0 < 2^32) as Hw by (unfold word, byte in *; lia).
    assert (∀ c, c ∈ take 2 (digs (word d0 0 0 0)) → 33 ≤ c ≤ 117) as Hr.
    { intros c Hc. apply (digs_range (word d0 0 0 0)); [done|]. unfold digs in *. cbn [take] in Hc. set_solver. }
    split; [|split].
    + assert (a85loop fuel [d0] dst = digits85 dst 2 (u32 (Z.shiftl d0 24))) as -> by (by destruct fuel).
      rewrite u32_shift by done. replace (d0 * 2^24) with (word d0 0 0 0) by (unfold word; lia).
      apply digits85_spec; [done|lia|lia|]. simpl in Hlen. lia.
    + intros c Hc. left. by apply Hr.
    + intros fuel' Hf'. unfold digs in *. cbn [take length] in *. destruct fuel' as [|fuel']; [lia|].
      rewrite dec85_2 by (apply Hr; by left).
      pose proof (pad_digs _ Hw) as Hp. unfold byte in *.
      match goal with |- context [bytes4 ?x] => set (W := x) in * end.
      assert (word d0 0 0 0 ≤ W < word d0 0 0 0 + 614125) as HW by tauto. clearbody W. clear Hp Hr Hlen Hf' IH Hb.
      unfold bytes4, word in *. cbn [take].
      change (2^24) with 16777216 in *. change (2^16) with 65536 in *. change (2^8) with 256 in *.
      f_equal. Z.div_mod_to_equations; lia.
  - inversion Hb as [|? ? H0 Hb']; subst. inversion Hb' as [|? ? H1 _]; subst.
    exists (take 3 (digs (word d0 d1 0 0))).
    assert (0 ≤ word d0 d1 0 0 < 2^32) as Hw by (unfold word, byte in *; lia).
    assert (∀ c, c ∈ take 3 (digs (word d0 d1 0 0)) → 33 ≤ c ≤ 117) as Hr.
    { intros c Hc. apply (digs_range (word d0 d1 0 0)); [done|]. unfold digs in *. cbn [take] in Hc. set_solver. }
    split; [|split].
    + assert (a85loop fuel [d0; d1] dst = digits85 dst 3 (Z.lor (u32 (Z.shiftl d0 24)) (Z.shiftl d1 16))) as ->
        by (by destruct fuel).
      pose proof (word_bits d0 d1 0 0 H0 H1) as Hwb. rewrite Z.shiftl_0_l, !Z.lor_0_r in Hwb.
      rewrite Hwb by (unfold byte; lia).
      apply digits85_spec; [done|lia|lia|]. simpl in Hlen. lia.
    + intros c Hc. left. by apply Hr.
    + intros fuel' Hf'. unfold digs in *. cbn [take length] in *. destruct fuel' as [|fuel']; [lia|].
      rewrite dec85_3 by (apply Hr; by left).
      pose proof (pad_digs _ Hw) as Hp. unfold byte in *.
      match goal with |- context [bytes4 ?x] => set (W := x) in * end.
      assert (word d0 d1 0 0 ≤ W < word d0 d1 0 0 + 7225) as HW by tauto. clearbody W. clear Hp Hr Hlen Hf' IH Hb.
      unfold bytes4, word in *. cbn [take].
      change (2^24) with 16777216 in *. change (2^16) with 65536 in *. change (2^8) with 256 in *.
      f_equal; [|f_equal]; Z.div_mod_to_equations; lia.
  - inversion Hb as [|? ? H0 Hb']; subst. inversion Hb' as [|? ? H1 Hb'']; subst. inversion Hb'' as [|? ? H2 _]; subst.
    exists (take 4 (digs (word d0 d1 d2 0))).
    assert (0 ≤ word d0 d1 d2 0 < 2^32) as Hw by (unfold word, byte in *; lia).
    assert (∀ c, c ∈ take 4 (digs (word d0 d1 d2 0)) → 33 ≤ c ≤ 117) as Hr.
    { intros c Hc. apply (digs_range (word d0 d1 d2 0)); [done|]. unfold digs in *. cbn [take] in Hc. set_solver. }
    split; [|split].
    + assert (a85loop fuel [d0; d1; d2] dst =
        digits85 dst 4 (Z.lor (Z.lor (u32 (Z.shiftl d0 24)) (Z.shiftl d1 16)) (Z.shiftl d2 8))) as ->
        by (by destruct fuel).
      pose proof (word_bits d0 d1 d2 0 H0 H1 H2) as Hwb. rewrite !Z.lor_0_r in Hwb.
      rewrite Hwb by (unfold byte; lia).
      apply digits85_spec; [done|lia|lia|]. simpl in Hlen. lia.
    + intros c Hc. left. by apply Hr.
    + intros fuel' Hf'. unfold digs in *. cbn [take length] in *. destruct fuel' as [|fuel']; [lia|].
      rewrite dec85_4 by (apply Hr; by left).
      pose proof (pad_digs _ Hw) as Hp. unfold byte in *.
      match goal with |- context [bytes4 ?x] => set (W := x) in * end.
      assert (word d0 d1 d2 0 ≤ W < word d0 d1 d2 0 + 85) as HW by tauto. clearbody W. clear Hp Hr Hlen Hf' IH Hb.
      unfold bytes4, word in *. cbn [take].
      change (2^24) with 16777216 in *. change (2^16) with 65536 in *. change (2^8) with 256 in *.
      f_equal; [|f_equal; [|f_equal]]; Z.div_mod_to_equations; lia.
  - inversion Hb as [|? ? H0 Hb']; subst. inversion Hb' as [|? ? H1 Hb'']; subst. inversion Hb'' as [|? ? H2 Hb3]; subst.
    inversion Hb3 as [|? ? H3 Hb4]; subst.
    destruct fuel as [|fuel]; [simpl in Hf; lia|]. cbn [a85loop]. rewrite word_bits by done.
    assert (0 ≤ word d0 d1 d2 d3 < 2^32) as Hw by (unfold word, byte in *; lia).
    simpl in Hn, Hf, Hlen.
    destruct (decide (word d0 d1 d2 d3 = 0)) as [Hz|Hnz].
    + rewrite Hz. assert (digits85 dst 5 0 = Some (dst ++ [122])) as -> by done. cbn [mbind option_bind].
      destruct (IH rest fuel (dst ++ [122])) as (enc & -> & Hc & Hd); [lia|lia|done|rewrite app_length; simpl; lia|].
      exists (122 :: enc). split; [by rewrite <-app_assoc|]. split.
      * intros c [->|Hin]%elem_of_cons; [by right|by apply Hc].
      * intros [|fuel'] Hf'; simpl in Hf'; [lia|]. cbn [dec85]. rewrite Hd by lia. cbn [app].
        unfold word, byte in *. repeat f_equal; lia.
    + rewrite digits85_spec; [|done|lia|lia|lia]. cbn [mbind option_bind].
      destruct (IH rest fuel (dst ++ take 5 (digs (word d0 d1 d2 d3)))) as (enc & -> & Hc & Hd);
        [lia|lia|done|rewrite app_length; simpl; lia|].
      exists (digs (word d0 d1 d2 d3) ++ enc). split; [by rewrite <-app_assoc|]. split.
      * intros c [Hin|Hin]%elem_of_app; [left; by eapply digs_range|by apply Hc].
      * intros fuel' Hf'. rewrite app_length in Hf'. unfold digs in *. cbn [length app] in *.
        destruct fuel' as [|fuel']; [lia|].
        rewrite dec85_full by (apply (digs_range (word d0 d1 d2 d3)); [done|by left]).
        rewrite digs_word by done. rewrite bytes4_word by done. by rewrite Hd by lia.
Qed.

(** ** Theorems *)

(** Run-length coding never fails an assertion or reads outside, and decoding restores the string. *)
Theorem C21_runlength_roundtrip s :
  ∃ enc, runlenenc s = Some enc ∧ runlendec enc = Some s.
Proof.
  destruct (rlloop_spec (length s) s [] [] []) as (enc & Henc & Hp);
    [lia|unfold Maxrun; simpl; lia|constructor|].
  exists enc. split; [done|]. unfold runlendec. by rewrite (rldec_parses _ _ Hp).
Qed.

(** The encoding of bytes consists of bytes. *)
Theorem C21_runlength_yields_bytes s enc : bytes s → runlenenc s = Some enc → bytes enc.
Proof.
  intros Hs Henc. destruct (rlloop_spec (length s) s [] [] []) as (enc' & Henc' & Hp);
    [lia|unfold Maxrun; simpl; lia|constructor|].
  unfold runlenenc in Henc. rewrite Henc in Henc'. simplify_eq. by eapply parses_byte.
Qed.

Theorem C22_base64_roundtrip s : bytes s →
  ∃ enc, base64enc s = Some enc ∧ base64dec enc = Some s ∧
    length enc = (4 * ((length s + 2) / 3))%nat ∧ (∀ c, c ∈ enc → mime c).
Proof.
  intros Hs. destruct (b64loop_spec (length s) s (length s) []) as (enc & Henc & Hp); [lia|lia|done|].
  exists enc. split; [done|]. split; [|split].
  - unfold base64dec. by rewrite (b64dec_spec _ _ Hp).
  - by apply parses64_length.
  - intros c Hc. destruct (parses64_chars _ _ Hp c Hc) as [Hin| ->]; [|unfold mime; lia].
    unfold base64tab in Hin. rewrite !elem_of_cons, elem_of_nil in Hin. unfold mime.
    repeat (destruct Hin as [->|Hin]; [lia|]). done.
Qed.

(** Below 2 GB: the output consists of '!'..'u' and 'z', and decoding it restores the input. *)
Theorem C23_ascii85_decodable s : bytes s → Z.of_nat (2 * length s) + 5 < 2^32 →
  ∃ enc, ascii85enc s = Some enc ∧ (∀ c, c ∈ enc → 33 ≤ c ≤ 117 ∨ c = 122) ∧ ascii85dec enc = s.
Proof.
  intros Hs Hlen. destruct (a85loop_spec (length s) s (length s) []) as (enc & Henc & Hc & Hd);
    [lia|lia|done|simpl; lia|].
  exists enc. split; [done|]. split; [done|]. by apply Hd.
Qed.

Corollary C23_ascii85_injective s t enc : bytes s → bytes t →
  Z.of_nat (2 * length s) + 5 < 2^32 → Z.of_nat (2 * length t) + 5 < 2^32 →
  ascii85enc s = Some enc → ascii85enc t = Some enc → s = t.
Proof.
  intros Hs Ht Hls Hlt Es Et.
  destruct (C23_ascii85_decodable s Hs Hls) as (e1 & E1 & _ & D1).
  destruct (C23_ascii85_decodable t Ht Hlt) as (e2 & E2 & _ & D2). congruence.
Qed.

(** An operator number read back from a control string. *)
Definition readback (c : Z) : Z := if c mod 256 <? 128 then c mod 256 else c mod 256 + (2^32 - 256).

Lemma control_spec v : (∀ c, c ∈ v → 0 ≤ c < 2^32) →
  ∃ enc, controlstr v = Some enc ∧ controlvec enc = Some (map readback v).
Proof.
  intros Hv. unfold controlstr.
  assert (bytes (map (λ c, tobyte (Z.land c 255)) v)) as Hb.
  { apply Forall_forall. intros b Hb. apply elem_of_list_fmap in Hb as (c & -> & Hc).
    unfold tobyte. apply Z.mod_pos_bound. lia. }
  destruct (C21_runlength_roundtrip (map (λ c, tobyte (Z.land c 255)) v)) as (e1 & E1 & D1).
  rewrite E1. cbn [mbind option_bind].
  destruct (C22_base64_roundtrip e1) as (e2 & E2 & D2 & _); [by eapply C21_runlength_yields_bytes|].
  exists e2. split; [done|]. unfold controlvec. rewrite D2. cbn [mbind option_bind]. rewrite D1.
  cbn [mbind option_bind]. f_equal. rewrite map_map. apply map_ext_in. intros c Hc%elem_of_list_In.
  specialize (Hv c Hc). unfold tobyte. rewrite land255, Z.mod_mod by lia.
  pose proof (Z.mod_pos_bound c 256 ltac:(lia)). unfold schar, readback, u32.
  destruct (Z.ltb_spec (c mod 256) 128).
  - apply Z.mod_small. lia.
  - symmetry. apply (Z.mod_unique _ _ (-1)); lia.
Qed.

(** A list of operators survives exactly if every operator is below 128 (or among the 128 largest
    values of unsigned int, such as the code for "no operator"). *)
Theorem C24_control_string_roundtrip v : (∀ c, c ∈ v → 0 ≤ c < 2^32) →
  ∃ enc, controlstr v = Some enc ∧
    (controlvec enc = Some v ↔ ∀ c, c ∈ v → c < 128 ∨ 2^32 - 128 ≤ c).
Proof.
  intros Hv. destruct (control_spec v Hv) as (enc & E & D). exists enc. split; [done|]. rewrite D.
  assert (∀ c, 0 ≤ c < 2^32 → (readback c = c ↔ c < 128 ∨ 2^32 - 128 ≤ c)) as Hrb.
  { intros c Hc. unfold readback. change (2^32) with 4294967296 in *. destruct (Z.ltb_spec (c mod 256) 128); Z.div_mod_to_equations; lia. }
  clear E D enc. split.
  - intros [= H] c Hc. apply Hrb; [by apply Hv|]. revert H. induction v as [|x v IH]; [by apply elem_of_nil in Hc|].
    cbn [map]. intros [= Hx H]. apply elem_of_cons in Hc as [->|Hc]; [done|]. apply IH; [|done|done].
    intros y Hy. apply Hv. by right.
  - intros H. f_equal. induction v as [|x v IH]; [done|]. cbn [map]. f_equal.
    + apply Hrb; [apply Hv; by left|]. apply H. by left.
    + apply IH; intros y Hy; [apply Hv|apply H]; by right.
Qed.

(** In particular an operator 128..255 comes back as a different, huge number. *)
Corollary C24_sign_extension c : 128 ≤ c < 256 →
  ∃ enc, controlstr [c] = Some enc ∧ controlvec enc = Some [c + (2^32 - 256)].
Proof.
  intros Hc. destruct (control_spec [c]) as (enc & E & D).
  { intros x ->%elem_of_list_singleton. lia. }
  exists enc. split; [done|]. rewrite D. cbn [map]. do 2 f_equal. unfold readback.
  rewrite Z.mod_small by lia. by rewrite (proj2 (Z.ltb_ge _ _)) by lia.
Qed.

(** ** Concrete cases *)

Example ex_rl : runlenenc [7; 7; 7; 7; 1; 2; 2; 255] = Some [253; 7; 3; 1; 2; 2; 255].
Proof. vm_compute. reflexivity. Qed.
Example ex_rl_long : runlenenc (replicate 200 5) = Some [130; 5; 184; 5].
Proof. vm_compute. reflexivity. Qed.
(* "Man", "Ma", "M" *)
Example ex_64 : base64enc [77; 97; 110] = Some [84; 87; 70; 117] ∧ base64enc [77; 97] = Some [84; 87; 69; 61] ∧
  base64enc [77] = Some [84; 81; 61; 61].
Proof. vm_compute. done. Qed.
(* "Man " is 9jqo^ *)
Example ex_85 : ascii85enc [77; 97; 110; 32] = Some [57; 106; 113; 111; 94] ∧
  ascii85enc [0; 0; 0; 0; 0] = Some [122; 33; 33].
Proof. vm_compute. done. Qed.
Example ex_bytes : bytes [0; 1; 127; 128; 255].
Proof. unfold bytes. repeat constructor; lia. Qed.
Example ex_control : controlstr [0; 3; 3; 3; 7; 1] = Some [65; 65; 68; 43; 65; 119; 69; 72; 65; 81; 61; 61] ∧
  controlvec [65; 65; 68; 43; 65; 119; 69; 72; 65; 81; 61; 61] = Some [0; 3; 3; 3; 7; 1].
Proof. split; vm_compute; reflexivity. Qed.

Print Assumptions C21_runlength_roundtrip.
Print Assumptions C21_runlength_yields_bytes.
Print Assumptions C22_base64_roundtrip.
Print Assumptions C23_ascii85_decodable.
Print Assumptions C23_ascii85_injective.
Print Assumptions C24_control_string_roundtrip.
Print Assumptions C24_sign_extension.
