(** C30-C33: tokens, data files, paths, digit grouping. *)
From stdpp Require Import prelude.
From Coq Require Import ZArith Lia ZifyBool ZifyNat.
From Verif.Text Require Import Model.
Open Scope Z_scope.

(** ** span *)

Lemma span_all f s r : (∀ c, c ∈ s → f c = true) → (∀ c, head r = Some c → f c = false) → span f (s ++ r) = (s, r).
Proof.
  intros Hs Hr. induction s as [|c s IH]; cbn [app].
  - destruct r as [|c r]; [done|]. cbn [span]. by rewrite Hr.
  - cbn [span]. rewrite Hs by (by left). rewrite IH; [done|]. intros; apply Hs. by right.
Qed.
Lemma span_app f s : (span f s).1 ++ (span f s).2 = s.
Proof. induction s as [|c s IH]; [done|]. cbn [span]. destruct (f c); [|done]. destruct (span f s). simpl in *. by rewrite IH. Qed.
Lemma span_head f s c : head (span f s).2 = Some c → f c = false.
Proof.
  induction s as [|d s IH]; [done|]. cbn [span]. destruct (f d) eqn:E.
  - destruct (span f s). exact IH.
  - cbn. congruence.
Qed.

(** ** C30: tokens *)

(** [written ts s]: the line [s] consists of the tokens [ts], each written in quotes (without quotes
    inside) or bare (non-empty, no blanks or quotes, followed by a blank or the end), with
    any number of blanks around them. *)
Inductive written : list (list Z) → list Z → Prop :=
  | written_end : written [] []
  | written_blank ts c s : isspace c = true → written ts s → written ts (c :: s)
  | written_quoted t ts s : quote ∉ t → written ts s → written (t :: ts) (quote :: t ++ quote :: s)
  | written_bare t ts s : t ≠ [] → (∀ c, c ∈ t → isspace c = false ∧ c ≠ quote) →
      (∀ c, head s = Some c → isspace c = true) → written ts s → written (t :: ts) (t ++ s).

Lemma isspace_quote c : isspace c = true → c ≠ quote.
Proof. unfold isspace, quote. lia. Qed.

Lemma tokloop_quoted t s toks tok : quote ∉ t →
  tokloop (t ++ quote :: s) toks tok true = tokloop s (toks ++ [tok ++ t]) [] false.
Proof.
  revert tok. induction t as [|c t IH]; intros tok Ht; cbn [app tokloop].
  - rewrite Z.eqb_refl, app_nil_r. done.
  - apply not_elem_of_cons in Ht as [Hc Ht]. rewrite (proj2 (Z.eqb_neq _ _)) by done. cbn [negb andb].
    rewrite IH by done. by rewrite <-app_assoc.
Qed.
Lemma tokloop_bare t s toks tok : (∀ c, c ∈ t → isspace c = false ∧ c ≠ quote) →
  tokloop (t ++ s) toks tok false = tokloop s toks (tok ++ t) false.
Proof.
  revert tok. induction t as [|c t IH]; intros tok Ht; cbn [app tokloop].
  - by rewrite app_nil_r.
  - destruct (Ht c) as [H1 H2]; [by left|]. rewrite (proj2 (Z.eqb_neq _ _)), H1 by done. cbn [negb andb].
    rewrite IH by (intros; apply Ht; by right). by rewrite <-app_assoc.
Qed.

Theorem C30_tokens ts s : written ts s → tokens s = Ok ts.
Proof.
  intros Hw. unfold tokens. assert (∀ toks, tokloop s toks [] false = Ok (toks ++ ts)) as H; [|apply (H [])].
  induction Hw as [|ts c s Hc Hw IH|t ts s Ht Hw IH|t ts s Hne Ht Hs Hw IH]; intros toks.
  - cbn. by rewrite app_nil_r.
  - cbn [tokloop]. rewrite (proj2 (Z.eqb_neq _ _)) by (by apply isspace_quote). rewrite Hc. cbn. apply IH.
  - cbn [tokloop]. rewrite Z.eqb_refl. rewrite tokloop_quoted by done. rewrite IH. by rewrite <-app_assoc.
  - rewrite tokloop_bare by done. cbn [app].
    assert (tokloop s toks t false = tokloop s (toks ++ [t]) [] false) as ->.
    2:{ rewrite IH. by rewrite <-app_assoc. }
    assert ((0 <? length t)%nat = true) as Hl. { destruct t; [done|]. cbn [length]. lia. }
    destruct s as [|c s]; cbn [tokloop].
    + rewrite Hl. cbn. done.
    + rewrite (proj2 (Z.eqb_neq _ _)) by (apply isspace_quote; by apply Hs). rewrite (Hs c eq_refl). cbn [negb andb length]. rewrite Hl. done.
Qed.

(** Repeated gettoken (the reader's loop) agrees. *)
Lemma gettoken_blank c s : isspace c = true → gettoken (c :: s) = gettoken s.
Proof. intros Hc. unfold gettoken. cbn [span]. rewrite Hc. by destruct (span isspace s). Qed.
Lemma gettoken_quoted t s : quote ∉ t → gettoken (quote :: t ++ quote :: s) = Ok (Some (t, s)).
Proof.
  intros Ht. unfold gettoken. change (span isspace (quote :: t ++ quote :: s)) with ([] : list Z, quote :: t ++ quote :: s).
  cbn [snd]. rewrite Z.eqb_refl. rewrite span_all; [done| |].
  - intros c Hc. apply negb_true_iff, Z.eqb_neq. intros ->. done.
  - intros c [= <-]. done.
Qed.
Lemma gettoken_bare t s : t ≠ [] → (∀ c, c ∈ t → isspace c = false ∧ c ≠ quote) →
  (∀ c, head s = Some c → isspace c = true) → gettoken (t ++ s) = Ok (Some (t, drop 1 s)).
Proof.
  intros Hne Ht Hs. destruct t as [|c t]; [done|]. destruct (Ht c) as [H1 H2]; [by left|].
  unfold gettoken. cbn [app span]. rewrite H1. cbn [snd]. rewrite (proj2 (Z.eqb_neq _ _)) by done.
  cbn [span]. rewrite H1. cbn [negb].
  rewrite (span_all _ t s).
  - done.
  - intros d Hd. apply negb_true_iff. apply Ht. by right.
  - intros d Hd. apply negb_false_iff. by apply Hs.
Qed.
Lemma gettoken_end s : (∀ c, c ∈ s → isspace c = true) → gettoken s = Ok None.
Proof.
  intros Hs. unfold gettoken. assert (span isspace (s ++ []) = (s, [])) as E by (apply span_all; [done|intros ? [=]]).
  rewrite app_nil_r in E. by rewrite E.
Qed.


Lemma gettoken_shorter s t r : gettoken s = Ok (Some (t, r)) → (length r < length s)%nat.
Proof.
  unfold gettoken. pose proof (span_app isspace s) as E. destruct (span isspace s) as [a b]. cbn [fst snd] in *.
  assert (length s = length a + length b)%nat as Hl by (by rewrite <-E, app_length). clear E.
  destruct b as [|c b]; [done|]. cbn [length] in Hl. destruct (c =? quote).
  - pose proof (span_app (λ c, negb (c =? quote)) b) as E. destruct (span (λ c, negb (c =? quote)) b) as [x y].
    cbn [fst snd] in E. destruct y as [|q y]; [done|]. intros [= <- <-].
    assert (length b = length x + S (length y))%nat by (rewrite <-E, app_length; done). lia.
  - pose proof (span_app (λ c, negb (isspace c)) (c :: b)) as E. destruct (span (λ c, negb (isspace c)) (c :: b)) as [x y] eqn:Es.
    cbn [fst snd] in E. intros [= <- <-].
    assert (S (length b) = length x + length y)%nat by (change (S (length b)) with (length (c :: b)); rewrite <-E, app_length; done).
    rewrite drop_length. destruct y as [|d y]; cbn [length] in *; [|lia].
    destruct x as [|e x]; cbn [length] in *; lia.
Qed.
Lemma linetoks_fuel f f' s : (length s ≤ f)%nat → (length s ≤ f')%nat → linetoks f s = linetoks f' s.
Proof.
  revert f' s. induction f as [|f IH]; intros f' s Hf Hf'.
  - destruct s; [by destruct f'|cbn in Hf; lia].
  - destruct f' as [|f']; [destruct s; [done|cbn in Hf'; lia]|].
    destruct s as [|c s]; [done|]. cbn [linetoks].
    destruct (gettoken (c :: s)) as [[[t r]|]| |] eqn:E; try done.
    apply gettoken_shorter in E. cbn [length] in *. rewrite (IH f' r) by lia. done.
Qed.
Lemma linetoks_blank f c s : isspace c = true → (length (c :: s) ≤ f)%nat → linetoks f (c :: s) = linetoks f s.
Proof.
  intros Hc Hf. destruct f as [|f]; [cbn in Hf; lia|]. cbn [linetoks]. rewrite gettoken_blank by done.
  destruct s as [|d s]; [|done]. cbn. done.
Qed.

Lemma written_linetoks ts s fuel : written ts s → (length s ≤ fuel)%nat → linetoks fuel s = Ok ts.
Proof.
  intros Hw. revert fuel.
  induction Hw as [|ts c s Hc Hw IH|t ts s Ht Hw IH|t ts s Hne Ht Hs Hw IH]; intros fuel Hf.
  - by destruct fuel.
  - rewrite linetoks_blank by done. apply IH. cbn [length] in Hf. lia.
  - destruct fuel as [|fuel]; [cbn in Hf; lia|]. cbn [linetoks]. rewrite gettoken_quoted by done.
    rewrite IH; [done|]. cbn [length] in Hf. rewrite app_length in Hf. cbn [length] in Hf. lia.
  - destruct t as [|c t]; [done|]. destruct fuel as [|fuel]; [cbn in Hf; lia|]. cbn [app linetoks].
    change (c :: t ++ s) with ((c :: t) ++ s). rewrite gettoken_bare by done.
    cbn [app length] in Hf. rewrite app_length in Hf.
    assert (linetoks fuel (drop 1 s) = Ok ts) as ->; [|done].
    destruct s as [|d s]; [apply IH; lia|]. cbn [drop]. rewrite drop_0. cbn [length] in Hf.
    rewrite <-(linetoks_blank fuel d); [apply IH; cbn [length]; lia|by apply Hs|cbn [length]; lia].
Qed.

Theorem C30_gettoken ts s : written ts s → linetoks (length s) s = Ok ts.
Proof. intros Hw. by apply written_linetoks. Qed.

(** tokens() fails exactly if the number of quotes is odd. *)
Definition nquotes (s : list Z) : nat := length (filter (λ c, c = quote) s).
Theorem C30_unbalanced s : tokens s = Fatal ↔ Nat.odd (nquotes s) = true.
Proof.
  unfold tokens. assert (∀ toks tok b, tokloop s toks tok b = Fatal ↔ Nat.odd (nquotes s) = negb b) as H; [|apply H].
  induction s as [|c s IH]; intros toks tok b; cbn [tokloop].
  - destruct b; [done|]. split; [|done]. by case_match.
  - unfold nquotes in *. rewrite filter_cons. destruct (Z.eqb_spec c quote) as [->|Hc].
    + rewrite decide_True by done. cbn [length]. rewrite Nat.odd_succ, <-Nat.negb_odd.
      destruct b; rewrite IH; destruct (Nat.odd _); done.
    + rewrite decide_False by done. case_match; [case_match|]; apply IH.
Qed.
Theorem C30_tokens_defined s : tokens s ≠ Undef.
Proof.
  unfold tokens. assert (∀ toks tok b, tokloop s toks tok b ≠ Undef) as H; [|apply H].
  induction s as [|c s IH]; intros toks tok b; cbn [tokloop].
  - by destruct b.
  - repeat case_match; apply IH.
Qed.

Theorem C30_hasprefix s p : hasprefix s p = true ↔ ∃ r, s = p ++ r.
Proof.
  unfold hasprefix. destruct (Nat.ltb_spec (length s) (length p)) as [Hl|Hl].
  - split; [done|]. intros [r ->]. rewrite app_length in Hl. lia.
  - clear Hl. revert s. induction p as [|y p IH]; intros s; cbn [prefixloop].
    + split; [by exists s|done].
    + destruct s as [|x s]; [split; [done|intros [r [=]]]|]. destruct (Z.eqb_spec x y) as [->|Hne].
      * rewrite IH. split; intros [r E]; exists r; cbn in *; congruence.
      * split; [done|]. intros [r [= -> ?]]. done.
Qed.

(** ** C31: data files *)

(** Text that may stand in a field. *)
Definition plain (s : list Z) : Prop := quote ∉ s ∧ newline ∉ s ∧ 0 ∉ s.

Lemma dfpair_cases key value :
  let n := (length key + 11)%nat in
  dfpair key value =
    if decide (256 < n)%nat then Fatal
    else if decide (n + length value = 256)%nat then Ok (take 255 (s_pair ++ key ++ s_mid ++ value) ++ s_end)
    else Ok (s_pair ++ key ++ s_mid ++ value ++ s_end).
Proof.
  cbn zeta. unfold dfpair. assert (length (s_pair ++ key ++ s_mid) = length key + 11)%nat as Hn.
  { rewrite !app_length. cbn [length s_pair s_mid]. lia. }
  rewrite Hn. unfold Bufsz, snprintf. destruct (Nat.ltb_spec 256 (length key + 11)) as [H|H].
  - by rewrite decide_True by lia.
  - rewrite decide_False by lia. destruct (Nat.ltb_spec (256 - (length key + 11)) (length value)) as [H1|H1].
    + rewrite decide_False by lia. f_equal. rewrite !take_ge by lia. by rewrite <-!app_assoc.
    + case_decide as Heq.
      * f_equal. rewrite !(assoc_L (++)). f_equal. rewrite <-!(assoc_L (++)).
        replace (s_pair ++ key ++ s_mid ++ value) with ((s_pair ++ key ++ s_mid) ++ value) by (by rewrite <-!app_assoc).
        rewrite (firstn_app 255 (s_pair ++ key ++ s_mid)), Hn. f_equal. f_equal. lia.
      * f_equal. rewrite !take_ge by lia. by rewrite <-!app_assoc.
Qed.

(** A file of written pairs. *)
Definition entry (kv : list Z * list Z) : list Z := s_pair ++ kv.1 ++ s_mid ++ kv.2 ++ s_end.

Lemma readline_line line rest : newline ∉ line → line ≠ [] → last line ≠ Some 13 →
  readline (line ++ newline :: rest) = Ok (Some (line, rest)).
Proof.
  intros Hn Hne Hl. unfold readline. rewrite span_all.
  - destruct line as [|c line]; [done|]. cbn [drop]. rewrite drop_0.
    destruct (Z.eqb_spec (default 0 (last (c :: line))) 13) as [E|E]; [|done].
    destruct (last (c :: line)) as [d|] eqn:El; cbn in E; [|done]. subst d. done.
  - intros c Hc. apply negb_true_iff, Z.eqb_neq. intros ->. done.
  - intros c [= <-]. done.
Qed.

Lemma seeline_text kw rest ts : 0 ∉ kw → 0 ∉ rest → written ts rest →
  kw = s_kpair ∨ (kw = s_kaltcols ∨ kw = s_kaltrow) →
  seeline (kw ++ rest) = Ok (Some (kw :: ts)).
Proof.
  intros Hk Hr Hw Hkw. unfold seeline.
  assert (span (λ c, negb (c =? 0)) (kw ++ rest) = (kw ++ rest, [])) as ->.
  { rewrite <-(app_nil_r (kw ++ rest)) at 1. apply span_all; [|intros ? [=]].
    intros c Hc. apply negb_true_iff, Z.eqb_neq. intros ->. apply elem_of_app in Hc as [?|?]; done. }
  cbn [fst].
  assert ((if hasprefix (kw ++ rest) s_kpair then Some s_kpair
            else if hasprefix (kw ++ rest) s_kaltcols then Some s_kaltcols
            else if hasprefix (kw ++ rest) s_kaltrow then Some s_kaltrow
            else None) = Some kw) as ->.
  { assert (∀ p, hasprefix (p ++ rest) p = true) as Hp by (intros p; apply C30_hasprefix; by exists rest).
    assert (∀ p q, (∃ i x y, p !! i = Some x ∧ q !! i = Some y ∧ x ≠ y) → hasprefix (p ++ rest) q = false) as Hnp.
    { intros p q (i & x & y & Hx & Hy & Hxy). apply not_true_iff_false. intros [r E]%C30_hasprefix.
      apply (f_equal (.!! i)) in E. rewrite (lookup_app_l_Some _ _ _ _ Hx), (lookup_app_l_Some _ _ _ _ Hy) in E. congruence. }
    destruct Hkw as [->|[->| ->]].
    - by rewrite Hp.
    - rewrite (Hnp s_kaltcols s_kpair), Hp; [done|]. by exists 1%nat, 97, 112.
    - rewrite (Hnp s_kaltrow s_kpair), (Hnp s_kaltrow s_kaltcols), Hp; [done|..].
      + by exists 4%nat, 114, 99.
      + by exists 1%nat, 97, 112. }
  rewrite drop_app. rewrite written_linetoks with (ts := ts); [done|done|]. rewrite app_length. lia.
Qed.

Lemma dfread_more fuel fuel' f : (length f < fuel)%nat → (length f < fuel')%nat → dfreadloop fuel f = dfreadloop fuel' f.
Proof.
  revert fuel' f. induction fuel as [|fuel IH]; intros fuel' f Hf Hf'; [lia|]. destruct fuel' as [|fuel']; [lia|].
  cbn [dfreadloop]. unfold readline. pose proof (span_app (λ c, negb (c =? newline)) f) as E.
  destruct (span (λ c, negb (c =? newline)) f) as [line r]. cbn [fst snd] in E.
  assert (length f = length line + length r)%nat as Hl by (by rewrite <-E, app_length).
  assert (line ≠ [] → dfreadloop fuel (drop 1 r) = dfreadloop fuel' (drop 1 r)) as Hrec.
  { intros Hne. apply IH; rewrite drop_length; destruct line; try done; cbn [length] in Hl; lia. }
  destruct line as [|c line]; [by destruct r|]. rewrite Hrec by done. done.
Qed.

Lemma dfread_cons line rest ts calls :
  newline ∉ line → line ≠ [] → last line ≠ Some 13 → seeline line = Ok (Some ts) → dfread rest = Ok calls →
  dfread (line ++ newline :: rest) = Ok (ts :: calls).
Proof.
  intros Hn Hne Hl Hs Hd. unfold dfread. cbn [dfreadloop]. rewrite readline_line by done. rewrite Hs.
  rewrite app_length. cbn [length]. rewrite (dfread_more _ (S (length rest))); [|lia|lia]. unfold dfread in Hd. by rewrite Hd.
Qed.

Lemma blank_pair : written [] [32; 32].
Proof. apply written_blank; [done|]. apply written_blank; [done|constructor]. Qed.

Lemma plain_app_not a c : plain a → c = quote ∨ c = newline ∨ c = 0 → c ∉ a.
Proof. intros (H1 & H2 & H3) [->|[->| ->]]; done. Qed.

Lemma seeline_entry k v : plain k → plain v → seeline (s_pair ++ k ++ s_mid ++ v ++ [quote]) = Ok (Some [s_kpair; k; v]).
Proof.
  intros Hk Hv. change (s_pair ++ k ++ s_mid ++ v ++ [quote]) with (s_kpair ++ [32; 32; 34] ++ k ++ [34; 9; 34] ++ v ++ [quote]).
  apply seeline_text.
  - unfold s_kpair. rewrite !not_elem_of_cons. repeat split; try done. by apply not_elem_of_nil.
  - rewrite !not_elem_of_app. split_and!; try (by apply (plain_app_not _ 0); auto);
      rewrite !not_elem_of_cons; repeat split; try done; by apply not_elem_of_nil.
  - cbn [app]. apply written_blank; [done|]. apply written_blank; [done|]. apply written_quoted; [apply Hk|].
    apply written_blank; [done|]. apply written_quoted; [apply Hv|]. constructor.
  - by left.
Qed.

Lemma entry_line k v : plain k → plain v →
  newline ∉ s_pair ++ k ++ s_mid ++ v ++ [quote] ∧ s_pair ++ k ++ s_mid ++ v ++ [quote] ≠ [] ∧
  last (s_pair ++ k ++ s_mid ++ v ++ [quote]) ≠ Some 13.
Proof.
  intros Hk Hv. split_and!.
  - unfold s_pair, s_mid. rewrite !not_elem_of_app. split_and!; try (by apply (plain_app_not _ newline); auto);
      rewrite !not_elem_of_cons; repeat split; try done; by apply not_elem_of_nil.
  - done.
  - rewrite !(assoc_L (++)). by rewrite last_snoc.
Qed.

(** Pairs written one after another are read back in order, provided no header exceeds and no pair exactly
    fills the buffer. *)
Theorem C31_pairs_read_back kvs :
  (∀ k v, (k, v) ∈ kvs → plain k ∧ plain v ∧ (length k ≤ 245)%nat ∧ (length k + length v ≠ 245)%nat) →
  ∃ outs, mapM (λ kv, match dfpair kv.1 kv.2 with Ok t => Some t | _ => None end) kvs = Some outs ∧
    dfread (concat outs) = Ok (map (λ kv, [s_kpair; kv.1; kv.2]) kvs).
Proof.
  induction kvs as [|[k v] kvs IH]; intros H; [by exists []|].
  destruct IH as (outs & Ho & Hd); [intros; apply H; by right|].
  destruct (H k v) as (Hk & Hv & Hlk & Hlkv); [by left|].
  exists ((s_pair ++ k ++ s_mid ++ v ++ s_end) :: outs). split.
  - cbn [mapM]. rewrite Ho. cbn [fst snd]. rewrite dfpair_cases, !decide_False by lia. done.
  - cbn [concat map fst snd]. destruct (entry_line k v Hk Hv) as (H1 & H2 & H3).
    replace ((s_pair ++ k ++ s_mid ++ v ++ s_end) ++ concat outs)
      with ((s_pair ++ k ++ s_mid ++ v ++ [quote]) ++ newline :: concat outs)
      by (change s_end with ([quote] ++ [newline]); rewrite <-!app_assoc; done).
    apply dfread_cons; [done..| |done]. by apply seeline_entry.
Qed.

(** The exception: if header and value exactly fill the buffer the last character of the value is
    lost, or, for an empty value, the line becomes unreadable. *)
Theorem C31_pair_truncated key value : plain key → plain value →
  (length key + length value = 245)%nat → 
  ∃ out, dfpair key value = Ok out ∧
    dfread out = if decide (value = []) then Fatal else Ok [[s_kpair; key; take (length value - 1) value]].
Proof.
  intros Hk Hv Hl. rewrite dfpair_cases, decide_False, decide_True by lia. eexists. split; [done|].
  destruct (decide (value = [])) as [->|Hne].
  - cbn [length] in Hl. rewrite app_nil_r.
    assert (take 255 (s_pair ++ key ++ s_mid) = s_kpair ++ [32; 32; 34] ++ key ++ [34; 9]) as ->.
    { replace (s_pair ++ key ++ s_mid) with ((s_kpair ++ [32; 32; 34] ++ key ++ [34; 9]) ++ [34]) by (rewrite <-!app_assoc; done).
      apply take_app_alt. rewrite !app_length. cbn [length s_kpair]. lia. }
    replace ((s_kpair ++ [32; 32; 34] ++ key ++ [34; 9]) ++ s_end) with
      ((s_kpair ++ [32; 32; 34] ++ key ++ [34; 9; 34]) ++ newline :: []) by (rewrite <-!app_assoc; done).
    unfold dfread. cbn [dfreadloop]. rewrite readline_line.
    + unfold seeline.
      assert (span (λ c, negb (c =? 0)) (s_kpair ++ [32; 32; 34] ++ key ++ [34; 9; 34]) =
        (s_kpair ++ [32; 32; 34] ++ key ++ [34; 9; 34], [])) as ->.
      { rewrite <-(app_nil_r (s_kpair ++ _)) at 1. apply span_all; [|intros ? [=]].
        intros c Hc. apply negb_true_iff, Z.eqb_neq. intros ->. revert Hc.
        rewrite !elem_of_app. intros [Hc|[Hc|[Hc|Hc]]].
        - unfold s_kpair in Hc. repeat (apply elem_of_cons in Hc as [Hc|Hc]; [done|]). by apply elem_of_nil in Hc.
        - repeat (apply elem_of_cons in Hc as [Hc|Hc]; [done|]). by apply elem_of_nil in Hc.
        - by destruct Hk as (_ & _ & ?).
        - repeat (apply elem_of_cons in Hc as [Hc|Hc]; [done|]). by apply elem_of_nil in Hc. }
      cbn [fst]. rewrite (proj2 (C30_hasprefix _ _)) by (by eexists). rewrite drop_app.
      assert (∀ f, (length ([32; 32; 34]%Z ++ key ++ [34; 9; 34]%Z) ≤ f)%nat → linetoks f ([32; 32; 34] ++ key ++ [34; 9; 34]) = Fatal) as ->.
      * intros f Hf. cbn [app] in Hf |- *. rewrite !linetoks_blank by (done || cbn [length] in *; lia).
        cbn [length] in Hf. rewrite app_length in Hf. cbn [length] in Hf.
        destruct f as [|f]; [lia|]. cbn [linetoks]. change 34 with quote. rewrite gettoken_quoted by apply Hk.
        rewrite linetoks_blank by (done || cbn [length]; lia). destruct f as [|f]; [lia|]. done.
      * done.
      * rewrite !app_length. lia.
    + rewrite !not_elem_of_app. split_and!; try (by apply (plain_app_not _ newline); auto);
      unfold s_kpair; rewrite !not_elem_of_cons; repeat split; try done; by apply not_elem_of_nil.
    + done.
    + replace (s_kpair ++ [32; 32; 34] ++ key ++ [34; 9; 34]) with ((s_kpair ++ [32; 32; 34] ++ key ++ [34; 9]) ++ [34]) by (rewrite <-!app_assoc; done).
      by rewrite last_snoc.
  - set (v := take (length value - 1) value).
    assert (take 255 (s_pair ++ key ++ s_mid ++ value) = s_pair ++ key ++ s_mid ++ v) as ->.
    { replace (s_pair ++ key ++ s_mid ++ value) with ((s_pair ++ key ++ s_mid) ++ value) by (by rewrite <-!app_assoc).
      rewrite firstn_app. rewrite take_ge.
      2:{ rewrite !app_length. cbn [length s_pair s_mid]. destruct value; [done|]. cbn [length] in Hl. lia. }
      rewrite <-!app_assoc. do 4 f_equal. rewrite !app_length. cbn [length s_pair s_mid]. lia. }
    assert (plain v) as Hv'.
    { destruct Hv as (H1 & H2 & H3). unfold v. split_and!; intros H; apply elem_of_take in H as (i & Hi & _);
        apply elem_of_list_lookup_2 in Hi; done. }
    destruct (entry_line key v Hk Hv') as (H1 & H2 & H3).
    replace ((s_pair ++ key ++ s_mid ++ v) ++ s_end) with ((s_pair ++ key ++ s_mid ++ v ++ [quote]) ++ newline :: [])
      by (change s_end with ([quote] ++ [newline]); rewrite <-!app_assoc; done).
    apply dfread_cons; [done..|by apply seeline_entry|done].
Qed.

(** Rows: complete up to 255 characters, one character short at 256, refused beyond. *)
Lemma dfcols_ok pieces buf n : (n ≤ 256)%nat → buf = take 255 buf → length buf = Nat.min n 255 →
  (∀ p, p ∈ pieces → p ≠ []) →
  dfcols pieces buf n =
    if decide (256 < n + length (concat pieces))%nat then Fatal else Ok (take 255 (buf ++ concat pieces)).
Proof.
  revert buf n. induction pieces as [|p pieces IH]; intros buf n Hn Hb Hlen Hne; cbn [dfcols concat].
  - rewrite app_nil_r. rewrite decide_False by (cbn [length]; lia). by rewrite <-Hb.
  - unfold Bufsz. assert (p ≠ []) as Hp by (apply Hne; by left).
    assert (0 < length p)%nat by (destruct p; [done|cbn [length]; lia]).
    rewrite app_length. destruct (Nat.ltb_spec (256 - n) (length p)) as [H1|H1].
    + by rewrite decide_True by lia.
    + rewrite IH; [|lia| | |intros; apply Hne; by right].
      * replace (n + length p + length (concat pieces))%nat with (n + (length p + length (concat pieces)))%nat by lia.
        case_decide; [done|]. f_equal. unfold snprintf.
        destruct (decide (n + length p = 256)%nat) as [E|E].
        -- assert (concat pieces = []) as -> by (apply nil_length_inv; lia).
           rewrite !app_nil_r. rewrite !firstn_app, take_take. f_equal. f_equal. lia.
        -- rewrite (take_ge p) by lia. by rewrite <-app_assoc.
      * symmetry. apply take_ge. rewrite app_length. unfold snprintf. rewrite take_length. lia.
      * rewrite app_length. unfold snprintf. rewrite take_length. lia.
Qed.

Theorem C31_row_limits name cols :
  (∀ c, c ∈ cols → c ≠ []) →
  let text := s_altrow ++ name ++ [quote] ++ concat (map (λ c, 9 :: c) cols) in
  dfrow name cols = if decide (256 < length text)%nat then Fatal else Ok (take 255 text ++ [newline]).
Proof.
  intros Hc. cbn zeta. unfold dfrow.
  replace (s_altrow ++ name ++ [quote] ++ concat (map (λ c, 9 :: c) cols))
    with ((s_altrow ++ name ++ [quote]) ++ concat (map (λ c, 9 :: c) cols)) by (by rewrite <-!app_assoc).
  set (h := s_altrow ++ name ++ [quote]). rewrite app_length. unfold Bufsz.
  destruct (Nat.ltb_spec 256 (length h)) as [H|H].
  - by rewrite decide_True by lia.
  - unfold snprintf. rewrite dfcols_ok; [|lia| | |].
    + case_decide; [done|]. do 2 f_equal. change (256 - 1)%nat with 255%nat. rewrite !firstn_app, take_take.
      rewrite take_length. rewrite Nat.min_id. f_equal.
      destruct (decide (length h = 256)%nat) as [E|E]; [|f_equal; lia].
      assert (concat (map (λ c, 9 :: c) cols) = []) as -> by (apply nil_length_inv; lia). by rewrite !take_nil.
    + by rewrite take_take.
    + rewrite take_length. lia.
    + intros p (c & -> & _)%elem_of_list_fmap. done.
Qed.

Theorem C31_rowhdr_limits name cols :
  let text := s_altcols ++ name ++ [quote] ++ concat (map (λ c, [9; 34] ++ name ++ [32] ++ c ++ [34]) cols) in
  dfrowhdr name cols = if decide (256 < length text)%nat then Fatal else Ok (take 255 text ++ [newline]).
Proof.
  cbn zeta. unfold dfrowhdr. set (f := λ c : list Z, [9; 34] ++ name ++ [32] ++ c ++ [34]).
  replace (s_altcols ++ name ++ [quote] ++ concat (map f cols))
    with ((s_altcols ++ name ++ [quote]) ++ concat (map f cols)) by (by rewrite <-!app_assoc).
  set (h := s_altcols ++ name ++ [quote]). rewrite app_length. unfold Bufsz.
  destruct (Nat.ltb_spec 256 (length h)) as [H|H].
  - by rewrite decide_True by lia.
  - unfold snprintf. rewrite dfcols_ok; [|lia| | |].
    + case_decide; [done|]. do 2 f_equal. change (256 - 1)%nat with 255%nat. rewrite !firstn_app, take_take.
      rewrite take_length. rewrite Nat.min_id. f_equal.
      destruct (decide (length h = 256)%nat) as [E|E]; [|f_equal; lia].
      assert (concat (map f cols) = []) as -> by (apply nil_length_inv; lia). by rewrite !take_nil.
    + by rewrite take_take.
    + rewrite take_length. lia.
    + intros p (c & -> & _)%elem_of_list_fmap. done.
Qed.

(** An empty line in a data file is read out of range. *)
Theorem C31_empty_line_undefined rest : dfread (newline :: rest) = Undef.
Proof. done. Qed.

(** ** C32: paths *)

Lemma lastslash_app a b : slash ∉ b → lastslash (a ++ slash :: b) = Some (a, b).
Proof.
  intros Hb. assert (lastslash b = None) as Hn.
  { induction b as [|c b IH]; [done|]. apply not_elem_of_cons in Hb as [Hc Hb]. cbn [lastslash]. rewrite IH by done.
    by rewrite (proj2 (Z.eqb_neq _ _)) by congruence. }
  induction a as [|c a IH]; cbn [app lastslash].
  - by rewrite Hn.
  - by rewrite IH.
Qed.
Lemma lastslash_none b : slash ∉ b → lastslash b = None.
Proof.
  intros Hb. induction b as [|c b IH]; [done|]. apply not_elem_of_cons in Hb as [Hc Hb]. cbn [lastslash]. rewrite IH by done.
  by rewrite (proj2 (Z.eqb_neq _ _)) by congruence.
Qed.
Lemma app_slash_long dir base : base ≠ [] → dir ++ slash :: base ≠ [] ∧ dir ++ slash :: base ≠ [dot] ∧ dir ++ slash :: base ≠ [slash].
Proof.
  intros Hb. assert (2 ≤ length (dir ++ slash :: base))%nat as Hl.
  { rewrite app_length. cbn [length]. destruct base; [done|]. cbn [length]. lia. }
  split_and!; intros E; rewrite E in Hl; cbn in Hl; lia.
Qed.

(** dir/base with non-empty, slash-free base. *)
Theorem C32_split_join dir base : dir ≠ [] → base ≠ [] → slash ∉ base →
  let p := dir ++ slash :: base in
  dirname p = dir ∧ basename p = base ∧ (last dir ≠ Some slash → pathcat (dirname p) (basename p) = Ok p).
Proof.
  intros Hd Hb Hs. cbn zeta. destruct (app_slash_long dir base Hb) as (H1 & H2 & H3).
  assert (dirname (dir ++ slash :: base) = dir) as E1.
  { unfold dirname. rewrite !bool_decide_false by done. cbn [orb]. rewrite lastslash_app by done.
    rewrite last_snoc. cbn [default]. rewrite Z.eqb_refl, app_length. cbn [length].
    assert ((1 <? length dir + 1)%nat = true) as -> by (destruct dir; [done|cbn [length]; lia]). cbn [andb].
    apply take_app_alt. lia. }
  assert (basename (dir ++ slash :: base) = base) as E2.
  { unfold basename. rewrite !bool_decide_false by done. cbn [orb]. rewrite lastslash_app by done. by rewrite bool_decide_false by done. }
  split_and!; [done|done|]. intros Hl. rewrite E1, E2. unfold pathcat.
  destruct (last dir) as [c|] eqn:El; [|by apply last_None in El]. rewrite (proj2 (Z.eqb_neq _ _)) by congruence. done.
Qed.

(** Paths directly below the root, and plain names. *)
Theorem C32_root base : base ≠ [] → slash ∉ base →
  let p := slash :: base in dirname p = [slash] ∧ basename p = base ∧ pathcat (dirname p) (basename p) = Ok p.
Proof.
  intros Hb Hs. cbn zeta. destruct (app_slash_long [] base Hb) as (H1 & H2 & H3). cbn [app] in *.
  assert (dirname (slash :: base) = [slash]) as E1.
  { unfold dirname. rewrite !bool_decide_false by done. cbn [orb]. change (slash :: base) with ([] ++ slash :: base). by rewrite lastslash_app. }
  assert (basename (slash :: base) = base) as E2.
  { unfold basename. rewrite !bool_decide_false by done. cbn [orb]. change (slash :: base) with ([] ++ slash :: base). rewrite lastslash_app by done. by rewrite bool_decide_false by done. }
  by rewrite E1, E2.
Qed.
Theorem C32_plain base : base ≠ [] → slash ∉ base →
  dirname base = [dot] ∧ basename base = base ∧ pathcat (dirname base) (basename base) = Ok ([dot; slash] ++ base).
Proof.
  intros Hb Hs.
  assert (base ≠ [slash]) by (intros ->; apply Hs; by left).
  assert (dirname base = [dot]) as E1.
  { unfold dirname. case_match; [done|]. rewrite bool_decide_false by done. by rewrite lastslash_none. }
  assert (basename base = base) as E2.
  { unfold basename. case_match eqn:E; [|by rewrite lastslash_none].
    apply orb_true_iff in E as [E|E]; apply bool_decide_eq_true in E; done. }
  by rewrite E1, E2.
Qed.

(** The variadic variant is undefined for every non-empty argument list. *)
Theorem C32_pathcatn_undefined e ents : pathcatn (e :: ents) = Undef.
Proof. done. Qed.

(** ** C33: digit grouping *)

Fixpoint join (gs : list (list Z)) : list Z :=
  match gs with [] => [] | [g] => g | g :: gs => g ++ comma :: join gs end.

Lemma join_cons g gs : gs ≠ [] → join (g :: gs) = g ++ comma :: join gs.
Proof. by destruct gs. Qed.

(** The reversed digits [r] in front of the groups [g :: gs] already written. *)
Lemma groups_ok r : ∀ till space g gs frac,
  (1 ≤ till ≤ 3)%nat → (length g + till = 3)%nat → (r = [] → g ≠ []) →
  (length r + (length r + 2 - till) / 3 ≤ space)%nat →
  (∀ h, h ∈ gs → length h = 3%nat) →
  ∃ g' gs', groups r till space (join (g :: gs) ++ frac) = Ok (join (g' :: gs') ++ frac) ∧
    concat (g' :: gs') = reverse r ++ concat (g :: gs) ∧ (1 ≤ length g' ≤ 3)%nat ∧ (∀ h, h ∈ gs' → length h = 3%nat).
Proof.
  induction r as [|c r IH]; intros till space g gs frac Ht Hg Hgr Hsp Hgs; cbn [groups].
  - exists g, gs. split_and!; [done|done| |lia|done]. specialize (Hgr eq_refl). destruct g; [done|cbn [length]; lia].
  - assert (c :: join (g :: gs) ++ frac = join ((c :: g) :: gs) ++ frac) as Ecg by (by destruct gs).
    cbn [length] in Hsp. destruct (Nat.eqb_spec space 0) as [->|Hs0]; [lia|].
    rewrite Ecg. destruct (Nat.eqb_spec (till - 1) 0) as [Ht0|Ht0]; cbn [andb].
    + assert (till = 1)%nat as -> by lia. destruct (decide (r = [])) as [->|Hr].
      * rewrite bool_decide_true by done. cbn [negb groups]. exists (c :: g), gs.
        split_and!; [done|done|cbn [length]; lia|cbn [length]; lia|done].
      * rewrite bool_decide_false by done. cbn [negb].
        assert (0 < length r)%nat by (destruct r; [done|cbn [length]; lia]).
        assert (1 ≤ (S (length r) + 2 - 1) / 3)%nat by (apply Nat.div_le_lower_bound; lia).
        destruct (Nat.eqb_spec (space - 1) 0); [lia|].
        destruct (IH 3%nat (space - 2)%nat [] ((c :: g) :: gs) frac) as (g' & gs' & E & Hc & Hl & Hgs').
        -- lia.
        -- done.
        -- done.
        -- assert ((S (length r) + 2 - 1) / 3 = 1 + (length r + 2 - 3) / 3)%nat; [|lia].
           replace (S (length r) + 2 - 1)%nat with (1 * 3 + (length r + 2 - 3))%nat by lia. by rewrite Nat.div_add_l.
        -- intros h [->|Hh]%elem_of_cons; [cbn [length]; lia|by apply Hgs].
        -- exists g', gs'. split_and!; [|rewrite Hc|lia|lia|done].
           ++ rewrite <-E. f_equal. 
           ++ rewrite reverse_cons, <-app_assoc. done.
    + destruct (IH (till - 1)%nat (space - 1)%nat (c :: g) gs frac) as (g' & gs' & E & Hc & Hl & Hgs').
      * lia.
      * cbn [length]. lia.
      * done.
      * replace (length r + 2 - (till - 1))%nat with (S (length r) + 2 - till)%nat by lia. lia.
      * done.
      * exists g', gs'. split_and!; [done| |lia|lia|done]. rewrite Hc, reverse_cons, <-app_assoc. done.
Qed.

Lemma lastdot_spec s : match lastdot s with
  | Some (a, b) => s = a ++ b ∧ head b = Some dot ∧ dot ∉ drop 1 b
  | None => dot ∉ s end.
Proof.
  induction s as [|c s IH]; [by apply not_elem_of_nil|]. cbn [lastdot]. destruct (lastdot s) as [[a b]|].
  - destruct IH as (-> & H1 & H2). done.
  - destruct (Z.eqb_spec c dot) as [->|Hc].
    + split_and!; [done|done|]. cbn [drop]. by rewrite drop_0.
    + apply not_elem_of_cons. split; [congruence|done].
Qed.

(** The text is split at its last dot; in the part before it commas separate groups of three, the
    first group having one to three characters; nothing else changes. *)
Theorem C33_commas s : s ≠ [] → (length s < 128)%nat →
  ∃ ipart frac, s = ipart ++ frac ∧ (frac = [] ∧ dot ∉ s ∨ head frac = Some dot ∧ dot ∉ drop 1 frac) ∧
    (ipart = [] ∧ commas s = Ok s ∨
     ∃ g gs, concat (g :: gs) = ipart ∧ (1 ≤ length g ≤ 3)%nat ∧ (∀ h, h ∈ gs → length h = 3%nat) ∧
       commas s = Ok (join (g :: gs) ++ frac)).
Proof.
  intros Hne Hl. pose proof (lastdot_spec s) as Hd. unfold commas.
  rewrite (proj2 (Nat.leb_gt _ _)) by lia.
  rewrite (proj2 (Nat.eqb_neq _ _)) by (destruct s; [done|cbn [length]; lia]).
  assert (∃ ipart frac, default (s, []) (lastdot s) = (ipart, frac) ∧ s = ipart ++ frac ∧
    (frac = [] ∧ dot ∉ s ∨ head frac = Some dot ∧ dot ∉ drop 1 frac)) as (ipart & frac & -> & Es & Hf).
  { destruct (lastdot s) as [[a b]|].
    - exists a, b. destruct Hd as (H1 & H2 & H3). split_and!; [done|done|]. by right.
    - exists s, []. rewrite app_nil_r. split_and!; [done|done|]. by left. }
  exists ipart, frac. split; [done|]. split; [done|].
  destruct (decide (ipart = [])) as [->|Hi].
  - left. split; [done|]. cbn. by rewrite Es.
  - right. assert (length s = length ipart + length frac)%nat as Hls by (by rewrite Es, app_length).
    destruct (groups_ok (reverse ipart) 3 (length s + (length s + 1) / 3 + 1 - (length frac + 1)) [] [] frac)
      as (g & gs & E & Hc & Hg & Hgs).
    + lia.
    + done.
    + intros Hr. apply (f_equal reverse) in Hr. rewrite reverse_involutive in Hr. done.
    + rewrite reverse_length. assert ((length ipart + 2 - 3) / 3 ≤ (length s + 1) / 3)%nat by (apply Nat.div_le_mono; lia). lia.
    + intros h Hh. by apply elem_of_nil in Hh.
    + exists g, gs. rewrite reverse_involutive in Hc. cbn [concat app] in Hc. rewrite app_nil_r in Hc.
      split_and!; [done|lia|lia|done|]. done.
Qed.

(** Deleting the commas gives back the text. *)
Corollary C33_commas_delete s t : (∀ c, c ∈ s → c ≠ comma) → commas s = Ok t → filter (λ c, c ≠ comma) t = s.
Proof.
  intros Hs Ht. destruct (decide (s = [])) as [->|Hne]; [done|].
  destruct (decide (length s < 128)%nat) as [Hl|Hl].
  2:{ unfold commas in Ht. by rewrite (proj2 (Nat.leb_le _ _)) in Ht by lia. }
  assert (∀ l : list Z, (∀ c, c ∈ l → c ≠ comma) → filter (λ c, c ≠ comma) l = l) as Hid.
  { induction l as [|c l IH]; intros Hc; [done|]. rewrite filter_cons, decide_True by (apply Hc; by left).
    f_equal. apply IH. intros; apply Hc; by right. }
  destruct (C33_commas s Hne Hl) as (ip & fr & Es & _ & [[-> E]|(g & gs & Hc & _ & _ & E)]); rewrite E in Ht; injection Ht as <-.
  - by apply Hid.
  - rewrite filter_app. rewrite (Hid fr) by (intros c Hc'; apply Hs; rewrite Es; apply elem_of_app; by right).
    assert (∀ c, c ∈ ip ++ fr → c ≠ comma) as Hs' by (by rewrite <-Es).
    rewrite Es. f_equal. rewrite <-Hc. clear E Es Hs.
    assert (∀ c, c ∈ concat (g :: gs) → c ≠ comma) as Hcc.
    { intros c Hin. rewrite Hc in Hin. apply Hs'. apply elem_of_app. by left. }
    clear Hc Hs'. revert g Hcc. induction gs as [|h gs IH]; intros g Hcc.
    + cbn [concat] in *. rewrite app_nil_r in *. by apply Hid.
    + rewrite filter_app, filter_cons, decide_False by tauto.
      change (join (h :: gs)) with (match gs with [] => h | _ :: _ => h ++ comma :: join gs end).
      rewrite IH; [|intros c Hin; apply Hcc; cbn [concat]; apply elem_of_app; by right].
      rewrite Hid; [done|]. intros c Hin. apply Hcc. cbn [concat]. apply elem_of_app. by left.
Qed.

(** ** Instances *)

(** 1234567.5 *)
Example commas_ex : commas [49;50;51;52;53;54;55;46;53] = Ok [49;44;50;51;52;44;53;54;55;46;53].
Proof. vm_compute. done. Qed.
(** A sign counts as a digit: -100 *)
Example commas_sign : commas [45;49;48;48] = Ok [45;44;49;48;48].
Proof. vm_compute. done. Qed.
(** ab "c d"  "" e *)
Example tokens_ex : written [[97;98]; [99;32;100]; []; [101]] [97;98;32;34;99;32;100;34;32;32;34;34;101].
Proof.
  apply (written_bare [97;98]); [done| | |].
  - intros c Hc. repeat (apply elem_of_cons in Hc as [->|Hc]; [done|]). by apply elem_of_nil in Hc.
  - intros c [= <-]. done.
  - apply written_blank; [done|]. apply (written_quoted [99;32;100]).
    { rewrite !not_elem_of_cons. repeat split; try done. by apply not_elem_of_nil. }
    apply written_blank; [done|]. apply written_blank; [done|]. apply (written_quoted []); [by apply not_elem_of_nil|].
    apply (written_bare [101] [] []); [done| |done|constructor].
    intros c Hc. repeat (apply elem_of_cons in Hc as [->|Hc]; [done|]). by apply elem_of_nil in Hc.
Qed.
Example tokens_ex2 : tokens [97;98;32;34;99;32;100;34;32;32;34;34;101] = Ok [[97;98]; [99;32;100]; []; [101]].
Proof. apply C30_tokens, tokens_ex. Qed.
(** A bare token directly before a quoted one is merged with it. *)
Example tokens_merge : tokens [97;34;98;34] = Ok [[97;98]].
Proof. vm_compute. done. Qed.
Example pairs_ex : ∃ outs, mapM (λ kv, match dfpair kv.1 kv.2 with Ok t => Some t | _ => None end)
    [([97], [98;32;99]); ([100], [])] = Some outs ∧ dfread (concat outs) = Ok [[s_kpair; [97]; [98;32;99]]; [s_kpair; [100]; []]].
Proof.
  apply C31_pairs_read_back. intros k v Hin.
  repeat (apply elem_of_cons in Hin as [[= -> ->]|Hin];
    [unfold plain; split_and!; try (by intros H; repeat (apply elem_of_cons in H as [H|H]; [done|]); apply elem_of_nil in H); cbn [length]; lia|]).
  by apply elem_of_nil in Hin.
Qed.
(** A value of 244 characters under a key of one loses its last character. *)
Example truncated_ex : ∃ out, dfpair [107] (replicate 244 118) = Ok out ∧ dfread out = Ok [[s_kpair; [107]; replicate 243 118]].
Proof.
  assert (plain [107]) as Hk by (unfold plain; split_and!; intros H; repeat (apply elem_of_cons in H as [H|H]; [done|]); by apply elem_of_nil in H).
  assert (plain (replicate 244 118)) as Hv by (unfold plain; split_and!; intros H; by apply elem_of_replicate in H as [? _]).
  destruct (C31_pair_truncated [107] (replicate 244 118) Hk Hv) as (out & H1 & H2); [done|]. by exists out.
Qed.
(** usr/lib/x *)
Example path_ex : dirname [117;115;114;47;108;105;98;47;120] = [117;115;114;47;108;105;98] ∧ basename [117;115;114;47;108;105;98;47;120] = [120].
Proof. vm_compute. done. Qed.

Print Assumptions C30_tokens.
Print Assumptions C30_gettoken.
Print Assumptions C30_unbalanced.
Print Assumptions C30_tokens_defined.
Print Assumptions C30_hasprefix.
Print Assumptions C31_pairs_read_back.
Print Assumptions C31_pair_truncated.
Print Assumptions C31_row_limits.
Print Assumptions C31_rowhdr_limits.
Print Assumptions C31_empty_line_undefined.
Print Assumptions C32_split_join.
Print Assumptions C32_root.
Print Assumptions C32_plain.
Print Assumptions C32_pathcatn_undefined.
Print Assumptions C33_commas.
Print Assumptions C33_commas_delete.
