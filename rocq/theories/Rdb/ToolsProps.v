(** The command-line tools on data files: C137 (addattrs) and C138 (dfcmplt). *)
From stdpp Require Import strings.
From stdpp Require Import prelude gmap.
From Coq Require Import ZArith Lia.
From Verif Require Import Text.Model Text.Props Rdb.Model Rdb.Attrs Rdb.Tools.
Local Open Scope Z_scope.
Local Open Scope list_scope.

(** ** Specification *)

(** A file made of lines. *)
Definition text (ls : list str) : str := concat (map (λ l, l ++ [newline]) ls).
(** Lines that readline returns as they are: not empty, without newline and NUL, not ending in a carriage return. *)
Definition goodline (l : str) : Prop := newline ∉ l ∧ l ≠ [] ∧ last l ≠ Some 13 ∧ 0 ∉ l.
(** The keys of the pairs among what dfread reports. *)
Definition haskeys (calls : list (list str)) : list str :=
  omap (λ cols, match cols with c :: k :: _ => if decide (c = s_kpair) then Some k else None | _ => None end) calls.
(** No pair lacks its key. *)
Definition keyed (calls : list (list str)) : Prop := ∀ cols, cols ∈ calls → ∃ c rest, cols = c :: rest ∧ (c = s_kpair → rest ≠ []).
(** The attributes of [al] that are not there yet. *)
Definition missing (calls : list (list str)) (al : alist) : alist := filter (λ p, p.1 ∉ haskeys calls) al.
(** Pairs that dfpair writes and dfread reads back (C31). *)
Definition writable (al : alist) : Prop :=
  ∀ k v, (k, v) ∈ al → Text.Props.plain k ∧ Text.Props.plain v ∧ (length k ≤ 245)%nat ∧ (length k + length v ≠ 245)%nat.

(** The characters of a literal. *)
Definition chars (s : String.string) : str := (λ c, Z.of_nat (Ascii.nat_of_ascii c)) <$> String.list_ascii_of_string s.

(** ** Reading lines *)
Lemma text_cons l ls : text (l :: ls) = l ++ newline :: text ls.
Proof. unfold text. cbn [map concat]. by rewrite <- app_assoc. Qed.
Lemma text_app ls ls' : text (ls ++ ls') = text ls ++ text ls'.
Proof. unfold text. by rewrite map_app, concat_app. Qed.

Lemma cstr_good l : 0 ∉ l → cstr l = l.
Proof.
  intros H. unfold cstr. pose proof (span_all (λ c, negb (c =? 0)) l []) as E. rewrite app_nil_r in E. rewrite E; [done| |done].
  intros c Hc. destruct (Z.eqb_spec c 0) as [->|]; done.
Qed.

Lemma dfread_line l rest : goodline l →
  dfread (l ++ newline :: rest) =
    match seeline l with
    | Ok o => match dfread rest with Ok calls => Ok (match o with Some ts => ts :: calls | None => calls end) | o => o end
    | Fatal => Fatal
    | Undef => Undef
    end.
Proof.
  intros (Hn & Hne & Hl & _). unfold dfread at 1. cbn [dfreadloop]. rewrite readline_line by done.
  destruct (seeline l); [|done..]. rewrite (dfread_more _ (S (length rest))); [done| |lia].
  rewrite app_length. cbn [length]. lia.
Qed.

Lemma dfread_split l1 l2 calls : Forall goodline l1 → dfread (text (l1 ++ l2)) = Ok calls →
  ∃ c1 c2, calls = c1 ++ c2 ∧ dfread (text l1) = Ok c1 ∧ dfread (text l2) = Ok c2.
Proof.
  intros Hg. revert calls. induction Hg as [|l l1 Hl Hg IH]; intros calls Hd.
  - by exists [], calls.
  - cbn [app] in Hd. rewrite text_cons, dfread_line in Hd by done. rewrite text_cons, dfread_line by done.
    destruct (seeline l) as [o| |]; [|done..]. destruct (dfread (text (l1 ++ l2))) as [cs| |]; [|done..].
    destruct (IH cs eq_refl) as (c1 & c2 & -> & -> & H2). injection Hd as <-.
    exists (match o with Some ts => ts :: c1 | None => c1 end), c2. split_and!; [by destruct o|done|done].
Qed.
Lemma dfread_join l1 l2 c1 c2 : Forall goodline l1 → dfread (text l1) = Ok c1 → dfread (text l2) = Ok c2 →
  dfread (text (l1 ++ l2)) = Ok (c1 ++ c2).
Proof.
  intros Hg. revert c1. induction Hg as [|l l1 Hl Hg IH]; intros c1 H1 H2.
  - injection H1 as <-. done.
  - cbn [app]. rewrite text_cons, dfread_line in * by done. destruct (seeline l) as [o| |]; [|done..].
    destruct (dfread (text l1)) as [cs| |]; [|done..]. rewrite (IH cs eq_refl H2). injection H1 as <-. by destruct o.
Qed.

Lemma nopair_calls ls calls : Forall goodline ls → (∀ l, l ∈ ls → ¬ s_kpair `prefix_of` l) → dfread (text ls) = Ok calls →
  ∀ cols, cols ∈ calls → head cols ≠ Some s_kpair.
Proof.
  intros Hg. revert calls. induction Hg as [|l ls Hl Hg IH]; intros calls Hnp Hd.
  - injection Hd as <-. by intros cols ?%elem_of_nil.
  - rewrite text_cons, dfread_line in Hd by done. destruct (seeline l) as [o| |] eqn:Es; [|done..].
    destruct (dfread (text ls)) as [cs| |]; [|done..]. specialize (IH cs ltac:(intros; apply Hnp; by right) eq_refl).
    injection Hd as <-. destruct o as [ts|]; [|done]. intros cols [->|Hc]%elem_of_cons; [|by apply IH].
    unfold seeline in Es. change ((span (λ c, negb (c =? 0)) l).1) with (cstr l) in Es. rewrite cstr_good in Es by apply Hl.
    destruct (hasprefix l s_kpair) eqn:Ep. { apply C30_hasprefix in Ep as [r ->]. by destruct (Hnp (s_kpair ++ r)); [left|exists r]. }
    destruct (hasprefix l s_kaltcols).
    { destruct (linetoks _ _); [|done..]. injection Es as <-. done. }
    destruct (hasprefix l s_kaltrow); [|done]. destruct (linetoks _ _); [|done..]. injection Es as <-. done.
Qed.

(** ** Attributes *)
Lemma filter_all {A} (P : A → Prop) `{!∀ x, Decision (P x)} (l : list A) : (∀ x, x ∈ l → P x) → filter P l = l.
Proof.
  induction l as [|x l IH]; intros Hl; [done|]. rewrite filter_cons_True by (apply Hl; left). f_equal. apply IH. intros; apply Hl; by right.
Qed.
Lemma answers_rep a al : answers a al → rep a al.
Proof.
  intros Ha. split_and!; [apply Ha| |apply Ha]. apply map_eq. intros k.
  destruct (decide (k ∈ al.*1)) as [Hk|Hk].
  - apply elem_of_list_fmap in Hk as ([k' v] & -> & Hin). cbn [fst]. rewrite (proj1 (elem_of_list_to_map al k' v (an_distinct _ _ Ha)) Hin).
    pose proof (an_lookup _ _ Ha k' v Hin) as Hl. unfold lookup in Hl. destruct (pairs a !! k') as [v'|] eqn:E; [by injection Hl as ->|].
    injection Hl as <- Hl. apply (f_equal pairs) in Hl. cbn [pairs] in Hl. rewrite <- Hl in E. by rewrite lookup_insert in E.
  - rewrite (proj1 (not_elem_of_list_to_map al k) Hk). pose proof (an_mem _ _ Ha k) as Hm. rewrite bool_decide_false in Hm by done.
    unfold mem in Hm. apply bool_decide_eq_false in Hm. destruct (pairs a !! k); [|done]. by destruct Hm.
Qed.

Lemma dropall_rep calls : ∀ a al, rep a al → keyed calls → ∃ a', dropall calls a = Ok a' ∧ rep a' (missing calls al).
Proof.
  induction calls as [|cols calls IH]; intros a al Hr Hk; cbn [dropall].
  - exists a. split; [done|]. unfold missing. rewrite filter_all; [done|]. by intros ? _ ?%elem_of_nil.
  - destruct (Hk cols ltac:(left)) as (c & rest & -> & Hc).
    assert (keyed calls) as Hk' by (intros ? ?; apply Hk; by right).
    destruct (decide (c = s_kpair)) as [->|Hne].
    + destruct rest as [|k rest]; [by destruct Hc|].
      set (a1 := if mem a k then (rm a k).2 else a).
      assert (rep a1 (filter (λ p, p.1 ≠ k) al)) as Hr1.
      { unfold a1. rewrite (rep_mem _ _ _ Hr). case_bool_decide as Hin.
        - by apply rep_rm.
        - rewrite filter_all; [done|]. intros p Hp <-. apply Hin. by apply elem_of_list_fmap_1. }
      destruct (IH a1 _ Hr1 Hk') as (a' & Ha' & Hr'). exists a'. split; [done|].
      unfold missing in *. rewrite list_filter_filter in Hr'.
      erewrite list_filter_iff; [exact Hr'|]. intros p. unfold haskeys. cbn [omap list_omap]. rewrite decide_True by done.
      rewrite not_elem_of_cons. tauto.
    + destruct (IH a al Hr Hk') as (a' & Ha' & Hr'). exists a'. split; [done|].
      unfold missing in *. erewrite list_filter_iff; [exact Hr'|]. intros p. unfold haskeys. cbn [omap list_omap].
      destruct rest; [done|]. by rewrite decide_False.
Qed.

Lemma writeall_rep al : ∀ a, rep a al → writable al → writeall (length al) a = Ok (concat (entry <$> al)).
Proof.
  induction al as [|[k v] al IH]; intros a Hr Hw; [done|]. cbn [length writeall].
  pose proof (rep_answers _ _ Hr) as Ha. rewrite (an_front _ _ Ha). cbn [head fmap option_fmap option_map fst].
  rewrite (an_lookup _ _ Ha k v ltac:(left)). destruct (rep_pop _ _ _ Hr) as (a' & -> & Hr').
  destruct (Hw k v ltac:(left)) as (Hk & Hv & Hl1 & Hl2). rewrite dfpair_cases, !decide_False by lia.
  rewrite (IH a' Hr') by (intros ? ? ?; apply Hw; by right). cbn [fmap list_fmap concat]. done.
Qed.

(** ** Copying *)
Lemma copy_rest ls : ∀ fuel a, Forall goodline ls → (length (text ls) < fuel)%nat → copyloop fuel (text ls) a true = Ok (text ls).
Proof.
  induction ls as [|l ls IH]; intros fuel a Hg Hf; (destruct fuel as [|fuel]; [lia|]); cbn [copyloop]; [done|].
  apply Forall_cons in Hg as [Hl Hg]. rewrite text_cons in *. rewrite readline_line by apply Hl. cbn [negb andb orb].
  rewrite IH; [|done|rewrite app_length in Hf; cbn [length] in Hf; lia].
  rewrite cstr_good; [cbn [app]; by rewrite <- app_assoc|]. apply not_elem_of_app. split; [apply Hl|]. by intros ?%elem_of_list_singleton.
Qed.
Lemma copy_pre pre : ∀ fuel f a, Forall goodline pre → (∀ l, l ∈ pre → ¬ s_kpair `prefix_of` l) → (length (text pre ++ f) < fuel)%nat →
  ∃ fuel', (length f < fuel')%nat ∧
    copyloop fuel (text pre ++ f) a false = match copyloop fuel' f a false with Ok r => Ok (text pre ++ r) | o => o end.
Proof.
  induction pre as [|l pre IH]; intros fuel f a Hg Hnp Hf.
  { exists fuel. split; [done|]. cbn [text map concat app]. by destruct (copyloop fuel f a false). }
  apply Forall_cons in Hg as [Hl Hg]. destruct fuel as [|fuel]; [lia|].
  destruct (IH fuel f a Hg) as (fuel' & Hf' & E).
  { intros; apply Hnp; by right. }
  { rewrite text_cons, !app_length in Hf. rewrite app_length. cbn [length] in Hf. lia. }
  exists fuel'. split; [done|]. rewrite !text_cons, <- !app_assoc. cbn [app copyloop]. rewrite readline_line by apply Hl.
  rewrite cstr_good by apply Hl.
  assert (hasprefix l s_kpair = false) as ->.
  { destruct (hasprefix l s_kpair) eqn:Ep; [|done]. apply C30_hasprefix in Ep as [r ->]. by destruct (Hnp (s_kpair ++ r)); [left|exists r]. }
  cbn [negb andb orb]. rewrite E. rewrite cstr_good.
  2:{ apply not_elem_of_app. split; [apply Hl|]. by intros ?%elem_of_list_singleton. }
  destruct (copyloop fuel' f a false); [|done..]. f_equal. cbn [app]. rewrite <- !app_assoc. done.
Qed.

Lemma entry_text (al : alist) : concat (entry <$> al) = text ((λ kv, s_pair ++ kv.1 ++ s_mid ++ kv.2 ++ [quote]) <$> al).
Proof.
  induction al as [|kv al IH]; [done|]. cbn [fmap list_fmap concat]. rewrite text_cons, IH. unfold entry.
  change s_end with ([quote] ++ [newline]). by rewrite <- !app_assoc.
Qed.
Lemma entry_good (al : alist) : writable al → Forall goodline ((λ kv, s_pair ++ kv.1 ++ s_mid ++ kv.2 ++ [quote]) <$> al).
Proof.
  intros Hw. apply Forall_fmap, Forall_forall. intros [k v] Hin. destruct (Hw k v Hin) as (Hk & Hv & _). cbn [compose fst snd].
  destruct (entry_line k v Hk Hv) as (H1 & H2 & H3). split_and!; [done..|].
  rewrite !not_elem_of_app. split_and!; try (by apply (plain_app_not _ 0); auto); unfold s_pair, s_mid;
    rewrite !not_elem_of_cons; repeat split; try done; by apply not_elem_of_nil.
Qed.
Lemma entry_read (al : alist) : writable al → dfread (concat (entry <$> al)) = Ok (map (λ kv, [s_kpair; kv.1; kv.2]) al).
Proof.
  intros Hw. destruct (C31_pairs_read_back al Hw) as (outs & Ho & Hd). rewrite <- Hd. do 2 f_equal.
  clear Hd. revert outs Ho. induction al as [|[k v] al IH]; intros outs Ho; [by injection Ho as <-|].
  cbn [mapM] in Ho. destruct (Hw k v ltac:(left)) as (_ & _ & Hl1 & Hl2). cbn [fst snd] in Ho. rewrite dfpair_cases, !decide_False in Ho by lia.
  cbn [mbind option_bind] in Ho. destruct (mapM _ al) as [outs'|]; [|done]. injection Ho as <-. cbn [fmap list_fmap]. f_equal.
  apply IH; [|done]. intros ? ? ?. apply Hw. by right.
Qed.

(** ** C137: addattrs *)

(** The attributes whose keys the file does not have yet - and only those - are put, as pairs and in order, before the
    first pair of the file; all else stays as it is, and reading the file gives them, with all that it gave before. *)
Theorem C137_adds pre l post args a al calls :
  let f := text (pre ++ l :: post) in
  Forall goodline (pre ++ l :: post) → (∀ x, x ∈ pre → ¬ s_kpair `prefix_of` x) → s_kpair `prefix_of` l →
  dfread f = Ok calls → keyed calls → attrargs args = Ok a → answers a al →
  let new := missing calls al in writable new →
  let f' := text pre ++ concat (entry <$> new) ++ text (l :: post) in
  addattrs f args = Ok f' ∧
  ∃ c1 c2, calls = c1 ++ c2 ∧ (∀ cols, cols ∈ c1 → head cols ≠ Some s_kpair) ∧
    dfread f' = Ok (c1 ++ map (λ kv, [s_kpair; kv.1; kv.2]) new ++ c2).
Proof.
  intros f Hg Hnp Hp Hd Hk Hargs Hal new Hw f'. pose proof (answers_rep _ _ Hal) as Hr.
  pose proof Hg as [Hgp Hgl]%Forall_app. split.
  - unfold addattrs. rewrite Hargs, (an_size _ _ Hal). destruct (decide (length al = 0%nat)) as [H0|H0].
    { apply nil_length_inv in H0. subst al. unfold f, f', new. cbn. by rewrite text_app. }
    rewrite Hd. destruct (dropall_rep calls a al Hr Hk) as (a' & -> & Hr').
    unfold f. rewrite text_app.
    destruct (copy_pre pre (S (length (text pre ++ text (l :: post)))) (text (l :: post)) a' Hgp Hnp ltac:(lia)) as (fuel' & Hf' & ->).
    destruct fuel' as [|fuel']; [lia|]. cbn [copyloop]. apply Forall_cons in Hgl as [Hl Hgo].
    rewrite text_cons in *. rewrite readline_line by apply Hl. rewrite cstr_good by apply Hl.
    assert (hasprefix l s_kpair = true) as -> by (apply C30_hasprefix; done). cbn [negb andb orb].
    rewrite (an_size _ _ (rep_answers _ _ Hr')). rewrite writeall_rep by done.
    rewrite copy_rest; [|done|rewrite app_length in Hf'; cbn [length] in Hf'; lia].
    rewrite cstr_good.
    2:{ apply not_elem_of_app. split; [apply Hl|]. by intros ?%elem_of_list_singleton. }
    unfold f'. rewrite text_cons, <- (app_assoc l [newline]). cbn [app]. done.
  - destruct (dfread_split pre (l :: post) calls Hgp Hd) as (c1 & c2 & -> & H1 & H2). exists c1, c2. split_and!; [done| |].
    + exact (nopair_calls pre c1 Hgp Hnp H1).
    + unfold f'. rewrite entry_text, <- !text_app. apply dfread_join; [done..|]. apply dfread_join; [by apply entry_good| |done].
      rewrite <- entry_text. by apply entry_read.
Qed.

(** A file without any pair stays as it is: the attributes are lost, and no error is reported. *)
Theorem C137_no_pair_refuted ls args a al calls :
  Forall goodline ls → (∀ x, x ∈ ls → ¬ s_kpair `prefix_of` x) → dfread (text ls) = Ok calls → keyed calls →
  attrargs args = Ok a → answers a al → addattrs (text ls) args = Ok (text ls).
Proof.
  intros Hg Hnp Hd Hk Hargs Hal. unfold addattrs. rewrite Hargs. case_decide; [done|]. rewrite Hd.
  destruct (dropall_rep calls a al (answers_rep _ _ Hal) Hk) as (a' & -> & _).
  destruct (copy_pre ls (S (length (text ls ++ []))) [] a' Hg Hnp ltac:(lia)) as (fuel' & Hf' & E).
  rewrite app_nil_r in E. rewrite E. destruct fuel' as [|fuel']; [cbn in Hf'; lia|]. cbn. by rewrite app_nil_r.
Qed.

(** Adding attributes whose keys are all there changes nothing. *)
Theorem C137_present_unchanged ls args a al calls :
  Forall goodline ls → dfread (text ls) = Ok calls → keyed calls → attrargs args = Ok a → answers a al →
  (∀ k, k ∈ al.*1 → k ∈ haskeys calls) → addattrs (text ls) args = Ok (text ls).
Proof.
  intros Hg Hd Hk Hargs Hal Hin.
  assert (missing calls al = []) as Hm.
  { unfold missing. destruct (filter _ al) as [|p r] eqn:E; [done|]. assert (p ∈ filter (λ p, p.1 ∉ haskeys calls) al) as Hp by (rewrite E; left).
    apply elem_of_list_filter in Hp as [Hp1 Hp2]. destruct Hp1. apply Hin. by apply elem_of_list_fmap_1. }
  destruct (decide (Exists (λ x, s_kpair `prefix_of` x) ls)) as [Hex|Hno].
  - assert (∃ pre l post, ls = pre ++ l :: post ∧ (∀ x, x ∈ pre → ¬ s_kpair `prefix_of` x) ∧ s_kpair `prefix_of` l) as (pre & l & post & -> & Hnp & Hp).
    { clear -Hex. induction ls as [|x ls IH]; [by apply Exists_nil in Hex|].
      destruct (decide (s_kpair `prefix_of` x)) as [Hx|Hx].
      - exists [], x, ls. split_and!; [done| |done]. by intros y ?%elem_of_nil.
      - apply Exists_cons in Hex as [?|Hex]; [done|]. destruct (IH Hex) as (pre & l & post & -> & H1 & H2).
        exists (x :: pre), l, post. split_and!; [done| |done]. intros y [->|Hy]%elem_of_cons; [done|by apply H1]. }
    destruct (C137_adds pre l post args a al calls Hg Hnp Hp Hd Hk Hargs Hal) as [H _].
    { rewrite Hm. by intros ? ? ?%elem_of_nil. }
    rewrite H, Hm, text_app. done.
  - apply (C137_no_pair_refuted ls args a al calls); try done. intros x Hx Hp. apply Hno, Exists_exists. eauto.
Qed.

(** So adding them a second time does. *)
Theorem C137_again pre l post args a al calls f' :
  Forall goodline (pre ++ l :: post) → (∀ x, x ∈ pre → ¬ s_kpair `prefix_of` x) → s_kpair `prefix_of` l →
  dfread (text (pre ++ l :: post)) = Ok calls → keyed calls → attrargs args = Ok a → answers a al → writable (missing calls al) →
  addattrs (text (pre ++ l :: post)) args = Ok f' → addattrs f' args = Ok f'.
Proof.
  intros Hg Hnp Hp Hd Hk Hargs Hal Hw Hf'.
  destruct (C137_adds pre l post args a al calls Hg Hnp Hp Hd Hk Hargs Hal Hw) as [H (c1 & c2 & -> & _ & Hd')].
  rewrite H in Hf'. injection Hf' as <-. rewrite entry_text in *. rewrite <- !text_app in *.
  eapply C137_present_unchanged; [|exact Hd'| |exact Hargs|exact Hal|].
  - apply Forall_app in Hg as [? ?]. apply Forall_app. split; [done|]. apply Forall_app. split; [by apply entry_good|done].
  - intros cols [Hc|[Hc|Hc]%elem_of_app]%elem_of_app; [by apply Hk, elem_of_app; left| |by apply Hk, elem_of_app; right].
    apply elem_of_list_fmap in Hc as (kv & -> & _). by do 2 eexists.
  - intros k Hin. destruct (decide (k ∈ haskeys (c1 ++ c2))) as [Hh|Hh].
    + unfold haskeys in *. rewrite !omap_app, !elem_of_app in *. tauto.
    + apply elem_of_list_fmap in Hin as (kv & -> & Hkv). unfold haskeys at 1. rewrite !omap_app, !elem_of_app. right. left.
      apply elem_of_list_omap. exists [s_kpair; kv.1; kv.2]. split; [|by rewrite decide_True].
      apply elem_of_list_fmap. exists kv. split; [done|]. by apply elem_of_list_filter.
Qed.

(** ** C138: dfcmplt *)
Lemma readline_end t : newline ∉ t → t ≠ [] → last t ≠ Some 13 → readline t = Ok (Some (t, [])).
Proof.
  intros Hn Hd Hl. unfold readline. pose proof (span_all (λ c, negb (c =? newline)) t []) as E. rewrite app_nil_r in E. rewrite E; [| |done].
  - destruct t as [|c t]; [done|]. destruct (last (c :: t)) as [d|] eqn:El; [|by apply last_None in El]. cbn [default from_option id].
    destruct (Z.eqb_spec d 13) as [->|]; done.
  - intros c Hc. destruct (Z.eqb_spec c newline) as [->|]; done.
Qed.
Lemma lastline_text ls t : ∀ fuel prev, Forall goodline ls → (t = [] ∨ goodline t) → (length (text ls ++ t) < fuel)%nat →
  lastline fuel (text ls ++ t) prev = Ok (default prev (last (ls ++ (if decide (t = []) then [] else [t])))).
Proof.
  induction ls as [|l ls IH]; intros fuel prev Hg Ht Hf; (destruct fuel as [|fuel]; [lia|]); cbn [lastline].
  - cbn [text map concat app]. case_decide as Hd; [by subst t|]. destruct Ht as [?|(Hn & _ & Hl & _)]; [done|].
    rewrite readline_end by done.
    destruct fuel as [|fuel]; [cbn in Hf; destruct t; [done|cbn in Hf; lia]|]. done.
  - apply Forall_cons in Hg as [Hl Hg]. rewrite text_cons, <- app_assoc in *. cbn [app] in *. rewrite readline_line by apply Hl.
    rewrite IH; [|done|done|rewrite app_length in Hf; cbn [length] in Hf; lia].
    rewrite last_cons. by destruct (last (ls ++ _)).
Qed.

(** A file - the last line of which, [t], may lack its newline - counts as complete exactly if its first line is the
    start line and its last line the end line. *)
Theorem C138_complete ls t : Forall goodline ls → (t = [] ∨ goodline t) →
  let lines := ls ++ (if decide (t = []) then [] else [t]) in
  dfcmplt (text ls ++ t) = Ok (bool_decide (head lines = Some (chars "#start data file format 4"%string) ∧ last lines = Some (chars "#end data file format 4"%string))).
Proof.
  intros Hg Ht. cbn zeta.
  assert (∀ l, l = chars "#start data file format 4"%string ↔ l ++ [newline] = start4) as E1.
  { intros l. change start4 with (chars "#start data file format 4"%string ++ [newline]). split; [by intros ->|by intros ?%app_inv_tail]. }
  assert (∀ l, l = chars "#end data file format 4"%string ↔ l ++ [newline] = end4) as E2.
  { intros l. change end4 with (chars "#end data file format 4"%string ++ [newline]). split; [by intros ->|by intros ?%app_inv_tail]. }
  assert (∀ ls : list str, head ls = Some (chars "#start data file format 4"%string) ∧ last ls = Some (chars "#end data file format 4"%string) ↔
    (λ l, l ++ [newline]) <$> head ls = Some start4 ∧ (λ l, l ++ [newline]) <$> last ls = Some end4) as E.
  { intros x. destruct (head x) as [h|], (last x) as [e|]; cbn; try (split; intros [? ?]; done).
    rewrite !(inj_iff Some). by rewrite E1, E2. }
  rewrite (bool_decide_ext _ _ (E _)). clear E1 E2 E.
  set (lines := ls ++ _). unfold dfcmplt. destruct ls as [|l ls].
  - cbn [text map concat app] in *. unfold lines. clear lines. case_decide as Hd.
    { subst t. cbn. rewrite bool_decide_false; [done|]. by intros [? _]. }
    destruct Ht as [?|(Hn & _ & Hl & _)]; [done|]. rewrite readline_end by done. cbn [head last fmap option_fmap option_map].
    case_decide as Hs.
    + cbn [length lastline]. change (readline []) with (Ok (A:=option (str * str)) None). cbn. rewrite Hs.
      rewrite !bool_decide_false; [done|by intros [_ ?]|done].
    + rewrite bool_decide_false; [done|]. intros [H _]. by injection H.
  - apply Forall_cons in Hg as [Hl Hg]. unfold lines. clear lines. rewrite text_cons, <- app_assoc. cbn [app head fmap option_fmap option_map].
    rewrite readline_line by apply Hl. case_decide as Hs.
    + rewrite lastline_text by (done || lia). rewrite last_cons. f_equal. apply bool_decide_ext.
      destruct (last (ls ++ _)) as [x|]; cbn [default from_option fmap option_fmap option_map id].
      * split; [intros ->|intros [_ H]]; [by rewrite Hs|by injection H].
      * rewrite Hs. split; [done|by intros [_ ?]].
    + rewrite bool_decide_false; [done|]. intros [H _]. by injection H.
Qed.

(** ** Examples *)

Definition gl (l : str) : bool := bool_decide (newline ∉ l) && bool_decide (l ≠ []) && bool_decide (last l ≠ Some 13) && bool_decide (0 ∉ l).
Lemma gl_good ls : forallb gl ls = true → Forall goodline ls.
Proof.
  intros H. apply Forall_forall. intros l Hl. rewrite forallb_forall in H. specialize (H l (proj1 (elem_of_list_In _ _) Hl)). unfold gl in H.
  rewrite !andb_true_iff, !bool_decide_eq_true in H. unfold goodline. tauto.
Qed.
Definition l_start : str := [35; 115; 116; 97; 114; 116] ++ s_format.
Definition l_end : str := [35; 101; 110; 100] ++ s_format.
(** #pair  "a"	"x" *)
Definition l_pair : str := s_pair ++ [97] ++ s_mid ++ [120] ++ [quote].
(** The arguments a=1 and b=2 for a file that has an a: b is added before it, and a keeps its value. *)
Definition ex_args : list str := [[97; 61; 49]; [98; 61; 50]].
Example C137_example : let ls := [l_start; l_pair; l_end] in
  Forall goodline ls ∧ (∀ x, x ∈ [l_start] → ¬ s_kpair `prefix_of` x) ∧ s_kpair `prefix_of` l_pair ∧
  ∃ calls a, dfread (text ls) = Ok calls ∧ keyed calls ∧ attrargs ex_args = Ok a ∧ answers a [([97], [49]); ([98], [50])] ∧
    missing calls [([97], [49]); ([98], [50])] = [([98], [50])] ∧ writable [([98], [50])] ∧
    addattrs (text ls) ex_args = Ok (text [l_start; s_pair ++ [98] ++ s_mid ++ [50] ++ [quote]; l_pair; l_end]).
Proof.
  cbn zeta. split_and!.
  - apply gl_good. vm_compute. done.
  - intros x ->%elem_of_list_singleton [r Hr]. done.
  - by eexists.
  - exists [[s_kpair; [97]; [120]]]. eexists. split_and!.
    + vm_compute. done.
    + intros cols ->%elem_of_list_singleton. do 2 eexists. split; [done|]. done.
    + vm_compute. done.
    + apply rep_answers. split_and!; [done|by apply map_eq; intros k; vm_compute|]. repeat constructor; set_solver.
    + vm_compute. done.
    + intros k v [= -> ->]%elem_of_list_singleton. unfold Text.Props.plain. split_and!; try set_solver; cbn; lia.
    + vm_compute. done.
Qed.
(** Without the pair both are lost. *)
Example C137_no_pair_example : let ls := [l_start; l_end] in
  Forall goodline ls ∧ dfread (text ls) = Ok [] ∧ addattrs (text ls) ex_args = Ok (text ls).
Proof. cbn zeta. split_and!; [apply gl_good; vm_compute; done|vm_compute; done..]. Qed.
Example C138_example :
  dfcmplt (text [l_start; l_pair; l_end]) = Ok true ∧ dfcmplt (text [l_start; l_pair] ++ l_end) = Ok true ∧
  dfcmplt (text [l_start; l_pair]) = Ok false ∧ dfcmplt (text [l_pair; l_end]) = Ok false ∧ dfcmplt [] = Ok false.
Proof. split_and!; vm_compute; done. Qed.

Print Assumptions C137_adds.
Print Assumptions C137_no_pair_refuted.
Print Assumptions C137_present_unchanged.
Print Assumptions C137_again.
Print Assumptions C138_complete.
