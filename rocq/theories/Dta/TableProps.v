(** The table of probabilities of DTA-star: C139. *)
From stdpp Require Import prelude.
From Coq Require Import ZArith QArith Qround Lia.
From Verif Require Import Dta.Table.
Local Open Scope Q_scope.

(** ** Specification *)

(** A largest value. *)
Definition largest (v : Q) (l : list Q) : Prop := (∃ x, x ∈ l ∧ x == v) ∧ ∀ x, x ∈ l → x <= v.
(** The integer part. *)
Definition ipart (x : Q) : nat := Z.to_nat (Qfloor x).
(** What the table is meant to hold: the share, among the rows with h in bin [h] and depth [d], of those with f above
    bin [i]. *)
Definition share (rows : list row) (h d i : nat) : Q :=
  let of := filter (λ r, ipart (r_h r) = h ∧ r_d r = d) rows in
  let above := filter (λ r, (i < ipart (r_f r))%nat) of in
  if decide (length of = 0%nat) then 0 else inject_Z (Z.of_nat (length above)) / inject_Z (Z.of_nat (length of)).

(** ** Rounding *)
Lemma stdmax_le a b : a <= stdmax a b ∧ b <= stdmax a b.
Proof.
  unfold stdmax. destruct (Qle_bool b a) eqn:E.
  - apply Qle_bool_iff in E. split; [apply Qle_refl|done].
  - split; [|apply Qle_refl]. apply Qlt_le_weak, Qnot_le_lt. intros H%Qle_bool_iff. congruence.
Qed.
Lemma stdmax_cases a b : stdmax a b = a ∨ stdmax a b = b.
Proof. unfold stdmax. destruct (Qle_bool b a); auto. Qed.
Lemma stdmax_r a b : a <= b → stdmax a b == b.
Proof. intros H. apply Qle_antisym; [|apply stdmax_le]. destruct (stdmax_cases a b) as [-> | ->]; [done|apply Qle_refl]. Qed.
Lemma tounsigned_nonneg x : 0 <= x → tounsigned x = Some (ipart x).
Proof.
  intros H. unfold tounsigned. destruct (Qle_bool x (-1 # 1)) eqn:E; [|done]. apply Qle_bool_iff in E.
  exfalso. assert (0 <= -1 # 1) as H' by (eapply Qle_trans; eassumption). by apply H'.
Qed.
Lemma ipart_eq x y : x == y → ipart x = ipart y.
Proof. intros H. unfold ipart. by rewrite (Qfloor_comp _ _ H). Qed.
Lemma foldmax {A} (g : A → Q) l : ∀ m, let v := foldl (λ m r, stdmax m (g r)) m l in largest v (m :: (g <$> l)).
Proof.
  induction l as [|x l IH]; intros m v.
  - split; [exists m; split; [left|reflexivity]|]. intros x ->%elem_of_list_singleton. apply Qle_refl.
  - subst v. cbn [foldl fmap list_fmap]. destruct (IH (stdmax m (g x))) as [(y & Hy & He) Hle]. set (v := foldl _ _ l) in *. split.
    + apply elem_of_cons in Hy as [->|Hy].
      * destruct (stdmax_cases m (g x)) as [E|E]; rewrite E in He; [exists m|exists (g x)]; (split; [|done]); [left|right; left].
      * exists y. split; [by do 2 right|done].
    + destruct (stdmax_le m (g x)) as [H1 H2]. assert (stdmax m (g x) <= v) as H3 by (apply Hle; left).
      intros z [->|[->|Hz]%elem_of_cons]%elem_of_cons; [by eapply Qle_trans|by eapply Qle_trans|]. apply Hle. by right.
Qed.
Lemma largest_eq v w l : largest v l → largest w l → v == w.
Proof.
  intros [(x & Hx & Ex) Hv] [(y & Hy & Ey) Hw]. apply Qle_antisym; [rewrite <- Ex; by apply Hw|rewrite <- Ey; by apply Hv].
Qed.
Lemma foldmaxd (l : list row) : ∀ m, let v := foldl (λ m r, Nat.max m (r_d r)) m l in (m ≤ v)%nat ∧ ∀ r, r ∈ l → (r_d r ≤ v)%nat.
Proof.
  induction l as [|x l IH]; intros m; cbn [foldl]; cbn zeta; [split; [done|by intros ? ?%elem_of_nil]|].
  destruct (IH (Nat.max m (r_d x))) as [H1 H2]. split; [lia|]. intros r [->|Hr]%elem_of_cons; [lia|by apply H2].
Qed.

(** ** The table *)
Definition cell (n f0 c : nat) : fs := (c, (λ i, if decide (i < f0)%nat then Z.of_nat c else 0%Z) <$> seq 0 n).
Definition tab (n dmax h0 f0 : nat) (cnt : nat → nat) : list (list fs) :=
  (λ h, (λ d, cell n f0 (if decide (h = h0) then cnt d else 0%nat)) <$> seq 0 (S dmax)) <$> seq 0 n.

Lemma fmap_seq_lookup {A} (g : nat → A) n k : (k < n)%nat → (g <$> seq 0 n) !! k = Some (g k).
Proof. intros H. rewrite list_lookup_fmap, lookup_seq_lt by done. done. Qed.
Lemma insert_fmap_seq {A} (g g' : nat → A) n k x : (k < n)%nat → (∀ j, j ≠ k → g j = g' j) → g' k = x →
  <[k:=x]> (g <$> seq 0 n) = g' <$> seq 0 n.
Proof.
  intros Hk Hj <-. apply list_eq. intros j. destruct (decide (j = k)) as [->|Hne].
  - rewrite list_lookup_insert by (by rewrite fmap_length, seq_length). by rewrite fmap_seq_lookup.
  - rewrite list_lookup_insert_ne by done. rewrite !list_lookup_fmap. destruct (seq 0 n !! j) as [y|] eqn:E; [|done].
    apply lookup_seq in E as [-> _]. cbn. f_equal. by apply Hj.
Qed.
Lemma replicate_fmap_seq {A} (x : A) n : replicate n x = (λ _, x) <$> seq 0 n.
Proof.
  apply list_eq. intros j. destruct (decide (j < n)%nat) as [H|H].
  - by rewrite lookup_replicate_2, fmap_seq_lookup.
  - rewrite !lookup_ge_None_2; [done|rewrite fmap_length, seq_length; lia|rewrite replicate_length; lia].
Qed.
Lemma resize_tab n dmax h0 f0 : resize n dmax = tab n dmax h0 f0 (λ _, 0%nat).
Proof.
  unfold resize, tab. rewrite !replicate_fmap_seq. apply list_fmap_ext. intros ? h _.
  apply list_fmap_ext. intros ? d _. unfold cell. destruct (decide (h = h0)); f_equal; apply list_fmap_ext; intros ? y _; by case_decide.
Qed.
Lemma addrow_tab n dmax hm fm cnt r : 0 <= hm → 0 <= fm → r_h r <= hm → r_f r <= fm → (r_d r ≤ dmax)%nat →
  (ipart hm ≤ ipart fm)%nat → (ipart hm < n)%nat → (ipart fm ≤ n)%nat →
  addrow hm fm (tab n dmax (ipart hm) (ipart fm) cnt) r =
    Some (tab n dmax (ipart hm) (ipart fm) (λ d, if decide (d = r_d r) then S (cnt d) else cnt d)).
Proof.
  intros Hh0 Hf0 Hh Hf Hd Hhf Hn Hfn. unfold addrow, hbin, fbin.
  pose proof (stdmax_r _ _ Hh) as Eh. pose proof (stdmax_r _ _ Hf) as Ef.
  rewrite !tounsigned_nonneg by (rewrite ?Eh, ?Ef; done). rewrite (ipart_eq _ _ Eh), (ipart_eq _ _ Ef). cbn [mbind option_bind].
  rewrite decide_False by lia. unfold tab. rewrite fmap_seq_lookup by done. cbn [mbind option_bind].
  rewrite fmap_seq_lookup by lia. cbn [mbind option_bind]. rewrite (decide_True _ _ eq_refl).
  rewrite decide_False by (unfold cell; cbn [snd]; rewrite fmap_length, seq_length; lia). f_equal.
  apply insert_fmap_seq; [done| |].
  - intros j Hj. apply list_fmap_ext. intros ? d _. by rewrite !decide_False by done.
  - symmetry. apply insert_fmap_seq; [lia| |].
    + intros d Hne. by rewrite !(decide_True _ _ eq_refl), (decide_False (P := d = r_d r)).
    + rewrite !(decide_True _ _ eq_refl). unfold cell. cbn [fst snd]. f_equal. apply list_eq. intros i.
      rewrite list_lookup_imap, !list_lookup_fmap. destruct (seq 0 n !! i) as [y|] eqn:E; [|done].
      apply lookup_seq in E as [-> _]. cbn. f_equal. case_decide; lia.
Qed.

Definition count (rows : list row) (d : nat) : nat := length (filter (λ r, r_d r = d) rows).
Lemma addrows_tab n dmax hm fm rows : 0 <= hm → 0 <= fm → (∀ r, r ∈ rows → r_h r <= hm ∧ r_f r <= fm ∧ (r_d r ≤ dmax)%nat) →
  (ipart hm ≤ ipart fm)%nat → (ipart hm < n)%nat → (ipart fm ≤ n)%nat → ∀ cnt,
  ∃ cnt', addrows hm fm (tab n dmax (ipart hm) (ipart fm) cnt) rows = Some (tab n dmax (ipart hm) (ipart fm) cnt') ∧
    ∀ d, cnt' d = (cnt d + count rows d)%nat.
Proof.
  intros Hh0 Hf0 Hr Hhf Hn Hfn. induction rows as [|r rows IH]; intros cnt.
  { exists cnt. split; [done|]. intros d. unfold count. cbn. lia. }
  destruct (Hr r ltac:(left)) as (H1 & H2 & H3). cbn [addrows]. rewrite addrow_tab by done. cbn [mbind option_bind].
  destruct (IH ltac:(intros; apply Hr; by right) (λ d, if decide (d = r_d r) then S (cnt d) else cnt d)) as (cnt' & -> & Hc).
  exists cnt'. split; [done|]. intros d. rewrite Hc. unfold count. rewrite filter_cons.
  destruct (decide (d = r_d r)) as [->|Hne]; [rewrite decide_True by done|rewrite decide_False by done]; cbn [length]; lia.
Qed.

Lemma extremes_spec rows hm fm : rows ≠ [] → (∀ r, r ∈ rows → 0 <= r_h r ∧ 0 <= r_f r) →
  largest hm (r_h <$> rows) → largest fm (r_f <$> rows) →
  ∃ dmax hm' fm' n, extremes rows = Some (dmax, hm', fm', n) ∧ hm' == hm ∧ fm' == fm ∧ (∀ r, r ∈ rows → (r_d r ≤ dmax)%nat) ∧
    (ipart hm < n)%nat ∧ (ipart fm < n)%nat.
Proof.
  intros Hne Hr Hh Hf. destruct rows as [|r rs]; [done|]. unfold extremes.
  pose proof (foldmax r_h rs (r_h r)) as H1. pose proof (foldmax r_f rs (r_f r)) as H2. cbn zeta in H1, H2.
  set (hm' := foldl _ (r_h r) rs) in *. set (fm' := foldl _ (r_f r) rs) in *.
  assert (hm' == hm) as Eh by (by eapply largest_eq). assert (fm' == fm) as Ef by (by eapply largest_eq).
  assert (0 <= hm') as H0. { eapply Qle_trans; [exact (proj1 (Hr r ltac:(left)))|]. apply H1. left. }
  destruct (stdmax_le fm' hm') as [H3 H4]. set (x := stdmax fm' hm') in *.
  pose proof (Qle_ceiling x) as Hc.
  assert (0 <= inject_Z (Qceiling x)) as H0c by (eapply Qle_trans; [|exact Hc]; by eapply Qle_trans).
  assert (0 <= Qceiling x)%Z as H0z by (rewrite Zle_Qle; exact H0c).
  rewrite tounsigned_nonneg.
  2:{ eapply Qle_trans; [exact H0c|]. rewrite <- (Qplus_0_r (inject_Z (Qceiling x))) at 1. apply Qplus_le_r. done. }
  cbn [mbind option_bind]. do 4 eexists. split; [done|]. split_and!; [done|done| | |].
  - apply foldmaxd.
  - rewrite <- (ipart_eq _ _ Eh). unfold ipart. change 1 with (inject_Z 1). rewrite <- inject_Z_plus, Qfloor_Z.
    assert (Qfloor hm' <= Qceiling x)%Z. { rewrite Zle_Qle. eapply Qle_trans; [apply Qfloor_le|]. by eapply Qle_trans. } lia.
  - rewrite <- (ipart_eq _ _ Ef). unfold ipart. change 1 with (inject_Z 1). rewrite <- inject_Z_plus, Qfloor_Z.
    assert (Qfloor fm' <= Qceiling x)%Z. { rewrite Zle_Qle. eapply Qle_trans; [apply Qfloor_le|]. by eapply Qle_trans. } lia.
Qed.

(** ** C139: the table of probabilities *)

(** Whatever the rows say, the table holds only zeros and ones.  A one is in the bin of the largest h, for the depths that
    occur, below the largest f: nothing else of the rows matters. *)
Theorem C139_table rows hm fm : rows ≠ [] → (∀ r, r ∈ rows → 0 <= r_h r ∧ 0 <= r_f r) →
  largest hm (r_h <$> rows) → largest fm (r_f <$> rows) → (ipart hm ≤ ipart fm)%nat →
  ∃ q, train rows = Some q ∧
    (∀ h d i v, prob q h d i = Some v →
       v == if decide (h = ipart hm ∧ (i < ipart fm)%nat ∧ d ∈ r_d <$> rows) then 1 else 0) ∧
    (∀ r h i, r ∈ rows → (h ≤ ipart hm)%nat → (i ≤ ipart fm)%nat → is_Some (prob q h (r_d r) i)).
Proof.
  intros Hne Hr Hh Hf Hhf. destruct (extremes_spec rows hm fm Hne Hr Hh Hf) as (dmax & hm' & fm' & n & He & Eh & Ef & Hd & Hnh & Hnf).
  unfold train. rewrite He. cbn [mbind option_bind].
  rewrite <- (ipart_eq _ _ Eh), <- (ipart_eq _ _ Ef) in *. clear He.
  assert (∀ r, r ∈ rows → r_h r <= hm' ∧ r_f r <= fm') as Hle.
  { intros r Hin. rewrite Eh, Ef. split; [apply Hh|apply Hf]; by apply elem_of_list_fmap_1. }
  assert (0 <= hm' ∧ 0 <= fm') as [H0h H0f].
  { destruct rows as [|r rs]; [done|]. destruct (Hle r ltac:(left)) as [A1 A2], (Hr r ltac:(left)) as [B1 B2].
    split; [exact (Qle_trans _ _ _ B1 A1)|exact (Qle_trans _ _ _ B2 A2)]. }
  rewrite (resize_tab n dmax (ipart hm') (ipart fm')).
  destruct (addrows_tab n dmax hm' fm' rows H0h H0f) with (cnt := λ _ : nat, 0%nat) as (cnt & -> & Hc); [|lia..|].
  { intros r Hin. destruct (Hle r Hin). split_and!; [done|done|by apply Hd]. }
  cbn [mbind option_bind]. eexists. split; [done|]. split.
  - intros h d i v. unfold prob, tab. rewrite !list_lookup_fmap.
    destruct (seq 0 n !! h) as [?|] eqn:E1; [|done]. apply lookup_seq in E1 as [-> Hhn]. cbn [fmap option_fmap option_map mbind option_bind plus].
    rewrite !list_lookup_fmap. destruct (seq 0 (S dmax) !! d) as [?|] eqn:E2; [|done]. apply lookup_seq in E2 as [-> Hdn].
    cbn [fmap option_fmap option_map mbind option_bind plus]. unfold normal, cell. cbn [fst snd]. rewrite !list_lookup_fmap.
    destruct (seq 0 n !! i) as [?|] eqn:E3; [|done]. apply lookup_seq in E3 as [-> Hin].
    cbn [fmap option_fmap option_map plus]. intros [= <-].
    assert (d ∈ r_d <$> rows ↔ cnt d ≠ 0%nat) as Hocc.
    { rewrite Hc. cbn. unfold count. rewrite elem_of_list_fmap. split.
      - intros (r & -> & Hin'). intros H%nil_length_inv. assert (r ∈ filter (λ r0, r_d r0 = r_d r) rows) as HH by (by apply elem_of_list_filter).
        rewrite H in HH. by apply elem_of_nil in HH.
      - destruct (filter _ rows) as [|r l] eqn:E; [done|]. intros _. assert (r ∈ filter (λ r0, r_d r0 = d) rows) as HH by (rewrite E; left).
        apply elem_of_list_filter in HH as [<- ?]. by exists r. }
    destruct (decide (h = ipart hm')) as [->|Hh'].
    + destruct (decide (cnt d = 0%nat)) as [E|E].
      * rewrite (decide_False (P := ipart hm' = _ ∧ _)) by (rewrite Hocc; tauto). rewrite E. by case_decide.
      * case_decide as Hi.
        -- rewrite (decide_True (P := ipart hm' = _ ∧ _)) by (rewrite Hocc; tauto). apply Qmult_inv_r. intros H.
           apply E. unfold Qeq in H. cbn in H. lia.
        -- rewrite (decide_False (P := ipart hm' = _ ∧ _)) by tauto. unfold Qdiv. apply Qmult_0_l.
    + rewrite (decide_True (P := 0%nat = 0%nat)) by done. rewrite (decide_False (P := h = _ ∧ _)) by tauto. by case_decide.
  - intros r h i Hin Hh' Hi. unfold prob, tab. rewrite !list_lookup_fmap, lookup_seq_lt by lia.
    cbn [fmap option_fmap option_map mbind option_bind plus]. rewrite !list_lookup_fmap. specialize (Hd r Hin). rewrite lookup_seq_lt by lia.
    cbn [fmap option_fmap option_map mbind option_bind plus]. unfold normal, cell. cbn [fst snd]. rewrite !list_lookup_fmap, lookup_seq_lt by lia.
    by eexists.
Qed.

(** The decision to go on looks at the bin of the largest h, whatever the h of the state. *)
Theorem C139_bin_used hm h : 0 <= hm → usedbin hm h = Some (ipart hm).
Proof.
  intros H0. unfold usedbin, hbin. assert ((if Qle_bool h hm then h else hm) <= hm) as H.
  { destruct (Qle_bool h hm) eqn:E; [by apply Qle_bool_iff|apply Qle_refl]. }
  pose proof (stdmax_r _ _ H) as E. rewrite tounsigned_nonneg by (by rewrite E). by rewrite (ipart_eq _ _ E).
Qed.

(** If the largest h has a greater integer part than the largest f, training fails. *)
Theorem C139_fails rows hm fm : rows ≠ [] → (∀ r, r ∈ rows → 0 <= r_h r ∧ 0 <= r_f r) →
  largest hm (r_h <$> rows) → largest fm (r_f <$> rows) → (ipart fm < ipart hm)%nat → train rows = None.
Proof.
  intros Hne Hr Hh Hf Hhf. destruct (extremes_spec rows hm fm Hne Hr Hh Hf) as (dmax & hm' & fm' & n & He & Eh & Ef & _).
  unfold train. rewrite He. cbn [mbind option_bind]. destruct rows as [|r rs]; [done|]. cbn [addrows]. unfold addrow, hbin, fbin.
  destruct (Hr r ltac:(left)) as [H1 H2]. assert (r_h r <= hm') as Hh' by (rewrite Eh; apply Hh; left). assert (r_f r <= fm') as Hf' by (rewrite Ef; apply Hf; left).
  pose proof (stdmax_r _ _ Hh') as E1. pose proof (stdmax_r _ _ Hf') as E2.
  pose proof (Qle_trans _ _ _ H1 Hh') as ?. pose proof (Qle_trans _ _ _ H2 Hf') as ?.
  rewrite !tounsigned_nonneg by (rewrite ?E1, ?E2; done). cbn [mbind option_bind].
  rewrite (ipart_eq _ _ E1), (ipart_eq _ _ E2), (ipart_eq _ _ Eh), (ipart_eq _ _ Ef), decide_True by done. done.
Qed.

(** ** Examples *)
Definition ex_rows : list row := [Row 1 1 2; Row 1 1 4; Row 3 2 5].
Example C139_example : largest 3 (r_h <$> ex_rows) ∧ largest 5 (r_f <$> ex_rows) ∧ (∀ r, r ∈ ex_rows → 0 <= r_h r ∧ 0 <= r_f r) ∧
  (ipart 3 ≤ ipart 5)%nat.
Proof.
  assert (∀ v l, existsb (λ x, Qeq_bool x v) l = true → forallb (λ x, Qle_bool x v) l = true → largest v l) as H.
  { intros v l He Hf. apply existsb_exists in He as (x & Hx & E). rewrite forallb_forall in Hf. split.
    - exists x. split; [by apply elem_of_list_In|by apply Qeq_bool_iff].
    - intros y Hy%elem_of_list_In. by apply Qle_bool_iff, Hf. }
  split_and!; [by apply H|by apply H| |vm_compute; lia].
  intros r Hr. repeat (apply elem_of_cons in Hr as [->|Hr]; [split; by apply Qle_bool_iff|]). by apply elem_of_nil in Hr.
Qed.
(** So the table is not the one meant: half of the rows with h = 1 and depth 1 have an f above 3, but the table says
    none; and it says that all rows with h = 3 and depth 1 have, but there are no such rows. *)
Theorem C139_share_refuted : ∃ rows q, train rows = Some q ∧
  (∃ v, prob q 1 1 3 = Some v ∧ v == 0 ∧ share rows 1 1 3 == 1 # 2) ∧
  (∃ v, prob q 3 1 3 = Some v ∧ v == 1 ∧ share rows 3 1 3 == 0).
Proof.
  exists ex_rows. eexists. split; [vm_compute; reflexivity|]. split; (eexists; split; [vm_compute; reflexivity|split; vm_compute; reflexivity]).
Qed.

Print Assumptions C139_table.
Print Assumptions C139_bin_used.
Print Assumptions C139_fails.
Print Assumptions C139_share_refuted.
