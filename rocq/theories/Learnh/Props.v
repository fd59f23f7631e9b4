(** Properties C133 and C134: rows about a solution, and a sample of rows. *)
From stdpp Require Import prelude.
From Coq Require Import ZArith Lia ZifyBool ZifyNat.
From Verif.Search Require Import Domain Model Open Props.
From Verif.Learnh Require Import Model.
Local Open Scope Z_scope.

(** ** C133 *)
Lemma walk_snoc_inv {D} (ss : list (St D)) : ∀ (os : list (Op D)) s t o k, walk (ss ++ [s; t]) (os ++ [o]) k →
  ∃ k', walk (ss ++ [s]) os k' ∧ o ∈ ops s ∧ t = dest s o ∧ k = k' + cost s o.
Proof.
  induction ss as [|s1 ss IH]; intros os s t o k Hw; cbn [app] in Hw.
  - assert (length os = 0%nat) as Hl. { apply walk_length in Hw. rewrite app_length in Hw. cbn in Hw. lia. }
    destruct os; [|done]. cbn [app] in *. inversion Hw as [|s2 o2 ss2 os2 k2 Ho Hw2]; subst.
    exists 0. split_and!; [constructor|done|done|]. inversion Hw2; subst. lia.
  - destruct os as [|o1 os].
    { exfalso. apply walk_length in Hw. cbn in Hw. rewrite app_length in Hw. cbn in Hw. lia. }
    cbn [app] in Hw. inversion Hw as [|s2 o2 ss2 os2 k2 Ho Hw2]; subst.
    match goal with H : dest s1 o1 :: _ = _ |- _ => rename H into E2 end.
    rewrite E2 in Hw2. destruct (IH os s t o k2 Hw2) as (k' & Hk & Ho' & Ht & ->). exists (cost s1 o1 + k'). split_and!; [|done|done|lia].
    destruct ss as [|s3 ss]; cbn [app] in *.
    + injection E2 as E2 _. subst. by constructor.
    + injection E2 as E2 _. subst. by constructor.
Qed.

Lemma dump_spec {D} (path : list (St D)) : ∀ (os : list (Op D)) hs ds post postos k s0,
  walk (reverse path) (reverse os) k → head (reverse path) = Some s0 →
  (∀ s, head path = Some s → walk (s :: post) postos hs) → ds = Z.of_nat (length postos) →
  ((dump path os hs ds).*1.*1 = path) ∧
  ∀ s h d, (s, h, d) ∈ dump path os hs ds → ∃ pre preos k1 post' postos', walk (pre ++ [s]) preos k1 ∧ head (pre ++ [s]) = Some s0 ∧
    walk (s :: post') postos' h ∧ last (s :: post') = last (reverse path ++ post) ∧ d = Z.of_nat (length postos') ∧ k1 + h = k + hs.
Proof.
  induction path as [|s path IH]; intros os hs ds post postos k s0 Hw Hh Hp Hd; [done|].
  specialize (Hp s eq_refl) as Hp'. cbn [dump fmap list_fmap].
  assert (Hthis : ∃ pre preos k1 post' postos', walk (pre ++ [s]) preos k1 ∧ head (pre ++ [s]) = Some s0 ∧
    walk (s :: post') postos' hs ∧ last (s :: post') = last (reverse (s :: path) ++ post) ∧ ds = Z.of_nat (length postos') ∧ k1 + hs = k + hs).
  { exists (reverse path), (reverse os), k, post, postos. rewrite reverse_cons in *. split_and!; try done.
    rewrite <-app_assoc. cbn [app]. destruct post as [|x post]; [by rewrite last_snoc|]. rewrite !last_cons_cons, last_app_cons. by rewrite !last_cons_cons. }
  destruct path as [|p path].
  { cbn. split; [done|]. intros s' h d [[= -> -> ->]|Hx%elem_of_nil]%elem_of_cons; done. }
  destruct os as [|o os].
  { exfalso. apply walk_length in Hw. rewrite !reverse_length in Hw. done. }
  rewrite !reverse_cons, <-app_assoc in Hw. cbn [app] in Hw. apply walk_snoc_inv in Hw as (k' & Hw' & Ho & -> & ->).
  destruct (IH os (hs + cost p o) (ds + 1) (dest p o :: post) (o :: postos) k' s0) as [H1 H2].
  - by rewrite reverse_cons.
  - rewrite reverse_cons in Hh. destruct (reverse (p :: path)) eqn:E; [|done]. apply (f_equal length) in E. rewrite reverse_length in E. done.
  - intros s [= <-]. rewrite Z.add_comm. by constructor.
  - cbn. lia.
  - split; [by rewrite H1|]. intros s h d [[= -> -> ->]|Hx]%elem_of_cons; [done|].
    destruct (H2 _ _ _ Hx) as (pre & preos & k1 & post' & postos' & G1 & G2 & G3 & G4 & G5 & G6).
    exists pre, preos, k1, post', postos'. split_and!; try done; [|lia]. rewrite G4. rewrite (reverse_cons (p :: path)), <-app_assoc. done.
Qed.

(** The rows written about the solution of A*: with an admissible heuristic h* is the cost of a cheapest solution from the
    state of the row, and d* the number of operators of one. *)
Theorem C133_rows D (h : St D → Z) o lim :
  domain_ok D → ol_ok astar_lt nonneg_key o → (∀ s, 0 ≤ h s) → admissible h →
  ∀ s0 fuel path os s', astar D h o lim s0 fuel = Some (Some (path, os), s') →
  (dumpgoal path os).*1.*1 = path ∧
  ∀ s hstar dstar, (s, hstar, dstar) ∈ dumpgoal path os →
    (∃ ss os', solution s ss os' hstar ∧ dstar = Z.of_nat (length os')) ∧ ∀ ss os' k, solution s ss os' k → hstar ≤ k.
Proof.
  intros OK OL Hh Hadm s0 fuel path os s' Hs. destruct (C35_astar_optimal D h o lim OK OL Hh Hadm _ _ _ _ _ Hs) as (k & (Hw & Hh0 & t & Hl & Hg) & Hmin).
  destruct (dump_spec path os 0 0 [] [] k s0 Hw Hh0) as [H1 H2]; [intros; constructor|done|]. split; [done|].
  intros s hstar dstar Hin. destruct (H2 _ _ _ Hin) as (pre & preos & k1 & post & postos & G1 & G2 & G3 & G4 & G5 & G6). rewrite app_nil_r in G4.
  split.
  - exists (s :: post), postos. split; [|done]. split; [done|]. split; [done|]. exists t. by rewrite G4.
  - intros ss os' k' (Hw' & Hh' & t' & Hl' & Hg'). destruct ss as [|s1 ss]; [done|]. cbn in Hh'. injection Hh' as ->.
    enough (k ≤ k1 + k') by lia. apply (Hmin ((pre ++ [s]) ++ ss) (preos ++ os')). split.
    + apply (walk_app _ _ _ _ _ _ _ s); [done|by rewrite last_snoc|done].
    + split; [by destruct pre|]. exists t'. split; [|done]. rewrite <-app_assoc. cbn [app].
      rewrite last_app_cons. done.
Qed.

(** The columns are read in the order they were written. *)
Theorem C133_columns num strtod q forh : (∀ x, strtod (num x) = x) →
  readrow strtod forh (words num q) = Some ([q_f q - q_g q; q_g q; q_d q; q_depth q], if forh : bool then q_hstar q else q_dstar q).
Proof. intros H. destruct forh; cbn; rewrite !H; done. Qed.

(** ** C134 *)
Section sample.
Context (sz : nat).
Notation after n cs := (sample sz 0 cs (empty sz) (seq 0 n)).
(** the numbers drawn for which the record number [j] is in the sample of [n] records *)
Definition hits (j n : nat) : nat := length (filter (λ cs, Some j ∈ after n cs) (sequences sz 0 n)).
Definition total (n : nat) : nat := length (sequences sz 0 n).

Lemma sample_snoc {A} c a : ∀ (recs : list A) t cs rows, length cs = length recs →
  sample sz t (cs ++ [c]) rows (recs ++ [a]) = keep sz (t + length recs) c (sample sz t cs rows recs) a.
Proof.
  induction recs as [|a1 recs IH]; intros t [|c1 cs] rows Hl; try done; cbn [app sample length]; [by rewrite Nat.add_0_r|].
  rewrite IH by (cbn in Hl; lia). by replace (S t + length recs)%nat with (t + S (length recs))%nat by lia.
Qed.

Lemma seqs_elem n cs : cs ∈ sequences sz 0 (S n) ↔ ∃ cs' c, cs = cs' ++ [c] ∧ cs' ∈ sequences sz 0 n ∧ c ∈ draws sz n.
Proof.
  cbn [sequences]. rewrite elem_of_list_bind. split.
  - intros (cs' & H & Hin). apply elem_of_list_bind in H as (c & Hc & Hd). apply elem_of_list_singleton in Hc as ->. by exists cs', c.
  - intros (cs' & c & -> & H1 & H2). exists cs'. split; [|done]. apply elem_of_list_bind. exists c. split; [by left|done].
Qed.
Lemma seqs_length n : ∀ cs, cs ∈ sequences sz 0 n → length cs = n.
Proof.
  induction n as [|n IH]; intros cs; [by intros ->%elem_of_list_singleton|]. intros (cs' & c & -> & H & _)%seqs_elem.
  rewrite app_length. rewrite (IH _ H). cbn. lia.
Qed.
Lemma after_snoc n cs c : length cs = n → after (S n) (cs ++ [c]) = keep sz n c (after n cs) n.
Proof. intros Hl. rewrite seq_S. rewrite sample_snoc by (by rewrite seq_length). by rewrite seq_length. Qed.

(** The rows: filled from the front, with different records. *)
Lemma after_ok n : ∀ cs, cs ∈ sequences sz 0 n → length (after n cs) = sz ∧
  (∀ i x, after n cs !! i = Some (Some x) → (x < n)%nat) ∧
  (∀ i, (i < sz)%nat → (i < n)%nat → ∃ x, after n cs !! i = Some (Some x)) ∧
  (∀ i j x, after n cs !! i = Some (Some x) → after n cs !! j = Some (Some x) → i = j).
Proof.
  induction n as [|n IH]; intros cs Hcs.
  - cbn in Hcs. apply elem_of_list_singleton in Hcs as ->. cbn. unfold empty. rewrite replicate_length. split_and!; [done| |lia|].
    all: intros i; intros; exfalso; match goal with H : replicate _ _ !! i = Some (Some _) |- _ => by apply lookup_replicate in H as [? _] end.
  - apply seqs_elem in Hcs as (cs' & c & -> & Hcs & Hc). destruct (IH _ Hcs) as (H1 & H2 & H3 & H4). rewrite after_snoc by (by apply seqs_length).
    unfold keep. destruct (decide (place sz n c < sz)%nat) as [Hp|Hp].
    + split_and!; [by rewrite insert_length| | |].
      * intros i x [(<- & [= <-] & _)|[_ H]]%list_lookup_insert_Some; [lia|]. apply H2 in H. lia.
      * intros i Hi Hn. destruct (decide (i = place sz n c)) as [->|Hne]; [rewrite list_lookup_insert by lia; by eexists|].
        rewrite list_lookup_insert_ne by done. apply H3; [done|]. unfold place in Hne. case_decide; lia.
      * intros i j x [(<- & [= <-] & _)|[Hi Hx]]%list_lookup_insert_Some [(<- & Hy & _)|[Hj Hy]]%list_lookup_insert_Some; try done.
        -- exfalso. apply H2 in Hy. lia.
        -- injection Hy as <-. exfalso. apply H2 in Hx. lia.
        -- by apply (H4 i j x).
    + split_and!; [done| | |done].
      * intros i x Hx. apply H2 in Hx. lia.
      * intros i Hi Hn. apply H3; [done|]. unfold place in Hp. case_decide; lia.
Qed.

Lemma count_lt a m : (a ≤ m)%nat → length (filter (λ c, c < a)%nat (seq 0 m)) = a.
Proof.
  intros H. replace m with (a + (m - a))%nat by lia. rewrite seq_app, filter_app, app_length. cbn.
  assert (∀ l : list nat, (∀ x, x ∈ l → (x < a)%nat) → filter (λ c, c < a)%nat l = l) as Hall.
  { induction l as [|x l IH]; intros Hl; [done|]. rewrite filter_cons, decide_True by (apply Hl; left). f_equal. apply IH. intros y Hy. apply Hl. by right. }
  assert (∀ l : list nat, (∀ x, x ∈ l → ¬ (x < a)%nat) → filter (λ c, c < a)%nat l = []) as Hnone.
  { induction l as [|x l IH]; intros Hl; [done|]. rewrite filter_cons, decide_False by (apply Hl; left). apply IH. intros y Hy. apply Hl. by right. }
  rewrite Hall, Hnone, seq_length; [cbn; lia|intros x Hx%elem_of_seq; lia|intros x Hx%elem_of_seq; lia].
Qed.
Lemma count_ne i : ∀ m a, (a ≤ i < a + m)%nat → length (filter (λ c, c ≠ i) (seq a m)) = (m - 1)%nat.
Proof.
  assert (Hall : ∀ m a, (i < a)%nat → length (filter (λ c, c ≠ i) (seq a m)) = m).
  { induction m as [|m IH]; intros a Ha; [done|]. cbn [seq]. rewrite filter_cons, decide_True by lia. cbn. rewrite IH; lia. }
  induction m as [|m IH]; intros a H; [lia|]. cbn [seq]. rewrite filter_cons. destruct (decide (a = i)) as [->|Hne].
  - rewrite decide_False by (intros Hx; by apply Hx). rewrite Hall; lia.
  - rewrite decide_True by done. cbn. rewrite IH; lia.
Qed.

Lemma count_bind (P : list nat → Prop) `{∀ x, Decision (P x)} (M : list nat) (w : nat) (Q : list nat → Prop) `{∀ x, Decision (Q x)} (L : list (list nat)) :
  (∀ cs, cs ∈ L → length (filter (λ c, P (cs ++ [c])) M) = if decide (Q cs) then w else 0%nat) →
  length (filter P (cs ← L; c ← M; [cs ++ [c]])) = (w * length (filter Q L))%nat.
Proof.
  induction L as [|cs L IH]; intros HL; [cbn; lia|]. cbn [mbind list_bind]. rewrite filter_app, app_length. rewrite IH by (intros x Hx; apply HL; by right).
  rewrite filter_cons. specialize (HL cs (elem_of_list_here _ _)).
  assert (length (filter P (c ← M; [cs ++ [c]])) = length (filter (λ c, P (cs ++ [c])) M)) as ->.
  { clear. induction M as [|c M IH]; [done|]. cbn [mbind list_bind app]. rewrite !filter_cons. case_decide; cbn; by rewrite IH. }
  rewrite HL. case_decide; cbn; lia.
Qed.

Lemma filter_all {A} (l : list A) : filter (λ _, True) l = l.
Proof. induction l as [|x l IH]; [done|]. rewrite filter_cons, decide_True by done. by rewrite IH. Qed.

Lemma total_step n : total (S n) = (length (draws sz n) * total n)%nat.
Proof.
  unfold total. cbn [sequences]. rewrite <-(filter_all (_ ≫= _)). rewrite <-(filter_all (sequences sz 0 n)) at 2.
  apply count_bind. intros cs _. rewrite decide_True by done. cbn [Nat.add]. f_equal. apply filter_all.
Qed.

Lemma total_pos n : (0 < total n)%nat.
Proof.
  induction n as [|n IH]; [unfold total; cbn; lia|]. rewrite total_step. unfold draws, integers. case_decide; cbn [length]; rewrite ?seq_length; lia.
Qed.

Lemma filter_ext_len (P Q : nat → Prop) `{∀ x, Decision (P x)} `{∀ x, Decision (Q x)} (l : list nat) :
  (∀ x, x ∈ l → P x ↔ Q x) → length (filter P l) = length (filter Q l).
Proof.
  induction l as [|x l IH]; intros Hl; [done|]. rewrite !filter_cons. specialize (Hl x (elem_of_list_here _ _)) as Hx.
  repeat case_decide; cbn; rewrite IH; try done; try tauto; intros y Hy; apply Hl; by right.
Qed.

Lemma in_after n cs j : Some j ∈ after n cs ↔ ∃ i, after n cs !! i = Some (Some j).
Proof. apply elem_of_list_lookup. Qed.

Lemma hits_old j n : (sz ≤ n)%nat → (j < n)%nat → hits j (S n) = ((n + 1) * hits j n)%nat.
Proof.
  intros Hn Hj. unfold hits. cbn [sequences]. apply (count_bind (λ cs, Some j ∈ after (S n) cs)). intros cs Hcs.
  destruct (after_ok n cs Hcs) as (H1 & H2 & H3 & H4). pose proof (seqs_length n cs Hcs) as Hl.
  unfold draws. rewrite decide_False by lia. unfold integers. cbn [Nat.add]. replace (n + 1 + 1 - 0)%nat with (n + 2)%nat by lia.
  destruct (decide (Some j ∈ after n cs)) as [Hin|Hin].
  - apply in_after in Hin as [i Hi]. pose proof (lookup_lt_Some _ _ _ Hi) as Hlt. rewrite H1 in Hlt.
    rewrite (filter_ext_len _ (λ c, c ≠ i)); [rewrite count_ne; lia|]. intros c _. rewrite after_snoc by done. unfold keep, place. rewrite (decide_False (P := (n < sz)%nat)) by lia.
    destruct (decide (c < sz)%nat) as [Hc|Hc].
    + rewrite elem_of_list_lookup. split.
      * intros [x Hx] ->. apply list_lookup_insert_Some in Hx as [(<- & [= ->] & _)|[Hne Hx]]; [lia|]. apply Hne. by apply (H4 i x j).
      * intros Hne. exists i. by rewrite list_lookup_insert_ne.
    + split; [lia|]. intros _. apply in_after. by exists i.
  - rewrite (filter_ext_len _ (λ c, False)); [induction (seq 0 (n + 2)) as [|x l IH]; [done|]; by rewrite filter_cons, decide_False by tauto|].
    intros c _. split; [|done]. rewrite after_snoc by done. unfold keep, place. rewrite (decide_False (P := (n < sz)%nat)) by lia.
    case_decide; [|done]. intros (x & Hx)%elem_of_list_lookup. apply list_lookup_insert_Some in Hx as [(<- & [= ->] & _)|[Hne Hx]]; [lia|].
    apply Hin, in_after. by exists x.
Qed.

Lemma hits_new n : (sz ≤ n)%nat → hits n (S n) = (sz * total n)%nat.
Proof.
  intros Hn. unfold hits, total. cbn [sequences]. rewrite <-(filter_all (sequences sz 0 n)) at 2. apply (count_bind (λ cs, Some n ∈ after (S n) cs)). intros cs Hcs.
  destruct (after_ok n cs Hcs) as (H1 & H2 & H3 & H4). pose proof (seqs_length n cs Hcs) as Hl. rewrite (decide_True (P := True)) by done.
  unfold draws. rewrite decide_False by lia. unfold integers. cbn [Nat.add]. replace (n + 1 + 1 - 0)%nat with (n + 2)%nat by lia.
  rewrite (filter_ext_len _ (λ c, c < sz)%nat); [apply count_lt; lia|]. intros c _. rewrite after_snoc by done. unfold keep, place. rewrite (decide_False (P := (n < sz)%nat)) by lia.
  destruct (decide (c < sz)%nat) as [Hc|Hc].
  - split; [done|]. intros _. apply elem_of_list_lookup. exists c. apply list_lookup_insert. lia.
  - split; [|lia]. intros (x & Hx)%in_after. apply H2 in Hx. lia.
Qed.

Lemma hits_first n : (n ≤ sz)%nat → total n = 1%nat ∧ ∀ j, (j < n)%nat → hits j n = 1%nat.
Proof.
  induction n as [|n IH]; intros Hn; [split; [done|lia]|]. destruct IH as [Ht Hh]; [lia|]. split.
  - rewrite total_step, Ht. unfold draws. by rewrite decide_True by lia.
  - intros j Hj. unfold hits. cbn [sequences].
    rewrite (count_bind (λ cs, Some j ∈ after (S n) cs) _ 1%nat (λ _, True)); [rewrite filter_all; unfold total in Ht; lia|].
    intros cs Hcs. rewrite decide_True by done. destruct (after_ok n cs Hcs) as (H1 & H2 & H3 & H4). pose proof (seqs_length n cs Hcs) as Hl.
    unfold draws. cbn [Nat.add]. rewrite decide_True by lia. rewrite filter_cons, decide_True; [done|].
    assert (Hall : ∀ i, (i < n)%nat → after n cs !! i = Some (Some i)).
    { clear -Hcs Hn. revert cs Hcs. induction n as [|n IH]; intros cs Hcs i Hi; [lia|]. apply seqs_elem in Hcs as (cs' & c & -> & Hcs & _).
      destruct (after_ok n cs' Hcs) as (H1 & _). rewrite after_snoc by (by apply seqs_length). unfold keep, place. rewrite !(decide_True (P := (n < sz)%nat)) by lia. rewrite ?(decide_True (P := (n < sz)%nat)) by lia.
      destruct (decide (i = n)) as [->|Hne]; [apply list_lookup_insert; lia|]. rewrite list_lookup_insert_ne by done. apply IH; [lia|done|lia]. }
    rewrite after_snoc by done. unfold keep, place. rewrite !(decide_True (P := (n < sz)%nat)) by lia. rewrite ?(decide_True (P := (n < sz)%nat)) by lia. apply elem_of_list_lookup. exists j.
    destruct (decide (j = n)) as [->|Hne]; [apply list_lookup_insert; lia|]. rewrite list_lookup_insert_ne by done. apply Hall. lia.
Qed.

(** C134: after n records, each of the first sz is in the sample with the probability (sz + 1) / (n + 1), each of the others
    with sz / (n + 1). *)
Theorem C134_sample n j : (sz ≤ n)%nat → (j < n)%nat →
  (0 < total n ∧ (n + 1) * hits j n = (if decide (j < sz) then sz + 1 else sz) * total n)%nat.
Proof.
  induction n as [|n IH]; [lia|]. intros Hn Hj. destruct (decide (sz = S n)) as [Heq|Hne].
  - destruct (hits_first (S n)) as [Ht Hh]; [lia|]. rewrite Ht, (Hh j) by lia. rewrite decide_True by lia. lia.
  - assert (Hd : length (draws sz n) = (n + 2)%nat). { unfold draws. rewrite decide_False by lia. unfold integers. rewrite seq_length. lia. }
    assert (0 < total n)%nat as Ht.
    { apply total_pos. }
    rewrite total_step, Hd. split; [lia|]. destruct (decide (j = n)) as [->|Hjn].
    + rewrite hits_new by lia. rewrite decide_False by lia. lia.
    + rewrite hits_old by lia. destruct IH as [_ IH]; [lia|lia|].
      replace ((S n + 1) * ((n + 1) * hits j n))%nat with ((n + 2) * ((n + 1) * hits j n))%nat by lia. rewrite IH. lia.
Qed.

(** C134: the rows checked before the fit are filled, with different records, whatever is drawn. *)
Theorem C134_filled n cs : cs ∈ sequences sz 0 n → ∀ i, (i < n `min` sz)%nat →
  ∃ x, (x < n)%nat ∧ after n cs !! i = Some (Some x) ∧ ∀ i', after n cs !! i' = Some (Some x) → i' = i.
Proof.
  intros Hcs i Hi. destruct (after_ok n cs Hcs) as (H1 & H2 & H3 & H4). destruct (H3 i) as [x Hx]; [lia|lia|].
  exists x. split; [by apply (H2 i)|]. split; [done|]. intros i' Hi'. by apply (H4 i' i x).
Qed.
End sample.

(** The sample is not uniform: the first records are too likely. *)
Theorem C134_uniform_refuted : ¬ ∀ sz n j, (sz ≤ n)%nat → (j < n)%nat → (n * hits sz j n = sz * total sz n)%nat.
Proof. intros H. specialize (H 1%nat 2%nat 0%nat ltac:(lia) ltac:(lia)). vm_compute in H. discriminate. Qed.

Example C134_ex : (total 2 4 = 20 ∧ hits 2 0 4 = 12 ∧ hits 2 3 4 = 8)%nat.
Proof. vm_compute. done. Qed.

(** The rows of the run of [ex_astar_int], to which [C133_rows] applies ([ex_dom_ok], [astar_int_ok], [ex_h_nonneg],
    [ex_admissible]). *)
Example C133_ex :
  dumpgoal (D := ex_dom) [3; 1; 2; 0]%nat [3; 1; 2]%nat = [(3%nat, 0, 0); (1%nat, 5, 1); (2%nat, 6, 2); (0%nat, 7, 3)].
Proof. vm_compute. reflexivity. Qed.
Print Assumptions C133_rows.
Print Assumptions C133_columns.
Print Assumptions C134_sample.
Print Assumptions C134_filled.
Print Assumptions C134_uniform_refuted.
