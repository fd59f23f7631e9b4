(** The results database: files stored under attributes are found again (C68). *)
From stdpp Require Import prelude gmap.
From Coq Require Import ZArith Lia.
From Verif Require Import Common.Fuel Text.Model Text.Props Rdb.Model Rdb.Attrs Rdb.Paths.
Local Open Scope Z_scope.

(** ** Specification *)

(** Names of files and directories that stand for values: not "", "." or "..", without '/' and without "KEY=". *)
Record good_name (c : str) : Prop := {
  gn_nonempty : c ≠ []; gn_dot : c ≠ [dot]; gn_dotdot : c ≠ [dot; dot]; gn_slash : slash ∉ c; gn_key : ¬ haskey c
}.
(** Keys become part of a file name. *)
Definition good_key (k : str) : Prop := slash ∉ k.

(** A database directory: every directory holds one file KEY=k, and its other entries are the values of k; a key does
    not occur again further down. *)
Inductive db (used : list str) : node → Prop :=
| db_file : db used File
| db_empty : db used (Dir [])
| db_dir k es :
    k ∉ used → good_key k → NoDup es.*1 → (KEYeq ++ k, File) ∈ es →
    (∀ c m, (c, m) ∈ es → c ≠ KEYeq ++ k → good_name c) →
    (∀ c m, (c, m) ∈ es → c ≠ KEYeq ++ k → db (k :: used) m) →
    db used (Dir es).
(** The attributes of the files in a directory, outermost first. *)
Inductive stored : node → alist → Prop :=
| stored_file : stored File []
| stored_dir k es c m av : (KEYeq ++ k, File) ∈ es → (c, m) ∈ es → ¬ haskey c → stored m av → stored (Dir es) ((k, c) :: av).

(** The path below [r] that the values spell. *)
Definition pathof (r : str) (av : alist) : str := foldl under r av.*2.

(** Below the path [r] there is a database (or nothing yet, in an existing directory) whose files have just the
    attributes [P]. *)
Definition database (place : list str → str → nat) (t : node) (r : str) (P : alist → Prop) : Prop :=
  r ≠ [] ∧ ¬ haskey r ∧
  ((find t (comps r) = Noent ∧ (∃ t', setat place t (comps r) (Dir []) = Some t') ∧ ∀ av, ¬ P av) ∨
   ∃ es, find t (comps r) = Found (Dir es) ∧ db [] (Dir es) ∧ ∀ av, P av ↔ stored (Dir es) av).

(** Attributes that can be stored. *)
Definition storable (al : alist) : Prop := Forall (λ p, good_key p.1 ∧ good_name p.2) al.
(** No value differs from the one asked for. *)
Definition compatible (q av : alist) : Prop := ∀ k v v', (k, v) ∈ q → (k, v') ∈ av → v = v'.
(** [av] has the attributes [al], and others with the value UNSPECIFIED. *)
Definition completes (al av : alist) : Prop :=
  NoDup av.*1 ∧ (∀ k v, (k, v) ∈ al → (k, v) ∈ av) ∧ (∀ k v, (k, v) ∈ av → (k, v) ∈ al ∨ (k ∉ al.*1 ∧ v = unspecified)).

(** ** Queries *)
Lemma good_comps p c : good_name c → comps (under p c) = comps p ++ [c].
Proof. intros H. by apply comps_under; apply H. Qed.

Lemma stored_file_inv av : stored File av ↔ av = [].
Proof. split; [by inversion 1|intros ->; constructor]. Qed.
Lemma compatible_cons_out q k c av : k ∉ q.*1 → compatible q ((k, c) :: av) ↔ compatible q av.
Proof.
  intros Hk. unfold compatible. split; intros H k' v v' H1 H2; [eapply H; [done|by right]|].
  apply elem_of_cons in H2 as [E|H2]; [|by eapply H]. injection E as -> ->. apply (elem_of_list_fmap_1 fst) in H1. done.
Qed.
Lemma pair_unique (l : alist) k v v' : NoDup l.*1 → (k, v) ∈ l → (k, v') ∈ l → v = v'.
Proof.
  intros Hnd H1 H2. apply (elem_of_list_to_map (M := gmap str)) in H1; [|done]. apply (elem_of_list_to_map (M := gmap str)) in H2; [|done]. congruence.
Qed.
Lemma compatible_cons_in q k v c av : NoDup q.*1 → (k, v) ∈ q → compatible q ((k, c) :: av) ↔ c = v ∧ compatible q av.
Proof.
  intros Hnd Hk. unfold compatible. split.
  - intros H. split; [symmetry; eapply H; [done|left]|]. intros k' v1 v2 H1 H2. eapply H; [done|by right].
  - intros [-> H] k' v1 v2 H1 [E|H2]%elem_of_cons; [|by eapply H]. injection E as -> ->. by eapply pair_unique.
Qed.

(** The function addfiles, as it stands in [collect]. *)
Definition addf (fuel : nat) (t : node) (a : rattrs) (path : str) (files : list str) : option (outcome (list str)) :=
  match strstr path KEYeq with
  | Some _ => Some (Ok files)
  | None =>
      bindf (Some (fileexists t path)) (λ ex,
      if negb ex then Some (Ok files) else
      bindf (Some (isdir t path)) (λ d : bool,
      if d then collect fuel t path a files else Some (Ok (files ++ [path]))))
  end.

Lemma fileexists_found t p n : find t (comps p) = Found n → fileexists t p = Ok true.
Proof. unfold fileexists. by intros ->. Qed.
Lemma isdir_found t p es : find t (comps p) = Found (Dir es) → isdir t p = Ok true.
Proof. unfold isdir. by intros ->. Qed.
Lemma collect_dir_step fuel t p a files es k : p ≠ [] → ¬ haskey p → find t (comps p) = Found (Dir es) → keyed es k →
  collect (S fuel) t p a files =
    if mem a k then
      let (v, _) := lookup a k in
      if bool_decide (v = []) then Some Fatal else addf fuel t a (under p v) files
    else foldl (λ acc e, bindf acc (λ files, addf fuel t a e files)) (Some (Ok files)) (map (under p) es.*1).
Proof.
  intros Hp Hnk Hf Hk. cbn [collect]. rewrite (fileexists_found t p _ Hf), (isdir_found t p _ Hf). cbn [bindf negb orb].
  rewrite (getkey_keyed t p es k) by done. cbn [bindf]. destruct (mem a k).
  - destruct (lookup a k) as [v a']. rewrite pathcat_under by done. cbn [bindf]. done.
  - rewrite readdir_under, Hf by done. cbn [bindf]. done.
Qed.

Lemma db_keyed used es : db used (Dir es) → es = [] ∨ ∃ k, k ∉ used ∧ good_key k ∧ NoDup es.*1 ∧ keyed es k ∧
  (∀ c m, (c, m) ∈ es → ¬ haskey c → good_name c ∧ db (k :: used) m).
Proof.
  inversion 1 as [| |k es' Hu Hk Hnd Hin Hgn Hdb]; [by left|]. right. exists k. subst. split_and!; [done..| |].
  - split; [done|]. intros c m Hc Hne. eapply gn_key, Hgn; done.
  - intros c m Hc Hnk. assert (c ≠ KEYeq ++ k) by (intros ->; apply Hnk, haskey_key). eauto.
Qed.
Lemma keyed_unique es k k' : keyed es k → (KEYeq ++ k', File) ∈ es → k' = k.
Proof.
  intros [H1 H2] H. destruct (decide (KEYeq ++ k' = KEYeq ++ k)) as [E|E]; [by apply app_inv_head in E|].
  destruct (H2 _ _ H E). apply haskey_key.
Qed.
Lemma stored_keyed es k av : keyed es k → NoDup es.*1 →
  stored (Dir es) av ↔ ∃ c m av', av = (k, c) :: av' ∧ assoc es c = Some m ∧ ¬ haskey c ∧ stored m av'.
Proof.
  intros Hk Hnd. split.
  - inversion 1 as [|k' es' c m av' H1 H2 H3 H4]. subst. apply (keyed_unique _ _ _ Hk) in H1 as ->.
    exists c, m, av'. split_and!; [done|by apply in_assoc|done..].
  - intros (c & m & av' & -> & H1%assoc_in & H2 & H3). econstructor; [apply Hk|done..].
Qed.

Section query.
Context (t : node) (a : rattrs) (q : alist) (Hq : answers a q) (Hvals : Forall good_name q.*2).

(** What a search below a node yields. *)
Definition yields (m : node) (avs : list alist) : Prop :=
  NoDup avs ∧ ∀ av, av ∈ avs ↔ stored m av ∧ compatible q av.

Lemma collect_dir used n : db used n → ∀ es p, n = Dir es → p ≠ [] → ¬ haskey p → find t (comps p) = Found n →
  ∃ K avs, yields n avs ∧ ∀ fuel files, (K ≤ fuel)%nat → collect fuel t p a files = Some (Ok (files ++ (pathof p <$> avs))).
Proof using Hq Hvals.
  induction 1 as [used|used|used k es Hused Hgk Hnd Hin Hgn Hdb IH]; intros es' p E Hp Hnk Hf; [done| |].
  { exists 1%nat, []. split.
    - split; [constructor|]. intros av. split; [by intros ?%elem_of_nil|]. intros [H _]. inversion H as [|????? H1]. by apply elem_of_nil in H1.
    - intros [|fuel] files Hfuel; [lia|]. cbn [collect]. rewrite (fileexists_found t p _ Hf), (isdir_found t p _ Hf). cbn [bindf negb orb].
      rewrite (getkey_none t p []) by (done || (by intros ?? ?%elem_of_nil)). cbn [bindf]. by rewrite app_nil_r. }
  injection E as <-.
  assert (keyed es k) as Hkd. { split; [done|]. intros c m Hc Hne. eapply gn_key, Hgn; done. }
  (* one entry *)
  assert (∀ c m, assoc es c = Some m → ¬ haskey c → ∃ K avs, yields m avs ∧
    ∀ fuel files, (K ≤ fuel)%nat → addf fuel t a (under p c) files = Some (Ok (files ++ (pathof (under p c) <$> avs)))) as Hone.
  { intros c m Hm Hc. pose proof (assoc_in _ _ _ Hm) as Hm'. assert (c ≠ KEYeq ++ k) as Hck by (intros ->; apply Hc, haskey_key).
    pose proof (Hgn _ _ Hm' Hck) as Hg.
    assert (find t (comps (under p c)) = Found m) as Hf'. { rewrite good_comps by done. by eapply find_snoc. }
    destruct m as [|es1].
    - exists 0%nat, [[]]. split.
      + split; [apply NoDup_singleton|]. intros av. rewrite stored_file_inv, elem_of_list_singleton. split; [|by intros []].
        intros ->. split; [done|]. intros k' v v' _ ?%elem_of_nil. done.
      + intros fuel files _. unfold addf. rewrite (proj2 (strstr_none _)) by (by apply nokey_under).
        unfold fileexists, isdir. rewrite Hf'. done.
    - destruct (IH _ _ Hm' Hck es1 (under p c)) as (K & avs & Hy & Hc'); [done|by apply under_ne|by apply nokey_under|done|].
      exists K, avs. split; [done|]. intros fuel files Hfuel. unfold addf. rewrite (proj2 (strstr_none _)) by (by apply nokey_under).
      unfold fileexists, isdir. rewrite Hf'. cbn [bindf negb]. by apply Hc'. }
  assert (mem a k = bool_decide (k ∈ q.*1)) as Hmem by apply Hq.
  destruct (decide (k ∈ q.*1)) as [Hkq|Hkq].
  - rewrite bool_decide_true in Hmem by done. apply elem_of_list_fmap in Hkq as ([k' v] & Ek & Hkv). cbn in Ek. subst k'.
    assert (good_name v) as Hgv. { rewrite Forall_forall in Hvals. apply Hvals. by apply (elem_of_list_fmap_1 snd) in Hkv. }
    destruct (assoc es v) as [m|] eqn:Em.
    + destruct (Hone v m Em) as (K & avs & [Hy1 Hy2] & HK); [apply Hgv|]. exists (S K), ((λ av, (k, v) :: av) <$> avs). split.
      * split; [apply NoDup_fmap_2; [|done]; by intros ?? [= ->]|]. intros av. rewrite (stored_keyed es k) by done. rewrite elem_of_list_fmap. split.
        -- intros (av' & -> & [H1 H2]%Hy2). split; [by exists v, m, av'; split_and!; [..|apply Hgv|]|].
           eapply compatible_cons_in; [apply Hq|done|done].
        -- intros [(c & m' & av' & -> & H1 & H2 & H3) H4]. eapply compatible_cons_in in H4; [|apply Hq|done]. destruct H4 as [-> H4].
           exists av'. split; [done|]. apply Hy2. split; [|done]. congruence.
      * intros [|fuel] files Hfuel; [lia|]. erewrite collect_dir_step by done. rewrite Hmem. rewrite (an_lookup _ _ Hq _ _ Hkv).
        rewrite bool_decide_false by apply Hgv. rewrite HK by lia. do 3 f_equal. rewrite <-list_fmap_compose. done.
    + exists 1%nat, []. split.
      * split; [constructor|]. intros av. split; [by intros ?%elem_of_nil|]. rewrite (stored_keyed es k) by done.
        intros [(c & m' & av' & -> & H1 & H2 & H3) H4]. eapply compatible_cons_in in H4; [|apply Hq|done]. destruct H4 as [-> H4]. congruence.
      * intros [|fuel] files Hfuel; [lia|]. erewrite collect_dir_step by done. rewrite Hmem. rewrite (an_lookup _ _ Hq _ _ Hkv).
        rewrite bool_decide_false by apply Hgv. unfold addf. rewrite (proj2 (strstr_none _)) by (apply nokey_under; [done|apply Hgv]).
        unfold fileexists. rewrite good_comps by done. erewrite find_snoc_none by done. cbn. by rewrite app_nil_r.
  - rewrite bool_decide_false in Hmem by done.
    assert (∀ es0, (∀ c m, (c, m) ∈ es0 → assoc es c = Some m) → NoDup es0.*1 → ∃ K avs, NoDup avs ∧
      (∀ av, av ∈ avs ↔ ∃ c m av', (c, m) ∈ es0 ∧ ¬ haskey c ∧ av = (k, c) :: av' ∧ stored m av' ∧ compatible q av') ∧
      ∀ fuel files, (K ≤ fuel)%nat →
        foldl (λ acc e, bindf acc (λ files, addf fuel t a e files)) (Some (Ok files)) (map (under p) es0.*1) = Some (Ok (files ++ (pathof p <$> avs)))) as Hall.
    { induction es0 as [|[c m] es0 IHes]; intros Hsub Hnd0.
      - exists 0%nat, []. split_and!; [constructor| |].
        + intros av. split; [by intros ?%elem_of_nil|]. by intros (c & m & av' & ?%elem_of_nil & _).
        + intros fuel files _. cbn. by rewrite app_nil_r.
      - cbn [fmap list_fmap fst] in Hnd0. apply NoDup_cons in Hnd0 as [Hc0 Hnd0].
        destruct IHes as (K & avs & H1 & H2 & H3); [intros; apply Hsub; by right|done|].
        destruct (decide (strstr c KEYeq = None)) as [Hc|Hc].
        + apply strstr_none in Hc. destruct (Hone c m) as (K' & avs' & [Hy1 Hy2] & HK'); [apply Hsub; left|done|].
          exists (K `max` K')%nat, (((λ av, (k, c) :: av) <$> avs') ++ avs). split_and!.
          * apply NoDup_app. split_and!; [apply NoDup_fmap_2; [|done]; by intros ?? [= ->]| |done].
            intros av (av' & -> & _)%elem_of_list_fmap (c' & m' & av'' & Hin' & _ & E & _)%H2. injection E as -> ->. apply Hc0.
            by apply (elem_of_list_fmap_1 fst) in Hin'.
          * intros av. rewrite elem_of_app, elem_of_list_fmap, H2. split.
            -- intros [(av' & -> & [? ?]%Hy2)|(c' & m' & av' & ? & ? & ? & ? & ?)]; [exists c, m, av'; split_and!; [left|done..]|].
               exists c', m', av'. split_and!; [by right|done..].
            -- intros (c' & m' & av' & [E|Hin']%elem_of_cons & ? & -> & ? & ?); [|right; eauto 10]. injection E as -> ->. left. exists av'. split; [done|]. by apply Hy2.
          * intros fuel files Hfuel. cbn [fmap list_fmap fst map foldl]. cbn [bindf]. rewrite HK' by lia. rewrite H3 by lia.
            do 2 f_equal. rewrite <-app_assoc. f_equal. rewrite fmap_app. f_equal. rewrite <-list_fmap_compose. done.
        + exists K, avs. split_and!; [done| |].
          * intros av. rewrite H2. split; intros (c' & m' & av' & Hin' & ? & ? & ? & ?); exists c', m', av'; split_and!; try done; [by right|].
            apply elem_of_cons in Hin' as [E|?]; [|done]. injection E as -> ->. destruct Hc. by apply strstr_none.
          * intros fuel files Hfuel. cbn [fmap list_fmap fst map foldl]. cbn [bindf]. unfold addf at 2. rewrite strstr_under by done.
            destruct (strstr c KEYeq); [|done]. by apply H3. }
    destruct (Hall es) as (K & avs & H1 & H2 & H3); [intros; by apply in_assoc|done|].
    exists (S K), avs. split.
    + split; [done|]. intros av. rewrite H2, (stored_keyed es k) by done. split.
      * intros (c & m & av' & Hcm & Hc & -> & Hs & Hcp). split; [exists c, m, av'; split_and!; [done|by apply in_assoc|done..]|]. by apply compatible_cons_out.
      * intros [(c & m & av' & -> & Hcm%assoc_in & Hc & Hs) Hcp%compatible_cons_out]; [|done]. eauto 10.
    + intros [|fuel] files Hfuel; [lia|]. erewrite collect_dir_step by done. rewrite Hmem. apply H3. lia.
Qed.
End query.

(** Values without '/' can be read off the path. *)
Lemma comps_pathof r av : Forall good_name av.*2 → comps (pathof r av) = comps r ++ av.*2.
Proof.
  unfold pathof. revert r. induction av as [|[k c] av IH]; intros r; cbn [fmap list_fmap snd foldl]; [by rewrite app_nil_r|].
  intros [Hc Hav]%Forall_cons. rewrite IH by done. rewrite good_comps by done. by rewrite <-app_assoc.
Qed.
Lemma stored_good used n av : db used n → stored n av → Forall good_name av.*2 ∧ NoDup av.*1 ∧ (∀ k, k ∈ av.*1 → k ∉ used) ∧ Forall good_key av.*1.
Proof.
  intros Hdb Hs. revert used Hdb. induction Hs as [|k es c m av Hk Hc Hnk Hs IH]; intros used Hdb.
  - split_and!; [constructor|constructor|by intros k ?%elem_of_nil|constructor].
  - apply db_keyed in Hdb as [->|(k' & Hu & Hgk & Hnd & Hkd & Hch)]; [by apply elem_of_nil in Hk|].
    apply (keyed_unique _ _ _ Hkd) in Hk as ->. destruct (Hch _ _ Hc Hnk) as [Hg Hm].
    destruct (IH _ Hm) as (H1 & H2 & H3 & H4). cbn [fmap list_fmap fst snd]. split_and!; [by constructor| | |by constructor].
    + constructor; [|done]. intros Hin%H3. apply Hin. by left.
    + intros k [->|Hin%H3]%elem_of_cons; [done|]. intros Hu'. apply Hin. by right.
Qed.
Lemma stored_inj used n av av' : db used n → stored n av → stored n av' → av.*2 = av'.*2 → av = av'.
Proof.
  intros Hdb Hs. revert used av' Hdb. induction Hs as [|k es c m av Hk Hc Hnk Hs IH]; intros used av' Hdb Hs' E.
  - by apply stored_file_inv in Hs' as ->.
  - apply db_keyed in Hdb as [->|(k' & Hu & Hgk & Hnd & Hkd & Hch)]; [by apply elem_of_nil in Hk|].
    apply (keyed_unique _ _ _ Hkd) in Hk as ->. apply (stored_keyed es k') in Hs' as (c' & m' & av1 & -> & Hm' & Hnk' & Hs'); [|done..].
    cbn [fmap list_fmap snd] in E. injection E as -> E. apply in_assoc in Hc; [|done]. assert (m' = m) as -> by congruence.
    f_equal. eapply IH; [eapply Hch; [by apply assoc_in|done]|done|done].
Qed.

Section db.
Context (place : list str → str → nat).
Local Notation database := (database place).

(** A query lists exactly the paths of the files with no attribute that differs from the query, each once. *)
Theorem C68_withattrs t r P a q : database t r P → answers a q → Forall good_name q.*2 →
  ∃ ps, ends (λ fuel, withattrs fuel t r a) (Ok ps) ∧ NoDup ps ∧ ∀ p, p ∈ ps ↔ ∃ av, P av ∧ compatible q av ∧ p = pathof r av.
Proof.
  intros (Hr & Hnk & [(Hf & _ & HP)|(es & Hf & Hdb & HP)]) Hq Hv.
  - exists []. split_and!; [|constructor|].
    + exists 1%nat. intros [|n] Hn; [lia|]. unfold withattrs. cbn [collect]. assert (fileexists t r = Ok false) as -> by (unfold fileexists; by rewrite Hf). cbn [bindf]. by destruct (isdir t r) eqn:E; unfold isdir in E; rewrite Hf in E.
    + intros p. split; [by intros ?%elem_of_nil|]. intros (av & H & _). by apply HP in H.
  - destruct (collect_dir t a q Hq Hv _ _ Hdb es r eq_refl Hr Hnk Hf) as (K & avs & [Hy1 Hy2] & HK).
    exists (pathof r <$> avs). split_and!.
    + exists K. intros n Hn. unfold withattrs. by rewrite HK.
    + apply NoDup_fmap_2_strong; [|done]. intros av av' [H1 _]%Hy2 [H2 _]%Hy2 E. apply (f_equal comps) in E.
      rewrite !comps_pathof in E by (by eapply stored_good). apply app_inv_head in E. by eapply stored_inj.
    + intros p. rewrite elem_of_list_fmap. split.
      * intros (av & -> & [H1 H2]%Hy2). exists av. split_and!; [by apply HP|done..].
      * intros (av & H1%HP & H2 & ->). exists av. split; [done|]. by apply Hy2.
Qed.

(** ** New paths *)
Local Notation setent := (setent place).
Local Notation setat := (setat place).

(** Directories in which files may be added. *)
Record dirok (used : list str) (k : str) (es : list (str * node)) : Prop := {
  dk_used : k ∉ used; dk_key : good_key k; dk_nodup : NoDup es.*1; dk_keyed : keyed es k;
  dk_sub c m : (c, m) ∈ es → ¬ haskey c → good_name c ∧ db (k :: used) m
}.
Lemma dirok_db used k es : dirok used k es → db used (Dir es).
Proof.
  intros [H1 H2 H3 [H4 H4'] H5]. apply (db_dir _ k); try done; intros c m Hc Hne; apply (H5 c m Hc); by eapply H4'.
Qed.
Lemma dirok_set used k es c m : dirok used k es → good_name c → db (k :: used) m → dirok used k (setent es c m).
Proof.
  intros [H1 H2 H3 [H4 H4'] H5] Hc Hm. split; [done|done|by apply setent_NoDup| |].
  - split.
    + apply in_setent; [done|]. right. split; [|done]. intros <-. by apply (gn_key _ Hc), haskey_key.
    + intros c' m' [[-> ->]|[Hne Hin]]%in_setent; [|by eapply H4'|done]. intros _. apply Hc.
  - intros c' m' [[-> ->]|[Hne Hin]]%in_setent; [done|by apply H5|done].
Qed.
Lemma stored_set used k es c m av : dirok used k es → good_name c →
  stored (Dir (setent es c m)) av ↔ (∃ av', av = (k, c) :: av' ∧ stored m av') ∨
    ∃ c' m' av', c' ≠ c ∧ av = (k, c') :: av' ∧ assoc es c' = Some m' ∧ ¬ haskey c' ∧ stored m' av'.
Proof.
  intros Hd Hc. assert (dirok used k (setent es c File)) as Hd' by (apply dirok_set; [done..|constructor]).
  assert (keyed (setent es c m) k) as Hk.
  { destruct (dk_keyed _ _ _ Hd) as [H4 H4']. split.
    - apply in_setent; [apply Hd|]. right. split; [|done]. intros <-. by apply (gn_key _ Hc), haskey_key.
    - intros c' m' [[-> ->]|[Hne Hin]]%in_setent; [|by eapply H4'|apply Hd]. intros _. apply Hc. }
  rewrite stored_keyed; [|done|apply setent_NoDup, Hd]. split.
  - intros (c' & m' & av' & -> & Ha & Hnk & Hs). rewrite assoc_setent in Ha. destruct (decide (c = c')) as [<-|Hne].
    + injection Ha as <-. left. eauto.
    + right. eauto 10.
  - intros [(av' & -> & Hs)|(c' & m' & av' & Hne & -> & Ha & Hnk & Hs)].
    + exists c, m, av'. rewrite assoc_setent, decide_True by done. split_and!; try done. apply Hc.
    + exists c', m', av'. rewrite assoc_setent, decide_False by done. done.
Qed.

(** The directories that makepath makes. *)
Fixpoint mk (al : alist) : option node :=
  match al with
  | [] => None
  | (k, v) :: al => Some (Dir (match mk al with None => [(KEYeq ++ k, File)] | Some n => setent [(KEYeq ++ k, File)] v n end))
  end.
Lemma mk_nonempty al : al ≠ [] → ∃ n, mk al = Some n.
Proof. destruct al as [|[k v] al]; [done|]. cbn. eauto. Qed.
Lemma dirok_new used k : k ∉ used → good_key k → dirok used k [(KEYeq ++ k, File)].
Proof.
  intros Hu Hk. split; [done|done|apply NoDup_singleton| |].
  - split; [left|]. intros c n [= -> ->]%elem_of_list_singleton. done.
  - intros c m [= -> ->]%elem_of_list_singleton Hn. destruct Hn. apply haskey_key.
Qed.
Lemma assoc_new k c : ¬ haskey c → assoc [(KEYeq ++ k, File)] c = None.
Proof. intros Hc. cbn [assoc]. rewrite bool_decide_false; [done|]. intros <-. apply Hc, haskey_key. Qed.

(** State of the node at the end of a path that was made for the attributes [av], [n] being the node it starts at and [P]
    the attributes of the files there before. *)
Definition final (used : list str) (n : node) (av : alist) : Prop :=
  match find n av.*2 with
  | Found File => stored n av
  | Found (Dir _) => True
  | Noent => ∃ n', setat n av.*2 File = Some n' ∧ db used n' ∧ ∀ av', stored n' av' ↔ stored n av' ∨ av' = av
  | Err => False
  end.
Lemma final_cons used k es c m av : dirok used k es → good_name c → assoc es c = Some m → final (k :: used) m av → final used (Dir es) ((k, c) :: av).
Proof.
  intros Hd Hc Hm Hfin. unfold final in *. cbn [fmap list_fmap snd]. cbn [find]. rewrite Hm.
  destruct (find m av.*2) as [[|es1]| |] eqn:Ef; [|done| |done].
  - apply (stored_keyed es k); [apply Hd..|]. exists c, m, av. split_and!; try done. apply Hc.
  - destruct Hfin as (m' & H1 & H2 & H3). destruct av as [|[k1 c1] av]; [done|].
    exists (Dir (setent es c m')). split_and!.
    + apply setat_cons. right. split; [done|]. exists m, m'. done.
    + eapply dirok_db, dirok_set; done.
    + intros av'. rewrite (stored_set used k) by done. rewrite (stored_keyed es k) by apply Hd. split.
      * intros [(av1 & -> & [Hs| ->]%H3)|(c' & m1 & av1 & Hne & -> & Ha & Hnk & Hs)]; [left|by right|left].
        -- exists c, m, av1. split_and!; try done. apply Hc.
        -- exists c', m1, av1. done.
      * intros [(c' & m1 & av1 & -> & Ha & Hnk & Hs)| ->].
        -- destruct (decide (c' = c)) as [->|Hne]; [left|right; eauto 10]. exists av1. split; [done|]. apply H3. left. congruence.
        -- left. eexists. split; [done|]. apply H3. by right.
Qed.
Lemma final_one used k es c : dirok used k es → good_name c → final used (Dir es) [(k, c)].
Proof.
  intros Hd Hc. unfold final. cbn [fmap list_fmap snd find]. destruct (assoc es c) as [[|es1]|] eqn:Ea; [|done|].
  - apply (stored_keyed es k); [apply Hd..|]. exists c, File, []. split_and!; try done; [apply Hc|constructor].
  - exists (Dir (setent es c File)). split_and!; [done|eapply dirok_db, dirok_set; [done..|constructor]|].
    intros av'. rewrite (stored_set used k) by done. rewrite (stored_keyed es k) by apply Hd. split.
    + intros [(av1 & -> & ->%stored_file_inv)|(c' & m1 & av1 & Hne & -> & Ha & Hnk & Hs)]; [by right|left]. exists c', m1, av1. done.
    + intros [(c' & m1 & av1 & -> & Ha & Hnk & Hs)| ->]; [right|left].
      * exists c', m1, av1. split_and!; try done. congruence.
      * exists []. split; [done|constructor].
Qed.

Lemma mk_spec al used n : mk al = Some n → NoDup al.*1 → storable al → (∀ k, k ∈ al.*1 → k ∉ used) →
  db used n ∧ (∀ av, ¬ stored n av) ∧ final used n al.
Proof.
  revert used n. induction al as [|[k v] al IH]; intros used n; [done|]. cbn [mk fmap list_fmap fst]. intros [= <-] [Hk Hnd]%NoDup_cons.
  intros [[Hgk Hgv] Hst]%Forall_cons Hu. cbn [fst snd] in *. assert (k ∉ used) as Hku by (apply Hu; left).
  pose proof (dirok_new used k Hku Hgk) as Hd0.
  assert (∀ av, ¬ stored (Dir [(KEYeq ++ k, File)]) av) as Hns.
  { intros av. rewrite (stored_keyed _ k) by apply Hd0. intros (c & m & av' & _ & Ha & Hnk & _). by rewrite assoc_new in Ha. }
  destruct (mk al) as [m|] eqn:Em.
  - destruct (IH (k :: used) m) as (H1 & H2 & H3); [done|done|done| |].
    { intros k' Hk' [->|H]%elem_of_cons; [done|]. eapply Hu; [by right|done]. }
    pose proof (dirok_set _ _ _ _ _ Hd0 Hgv H1) as Hd. split_and!; [by eapply dirok_db| |].
    + intros av. rewrite (stored_set used k) by done. intros [(av' & _ & Hs)|(c' & m' & av' & _ & _ & Ha & Hnk & _)]; [by eapply H2|].
      change (assoc [(KEYeq ++ k, File)] c' = Some m') in Ha. by rewrite assoc_new in Ha.
    + eapply final_cons; [done|done| |done]. by rewrite assoc_setent, decide_True by done.
  - destruct al as [|[k' v'] al]; [|done]. split_and!; [by eapply dirok_db|done|by apply final_one].
Qed.

Lemma makepath_spec al a t p t0 : rep a al → storable al → p ≠ [] → find t (comps p) = Found (Dir []) ∨ find t (comps p) = Noent →
  setat t (comps p) (Dir []) = Some t0 →
  ∃ t', makepath place (length al) t p a = Ok (t', pathof p al) ∧ match mk al with None => t' = t | Some n => setat t (comps p) n = Some t' end.
Proof.
  revert a t p t0. induction al as [|[k v] al IH]; intros a t p t0 Hr Hst Hp Hf Ht0; [by exists t|].
  apply Forall_cons in Hst as [[Hgk Hgv] Hst]. cbn [fst snd] in *.
  assert (size a ≠ 0%nat) as Hsz. { unfold size. destruct Hr as (-> & _). done. }
  cbn [length makepath]. rewrite bool_decide_false by done.
  assert (bindo (fileexists t p) (λ ex : bool, if ex then Ok t else mkdir place t p) = Ok t0) as E0.
  { unfold fileexists, mkdir. destruct Hf as [Hf|Hf]; rewrite Hf; cbn [bindo]; [|by rewrite Ht0].
    rewrite (setat_id place _ _ _ Hf) in Ht0. congruence. }
  assert (∀ (f : node → outcome (node * str)), bindo (fileexists t p) (λ ex : bool, bindo (if ex then Ok t else mkdir place t p) f) = f t0) as E0'.
  { intros f. destruct (fileexists t p) as [[]| |]; cbn [bindo] in *; [by injection E0 as ->|by rewrite E0|done|done]. }
  rewrite E0'. clear E0 E0'.
  assert (front a = Some k) as ->. { unfold front. by destruct Hr as (-> & _). }
  assert (lookup a k = (v, a)) as ->. { apply (an_lookup a ((k, v) :: al)); [by apply rep_answers|left]. }
  rewrite pathcat_under by done. cbn [bindo].
  assert (comps (under p (KEYeq ++ k)) = comps p ++ [KEYeq ++ k]) as Ek.
  { apply comps_under; [|done|done]. unfold KEYeq. intros [H|H]%elem_of_app; [|done].
    repeat (apply elem_of_cons in H as [H|H]; [done|]). by apply elem_of_nil in H. }
  assert (find t0 (comps (under p (KEYeq ++ k))) = Noent) as Efk. { rewrite Ek. by erewrite find_setat by done. }
  destruct (setat_over place _ _ _ (Dir [(KEYeq ++ k, File)]) _ Ht0) as [t2 Ht2].
  assert (touch place t0 (under p (KEYeq ++ k)) = Ok t2) as Et.
  { unfold touch. rewrite Efk, Ek. rewrite (setat_setat place _ _ _ _ _ _ Ht0). cbn [Model.setat]. unfold Model.setent. cbn [assoc].
    rewrite take_nil, drop_nil. cbn [app]. by rewrite Ht2. }
  unfold fileexists at 1. rewrite Efk. cbn [bindo]. rewrite Et. cbn [bindo].
  destruct (rep_pop _ _ _ Hr) as (a' & -> & Hr'). rewrite pathcat_under by done. cbn [bindo].
  assert (find t2 (comps (under p v)) = Noent) as Hf2.
  { rewrite good_comps by done. erewrite find_setat by done. cbn [find]. by rewrite assoc_new by apply Hgv. }
  assert (∀ m, setat t2 (comps (under p v)) m = setat t (comps p) (Dir (setent [(KEYeq ++ k, File)] v m))) as Hs2.
  { intros m. rewrite good_comps by done. rewrite (setat_setat place _ _ _ _ _ _ Ht2). done. }
  destruct (setat_over place _ _ _ (Dir (setent [(KEYeq ++ k, File)] v (Dir []))) _ Ht0) as [t3 Ht3].
  destruct (IH a' t2 (under p v) t3) as (t' & Hm & Ht'); [done|done|by apply under_ne|by right|by rewrite Hs2|].
  exists t'. split; [done|]. cbn [mk]. destruct (mk al) as [m|]; [by rewrite <-Hs2|by subst].
Qed.


(** ** pathfor *)

(** The way to a stored file that is in the way: it agrees with the attributes as far as it goes, but some are left. *)
Definition blocks (al av : alist) : Prop :=
  (∀ k v, (k, v) ∈ av → (k, v) ∈ al ∨ (k ∉ al.*1 ∧ v = unspecified)) ∧ ∃ k, k ∈ al.*1 ∧ k ∉ av.*1.

Lemma good_unspecified : good_name unspecified.
Proof.
  split; [done|done|done| |].
  - unfold unspecified. intros H. repeat (apply elem_of_cons in H as [H|H]; [done|]). by apply elem_of_nil in H.
  - apply strstr_none. vm_compute. done.
Qed.

Lemma makepath_at used n a al t p t0 : rep a al → storable al → p ≠ [] → al ≠ [] → (∀ k, k ∈ al.*1 → k ∉ used) →
  find t (comps p) = Found (Dir []) ∨ find t (comps p) = Noent → setat t (comps p) (Dir []) = Some t0 → mk al = Some n →
  ∃ t', makepath place (size a) t p a = Ok (t', pathof p al) ∧ setat t (comps p) n = Some t' ∧ db used n ∧ (∀ av, ¬ stored n av) ∧ final used n al.
Proof.
  intros Hr Hst Hp Hne Hu Hf Ht0 Hmk. assert (size a = length al) as ->. { unfold size. destruct Hr as (-> & _). by rewrite fmap_length. }
  destruct (makepath_spec al a t p t0) as (t' & H1 & H2); [done..|]. rewrite Hmk in H2. exists t'. split_and!; [done|done|..]; eapply mk_spec; try done; apply Hr.
Qed.

Lemma rep_rm_pair a al k v : rep a al → (k, v) ∈ al → ∃ a', lookup a k = (v, a) ∧ (rm a k).2 = a' ∧ rep a' (filter (λ p, p.1 ≠ k) al).
Proof.
  intros Hr Hin. exists (rm a k).2. split_and!; [by apply (an_lookup a al); [apply rep_answers|]|done|].
  apply rep_rm; [done|]. by apply (elem_of_list_fmap_1 fst) in Hin.
Qed.
Lemma in_filter_key (al : alist) k k' v : (k', v) ∈ filter (λ p, p.1 ≠ k) al ↔ k' ≠ k ∧ (k', v) ∈ al.
Proof. by rewrite elem_of_list_filter. Qed.
Lemma in_filter_fst (al : alist) k k' : k' ∈ (filter (λ p, p.1 ≠ k) al).*1 ↔ k' ≠ k ∧ k' ∈ al.*1.
Proof.
  rewrite !elem_of_list_fmap. split.
  - intros ([k1 v] & -> & [H1 H2]%elem_of_list_filter). cbn in *. split; [done|]. by exists (k1, v).
  - intros [Hne ([k1 v] & -> & H)]. exists (k1, v). split; [done|]. apply elem_of_list_filter. done.
Qed.

Lemma pathfor_spec t used n : db used n → ∀ p a al, rep a al → storable al → al ≠ [] → (∀ k, k ∈ al.*1 → k ∉ used) → p ≠ [] → ¬ haskey p →
  find t (comps p) = Found n →
  (∃ K av, (∀ fuel, (K ≤ fuel)%nat → pathfor place fuel t p a = Some Fatal) ∧ stored n av ∧ blocks al av) ∨
  (∃ K av n' t', (∀ fuel, (K ≤ fuel)%nat → pathfor place fuel t p a = Some (Ok (t', pathof p av))) ∧
     setat t (comps p) n' = Some t' ∧ (∀ es, n = Dir es → ∃ es', n' = Dir es') ∧ completes al av ∧ storable av ∧ (∀ k, k ∈ av.*1 → k ∉ used) ∧
     db used n' ∧ (∀ av', stored n' av' ↔ stored n av') ∧ final used n' av).
Proof.
  induction 1 as [used|used|used k es Hused Hgk Hnd Hin Hgn Hdb IH]; intros p a al Hr Hst Hne Hu Hp Hnk Hf.
  - left. exists 1%nat, []. split_and!; [|constructor|].
    + intros [|fuel] Hfuel; [lia|]. cbn [pathfor]. assert (size a ≠ 0%nat) as Hsz. { unfold size. destruct Hr as (-> & _). by destruct al. }
      rewrite bool_decide_false by done. unfold fileexists, isdir. rewrite Hf. cbn [bindf negb andb]. by rewrite bool_decide_true by lia.
    + split; [by intros k v ?%elem_of_nil|]. destruct al as [|[k v] al]; [done|]. exists k. split; [left|by intros ?%elem_of_nil].
  - right. destruct (mk_nonempty al Hne) as [n Hmk].
    destruct (makepath_at used n a al t p t) as (t' & H1 & H2 & H3 & H4 & H5); [done..|by left|by apply setat_id|done|].
    exists 1%nat, al, n, t'. split_and!; try done.
    + intros [|fuel] Hfuel; [lia|]. cbn [pathfor]. assert (size a ≠ 0%nat) as Hsz. { unfold size. destruct Hr as (-> & _). by destruct al. }
      rewrite bool_decide_false by done. unfold fileexists, isdir. rewrite Hf. cbn [bindf negb andb].
      rewrite (getkey_none t p []) by (done || (by intros ?? ?%elem_of_nil)). cbn [bindf]. by rewrite H1.
    + intros es _. destruct al as [|[k v] al]; [done|]. cbn in Hmk. injection Hmk as <-. eauto.
    + split_and!; [apply Hr|done|by left].
    + intros av'. split; [by intros ?%H4|]. inversion 1 as [|????? Hk]. by apply elem_of_nil in Hk.
  - assert (dirok used k es) as Hd.
    { split; [done..| |].
      - split; [done|]. intros c m Hc Hne'. eapply gn_key, Hgn; done.
      - intros c m Hc Hnk'. assert (c ≠ KEYeq ++ k) by (intros ->; apply Hnk', haskey_key). eauto. }
    assert (size a ≠ 0%nat) as Hsz. { unfold size. destruct Hr as (-> & _). by destruct al. }
    (* the value, and what is left *)
    assert (∃ v a1 al1, good_name v ∧ rep a1 al1 ∧ storable al1 ∧
      (∀ k' v', (k', v') ∈ al1 ↔ k' ≠ k ∧ (k', v') ∈ al) ∧ (∀ k', k' ∈ al1.*1 ↔ k' ≠ k ∧ k' ∈ al.*1) ∧
      ((k, v) ∈ al ∨ (k ∉ al.*1 ∧ v = unspecified ∧ al1 ≠ [])) ∧
      ∀ fuel, pathfor place (S fuel) t p a = pathfor place fuel t (under p v) a1) as (v & a1 & al1 & Hgv & Hr1 & Hst1 & Hal1 & Hal1' & Hv & Hstep).
    { assert (∀ fuel, pathfor place (S fuel) t p a = if mem a k then let (v, a) := lookup a k in pathfor place fuel t (under p v) (rm a k).2 else pathfor place fuel t (under p unspecified) a) as Hs.
      { intros fuel. cbn [pathfor]. rewrite bool_decide_false by done. unfold fileexists, isdir. rewrite Hf. cbn [bindf negb andb].
        rewrite (getkey_keyed t p es k) by (try done; apply Hd). cbn [bindf]. destruct (mem a k).
        - destruct (lookup a k). by rewrite pathcat_under by done.
        - by rewrite pathcat_under by done. }
      rewrite (rep_mem _ _ k Hr) in Hs. destruct (decide (k ∈ al.*1)) as [Hk|Hk].
      - rewrite bool_decide_true in Hs by done. apply elem_of_list_fmap in Hk as ([k' v] & E & Hkv). cbn in E. subst k'.
        destruct (rep_rm_pair _ _ _ _ Hr Hkv) as (a1 & El & Er & Hr1). rewrite El, Er in Hs.
        exists v, a1, (filter (λ p, p.1 ≠ k) al). split_and!; [|done| |by intros; rewrite in_filter_key|by intros; rewrite in_filter_fst|by left|done].
        + unfold storable in Hst. rewrite Forall_forall in Hst. by apply (Hst _ Hkv).
        + unfold storable in *. rewrite Forall_forall in Hst |- *. intros x [_ Hx]%elem_of_list_filter. by apply Hst.
      - rewrite bool_decide_false in Hs by done. exists unspecified, a, al. split_and!; [apply good_unspecified|done|done| | |by right|done].
        + intros k' v'. split; [|by intros []]. intros H. split; [|done]. intros ->. apply Hk. by apply (elem_of_list_fmap_1 fst) in H.
        + intros k'. split; [|by intros []]. intros H. split; [|done]. by intros ->. }
    assert (∀ k', k' ∈ al1.*1 → k' ∉ k :: used) as Hu1.
    { intros k' [Hk1 Hk2]%Hal1' [->|H]%elem_of_cons; [done|]. by eapply Hu. }
    assert (∀ av, k ∉ av.*1 → blocks al1 av → blocks al ((k, v) :: av)) as Hbl.
    { intros av Hkav [H1 (k1 & H2 & H3)]. split.
      - intros k' v' [E|H]%elem_of_cons; [injection E as -> ->; naive_solver|].
        assert (k' ≠ k) as Hne'. { intros ->. apply Hkav. by apply (elem_of_list_fmap_1 fst) in H. }
        apply H1 in H as [[_ H]%Hal1|[Hk' ->]]; [by left|]. right. split; [|done]. intros Hin'. apply Hk'. by apply Hal1'.
      - apply Hal1' in H2 as [Hne' H2]. exists k1. split; [done|]. cbn. by apply not_elem_of_cons. }
    assert (∀ av, k ∉ av.*1 → completes al1 av → completes al ((k, v) :: av)) as Hcomp.
    { intros av Hkav (H1 & H2 & H3). split_and!.
      - cbn. by constructor.
      - intros k' v' H. destruct (decide (k' = k)) as [->|Hne'].
        + destruct Hv as [Hv|[Hv _]]; [|destruct Hv; by apply (elem_of_list_fmap_1 fst) in H].
          rewrite (pair_unique al k v' v); [left|apply Hr|done|done].
        + right. apply H2. by apply Hal1.
      - intros k' v' [E|H]%elem_of_cons; [injection E as -> ->; naive_solver|].
        assert (k' ≠ k) as Hne'. { intros ->. apply Hkav. by apply (elem_of_list_fmap_1 fst) in H. }
        apply H3 in H as [[_ H]%Hal1|[Hk' ->]]; [by left|]. right. split; [|done]. intros Hin'. apply Hk'. by apply Hal1'. }
    assert (∀ av, storable av → storable ((k, v) :: av)) as Hstor. { intros av H. by constructor. }
    assert (∀ av, (∀ k', k' ∈ av.*1 → k' ∉ k :: used) → k ∉ av.*1 ∧ ∀ k', k' ∈ ((k, v) :: av).*1 → k' ∉ used) as Huse.
    { intros av H. split; [intros Hk%H; apply Hk; by left|]. intros k' [->|Hk%H]%elem_of_cons; [done|]. intros Hk'. apply Hk. by right. }
    destruct (decide (al1 = [])) as [->|Hne1].
    { right. exists 2%nat, [(k, v)], (Dir es), t. split_and!.
      - intros [|[|fuel]] Hfuel; [lia..|]. rewrite Hstep. cbn [pathfor]. rewrite bool_decide_true; [done|]. unfold size. by destruct Hr1 as (-> & _).
      - by apply setat_id.
      - eauto.
      - apply Hcomp; [by intros ?%elem_of_nil|]. split_and!; [constructor|done|by intros ?? ?%elem_of_nil].
      - apply Hstor. constructor.
      - apply Huse. by intros ? ?%elem_of_nil.
      - by eapply dirok_db.
      - done.
      - by apply final_one. }
    assert (size a1 ≠ 0%nat) as Hsz1. { unfold size. destruct Hr1 as (-> & _). by destruct al1. }
    assert (¬ haskey (under p v)) as Hnk1. { apply nokey_under; [done|apply Hgv]. }
    destruct (assoc es v) as [m|] eqn:Em.
    + assert (find t (comps (under p v)) = Found m) as Hf1. { rewrite good_comps by done. by eapply find_snoc. }
      pose proof (assoc_in _ _ _ Em) as Hvm. assert (v ≠ KEYeq ++ k) as Hvk. { intros ->. by apply (gn_key _ Hgv), haskey_key. }
      destruct (IH v m Hvm Hvk (under p v) a1 al1) as [(K & av & HK & Hs & Hb)|(K & av & m' & t' & HK & Ht' & Hdir & Hc & Hs & Hav & Hdb' & Hst' & Hfin)];
        [done|done|done|done|by apply under_ne|done|done|left|right].
      * exists (S K), ((k, v) :: av). split_and!.
        -- intros [|fuel] Hfuel; [lia|]. rewrite Hstep. apply HK. lia.
        -- apply (stored_keyed es k); [apply Hd..|]. exists v, m, av. split_and!; try done. apply Hgv.
        -- apply Hbl; [|done]. apply Huse. eapply stored_good; [by eapply Hdb|done].
      * destruct (Huse av Hav) as [Hkav Hus].
        exists (S K), ((k, v) :: av), (Dir (setent es v m')), t'. split_and!; [| |eauto|by apply Hcomp|by apply Hstor|done| | |].
        -- intros [|fuel] Hfuel; [lia|]. rewrite Hstep. rewrite HK by lia. done.
        -- rewrite good_comps in Ht' by done. rewrite (setat_app place _ _ _ _ _ Hf) in Ht'. done.
        -- by eapply dirok_db, dirok_set.
        -- intros av'. rewrite (stored_set used k), (stored_keyed es k) by (done || apply Hd). split.
           ++ intros [(av1 & -> & H%Hst')|(c' & m1 & av1 & _ & ? & ? & ? & ?)]; [|eauto 10].
              exists v, m, av1. split_and!; try done. apply Hgv.
           ++ intros (c & m1 & av1 & -> & Ha & Hnk' & Hs1). destruct (decide (c = v)) as [->|Hne']; [left|right; eauto 10].
              exists av1. split; [done|]. apply Hst'. congruence.
        -- eapply final_cons; [by eapply dirok_set|done| |done]. by rewrite assoc_setent, decide_True by done.
    + right. destruct (mk_nonempty al1 Hne1) as [m Hmk].
      assert (find t (comps (under p v)) = Noent) as Hf1. { rewrite good_comps by done. by eapply find_snoc_none. }
      assert (∀ m, setat t (comps (under p v)) m = setat t (comps p) (Dir (setent es v m))) as Hset.
      { intros m1. rewrite good_comps by done. by rewrite (setat_app place _ _ _ _ _ Hf). }
      destruct (setat_found place _ _ _ (Dir (setent es v (Dir []))) Hf) as [t0 Ht0].
      destruct (makepath_at (k :: used) m a1 al1 t (under p v) t0) as (t' & H1 & H2 & H3 & H4 & H5); [done|done|by apply under_ne|done|done|by right|by rewrite Hset|done|].
      destruct (Huse al1 Hu1) as [Hkal Hus].
      exists 2%nat, ((k, v) :: al1), (Dir (setent es v m)), t'. split_and!; [| |eauto| |by apply Hstor|done| | |].
      * intros [|[|fuel]] Hfuel; [lia..|]. rewrite Hstep. cbn [pathfor]. rewrite bool_decide_false by done. unfold fileexists at 1. rewrite Hf1. cbn [bindf]. by rewrite H1.
      * by rewrite <-Hset.
      * apply Hcomp; [done|]. split_and!; [apply Hr1|done|by left].
      * by eapply dirok_db, dirok_set.
      * intros av'. rewrite (stored_set used k), (stored_keyed es k) by (done || apply Hd). split.
        -- intros [(av1 & -> & []%H4)|(c' & m1 & av1 & _ & ? & ? & ? & ?)]; eauto 10.
        -- intros (c & m1 & av1 & -> & Ha & Hnk' & Hs1). right. exists c, m1, av1. split_and!; try done. congruence.
      * eapply final_cons; [by eapply dirok_set|done| |done]. by rewrite assoc_setent, decide_True by done.
Qed.

(** ** Results *)
Lemma answers_rep a al : answers a al → rep a al.
Proof.
  intros Ha. split_and!; [apply Ha| |apply Ha]. apply map_eq. intros k.
  pose proof (an_mem _ _ Ha k) as Hm. unfold mem in Hm. destruct (decide (k ∈ al.*1)) as [Hk|Hk].
  - rewrite (bool_decide_true (k ∈ al.*1)) in Hm by done. apply bool_decide_eq_true in Hm as [v' Hv'].
    apply elem_of_list_fmap in Hk as ([k' v] & E & Hkv). cbn in E. subst k'. pose proof (an_lookup _ _ Ha _ _ Hkv) as Hl.
    unfold lookup in Hl. rewrite Hv' in Hl. injection Hl as ->. rewrite Hv'. symmetry. apply elem_of_list_to_map; [apply Ha|done].
  - rewrite (bool_decide_false (k ∈ al.*1)) in Hm by done. apply bool_decide_eq_false in Hm. rewrite (not_elem_of_list_to_map_1 _ _ Hk).
    destruct (pairs a !! k) eqn:E; [|done]. by destruct Hm.
Qed.

(** A path for new attributes.  Either a stored file is in the way of the directories that would be needed, which is an
    error.  Or there is a path that spells the attributes, perhaps with some that are not specified; then either nothing is
    there, and creating the file adds it to the database, or the file exists, or (a defect) it is a directory. *)
Theorem C68_pathfor t r P a al : database t r P → answers a al → storable al → al ≠ [] →
  (ends (λ fuel, pathfor place fuel t r a) Fatal ∧ ∃ av, P av ∧ blocks al av) ∨
  (∃ av t', ends (λ fuel, pathfor place fuel t r a) (Ok (t', pathof r av)) ∧ completes al av ∧ database t' r P ∧
     ((fileexists t' (pathof r av) = Ok false ∧
         ∃ t'', touch place t' (pathof r av) = Ok t'' ∧ database t'' r (λ av', P av' ∨ av' = av)) ∨
      (P av ∧ touch place t' (pathof r av) = Ok t') ∨
      (isdir t' (pathof r av) = Ok true ∧ touch place t' (pathof r av) = Fatal))).
Proof.
  intros (Hr & Hnk & Hdb) Hans Hst Hne. pose proof (answers_rep _ _ Hans) as Hrep.
  assert (∀ av n' t' es', setat t (comps r) n' = Some t' → n' = Dir es' → storable av → completes al av → db [] n' → (∀ av', P av' ↔ stored n' av') →
    final [] n' av → av ≠ [] → database t' r P ∧
     ((fileexists t' (pathof r av) = Ok false ∧
         ∃ t'', touch place t' (pathof r av) = Ok t'' ∧ database t'' r (λ av', P av' ∨ av' = av)) ∨
      (P av ∧ touch place t' (pathof r av) = Ok t') ∨
      (isdir t' (pathof r av) = Ok true ∧ touch place t' (pathof r av) = Fatal))) as Hfinal.
  { intros av n' t' es' Hset -> Hsav Hc Hdb' HP Hfin Hnav. split.
    - split_and!; [done|done|]. right. exists es'. split_and!; [by eapply find_setat_nil|done|done].
    - assert (comps (pathof r av) = comps r ++ av.*2) as Ecomps.
      { apply comps_pathof. apply Forall_fmap. eapply Forall_impl; [exact Hsav|]. by intros ? []. }
      assert (find t' (comps (pathof r av)) = find (Dir es') av.*2) as Ef. { rewrite Ecomps. by eapply find_setat. }
      unfold final in Hfin. unfold fileexists, isdir, touch. rewrite Ef. destruct (find (Dir es') av.*2) as [[|es1]| |] eqn:Efind; [|by auto| |done].
      + right; left. split; [by apply HP|done].
      + left. split; [done|]. destruct Hfin as (n'' & H1 & H2 & H3). rewrite Ecomps.
        rewrite (setat_setat place _ _ _ _ _ _ Hset), H1. destruct (setat_over place _ _ _ n'' _ Hset) as [t'' Ht'']. rewrite Ht''.
        exists t''. split; [done|]. split_and!; [done|done|]. right.
        assert (∃ es'', n'' = Dir es'') as [es'' ->].
        { destruct av as [|[k c] av]; [done|]. cbn [fmap list_fmap snd] in H1. apply setat_cons in H1 as [[_ ->]|(_ & ? & ? & _ & _ & ->)]; eauto. }
        exists es''. split_and!; [by eapply find_setat_nil|done|]. intros av'. by rewrite HP, H3. }
  destruct Hdb as [(Hf & (t0 & Ht0) & HP)|(es & Hf & Hdb & HP)].
  - right. destruct (mk_nonempty al Hne) as [n Hmk].
    destruct (makepath_at [] n a al t r t0) as (t' & H1 & H2 & H3 & H4 & H5); [done..|by intros ? ? ?%elem_of_nil|by right|done|done|].
    assert (completes al al) as Hc by (split_and!; [apply Hrep|done|by left]).
    exists al, t'. split_and!; [|done|..].
    + exists 1%nat. intros [|fuel] Hfuel; [lia|]. cbn [pathfor]. assert (size a ≠ 0%nat) as Hsz. { unfold size. destruct Hrep as (-> & _). by destruct al. }
      rewrite bool_decide_false by done. unfold fileexists at 1. rewrite Hf. cbn [bindf]. by rewrite H1.
    + destruct al as [|[k v] al]; [done|]. cbn in Hmk. eapply Hfinal; try done; [by injection Hmk as <-|]. intros av'. split; [by intros ?%HP|by intros ?%H4].
    + destruct al as [|[k v] al]; [done|]. cbn in Hmk. eapply Hfinal; try done; [by injection Hmk as <-|]. intros av'. split; [by intros ?%HP|by intros ?%H4].
  - destruct (pathfor_spec t [] _ Hdb r a al) as [(K & av & HK & Hs & Hb)|(K & av & n' & t' & HK & Ht' & Hdir & Hc & Hsav & _ & Hdb' & Hst' & Hfin)];
      [done|done|done|by intros ? ? ?%elem_of_nil|done|done|done|left|right].
    + split; [by exists K|]. exists av. split; [by apply HP|done].
    + destruct (Hdir es eq_refl) as [es' ->]. exists av, t'. split; [by exists K|]. split; [done|].
      eapply Hfinal; try done; [by intros; rewrite HP, Hst'|]. intros ->. destruct al as [|[k v] al]; [done|].
      destruct Hc as (_ & Hc & _). eapply elem_of_nil. apply (Hc k v). left.
Qed.

(** Results are stored one after the other, each at the path for its attributes. *)
Inductive stores (r : str) : node → list (alist * str) → node → Prop :=
| stores_nil t : stores r t [] t
| stores_cons t a al t1 p t2 l t3 :
    answers a al → storable al → al ≠ [] → ends (λ fuel, pathfor place fuel t r a) (Ok (t1, p)) → touch place t1 p = Ok t2 →
    stores r t2 l t3 → stores r t ((al, p) :: l) t3.

Lemma stores_database t r P l t' : database t r P → stores r t l t' → ∃ P', database t' r P' ∧ (∀ av, P av → P' av) ∧
  (∀ av, P' av → P av ∨ ∃ al, (al, pathof r av) ∈ l ∧ completes al av) ∧
  ∀ al p, (al, p) ∈ l → ∃ av, P' av ∧ completes al av ∧ p = pathof r av.
Proof.
  intros Hdb Hs. revert P Hdb. induction Hs as [t|t a al t1 p t2 l t3 Ha Hst Hne Hpf Ht Hs IH]; intros P Hdb.
  - exists P. split_and!; [done|done|by left|by intros ?? ?%elem_of_nil].
  - destruct (C68_pathfor t r P a al Hdb Ha Hst Hne) as [[HF _]|(av & t1' & He & Hc & Hdb' & Hcases)].
    + by pose proof (ends_det _ _ _ Hpf HF).
    + pose proof (ends_det _ _ _ Hpf He) as E. injection E as -> ->.
      assert (∃ P2, database t2 r P2 ∧ P2 av ∧ (∀ av', P av' → P2 av') ∧ (∀ av', P2 av' → P av' ∨ av' = av)) as (P2 & H1 & H2 & H3 & H4).
      { destruct Hcases as [(_ & t'' & Ht'' & Hd)|[[HP Ht'']|[_ Ht'']]].
        - rewrite Ht in Ht''. injection Ht'' as <-. eexists. split_and!; [exact Hd|by right|by left|done].
        - rewrite Ht in Ht''. injection Ht'' as ->. exists P. split_and!; [done..|by left].
        - by rewrite Ht in Ht''. }
      destruct (IH P2 H1) as (P' & G1 & G2 & G3 & G4). exists P'. split_and!; [done|by intros; apply G2, H3| |].
      * intros av' [[HP| ->]%H4|(al' & Hin & Hc')]%G3; [by left| |]; right; [exists al; split; [left|done]|]. exists al'. split; [by right|done].
      * intros al' p' [E|Hin]%elem_of_cons; [|by apply G4]. injection E as -> ->. exists av. split_and!; [by apply G2|done|done].
Qed.

Lemma subquery_compatible al av q : completes al av → (∀ k v, (k, v) ∈ q → (k, v) ∈ al) → compatible q av.
Proof. intros (Hnd & H1 & _) Hq k v v' Hk Hk'. eapply pair_unique; [exact Hnd| |exact Hk']. by apply H1, Hq. Qed.

(** A result is found again, also after other results were stored, by any part of its attributes; and whatever is found
    belonged to the database or was stored with attributes that do not contradict the query. *)
Theorem C68_found_again t r P l t' a q : database t r P → stores r t l t' → answers a q → Forall good_name q.*2 →
  ∃ ps, ends (λ fuel, withattrs fuel t' r a) (Ok ps) ∧
    (∀ al p, (al, p) ∈ l → (∀ k v, (k, v) ∈ q → (k, v) ∈ al) → p ∈ ps) ∧
    (∀ av, P av → compatible q av → pathof r av ∈ ps) ∧
    (∀ p, p ∈ ps → (∃ av, P av ∧ compatible q av ∧ p = pathof r av) ∨
       ∃ al, (al, p) ∈ l ∧ ∀ k v v', (k, v) ∈ q → (k, v') ∈ al → v = v').
Proof.
  intros Hdb Hs Ha Hq. destruct (stores_database _ _ _ _ _ Hdb Hs) as (P' & H1 & H2 & H3 & H4).
  destruct (C68_withattrs t' r P' a q H1 Ha Hq) as (ps & He & _ & Hps). exists ps. split_and!; [done|..].
  - intros al p Hin Hsub. destruct (H4 _ _ Hin) as (av & HP & Hc & ->). apply Hps. exists av. split_and!; [done| |done]. by eapply subquery_compatible.
  - intros av HP Hc. apply Hps. exists av. split_and!; [by apply H2|done|done].
  - intros p (av & HP & Hc & ->)%Hps. destruct (H3 _ HP) as [HP'|(al & Hin & Hcm)]; [left; eauto|right].
    exists al. split; [done|]. intros k v v' Hk Hk'. eapply Hc; [done|]. by apply Hcm.
Qed.

(** Results whose attributes differ (other than in UNSPECIFIED) are at different paths. *)
Theorem C68_distinct_paths t r P l t' al al' p k v : database t r P → stores r t l t' → (al, p) ∈ l → (al', p) ∈ l →
  (k, v) ∈ al → v ≠ unspecified → (k, v) ∈ al'.
Proof.
  intros Hdb Hs Hin Hin' Hk Hv. destruct (stores_database _ _ _ _ _ Hdb Hs) as (P' & (_ & _ & H1) & _ & _ & H4).
  destruct (H4 _ _ Hin) as (av & HP & Hc & ->). destruct (H4 _ _ Hin') as (av' & HP' & Hc' & E).
  destruct H1 as [(_ & _ & H)|(es & _ & Hd & H)]; [by apply H in HP|]. apply H in HP, HP'.
  apply (f_equal comps) in E. rewrite !comps_pathof in E by (by eapply stored_good). apply app_inv_head in E.
  apply (stored_inj [] (Dir es)) in E as <-; [|done..]. apply Hc in Hk. apply Hc' in Hk as [?|[_ ?]]; done.
Qed.

(** ** pathattrs *)

(** A path without a '/' at its end. *)
Definition trim (p : str) : str := if decide (last p = Some slash) then take (length p - 1) p else p.
Lemma trim_form p : (p = trim p ∨ p = trim p ++ [slash]) ∧ ∀ c, under p c = trim p ++ slash :: c.
Proof.
  unfold under, trim. destruct (decide (last p = Some slash)) as [H|H]; [|by auto]. apply last_Some in H as [p' ->].
  rewrite app_length. cbn [length]. rewrite take_app_alt by lia. split; [by right|]. intros c. by rewrite <-app_assoc.
Qed.
Lemma comps_trim p : comps (trim p) = comps p.
Proof. destruct (trim_form p) as [[E|E] _]; rewrite E at 2; [done|]. by rewrite comps_trailing. Qed.
Lemma nokey_trim p : ¬ haskey p → ¬ haskey (trim p).
Proof. destruct (trim_form p) as [[E|E] _]; rewrite E at 1; [done|]. intros H (a & b & Eab). apply H. rewrite Eab. exists a, (b ++ [slash]). by rewrite <-!app_assoc. Qed.
Lemma trim_under p c : good_name c → trim (under p c) = under p c.
Proof.
  intros Hc. unfold trim. rewrite decide_False; [done|]. destruct (trim_form p) as [_ ->]. intros Hl.
  change (slash :: c) with ([slash] ++ c) in Hl. rewrite app_assoc in Hl. destruct (exists_last (gn_nonempty _ Hc)) as (c' & x & ->).
  rewrite app_assoc, last_snoc in Hl. injection Hl as ->. apply (gn_slash _ Hc). apply elem_of_app. right. by left.
Qed.
Lemma lastslash_eq p x y : lastslash p = Some (x, y) → p = x ++ slash :: y.
Proof.
  revert x y. induction p as [|c p IH]; intros x y; [done|]. cbn [lastslash]. destruct (lastslash p) as [[x' y']|].
  - intros [= <- <-]. cbn. by rewrite <-IH.
  - destruct (Z.eqb_spec c slash) as [->|]; [|done]. by intros [= <- <-].
Qed.
Lemma dirname_ok p : ¬ haskey p → dirname p ≠ [] ∧ ¬ haskey (dirname p).
Proof.
  assert (¬ haskey [dot]) as Hdot. { apply strstr_none. by vm_compute. }
  assert (¬ haskey [slash]) as Hsl. { apply strstr_none. by vm_compute. }
  intros Hp. unfold dirname. destruct (bool_decide (p = []) || bool_decide (p = [dot])); [done|]. destruct (bool_decide (p = [slash])); [done|]. destruct (lastslash p) as [[x y]|] eqn:E; [|done].
  apply lastslash_eq in E as ->. rewrite last_snoc. cbn [default]. rewrite Z.eqb_refl, app_length. cbn [length].
  assert (¬ haskey x) as Hx. { intros (a & b & ->). apply Hp. exists a, (b ++ slash :: y). by rewrite <-!app_assoc. }
  destruct x as [|c x]; [done|]. cbn [length]. replace (1 <? S (length x) + 1)%nat with true by (symmetry; apply Nat.ltb_lt; lia). cbn [andb].
  rewrite take_app_alt by (cbn [length]; lia). done.
Qed.

Lemma stored_prefix used n av : db used n → stored n av → ∀ av1 k c av2, av = av1 ++ (k, c) :: av2 →
  ∃ es m, find n av1.*2 = Found (Dir es) ∧ keyed es k ∧ assoc es c = Some m.
Proof.
  intros Hdb Hs. revert used Hdb. induction Hs as [|k es c m av Hk Hc Hnk Hs IH]; intros used Hdb av1 k1 c1 av2 E; [by destruct av1|].
  apply db_keyed in Hdb as [->|(k' & Hu & Hgk & Hnd & Hkd & Hch)]; [by apply elem_of_nil in Hk|].
  apply (keyed_unique _ _ _ Hkd) in Hk as ->. destruct av1 as [|[k2 c2] av1]; cbn [app] in E.
  - injection E as -> -> ->. exists es, m. split_and!; [done|done|by apply in_assoc].
  - injection E as -> -> ->. cbn [fmap list_fmap snd find]. rewrite (in_assoc _ _ _ Hnd Hc). eapply IH; [by eapply Hch|done].
Qed.
Lemma pathof_snoc r av k c : pathof r (av ++ [(k, c)]) = under (pathof r av) c.
Proof. unfold pathof. rewrite fmap_app, foldl_app. done. Qed.
Lemma pathof_ne r av : r ≠ [] → pathof r av ≠ [].
Proof.
  intros Hr. induction av as [|[k c] av IH] using rev_ind; [done|]. rewrite pathof_snoc. by apply under_ne.
Qed.
Lemma trim_pathof r av : Forall good_name av.*2 → av ≠ [] → trim (pathof r av) = pathof r av.
Proof.
  intros Hg Hne. destruct (exists_last Hne) as (av' & [k c] & ->). rewrite pathof_snoc. apply trim_under.
  rewrite fmap_app in Hg. apply Forall_app in Hg as [_ Hg]. by apply Forall_cons in Hg as [? _].
Qed.
Lemma nokey_pathof r av : ¬ haskey r → Forall good_name av.*2 → ¬ haskey (pathof r av).
Proof.
  intros Hr. induction av as [|[k c] av IH] using rev_ind; [done|]. rewrite pathof_snoc, fmap_app. intros [Hg Hc]%Forall_app.
  apply nokey_under; [by apply IH|]. apply Forall_cons in Hc as [Hc _]. apply Hc.
Qed.

(** The path of a stored file tells all its attributes, in the order of the directories, if the directory that holds the
    database is not part of another one. *)
Theorem C68_pathattrs t r P av es : database t r P → P av → trim r ≠ [] →
  find t (comps (dirname (trim r))) = Found (Dir es) → (∀ c m, (c, m) ∈ es → ¬ haskey c) →
  ∃ a, ends (λ fuel, pathattrs fuel t (pathof r av) noattrs) (Ok a) ∧ answers a av.
Proof.
  intros (Hr & Hnk & [(_ & _ & HP)|(es0 & Hf & Hdb & HP)]) Hav Htr Hdir Hes; [by apply HP in Hav|]. apply HP in Hav.
  destruct (stored_good _ _ _ Hdb Hav) as (Hg & Hnd & _ & _).
  assert (∀ av1 av2 a, av = av1 ++ av2 → rep a av2 → ∃ K a', (∀ fuel, (K ≤ fuel)%nat → pathattrs fuel t (trim (pathof r av1)) a = Some (Ok a')) ∧ rep a' av) as H.
  { induction av1 as [|[k c] av1 IH] using rev_ind; intros av2 a E Hrep.
    - cbn [app] in E. subst av2. exists 1%nat, a. split; [|done]. intros [|fuel] Hfuel; [lia|]. cbn [pathattrs].
      unfold pathof. cbn [fmap list_fmap foldl]. unfold fileexists. rewrite comps_trim, Hf. cbn [bindf negb].
      destruct (dirname_ok (trim r)) as [H1 H2]; [by apply nokey_trim|]. by rewrite (getkey_none _ _ es) by done.
    - rewrite <-app_assoc in E. cbn [app] in E. destruct (stored_prefix _ _ _ Hdb Hav _ _ _ _ E) as (es1 & m & Hf1 & Hk1 & Hm).
      assert (Forall good_name av1.*2 ∧ good_name c) as [Hg1 Hgc].
      { rewrite E, fmap_app in Hg. apply Forall_app in Hg as [? Hg]. cbn [fmap list_fmap snd] in Hg. by apply Forall_cons in Hg as [? _]. }
      rewrite pathof_snoc, trim_under by done.
      assert (find t (comps (pathof r av1)) = Found (Dir es1)) as Hfd. { rewrite comps_pathof by done. by rewrite find_app, Hf. }
      assert (trim (pathof r av1) ≠ []) as Hne1.
      { destruct (decide (av1 = [])) as [->|Hne]; [done|]. rewrite trim_pathof by done. by apply pathof_ne. }
      destruct (rep_push_front a av2 k c) as [Hp1 Hp2]; [done| |].
      { rewrite E, fmap_app in Hnd. cbn in Hnd. apply NoDup_app in Hnd as (_ & _ & Hnd). by apply NoDup_cons in Hnd as [? _]. }
      destruct (IH ((k, c) :: av2) (push_front a k c).2) as (K & a' & HK & Ha'); [done|done|]. exists (S K), a'. split; [|done].
      intros [|fuel] Hfuel; [lia|]. cbn [pathattrs]. erewrite fileexists_found by (rewrite good_comps by done; by eapply find_snoc). cbn [bindf negb].
      destruct (C32_split_join (trim (pathof r av1)) c Hne1 (gn_nonempty _ Hgc) (gn_slash _ Hgc)) as (Ed & Eb & _).
      rewrite <-(proj2 (trim_form (pathof r av1))) in Ed, Eb. rewrite Ed, Eb.
      rewrite (getkey_keyed _ _ es1 k); [|done|apply nokey_trim, nokey_pathof; done|by rewrite comps_trim|done]. cbn [bindf]. apply HK. lia. }
  destruct (H av [] noattrs) as (K & a' & HK & Ha'); [by rewrite app_nil_r|apply rep_empty|]. exists a'. split; [|by apply rep_answers].
  exists K. intros fuel Hfuel. rewrite <-(HK fuel) by done. f_equal. symmetry. apply trim_pathof; [done|].
  intros ->. inversion Hav.
Qed.

End db.

(** ** Defects *)

Section key_in_root.
Context (t : node) (r : str) (a : rattrs) (Hk : haskey r).
Lemma haskey_under p c : haskey p → haskey (under p c).
Proof.
  intros (x & y & ->). unfold under. case_decide; [exists x, (y ++ c)|exists x, (y ++ slash :: c)]; by rewrite <-!app_assoc.
Qed.
Lemma addf_haskey fuel p files : haskey p → addf fuel t a p files = Some (Ok files).
Proof. intros Hp. unfold addf. destruct (strstr p KEYeq) eqn:E; [done|]. by apply strstr_none in E. Qed.
(** If the path of the database contains "KEY=" itself, then no query finds anything. *)
Theorem C68_key_in_root_refuted q n : r ≠ [] → find t (comps r) = Found n → answers a q → Forall good_name q.*2 →
  ends (λ fuel, withattrs fuel t r a) (Ok []).
Proof using Hk.
  intros Hr Hf Ha Hq. exists 1%nat. intros [|fuel] Hfuel; [lia|]. unfold withattrs. cbn [collect]. rewrite (fileexists_found t r _ Hf).
  destruct n as [|es]; [assert (isdir t r = Ok false) as -> by (unfold isdir; by rewrite Hf); done|].
  rewrite (isdir_found t r _ Hf). unfold getkey. rewrite readdir_under, Hf by done. cbn [bindf negb orb].
  destruct (getkeyloop _) as [k|]; [|done]. destruct (mem a k) eqn:Em.
  - rewrite (an_mem _ _ Ha), bool_decide_eq_true in Em. apply elem_of_list_fmap in Em as ([k' v] & E & Hkv). cbn in E. subst k'.
    rewrite (an_lookup _ _ Ha _ _ Hkv). rewrite Forall_forall in Hq. rewrite bool_decide_false.
    2:{ eapply gn_nonempty, Hq. by apply (elem_of_list_fmap_1 snd) in Hkv. }
    rewrite pathcat_under by done. cbn [bindf]. by apply (addf_haskey fuel), haskey_under.
  - clear Hf Em. induction es.*1 as [|e l IH]; [done|]. cbn [map foldl]. cbn [bindf].
    destruct (strstr (under r e) KEYeq) eqn:Es; [exact IH|]. apply strstr_none in Es. by destruct Es; apply haskey_under.
Qed.
End key_in_root.

(** *** Examples *)

(** Directories that list new entries last. *)
Definition append (names : list str) (_ : str) : nat := length names.
Definition attrs_of (al : alist) : rattrs := foldl (λ a p, (push_back a p.1 p.2).2) noattrs al.
(** An empty working directory; the database will be in "r". *)
Definition ex_root : str := [114].
(** a=1 b=2, then a=1 b=3 c=4, then a=2 *)
Definition ex1 : alist := [([97], [49]); ([98], [50])].
Definition ex2 : alist := [([98], [51]); ([99], [52]); ([97], [49])].
Definition ex3 : alist := [([97], [50])].

Lemma ex_database : database append (Dir []) ex_root (λ _, False).
Proof.
  split_and!; [done|by apply strstr_none; vm_compute|]. left. split_and!; [done| |by intros ? []]. eexists. vm_compute. done.
Qed.
Lemma attrs_of_answers al : NoDup al.*1 → answers (attrs_of al) al.
Proof.
  intros Hnd. apply rep_answers. unfold attrs_of. induction al as [|[k v] al IH] using rev_ind; [apply rep_empty|].
  rewrite foldl_app. cbn [foldl fst snd]. rewrite fmap_app in Hnd. cbn in Hnd. apply NoDup_app in Hnd as (H1 & H2 & _).
  apply rep_push_back; [by apply IH|]. intros Hk. apply (H2 _ Hk). by left.
Qed.
Ltac fuelled := exists 6%nat; intros n Hn; do 6 (destruct n as [|n]; [lia|]); vm_compute; reflexivity.

(** The three results are stored in "r". *)
Definition ex_tree : node :=
  Dir [([114], Dir [(KEYeq ++ [97], File);
    ([49], Dir [(KEYeq ++ [98], File); ([50], File); ([51], Dir [(KEYeq ++ [99], File); ([52], File)])]); ([50], File)])].
Example ex_stores : stores append ex_root (Dir [])
  [(ex1, [114; 47; 49; 47; 50]); (ex2, [114; 47; 49; 47; 51; 47; 52]); (ex3, [114; 47; 50])] ex_tree.
Proof.
  assert (storable ex1 ∧ storable ex2 ∧ storable ex3) as (H1 & H2 & H3).
  { split_and!; repeat constructor; cbn [fst snd]; try done; try (apply strstr_none; vm_compute; done);
      unfold good_key, slash; rewrite ?elem_of_list_singleton; done. }
  eapply (stores_cons _ _ _ (attrs_of ex1)); [apply attrs_of_answers; vm_compute; repeat constructor; set_solver|done|done|fuelled|vm_compute; reflexivity|].
  eapply (stores_cons _ _ _ (attrs_of ex2)); [apply attrs_of_answers; vm_compute; repeat constructor; set_solver|done|done|fuelled|vm_compute; reflexivity|].
  eapply (stores_cons _ _ _ (attrs_of ex3)); [apply attrs_of_answers; vm_compute; repeat constructor; set_solver|done|done|fuelled|vm_compute; reflexivity|].
  constructor.
Qed.
Example ex_pathattrs : ∃ a av, ends (λ fuel, pathattrs fuel ex_tree [114; 47; 49; 47; 51; 47; 52] noattrs) (Ok a) ∧ answers a av ∧ completes ex2 av.
Proof.
  destruct (stores_database append _ _ _ _ _ ex_database ex_stores) as (P & Hdb & _ & _ & HP).
  destruct (HP ex2 [114; 47; 49; 47; 51; 47; 52]) as (av & Hav & Hc & E); [set_solver|].
  destruct (C68_pathattrs append ex_tree ex_root P av (match ex_tree with Dir es => es | _ => [] end) Hdb Hav) as (a & H1 & H2); [done|done| |].
  - intros c m [= -> ->]%elem_of_list_singleton. apply strstr_none. by vm_compute.
  - exists a, av. split_and!; [|done|done]. by rewrite E.
Qed.

(** A query for b=3 also finds the result a=2, which has no attribute b. *)
Theorem C68_lacking_refuted : ∃ t l a p al, stores append ex_root (Dir []) l t ∧ answers a [([98], [51])] ∧ (al, p) ∈ l ∧ [98] ∉ al.*1 ∧
  ∃ ps, ends (λ fuel, withattrs fuel t ex_root a) (Ok ps) ∧ p ∈ ps.
Proof.
  exists ex_tree. eexists. exists (attrs_of [([98], [51])]), [114; 47; 50], ex3. split; [apply ex_stores|]. split.
  { apply attrs_of_answers. vm_compute. repeat constructor; set_solver. }
  split; [set_solver|]. split; [vm_compute; set_solver|]. eexists. split; [fuelled|]. set_solver.
Qed.
(** With a=1 b=2 stored, the path for a=1 is that of a directory, where nothing can be stored; and with a=2 stored, there is
    no path for a=2 b=2. *)
Theorem C68_directory_refuted :
  ends (λ fuel, pathfor append fuel ex_tree ex_root (attrs_of [([97], [49])])) (Ok (ex_tree, [114; 47; 49])) ∧
  isdir ex_tree [114; 47; 49] = Ok true ∧ touch append ex_tree [114; 47; 49] = Fatal ∧
  ends (λ fuel, pathfor append fuel ex_tree ex_root (attrs_of [([97], [50]); ([98], [50])])) Fatal.
Proof. split_and!; [fuelled|vm_compute; reflexivity|vm_compute; reflexivity|fuelled]. Qed.
(** A database in "KEY=r". *)
Example ex_key_in_root : ∃ t, stores append (KEYeq ++ [114]) (Dir []) [(ex3, KEYeq ++ [114; 47; 50])] t ∧
  ends (λ fuel, withattrs fuel t (KEYeq ++ [114]) noattrs) (Ok []).
Proof.
  exists (Dir [(KEYeq ++ [114], Dir [(KEYeq ++ [97], File); ([50], File)])]). split; [|fuelled].
  eapply (stores_cons _ _ _ (attrs_of ex3)); [apply attrs_of_answers; vm_compute; repeat constructor; set_solver| |done|fuelled|vm_compute; reflexivity|constructor].
  repeat constructor; cbn [fst snd]; try done; try (apply strstr_none; vm_compute; done); unfold good_key, slash; rewrite ?elem_of_list_singleton; done.
Qed.

Print Assumptions C68_withattrs.
Print Assumptions C68_pathfor.
Print Assumptions C68_found_again.
Print Assumptions C68_distinct_paths.
Print Assumptions C68_pathattrs.
Print Assumptions C68_key_in_root_refuted.
Print Assumptions C68_lacking_refuted.
Print Assumptions C68_directory_refuted.
