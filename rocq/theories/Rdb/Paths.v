(** Paths, listings and trees of the results database: lemmas for C68. *)
From stdpp Require Import prelude gmap.
From Coq Require Import ZArith Lia.
From Verif Require Import Text.Model Text.Props Rdb.Model.
Local Open Scope Z_scope.

(** ** Paths *)

(** A text that contains "KEY=". *)
Definition haskey (s : str) : Prop := ∃ a b, s = a ++ KEYeq ++ b.
(** The path of the entry [c] of directory [p]. *)
Definition under (p c : str) : str := if decide (last p = Some slash) then p ++ c else p ++ slash :: c.

Lemma pathcat_under p c : p ≠ [] → pathcat p c = Ok (under p c).
Proof.
  intros Hp. unfold pathcat, under. destruct (last p) as [x|] eqn:E; [|by apply last_None in E].
  destruct (decide (Some x = Some slash)) as [Hx|Hx].
  - injection Hx as ->. by rewrite Z.eqb_refl.
  - by rewrite (proj2 (Z.eqb_neq _ _)) by congruence.
Qed.
Lemma under_nonempty p c : under p c = [] → p = [] ∧ False.
Proof. unfold under. case_decide as H; intros [-> E]%app_eq_nil; done. Qed.
Lemma under_ne p c : p ≠ [] → under p c ≠ [].
Proof. intros Hp E. by apply under_nonempty in E as [? _]. Qed.
Lemma stem p : ∃ p', (p = p' ∨ p = p' ++ [slash]) ∧ ∀ c, under p c = p' ++ slash :: c.
Proof.
  unfold under. destruct (decide (last p = Some slash)) as [H|H].
  - apply last_Some in H as [p' ->]. exists p'. split; [by right|]. intros c. by rewrite <-app_assoc.
  - exists p. split; [by left|]. done.
Qed.

Lemma split_plain cur e : slash ∉ e → split cur e = [cur ++ e].
Proof.
  revert cur. induction e as [|x e IH]; intros cur He; cbn [split]; [by rewrite app_nil_r|].
  apply not_elem_of_cons in He as [Hx He]. rewrite (proj2 (Z.eqb_neq _ _)) by congruence. rewrite IH by done. by rewrite <-app_assoc.
Qed.
Lemma split_slash cur s e : slash ∉ e → split cur (s ++ slash :: e) = split cur s ++ [e].
Proof.
  intros He. revert cur. induction s as [|x s IH]; intros cur; cbn [app split].
  - rewrite Z.eqb_refl. by rewrite split_plain.
  - case_match; cbn [app]; by rewrite IH.
Qed.
Lemma comps_slash s e : slash ∉ e → e ≠ [] → e ≠ [dot] → comps (s ++ slash :: e) = comps s ++ [e].
Proof. intros. unfold comps. rewrite split_slash by done. rewrite filter_app. f_equal. by rewrite filter_cons_True by done. Qed.
Lemma comps_trailing s : comps (s ++ [slash]) = comps s.
Proof.
  unfold comps. rewrite (split_slash [] s []) by (by intros ?%elem_of_nil). rewrite filter_app, filter_cons_False by (by intros []).
  by rewrite app_nil_r.
Qed.
Lemma comps_under p c : slash ∉ c → c ≠ [] → c ≠ [dot] → comps (under p c) = comps p ++ [c].
Proof.
  intros. destruct (stem p) as (p' & Hp & ->). rewrite comps_slash by done. f_equal. destruct Hp as [->| ->]; [done|]. by rewrite comps_trailing.
Qed.

Lemma strstr_none s : strstr s KEYeq = None ↔ ¬ haskey s.
Proof.
  induction s as [|x s IH]; cbn [strstr].
  - rewrite bool_decide_false by (intros H%prefix_length; cbn in H; lia). split; [|done]. intros _ (a & b & E). apply (f_equal length) in E.
    rewrite !app_length in E. cbn in E. lia.
  - case_bool_decide as H.
    + split; [done|]. intros Hn. exfalso. apply Hn. destruct H as [b Hb]. exists [], b. done.
    + rewrite IH. split; intros Hn (a & b & E); apply Hn.
      * destruct a as [|y a]; [exfalso; apply H; by exists b|]. cbn [app] in E. injection E as -> ->. by exists a, b.
      * exists (x :: a), b. by rewrite E.
Qed.
Lemma strstr_slash q e : ¬ haskey q → strstr (q ++ slash :: e) KEYeq = strstr e KEYeq.
Proof.
  induction q as [|x q IH]; intros Hq; cbn [app].
  - cbn [strstr]. rewrite bool_decide_false; [done|]. intros H. by apply prefix_cons_inv_1 in H.
  - cbn [strstr]. rewrite bool_decide_false.
    + apply IH. intros (a & b & ->). apply Hq. by exists (x :: a), b.
    + intros [z Hz]. unfold KEYeq in *.
      destruct q as [|x1 q]; [cbn in Hz; by injection Hz|].
      destruct q as [|x2 q]; [cbn in Hz; by injection Hz|].
      destruct q as [|x3 q]; [cbn in Hz; by injection Hz|].
      cbn in Hz. injection Hz as -> -> -> -> _. apply Hq. by exists [], q.
Qed.
Lemma strstr_under p e : ¬ haskey p → strstr (under p e) KEYeq = strstr e KEYeq.
Proof.
  intros Hp. destruct (stem p) as (p' & Hp' & ->). apply strstr_slash. destruct Hp' as [->| ->]; [done|].
  intros (a & b & ->). apply Hp. exists a, (b ++ [slash]). by rewrite <-!app_assoc.
Qed.
Lemma nokey_under p e : ¬ haskey p → ¬ haskey e → ¬ haskey (under p e).
Proof. intros Hp He. apply strstr_none. rewrite strstr_under by done. by apply strstr_none. Qed.
Lemma haskey_key k : haskey (KEYeq ++ k).
Proof. by exists [], k. Qed.

Lemma readdir_under t p : p ≠ [] →
  readdir t p = match find t (comps p) with Found (Dir es) => Ok (map (under p) es.*1) | _ => Fatal end.
Proof.
  intros Hp. unfold readdir. destruct (last p) as [c|] eqn:E; [|by apply last_None in E].
  destruct (Z.eqb_spec c slash) as [->|Hc].
  - destruct (find t (comps p)) as [[|es]| |]; try done. f_equal. apply map_ext. intros e. unfold under. rewrite E. by rewrite decide_True.
  - rewrite comps_trailing. destruct (find t (comps p)) as [[|es]| |]; try done. f_equal. apply map_ext. intros e. unfold under. rewrite E.
    rewrite decide_False by congruence. by rewrite <-app_assoc.
Qed.

(** ** The key of a directory *)
Definition keyed (es : list (str * node)) (k : str) : Prop :=
  (KEYeq ++ k, File) ∈ es ∧ ∀ c n, (c, n) ∈ es → c ≠ KEYeq ++ k → ¬ haskey c.
Lemma getkey_keyed t p es k : p ≠ [] → ¬ haskey p → find t (comps p) = Found (Dir es) → keyed es k → getkey t p = Ok (Some k).
Proof.
  intros Hp Hnk Hf [Hk Hot]. unfold getkey. rewrite readdir_under, Hf by done. f_equal.
  clear Hf. induction es as [|[c n] es IH]; [by apply elem_of_nil in Hk|]. cbn [fmap list_fmap map fst getkeyloop]. rewrite strstr_under by done.
  destruct (decide (c = KEYeq ++ k)) as [->|Hne].
  - cbn. done.
  - rewrite (proj2 (strstr_none c)) by (eapply Hot; [left|done]).
    assert ((KEYeq ++ k, File) ∈ es) as Hk' by (apply elem_of_cons in Hk as [E|?]; [congruence|done]).
    apply IH; [done|]. intros c' n' Hin. eapply Hot. by right.
Qed.
Lemma getkey_none t p es : p ≠ [] → ¬ haskey p → find t (comps p) = Found (Dir es) → (∀ c n, (c, n) ∈ es → ¬ haskey c) → getkey t p = Ok None.
Proof.
  intros Hp Hnk Hf Hot. unfold getkey. rewrite readdir_under, Hf by done. f_equal.
  clear Hf. induction es as [|[c n] es IH]; [done|]. cbn [fmap list_fmap map fst getkeyloop]. rewrite strstr_under by done.
  rewrite (proj2 (strstr_none c)) by (eapply Hot; left). apply IH. intros c' n' Hin. eapply Hot. by right.
Qed.

(** ** Trees *)
Lemma assoc_in es c n : assoc es c = Some n → (c, n) ∈ es.
Proof. induction es as [|[c' n'] es IH]; [done|]. cbn [assoc]. case_bool_decide as H; [subst; intros [= ->]; left|right; auto]. Qed.
Lemma in_assoc es c n : NoDup es.*1 → (c, n) ∈ es → assoc es c = Some n.
Proof.
  induction es as [|[c' n'] es IH]; [by intros _ ?%elem_of_nil|]. cbn [fmap list_fmap fst assoc]. intros [Hni Hnd]%NoDup_cons [E|Hin]%elem_of_cons.
  - injection E as -> ->. by rewrite bool_decide_true.
  - rewrite bool_decide_false; [by apply IH|]. intros ->. apply Hni. by apply (elem_of_list_fmap_1 fst) in Hin.
Qed.
Lemma assoc_none es c : assoc es c = None ↔ c ∉ es.*1.
Proof.
  induction es as [|[c' n'] es IH]; cbn [assoc fmap list_fmap fst]; [split; [by intros _ ?%elem_of_nil|done]|].
  rewrite not_elem_of_cons. case_bool_decide as H; [split; [done|intros []; congruence]|]. rewrite IH. naive_solver.
Qed.
Lemma assoc_app es es' c : assoc (es ++ es') c = match assoc es c with Some n => Some n | None => assoc es' c end.
Proof. induction es as [|[c' n'] es IH]; [done|]. cbn [app assoc]. by case_bool_decide. Qed.

Lemma find_app t cs cs' : find t (cs ++ cs') = match find t cs with Found n => find n cs' | r => match cs' with [] => r | _ => r end end.
Proof.
  revert t. induction cs as [|c cs IH]; intros t; cbn [app find]; [done|]. destruct t as [|es]; [by destruct cs'|].
  destruct (assoc es c); [apply IH|by destruct cs'].
Qed.
Lemma find_snoc t cs c n es : find t cs = Found (Dir es) → assoc es c = Some n → find t (cs ++ [c]) = Found n.
Proof. intros H1 H2. rewrite find_app, H1. cbn [find]. by rewrite H2. Qed.
Lemma find_snoc_none t cs c es : find t cs = Found (Dir es) → assoc es c = None → find t (cs ++ [c]) = Noent.
Proof. intros H1 H2. rewrite find_app, H1. cbn [find]. by rewrite H2. Qed.

Lemma replace_fst es c n : (replace es c n).*1 = es.*1.
Proof. induction es as [|[c' n'] es IH]; [done|]. cbn [replace]. case_bool_decide; subst; cbn; [done|]. by rewrite IH. Qed.
Lemma replace_id es c n : assoc es c = Some n → replace es c n = es.
Proof. induction es as [|[c' n'] es IH]; [done|]. cbn [replace assoc]. case_bool_decide; subst; [by intros [= ->]|]. intros ?. by rewrite IH. Qed.
Lemma replace_replace es c n m : replace (replace es c n) c m = replace es c m.
Proof. induction es as [|[c' n'] es IH]; [done|]. cbn [replace]. case_bool_decide; cbn [replace]; [by rewrite bool_decide_true|]. rewrite bool_decide_false by done. by rewrite IH. Qed.
Lemma assoc_replace es c n c' : assoc (replace es c n) c' = if decide (c = c' ∧ is_Some (assoc es c)) then Some n else assoc es c'.
Proof.
  induction es as [|[x m] es IH]; cbn [replace assoc]; [rewrite decide_False by (by intros (_ & [])); done|].
  case_bool_decide as H; subst; cbn [assoc].
  - case_bool_decide as H'; subst; [rewrite decide_True by eauto; done|]. rewrite decide_False by naive_solver. done.
  - rewrite IH. case_bool_decide as H'; subst; [rewrite decide_False by naive_solver; done|]. done.
Qed.
Lemma replace_app es es' c n : assoc es c = None → replace (es ++ es') c n = es ++ replace es' c n.
Proof. induction es as [|[x m] es IH]; [done|]. cbn [app assoc replace]. case_bool_decide; [done|]. intros H'. by rewrite IH. Qed.

Section fs.
Context (place : list str → str → nat).
Local Notation setent := (setent place).
Local Notation setat := (setat place).

Lemma assoc_take_none es c i : assoc es c = None → assoc (take i es) c = None ∧ assoc (drop i es) c = None.
Proof. intros H. rewrite <-(take_drop i es) in H at 1. rewrite assoc_app in H. by destruct (assoc (take i es) c). Qed.
Lemma assoc_setent es c n c' : assoc (setent es c n) c' = if decide (c = c') then Some n else assoc es c'.
Proof.
  unfold Model.setent. destruct (assoc es c) as [m|] eqn:E.
  - rewrite assoc_replace, E. destruct (decide (c = c')); [by rewrite decide_True by eauto|by rewrite decide_False by naive_solver].
  - cbn zeta. set (i := place _ _). rewrite assoc_app. destruct (assoc_take_none es c i E) as [E1 E2]. cbn [assoc]. destruct (decide (c = c')) as [<-|Hne].
    + rewrite E1. by rewrite bool_decide_true.
    + rewrite bool_decide_false by done. rewrite <-assoc_app. by rewrite take_drop.
Qed.
Lemma setent_NoDup es c n : NoDup es.*1 → NoDup (setent es c n).*1.
Proof.
  intros Hnd. unfold Model.setent. destruct (assoc es c) as [m|] eqn:E; [by rewrite replace_fst|].
  cbn zeta. set (i := place _ _). assert ((take i es ++ (c, n) :: drop i es).*1 ≡ₚ c :: es.*1) as ->.
  { rewrite fmap_app. cbn. rewrite <-Permutation_middle. rewrite <-fmap_app. by rewrite take_drop. }
  constructor; [by apply assoc_none|done].
Qed.
Lemma in_setent es c n c' m : NoDup es.*1 → (c', m) ∈ setent es c n ↔ (c' = c ∧ m = n) ∨ (c' ≠ c ∧ (c', m) ∈ es).
Proof.
  intros Hnd. assert (∀ l, NoDup l.*1 → (c', m) ∈ l ↔ assoc l c' = Some m) as H.
  { intros l Hl. split; [by apply in_assoc|apply assoc_in]. }
  rewrite !H by (try apply setent_NoDup; done). rewrite assoc_setent. destruct (decide (c = c')) as [->|]; naive_solver.
Qed.
Lemma setent_setent es c n m : setent (setent es c n) c m = setent es c m.
Proof.
  unfold Model.setent at 1. rewrite assoc_setent, decide_True by done. unfold Model.setent. destruct (assoc es c) eqn:E; [apply replace_replace|].
  cbn zeta. set (i := place _ _). rewrite replace_app by (by apply assoc_take_none). cbn [replace]. by rewrite bool_decide_true.
Qed.
Lemma setent_id es c n : assoc es c = Some n → setent es c n = es.
Proof. intros E. unfold Model.setent. rewrite E. by apply replace_id. Qed.

Lemma setat_cons es c cs n t1 : setat (Dir es) (c :: cs) n = Some t1 ↔
  (cs = [] ∧ t1 = Dir (setent es c n)) ∨ (cs ≠ [] ∧ ∃ t' t'', assoc es c = Some t' ∧ setat t' cs n = Some t'' ∧ t1 = Dir (setent es c t'')).
Proof.
  cbn [Model.setat]. destruct cs as [|c' cs]; [naive_solver|]. split.
  - intros H. right. split; [done|]. destruct (assoc es c) as [t'|]; [|done]. destruct (setat t' (c' :: cs) n) as [t''|] eqn:E; [|done]. naive_solver.
  - intros [[? _]|(_ & t' & t'' & H1 & H2 & ->)]; [done|]. rewrite H1. by rewrite H2.
Qed.
Lemma setat_file cs n t1 : setat File cs n = Some t1 → cs = [] ∧ t1 = n.
Proof. destruct cs; cbn; naive_solver. Qed.
(** What was put somewhere is found there. *)
Lemma find_setat t cs n t1 cs' : setat t cs n = Some t1 → find t1 (cs ++ cs') = find n cs'.
Proof.
  revert t t1. induction cs as [|c cs IH]; intros t t1; [by intros [= ->]|]. destruct t as [|es]; [by intros [? _]%setat_file|].
  intros [[-> ->]|(Hne & t' & t'' & H1 & H2 & ->)]%setat_cons; cbn [app find]; rewrite assoc_setent, decide_True by done; [done|]. by eapply IH.
Qed.
Lemma find_setat_nil t cs n t1 : setat t cs n = Some t1 → find t1 cs = Found n.
Proof. intros H. rewrite <-(app_nil_r cs). by erewrite find_setat. Qed.
(** Putting something below it changes it there. *)
Lemma setat_setat t cs n t1 cs' m : setat t cs n = Some t1 →
  setat t1 (cs ++ cs') m = match setat n cs' m with Some n' => setat t cs n' | None => None end.
Proof.
  revert t t1. induction cs as [|c cs IH]; intros t t1 Hs.
  - injection Hs as ->. cbn [app]. by destruct (setat t1 cs' m).
  - destruct t as [|es]; [by apply setat_file in Hs as [? _]|].
    apply setat_cons in Hs as [[-> ->]|(Hne & t' & t'' & H1 & H2 & ->)].
    + cbn [app]. cbn [Model.setat]. rewrite assoc_setent, decide_True by done. destruct cs' as [|c' cs']; [by rewrite setent_setent|].
      destruct (setat n (c' :: cs') m); [by rewrite setent_setent|done].
    + destruct cs as [|c1 cs]; [done|]. cbn [app]. specialize (IH _ _ H2). cbn [app] in IH.
      remember (c1 :: cs) as L. change (c1 :: cs ++ cs') with ((c1 :: cs) ++ cs') in IH |- *. rewrite <-HeqL in IH |- *. cbn [Model.setat].
      rewrite assoc_setent, decide_True by done. destruct (L ++ cs') as [|x xs] eqn:EL; [by subst|]. rewrite IH.
      destruct (setat n cs' m) as [n'|]; [|done]. rewrite H1. destruct L; [done|]. destruct (setat t' (l :: L) n'); [by rewrite setent_setent|done].
Qed.
Lemma setat_id t cs n : find t cs = Found n → setat t cs n = Some t.
Proof.
  revert t. induction cs as [|c cs IH]; intros t; cbn [find Model.setat]; [by intros [= ->]|]. destruct t as [|es]; [done|].
  destruct (assoc es c) as [t'|] eqn:E; [|done]. intros H. destruct cs as [|c' cs]; [cbn in H; injection H as ->; by rewrite setent_id|].
  rewrite IH by done. by rewrite setent_id.
Qed.
Lemma setat_over t cs n m t1 : setat t cs n = Some t1 → ∃ t2, setat t cs m = Some t2.
Proof.
  revert t t1. induction cs as [|c cs IH]; intros t t1; [by eexists|]. destruct t as [|es]; [by intros [? _]%setat_file|].
  intros [[-> ->]|(Hne & t' & t'' & H1 & H2 & ->)]%setat_cons; [by eexists|]. destruct (IH _ _ H2) as [t2 Ht2].
  eexists. apply setat_cons. right. eauto 10.
Qed.
Lemma setat_found t cs n m : find t cs = Found n → ∃ t', setat t cs m = Some t'.
Proof. intros H. eapply setat_over. by apply setat_id. Qed.
(** A second change below replaces the whole by the changed part. *)
Lemma setat_app t cs n cs' m : find t cs = Found n →
  setat t (cs ++ cs') m = match setat n cs' m with Some n' => setat t cs n' | None => None end.
Proof. intros H. apply setat_setat. by apply setat_id. Qed.
Lemma setat_twice t cs n t1 m : setat t cs n = Some t1 → setat t1 cs m = setat t cs m.
Proof. intros H. pose proof (setat_setat t cs n t1 [] m H) as E. rewrite app_nil_r in E. by rewrite E. Qed.
End fs.
