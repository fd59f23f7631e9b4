(** The learning step of fhatlrtastar.hpp. *)
From stdpp Require Import prelude.
From Coq Require Import ZArith Lia ZifyBool ZifyNat QArith Lqa.
From Verif Require Import Common.Orders Common.Fuel BinHeap.Model BinHeap.Proofs.
From Verif Require Import Search.Domain Search.Model Search.Props Rta.Model Lss.Model Lss.Learn Lss.Look Lss.Run Lss.Props.
From Verif Require Import Fhat.Model Fhat.Proofs.
From Verif Require Bugsy.Proofs.
Local Open Scope Z_scope.

(** ** What is learned *)
(** A way out of the local search space: by [n] steps through states of [C] to the state [t] of [O]; its value is the cost
    of the steps and the value [v] of [t]. *)
Inductive exits (D : domain) (C O : St D → Prop) (v : St D → Z) : St D → Z → St D → nat → Prop :=
  | exits_here x : O x → exits D C O v x (v x) x 0
  | exits_step s o k t n : C s → o ∈ ops s → exits D C O v (dest s o) k t n → exits D C O v s (cost s o + k) t (S n).

Lemma exits_leaves D C O v s k : (∃ t n, exits D C O v s k t n) ↔ leaves D 1 C O v s k.
Proof.
  split.
  - intros (t & n & H). induction H as [x Hx|s o k t n Hc Ho _ IH]; [by constructor|].
    replace (cost s o + k) with (1 * cost s o + k) by lia. by constructor.
  - induction 1 as [x Hx|s o k Hc Ho _ (t & n & IH)]; [eexists _, _; by constructor|].
    exists t, (S n). replace (1 * cost s o + k) with (cost s o + k) by lia. by constructor.
Qed.

Section learn.
Context (D : domain).
Notation mem := (mem D).
Notation lnode := (lnode D).
Notation fss := (fss D).
Notation dist := (dist D).
Implicit Types (ns : list lnode) (m : mem) (L : fss) (dm : dist).

(** ** The values are those of LSS-LRTA-star *)
Lemma fbackups_backups x ps : ∀ m dm ns q upd,
  backups D 1 x ps m ns q upd = ('(m', _, ns', q', upd') ← fbackups D x ps m dm ns q upd; Some (m', ns', q', upd')).
Proof.
  induction ps as [|[p c] ps IH]; intros m dm ns q upd; cbn [backups fbackups]; [done|].
  destruct (find_l D ns p) as [j|]; [|apply IH]. destruct (ns !! j) as [sp|]; [|done]. cbn [mbind option_bind].
  destruct (l_cl D sp); [|apply IH]. rewrite Z.mul_1_l. destruct (negb (l_upd D sp) || _); [|apply IH].
  destruct (pushupdate _ _ _ _) as [q1|]; [|done]. cbn [mbind option_bind]. apply IH.
Qed.
Lemma flloop_lloop fuel : ∀ m dm ns q ncl upd,
  lloop D 1 fuel m ns q ncl upd = ('(m', _, upd') ← flloop D fuel m dm ns q ncl upd; Some (m', upd')).
Proof.
  induction fuel as [|fuel IH]; intros m dm ns q ncl upd; [done|]. cbn [lloop flloop]. case_decide; [done|]. destruct (empty q); [done|].
  destruct (pop hsort q) as [[q1 [i|]]|]; [|done..]. cbn [mbind option_bind]. destruct (ns !! i) as [sn|]; [|done]. cbn [mbind option_bind].
  rewrite (fbackups_backups _ _ _ dm). destruct (fbackups _ _ _ _ _ _ _ _) as [[[[[m1 dm1] ns1] q2] upd1]|]; [|done].
  cbn [mbind option_bind]. apply IH.
Qed.
(** The same nodes, with an open list that keeps no order. *)
Definition plain L : lss D := Lss D (f_nodes L) (Heap (arr (f_open L)) (ind (f_open L)) (λ _, (0, 0))) (f_ncl L).
Lemma fLearning_lss h fuel m dm L : hCostLearning D h 1 fuel m (plain L) = fst <$> fLearning D h fuel m dm L.
Proof.
  unfold hCostLearning, fLearning, plain. cbn [s_nodes s_open s_ncl arr ind]. destruct (append _ _ _) as [q|]; [|done].
  cbn [mbind option_bind]. rewrite (flloop_lloop _ _ dm). by destruct (flloop _ _ _ _ _ _ _ _) as [[[m1 dm1] upd]|].
Qed.
Lemma plain_ok root m L goal : ninv D root m L goal None [] →
  (∀ i n, i ∈ arr (f_open L) → f_nodes L !! i = Some n → l_cl D n = false) → lss_ok m (plain L).
Proof.
  intros Hi Hre. split; cbn [plain s_nodes s_open s_ncl arr].
  - apply Hi.
  - destruct (ni_shape _ _ _ _ _ _ _ Hi) as [He Ho]. split; [|split; apply He|intros e Hn _; by apply Ho].
    intros j _ _ a b _ _. done.
  - intros i. split.
    + intros Hin. destruct (ni_in _ _ _ _ _ _ _ Hi i Hin) as [n Hn]. exists n. split; [done|by eapply Hre].
    + intros (n & Hn & Hc). by eapply (ni_open _ _ _ _ _ _ _ Hi).
  - apply Hi.
  - apply Hi.
  - intros s (i & n & Hn & Hc & <-). by eapply (ni_exp _ _ _ _ _ _ _ Hi).
  - intros s o (i & n & Hn & Hc & <-) Ho. destruct (ni_succ _ _ _ _ _ _ _ Hi i n o Hn Hc Ho) as (j & k & Hk & Hs); [by left|].
    destruct (l_cl D k) eqn:Ek; [left|right]; by exists j, k.
Qed.

(** ** d and derr *)
Lemma fset_eq' {A} (f : St D → A) s a : fset D f s a s = a.
Proof. unfold fset. by rewrite decide_True. Qed.
Lemma fset_ne' {A} (f : St D → A) s a t : t ≠ s → fset D f s a t = f t.
Proof. intros. unfold fset. by rewrite decide_False. Qed.
Section steps.
Context (ns0 : list lnode) (m0 : mem) (dm0 : dist) (Hm0 : mem_ok m0).
Notation C := (closed_st ns0).
Notation O := (frontier ns0).

Definition good m dm (s : St D) : Prop := ∃ t n, exits D C O (m_h D m0) s (m_h D m s) t n ∧ n_derr dm s = n_derr dm0 t ∧
  (n_d dm s == n_d dm0 t + inject_Z (Z.of_nat n))%Q.
Record dinv m dm ns (upd : list (St D)) : Prop := {
  di_nodup : NoDup (l_st D <$> ns);
  di_same i n : ns !! i = Some n → ∃ n0, ns0 !! i = Some n0 ∧ l_st D n0 = l_st D n ∧ l_cl D n0 = l_cl D n;
  di_upd s : s ∈ upd ↔ ∃ i n, ns !! i = Some n ∧ l_cl D n = true ∧ l_upd D n = true ∧ l_st D n = s;
  di_good s : s ∈ upd → good m dm s;
  di_old s : s ∉ upd → m_h D m s = m_h D m0 s ∧ n_d dm s = n_d dm0 s ∧ n_derr dm s = n_derr dm0 s;
  di_preds : m_preds D m = m_preds D m0 }.

Lemma fbackups_dinv x ps : (∀ p c, (p, c) ∈ ps → (p, c) ∈ m_preds D m0 x) → ∀ m dm ns q upd m' dm' ns' q' upd',
  dinv m dm ns upd → good m dm x → (∀ i, i ∈ arr q → ∃ n, ns !! i = Some n ∧ (l_cl D n = false ∨ l_upd D n = true)) → shape q →
  fbackups D x ps m dm ns q upd = Some (m', dm', ns', q', upd') →
  dinv m' dm' ns' upd' ∧ (∀ i, i ∈ arr q' → ∃ n, ns' !! i = Some n ∧ (l_cl D n = false ∨ l_upd D n = true)) ∧ shape q'.
Proof using Hm0.
  induction ps as [|[p c] ps IH]; intros Hps m dm ns q upd m' dm' ns' q' upd' Hi Hx Hq Hs Hr; cbn [fbackups] in Hr.
  { apply (inj Some) in Hr. by injection Hr as <- <- <- <- <-. }
  assert (Hps' : ∀ p c, (p, c) ∈ ps → (p, c) ∈ m_preds D m0 x) by (intros; apply Hps; by right).
  destruct (find_l D ns p) as [j|] eqn:Hf; [|by eapply IH]. apply find_l_Some in Hf as (sp & Hj & Hsp). rewrite Hj in Hr. cbn [mbind option_bind] in Hr.
  destruct (l_cl D sp) eqn:Hc; [|by eapply IH]. destruct (negb (l_upd D sp) || _) eqn:Hup; [|by eapply IH]. clear Hup.
  set (b := c + m_h D m x) in *. set (sp' := LNode D (l_st D sp) (l_par D sp) (l_g D sp) (l_op D sp) true true) in *.
  destruct (pushupdate_shape hsort q j b Hs) as (q1 & Hq1 & Hs1 & Hin1 & _). rewrite Hq1 in Hr. cbn [mbind option_bind] in Hr.
  destruct (mo_sound _ Hm0 p c x) as (o & Ho & Hd & Hco); [apply Hps; left|].
  assert (C p) as HCp. { destruct (di_same _ _ _ _ Hi j sp Hj) as (n0 & Hn0 & ? & ?). exists j, n0. split_and!; [done|congruence..]. }
  assert (Hget : ∀ a n, <[j := sp']> ns !! a = Some n → a = j ∧ n = sp' ∨ a ≠ j ∧ ns !! a = Some n).
  { intros a n0 [(-> & <- & _)|[? Ha]]%list_lookup_insert_Some; [by left|]. by right. }
  assert (Hj' : <[j := sp']> ns !! j = Some sp') by (by apply list_lookup_insert; eapply lookup_lt_Some).
  set (upd1 := if l_upd D sp then upd else upd ++ [p]) in *.
  assert (Hu1 : ∀ s, s ∈ upd1 ↔ s = p ∨ s ∈ upd).
  { intros s. unfold upd1. destruct (l_upd D sp) eqn:Eu.
    - split; [auto|]. intros [->|?]; [|done]. apply (di_upd _ _ _ _ Hi). by exists j, sp.
    - rewrite elem_of_app, elem_of_list_singleton. tauto. }
  assert (good (set_h D m p b) (set_d D dm p (n_d dm x + 1) (n_derr dm x)) p) as Hgp.
  { destruct Hx as (t & n & He & H1 & H2). exists t, (S n). cbn [set_h set_d m_h n_d n_derr]. rewrite !fset_eq'. split_and!.
    - unfold b. rewrite <-Hco. apply exits_step; [done|done|]. by rewrite Hd.
    - done.
    - rewrite H2. replace (Z.of_nat (S n)) with (Z.of_nat n + 1) by lia. rewrite inject_Z_plus. change (inject_Z 1) with 1%Q. lra. }
  assert (Hgood : ∀ s, good m dm s → good (set_h D m p b) (set_d D dm p (n_d dm x + 1) (n_derr dm x)) s).
  { intros s Hgs. destruct (decide (s = p)) as [->|Hne]; [done|]. destruct Hgs as (t & n & ?). exists t, n.
    cbn [set_h set_d m_h n_d n_derr]. rewrite !fset_ne' by done. done. }
  eapply IH; [done| | | |exact Hs1|exact Hr].
  - split.
    + rewrite list_fmap_insert. rewrite list_insert_id; [apply Hi|]. by rewrite list_lookup_fmap, Hj.
    + intros i n Hn. destruct (Hget _ _ Hn) as [[-> ->]|[_ Hn']]; [|by apply Hi].
      destruct (di_same _ _ _ _ Hi j sp Hj) as (n0 & ? & ? & ?). exists n0. split_and!; [done|done|unfold sp'; cbn [l_cl]; congruence].
    + intros s. rewrite Hu1. split.
      * intros [->|(i & n & Hn & ? & ? & ?)%(di_upd _ _ _ _ Hi)]; [by exists j, sp'|].
        destruct (decide (i = j)) as [->|Hne]; [exists j, sp'|exists i, n]; split_and!; try done; [unfold sp'; cbn [l_st]; congruence|by rewrite list_lookup_insert_ne].
      * intros (i & n & Hn & Hcn & Hun & Hsn). destruct (Hget _ _ Hn) as [[-> ->]|[_ Hn']]; [left; by rewrite <-Hsn, <-Hsp|].
        right. apply (di_upd _ _ _ _ Hi). by exists i, n.
    + intros s [->|Hsu]%Hu1; [done|]. by apply Hgood, Hi.
    + intros s Hno. rewrite Hu1 in Hno. assert (s ≠ p) as Hne by tauto. cbn [set_h set_d m_h n_d n_derr]. rewrite !fset_ne' by done.
      apply Hi. tauto.
    + apply Hi.
  - by apply Hgood.
  - intros i [->|Hiq]%Hin1; [exists sp'; split; [done|by right]|]. destruct (decide (i = j)) as [->|Hne]; [exists sp'; split; [done|by right]|].
    destruct (Hq i Hiq) as (n & ? & ?). exists n. by rewrite list_lookup_insert_ne.
Qed.

Lemma flloop_dinv fuel : ∀ m dm ns q ncl upd m' dm' upd', dinv m dm ns upd →
  (∀ i, i ∈ arr q → ∃ n, ns !! i = Some n ∧ (l_cl D n = false ∨ l_upd D n = true)) → shape q →
  flloop D fuel m dm ns q ncl upd = Some (m', dm', upd') → ∃ ns', dinv m' dm' ns' upd'.
Proof using Hm0.
  induction fuel as [|fuel IH]; intros m dm ns q ncl upd m' dm' upd' Hi Hq Hs Hr; [done|]. cbn [flloop] in Hr.
  case_decide; [apply (inj Some) in Hr; injection Hr as <- <- <-; eauto|].
  destruct (empty q) eqn:Hem; [apply (inj Some) in Hr; injection Hr as <- <- <-; eauto|].
  destruct (arr q) as [|i l] eqn:Harr. { apply empty_true in Harr. congruence. }
  destruct (Bugsy.Proofs.pop_shape hsort _ _ _ Hs Harr) as (q1 & Hq1 & Hs1 & Hperm & _). rewrite Hq1 in Hr. cbn [mbind option_bind] in Hr.
  destruct (Hq i) as (sn & Hsn & Hor); [left|]. rewrite Hsn in Hr. cbn [mbind option_bind] in Hr.
  destruct (fbackups _ _ _ _ _ _ _ _) as [[[[[m1 dm1] ns1] q2] upd1]|] eqn:Eb; [|done]. cbn [mbind option_bind] in Hr.
  apply fbackups_dinv in Eb as (Hi1 & Hq2 & Hs2); [by eapply IH|by intros p c; rewrite (di_preds _ _ _ _ Hi)|done| | |done].
  - destruct (l_cl D sn) eqn:Hc.
    + destruct Hor as [?|Hu]; [done|]. apply Hi, (di_upd _ _ _ _ Hi). by exists i, sn.
    + assert (l_st D sn ∉ upd) as Hno.
      { intros (a & n & Hn & Hcn & _ & Hst)%(di_upd _ _ _ _ Hi). assert (a = i) as -> by (eapply nodup_st; [apply Hi|done..]). congruence. }
      destruct (di_old _ _ _ _ Hi _ Hno) as (E1 & E2 & E3). exists (l_st D sn), 0%nat. rewrite E1, E2, E3. split_and!; [|done|].
      * apply exits_here. destruct (di_same _ _ _ _ Hi i sn Hsn) as (n0 & ? & ? & ?). exists i, n0. split_and!; [done|congruence|done].
      * change (inject_Z (Z.of_nat 0)) with 0%Q. lra.
  - intros a Ha. rewrite Hperm in Ha. apply Hq. by right.
Qed.
End steps.

Lemma learn_spec' (OK : domain_ok D) h root m dm L fuel m' dm' : mem_ok m → ninv D root m L None None [] →
  (∀ i n, i ∈ arr (f_open L) → f_nodes L !! i = Some n → l_cl D n = false) →
  fLearning D h fuel m dm L = Some (m', dm') →
  let C := closed_st (f_nodes L) in let O := frontier (f_nodes L) in let out := exits D C O (m_h D m) in
  m_preds D m' = m_preds D m ∧ m_exp D m' = m_exp D m ∧
  ∀ s, (C s → (∃ w t n, out s w t n) → ∃ w t n, out s w t n ∧ (∀ w' t' n', out s w' t' n' → w ≤ w') ∧ m_h D m' s = Z.max w (h s) ∧
          n_derr dm' s = n_derr dm t ∧ (n_d dm' s == n_d dm t + inject_Z (Z.of_nat n))%Q) ∧
       (¬ C s ∨ ¬ (∃ w t n, out s w t n) → m_h D m' s = m_h D m s ∧ n_d dm' s = n_d dm s ∧ n_derr dm' s = n_derr dm s).
Proof.
  intros Hm Hi Hre Hl C O out. pose proof (plain_ok _ _ _ _ Hi Hre) as HL. set (F := (S (length (f_nodes L)) + fuel)%nat).
  (* the values before they are raised *)
  assert (∃ m1 upd, m' = raise D h m1 upd ∧ (∀ h', hCostLearning D h' 1 fuel m (plain L) = Some (raise D h' m1 upd)) ∧ ∃ ns', dinv (f_nodes L) m dm m1 dm' ns' upd) as (m1 & upd & -> & Hall & ns' & Hdi).
  { unfold fLearning in Hl. destruct (append _ _ _) as [q|] eqn:Ea; [|done]. cbn [mbind option_bind] in Hl.
    destruct (flloop _ _ _ _ _ _ _ _) as [[[m1 dm1] upd]|] eqn:El; [|done]. cbn [mbind option_bind] in Hl.
    apply (inj Some) in Hl. injection Hl as <- <-. exists m1, upd. split_and!; [done| |].
    - intros h'. unfold hCostLearning, plain. cbn [s_nodes s_open s_ncl arr ind]. rewrite Ea. cbn [mbind option_bind].
      rewrite (flloop_lloop _ _ dm), El. done.
    - unfold append in Ea. cbn [arr ind key setarr] in Ea.
      destruct (reinit_spec hsort (sw_asym _ hsort_sw) (sw_neg_trans _ hsort_sw) (λ _, True)
        (Heap (arr (f_open L)) (ind (f_open L)) (hkey D m (f_nodes L)))) as (q' & Hq' & Hiq & HP & _).
      { apply (ni_shape _ _ _ _ _ _ _ Hi). } { intros e He _. by apply (ni_shape _ _ _ _ _ _ _ Hi). }
      unfold setarr in Ea. cbn [arr ind key app] in Ea. rewrite Hq' in Ea. injection Ea as <-. cbn [arr] in HP.
      eapply flloop_dinv; [done| | | |exact El].
      + split; [apply Hi|eauto| |by intros s ?%elem_of_nil|done|done].
        intros s. split; [by intros ?%elem_of_nil|]. intros (i & n & Hn & _ & Hu & _). rewrite (ni_upd _ _ _ _ _ _ _ Hi i n Hn) in Hu. done.
      + intros i. rewrite HP. intros Hin. destruct (ni_in _ _ _ _ _ _ _ Hi i Hin) as [n Hn]. exists n. split; [done|left]. by eapply Hre.
      + split; [apply Hiq|]. intros e He. by apply (inv_out _ _ _ Hiq). }
  assert (Hlo : ∀ s w, (∃ t n, out s w t n) ↔ leaves D 1 C O (m_h D m) s w) by (intros; apply exits_leaves).
  assert (0 ≤ 1) as H01 by lia.
  assert (Hraise : ∀ h' s, m_h D (raise D h' m1 upd) s = if decide (s ∈ upd) then Z.max (m_h D m1 s) (h' s) else m_h D m1 s).
  { intros h' s. apply (raise_h D h' 1 OK H01 (f_nodes L) m (lo_nodup _ _ HL) Hm (lo_exp _ _ HL)). }
  assert (Hrest : ∀ h', m_preds D (raise D h' m1 upd) = m_preds D m1 ∧ m_exp D (raise D h' m1 upd) = m_exp D m1).
  { intros h'. apply (raise_rest D h' 1 OK H01 (f_nodes L) m (lo_nodup _ _ HL) Hm (lo_exp _ _ HL)). }
  destruct (learn_spec D (λ s, m_h D m1 s - 1) 1 OK H01 m (plain L) F Hm HL) as (m2 & H2 & Hp2 & Hx2 & Hs2); [cbn [plain s_nodes]; lia|].
  pose proof (Hall (λ s, m_h D m1 s - 1)) as Hall1. apply (learn_mono _ _ _ _ F) in Hall1; [|lia]. rewrite H2 in Hall1. injection Hall1 as ->.
  destruct (Hrest (λ s, m_h D m1 s - 1)) as [E1 E2]. destruct (Hrest h) as [E3 E4]. rewrite E1 in Hp2. rewrite E2 in Hx2.
  split_and!; [congruence..|].
  intros s. rewrite Hraise. specialize (Hs2 s). rewrite Hraise in Hs2. cbn [plain s_nodes] in Hs2. fold C O in Hs2. destruct Hs2 as [Ha Hb].
  destruct (decide (s ∈ upd)) as [Hin|Hno].
  - destruct (di_good _ _ _ _ _ _ _ Hdi s Hin) as (t & n & He & Hde & Hd). fold C O out in He.
    assert (C s) as HC.
    { apply (di_upd _ _ _ _ _ _ _ Hdi) in Hin as (i & a & Ha' & Hc & _ & <-). destruct (di_same _ _ _ _ _ _ _ Hdi i a Ha') as (n0 & ? & ? & ?).
      exists i, n0. split_and!; [done|congruence|done]. }
    split; [|intros [?|Hn]; [done|]; destruct Hn; by eauto]. intros _ _.
    destruct Ha as (w & Hw & Hmin & Heq); [done|exists (m_h D m1 s); apply Hlo; eauto|]. assert (w = m_h D m1 s) as -> by lia.
    exists (m_h D m1 s), t, n. split_and!; [done| |done|done|done]. intros w' t' n' Hw'. apply Hmin, Hlo. eauto.
  - destruct (di_old _ _ _ _ _ _ _ Hdi s Hno) as (E5 & E6 & E7). split; [|done].
    intros HC (w0 & t0 & n0 & Hw0). exfalso.
    destruct (learn_spec D (λ x, m_h D m x + 1) 1 OK H01 m (plain L) F Hm HL) as (m3 & H3 & _ & _ & Hs3); [cbn [plain s_nodes]; lia|].
    pose proof (Hall (λ x, m_h D m x + 1)) as Hall1. apply (learn_mono _ _ _ _ F) in Hall1; [|lia]. rewrite H3 in Hall1. injection Hall1 as ->.
    destruct (proj1 (Hs3 s)) as (w & _ & _ & Heq); [done|exists w0; apply Hlo; eauto|].
    rewrite Hraise, decide_False, E5 in Heq by done. lia.
Qed.
End learn.
