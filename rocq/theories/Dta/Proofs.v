(** The local searches of DTA-star: what holds of them as they are expanded. *)
From stdpp Require Import prelude.
From Coq Require Import ZArith Lia ZifyBool ZifyNat QArith Qabs Lqa.
From Verif Require Import Common.Orders BinHeap.Model BinHeap.Proofs.
From Verif Require Import Search.Domain Search.Model Rta.Model.
From Verif Require Lss.Learn.
From Verif Require Import Dta.Model.
Local Open Scope Z_scope.

(** ** The orders *)
Lemma Qltb_true a b : Qltb a b = true ↔ (a < b)%Q.
Proof. unfold Geom.Model.Qltb. rewrite negb_true_iff, <-not_true_iff_false, Qle_bool_iff. split; [apply Qnot_le_lt|apply Qlt_not_le]. Qed.
Lemma Qltb_false a b : Qltb a b = false ↔ (b <= a)%Q.
Proof. unfold Geom.Model.Qltb. by rewrite negb_false_iff, Qle_bool_iff. Qed.
Lemma Qeqb_false a b : Qeq_bool a b = false ↔ ¬ (a == b)%Q.
Proof. rewrite <-not_true_iff_false, Qeq_bool_iff. done. Qed.

Lemma fsort_true a b : fsort a b = true ↔ (a.1 < b.1)%Q ∨ (a.1 == b.1)%Q ∧ (b.2 < a.2)%Q.
Proof.
  unfold fsort. destruct (Qeq_bool a.1 b.1) eqn:E.
  - apply Qeq_bool_iff in E. rewrite Qltb_true. split; [by right|intros [?|[_ ?]]; [lra|done]].
  - apply Qeqb_false in E. rewrite Qltb_true. split; [by left|intros [?|[? _]]; [done|lra]].
Qed.
Lemma fsort_false a b : fsort a b = false ↔ (b.1 < a.1)%Q ∨ (a.1 == b.1)%Q ∧ (a.2 <= b.2)%Q.
Proof.
  rewrite <-not_true_iff_false, fsort_true. split.
  - intros Hn. destruct (Qlt_le_dec b.1 a.1) as [?|H1]; [by left|]. right.
    destruct (Qlt_le_dec a.1 b.1) as [?|H2]; [exfalso; auto|].
    assert (a.1 == b.1)%Q as He by lra. split; [done|]. destruct (Qlt_le_dec b.2 a.2) as [?|?]; [exfalso; auto|done].
  - intros [?|[? ?]] [?|[? ?]]; lra.
Qed.
Lemma fsort_sw : strict_weak fsort.
Proof.
  split.
  - intros a. apply fsort_false. right. split; lra.
  - intros a b c. rewrite !fsort_true. intros [?|[? ?]] [?|[? ?]]; [left; lra..|right; split; lra].
  - intros a b c. rewrite !fsort_false. intros [?|[? ?]] [?|[? ?]] [?|[? ?]] [?|[? ?]]; try (exfalso; lra).
    split; right; split; lra.
Qed.
Lemma lsort_sw : strict_weak lsort.
Proof.
  split.
  - intros [a|]; [|done]. apply (sw_irrefl _ fsort_sw).
  - intros [a|] [b|] [c|]; try done. apply (sw_trans _ fsort_sw).
  - intros [a|] [b|] [c|]; try done. apply (sw_incomp _ fsort_sw).
Qed.

Lemma qmax_l a b : (a <= qmax a b)%Q.
Proof. unfold qmax. destruct (Qltb a b) eqn:E; [apply Qltb_true in E; lra|lra]. Qed.
Lemma qmax_r a b : (b <= qmax a b)%Q.
Proof. unfold qmax. destruct (Qltb a b) eqn:E; [lra|apply Qltb_false in E; lra]. Qed.
Lemma qmax_le a b c : (a <= c)%Q → (b <= c)%Q → (qmax a b <= c)%Q.
Proof. unfold qmax. by destruct (Qltb a b). Qed.

Lemma front_in {K} (q : heap K) i : front q = Some i → i ∈ arr q.
Proof. unfold front. case_decide; [done|]. apply elem_of_list_lookup_2. Qed.
Lemma front_min {K} (lt : K → K → bool) (q : heap K) i y : strict_weak lt → BinHeap.Proofs.inv lt (λ _, True) q →
  front q = Some i → y ∈ arr q → lt (key q y) (key q i) = false.
Proof.
  intros SW Hi Hf Hy. pose proof (pop_spec lt (sw_asym lt SW) (sw_neg_trans lt SW) (λ _, True) q Hi) as Hp.
  unfold front in Hf. case_decide; [done|]. destruct (arr q) as [|x l]; [done|]. injection Hf as <-.
  destruct Hp as (q' & _ & _ & _ & _ & Hm). by apply Hm.
Qed.
Lemma front_None {K} (q : heap K) : front q = None ↔ arr q = [].
Proof. unfold front. case_decide as H; [apply nil_length_inv in H; done|]. destruct (arr q); [done|]. split; done. Qed.

Lemma skey_eq {K} (q : heap K) e k : key (setkey q e k) e = k.
Proof. unfold setkey. cbn. by rewrite decide_True. Qed.
Lemma skey_ne {K} (q : heap K) e k x : x ≠ e → key (setkey q e k) x = key q x.
Proof. unfold setkey. cbn. intros. by rewrite decide_False. Qed.

Section dta.
Context (D : domain) (OK : domain_ok D) (lim : limits) (cur : St D) (h0 : St D → Q).
Implicit Types (m : graph D) (t : tree D) (n : tnode D).

Lemma find_st_Some (ns : list (tnode D)) s j : find_st D ns s = Some j → ∃ n, ns !! j = Some n ∧ t_st n = s.
Proof.
  revert j. induction ns as [|n ns IH]; intros j; [done|]. cbn [find_st].
  destruct (decide (t_st n = s)) as [He|He]; [intros [= <-]; by exists n|].
  destruct (find_st D ns s) as [j'|]; [|done]. intros [= <-]. by apply IH.
Qed.
Lemma find_t_Some (ns : list (tnode D)) s j : find_t D ns s = Some j → (∃ n, ns !! j = Some n ∧ t_st n = s) ∧ j ≠ 0%nat.
Proof.
  unfold find_t. destruct (find_st D (tail ns) s) as [j'|] eqn:E; [|done]. intros [= <-].
  apply find_st_Some in E as (n & Hn & Hs). split; [|done]. exists n. split; [|done]. by destruct ns.
Qed.

(** ** The values *)
Definition seen m (s : St D) : Prop := ∃ y o, y ∈ g_exp m ∧ o ∈ ops y ∧ dest y o = s.
Definition mle m m' : Prop := (∀ s, g_h m s <= g_h m' s)%Q ∧ ∀ s, s ∈ g_exp m → s ∈ g_exp m'.
(** No value is more than [d] above the cost of a solution. *)
Definition near (d : Q) m : Prop := ∀ s ss os k, solution s ss os k → (g_h m s <= inject_Z k + d)%Q.
Record minv m : Prop := {
  mi_pos s : (0 <= g_h m s)%Q;
  mi_h0 s : (h0 s <= g_h m s)%Q;
  mi_cur : (g_h m cur <= h0 cur)%Q }.

Lemma mle_refl m : mle m m.
Proof. split; [intros; lra|done]. Qed.
Lemma mle_trans m1 m2 m3 : mle m1 m2 → mle m2 m3 → mle m1 m3.
Proof. intros [H1 H2] [H3 H4]. split; [|auto]. intros s. specialize (H1 s). specialize (H3 s). lra. Qed.
Lemma seen_mle m m' s : mle m m' → seen m s → seen m' s.
Proof. intros [_ He] (y & o & Hy & Ho & Hd). exists y, o. auto. Qed.

Lemma set_h_eq m s v : g_h (set_h D m s v) s = v.
Proof. unfold set_h, fset. cbn. by rewrite decide_True. Qed.
Lemma set_h_ne m s v x : x ≠ s → g_h (set_h D m s v) x = g_h m x.
Proof. unfold set_h, fset. cbn. intros. by rewrite decide_False. Qed.

Lemma up_mle m s v : (g_h m s <= v)%Q → mle m (set_h D m s v).
Proof.
  intros Hv. split; [|done]. intros x. destruct (decide (x = s)) as [->|Hne]; [by rewrite set_h_eq|].
  rewrite set_h_ne by done. lra.
Qed.

Lemma solution_cons (s : St D) (o : Op D) ss os k : o ∈ ops s → solution (dest s o) ss os k → solution s (s :: ss) (o :: os) (cost s o + k).
Proof.
  intros Ho (Hw & Hh & t & Hl & Ht). destruct ss as [|x ss]; [done|]. cbn in Hh. injection Hh as ->.
  split; [by apply walk_step|]. split; [done|]. exists t. split; [|done]. exact Hl.
Qed.

(** The value of a successor is raised. *)
Lemma up_near d m (s : St D) (o : Op D) : o ∈ ops s → near d m →
  near d (set_h D m (dest s o) (qmax (g_h m (dest s o)) (g_h m s - inject_Z (cost s o)))).
Proof.
  intros Ho Hn x ss os k Hs. destruct (decide (x = dest s o)) as [->|Hne].
  - rewrite set_h_eq. apply qmax_le; [by apply (Hn _ ss os)|].
    pose proof (Hn _ _ _ _ (solution_cons _ _ _ _ _ Ho Hs)) as H. rewrite inject_Z_plus in H. lra.
  - rewrite set_h_ne by done. by apply (Hn _ ss os).
Qed.
Lemma up_minv m (s : St D) (o : Op D) : o ∈ ops s → minv m → dest s o ≠ cur ∨ s = cur →
  minv (set_h D m (dest s o) (qmax (g_h m (dest s o)) (g_h m s - inject_Z (cost s o)))).
Proof.
  intros Ho [Hp H0 Hc] Hcur. set (v := qmax _ _).
  assert (mle m (set_h D m (dest s o) v)) as [Hm _] by apply up_mle, qmax_l.
  split.
  - intros x. specialize (Hm x). specialize (Hp x). lra.
  - intros x. specialize (Hm x). specialize (H0 x). lra.
  - destruct (decide (dest s o = cur)) as [He|He]; [|by rewrite set_h_ne].
    rewrite He, set_h_eq. destruct Hcur as [?|Hs]; [done|]. unfold v. rewrite He, Hs. apply qmax_le; [done|].
    pose proof (ok_cost OK s o Ho) as Hco. rewrite Hs in Hco. rewrite Zle_Qle in Hco. change (inject_Z 0) with 0%Q in Hco. lra.
Qed.

(** ** The invariant of a local search *)
Definition covered (ns : list (tnode D)) n (o : Op D) : Prop :=
  dest (t_st n) o = cur ∨
  ∃ j kn, ns !! j = Some kn ∧ t_st kn = dest (t_st n) o ∧ (t_g kn <= t_g n + inject_Z (cost (t_st n) o))%Q.

Record node_ok m t (i : nat) n : Prop := {
  no_walk : ∃ ss os c, walk (l_root t :: ss) os c ∧ last (l_root t :: ss) = Some (t_st n) ∧ cur ∉ ss ∧
    (t_g n == inject_Z (l_g0 t + c))%Q;
  no_seen : seen m (t_st n);
  no_g : (key (l_open t) i).2 = t_g n;
  no_f0 : (t_g n + h0 (t_st n) <= (key (l_open t) i).1)%Q;
  no_f : ((key (l_open t) i).1 <= t_g n + g_h m (t_st n))%Q;
  no_cur : (h0 cur <= (key (l_open t) i).1)%Q;
  no_par p : t_par n = Some p → ∃ pn, l_nodes t !! p = Some pn ∧ (t_g pn <= t_g n)%Q }.

(** [E i o]: the operator [o] of the closed node [i] has been dealt with. *)
Record tinv (E : nat → Op D → Prop) m t : Prop := {
  ti_heap : BinHeap.Proofs.inv fsort (λ _, True) (l_open t);
  ti_in i : i ∈ arr (l_open t) → is_Some (l_nodes t !! i);
  ti_root : ∃ n, l_nodes t !! 0%nat = Some n ∧ t_st n = l_root t ∧ (t_g n == inject_Z (l_g0 t))%Q;
  ti_g0 : 0 ≤ l_g0 t;
  ti_node i n : l_nodes t !! i = Some n → node_ok m t i n;
  ti_exp i n : l_nodes t !! i = Some n → i ∉ arr (l_open t) →
    t_cl n = true ∧ (isgoal (t_st n) = true ∨ ∀ o, o ∈ ops (t_st n) → E i o → covered (l_nodes t) n o);
  ti_goal : match l_goal t with
            | None => ∀ i n, l_nodes t !! i = Some n → isgoal (t_st n) = false
            | Some b => ∃ bn, l_nodes t !! b = Some bn ∧ isgoal (t_st bn) = true ∧
                ∀ i n, l_nodes t !! i = Some n → isgoal (t_st n) = true → (t_g bn <= t_g n)%Q
            end }.
(** The goals that have been expanded cost no more than [β], and no node of the open list is below [β]. *)
Definition parts (β : Q) t : Prop :=
  (∀ x n, l_nodes t !! x = Some n → isgoal (t_st n) = true → t_cl n = true → (t_g n <= β)%Q) ∧
  ∀ j, j ∈ arr (l_open t) → (β <= (key (l_open t) j).1)%Q.
Definition alldone : nat → Op D → Prop := λ _ _, True.

Lemma tinv_mle E m m' t : mle m m' → tinv E m t → tinv E m' t.
Proof.
  intros Hle [H1 H2 H3 H4 H5 H6 H7]. split; [done..| |done|done].
  intros i n Hn. destruct (H5 i n Hn) as [Ha Hb Hc Hd He Hf Hg]. split; [done|by apply (seen_mle m)|done..| |done|done].
  destruct Hle as [Hle _]. specialize (Hle (t_st n)). lra.
Qed.

Lemma node_g_pos E m t i n : tinv E m t → l_nodes t !! i = Some n → (0 <= t_g n)%Q.
Proof.
  intros Hi Hn. destruct (no_walk _ _ _ _ (ti_node _ _ _ Hi i n Hn)) as (ss & os & c & Hw & _ & _ & ->).
  apply (walk_nonneg D) in Hw; [|done]. pose proof (ti_g0 _ _ _ Hi).
  change 0%Q with (inject_Z 0). rewrite <-Zle_Qle. lia.
Qed.

Lemma new_inv {K} (lt : K → K → bool) k : BinHeap.Proofs.inv lt (λ _, True) (new k).
Proof. split; cbn; [intros ????? H; done|split; [apply NoDup_nil_2|done]|done]. Qed.

Lemma mktree_spec m (o : Op D) : minv m → o ∈ ops cur → cur ∈ g_exp m → (h0 cur <= g_h m (dest cur o) + inject_Z (cost cur o))%Q →
  ∃ t, mktree D m cur (dest cur o) o (cost cur o) = Some t ∧ tinv alldone m t ∧ (∃ β, parts β t) ∧
    l_root t = dest cur o ∧ l_op t = o ∧ l_g0 t = cost cur o.
Proof.
  intros Hm Ho Hex Hpm. unfold mktree.
  assert (Qle_bool (g_h m cur) (inject_Z (cost cur o) + g_h m (dest cur o) + Threshold) = true) as ->.
  { apply Qle_bool_iff. pose proof (mi_cur _ Hm). unfold Geom.Model.Threshold. lra. }
  set (kx := ((inject_Z (cost cur o) + g_h m (dest cur o))%Q, inject_Z (cost cur o))).
  destruct (push_spec fsort (sw_asym _ fsort_sw) (sw_neg_trans _ fsort_sw) (λ _, True)
    (new (λ _, (0, 0)%Q)) 0 kx (new_inv _ _)) as (q & Hq & Hi & HP & Hk); [apply not_elem_of_nil|].
  rewrite Hq. cbn [mbind option_bind]. eexists. split; [reflexivity|].
  assert (Hk0 : key q 0 = kx) by (rewrite Hk; done).
  split; [|split; [|done]].
  2:{ exists kx.1. split; cbn [l_open l_nodes].
      - intros x n Hn. destruct x as [|x]; [|done]. by injection Hn as <-.
      - intros x Hx. rewrite HP in Hx. cbn in Hx. apply elem_of_list_singleton in Hx as ->. rewrite Hk0. lra. }
  split; cbn [l_open l_nodes l_root l_g0 l_goal].
  - done.
  - intros i Hin. rewrite HP in Hin. cbn in Hin. apply elem_of_list_singleton in Hin as ->. done.
  - eexists. split; [reflexivity|]. split; [done|]. cbn. lra.
  - by apply (ok_cost OK).
  - intros i n Hn. destruct i as [|i]; [|done]. injection Hn as <-.
    split; cbn [l_open l_nodes l_root l_g0 l_goal t_st t_g t_par]; rewrite ?Hk0; unfold kx; cbn [fst snd].
    + exists [], [], 0. split_and!; [constructor|done|apply not_elem_of_nil|]. by rewrite Z.add_0_r.
    + exists cur, o. done.
    + done.
    + pose proof (mi_h0 _ Hm (dest cur o)). lra.
    + lra.
    + lra.
    + done.
  - intros i n Hn Hni. destruct i as [|i]; [|done]. exfalso. apply Hni. rewrite HP. left.
  - destruct (isgoal (dest cur o)) eqn:Eg.
    + eexists. split; [reflexivity|]. split; [done|]. intros i n Hn _. destruct i as [|i]; [|done]. injection Hn as <-. cbn. lra.
    + intros i n Hn. destruct i as [|i]; [|done]. by injection Hn as <-.
Qed.

(** The node [j] gets a new parent. *)
Lemma store_spec dn m m1 t i sn (o : Op D) ns0 j kn0 :
  let s := t_st sn in let k := dest s o in let g := (t_g sn + inject_Z (cost s o))%Q in
  let h := qmax (g_h m1 k) (g_h m1 s - inject_Z (cost s o)) in let f := (g + h)%Q in
  let ns := <[j := TNode k (Some i) g o (t_upd kn0) (t_cl kn0)]> ns0 in
  tinv (λ j o', j = i → o' ∈ dn) m t → minv m → mle m m1 → minv m1 →
  l_nodes t !! i = Some sn → i ∉ arr (l_open t) → o ∈ ops s → s ∈ g_exp m → k ≠ cur → (h <= g_h m1 k)%Q →
  ns0 !! j = Some kn0 → j ≠ 0%nat → (∀ x, x ≠ j → ns0 !! x = l_nodes t !! x) →
  (∀ kn, l_nodes t !! j = Some kn → kn = kn0 ∧ t_st kn = k ∧ (g < t_g kn)%Q) → (l_nodes t !! j = None → t_cl kn0 = false) →
  ∃ t', (if Qltb h 0 || Qltb g 0 || Qltb (f + Threshold) (key (l_open t) i).1 || Qltb (f + Threshold) (g_h m1 cur) then None
        else
          q ← pushupdate fsort (setkey (l_open t) j (f, g)) j (ind (l_open t) j);
          let better := match l_goal t with
                        | None => true
                        | Some b => match ns !! b with Some bn => Qltb g (t_g bn) | None => false end
                        end in
          let goal := if isgoal k && better then Some j else l_goal t in
          Some (m1, Tree ns q (l_ncl t) goal (l_root t) (l_op t) (l_g0 t))) = Some (m1, t') ∧
    tinv (λ j o', j = i → o' ∈ o :: dn) m1 t' ∧
    l_nodes t' !! i = Some sn ∧ i ∉ arr (l_open t') ∧ l_root t' = l_root t ∧ l_op t' = l_op t ∧ l_g0 t' = l_g0 t ∧
    key (l_open t') i = key (l_open t) i ∧ (∀ β, parts β t → (β <= (key (l_open t) i).1)%Q → parts β t').
Proof.
  intros s k g h f ns Hi Hm Hle Hm1 Hsn Hni Ho Hx Hkc Hhk Hj Hj0 Hother Hold Hnew.
  pose proof (ok_cost OK s o Ho) as Hc. rewrite Zle_Qle in Hc. change (inject_Z 0) with 0%Q in Hc.
  pose proof (node_g_pos _ _ _ _ _ Hi Hsn) as Hg0.
  pose proof (ti_node _ _ _ Hi i sn Hsn) as Hni0.
  assert (0 <= g)%Q as Hg by (unfold g; lra).
  assert (g_h m1 k <= h)%Q as Hh1 by apply qmax_l.
  assert (g_h m1 s - inject_Z (cost s o) <= h)%Q as Hh2 by apply qmax_r.
  assert (0 <= h)%Q as Hh. { pose proof (mi_pos _ Hm1 k). lra. }
  assert ((key (l_open t) i).1 <= f)%Q as Hf.
  { pose proof (no_f _ _ _ _ Hni0) as H. fold s in H. destruct Hle as [Hle _]. specialize (Hle s). unfold f, g. lra. }
  assert (h0 cur <= f)%Q as Hfc. { pose proof (no_cur _ _ _ _ Hni0) as H. lra. }
  assert (Qltb h 0 = false) as -> by by apply Qltb_false.
  assert (Qltb g 0 = false) as -> by by apply Qltb_false.
  assert (Qltb (f + Threshold) (key (l_open t) i).1 = false) as ->. { apply Qltb_false. unfold Geom.Model.Threshold. lra. }
  assert (Qltb (f + Threshold) (g_h m1 cur) = false) as ->.
  { apply Qltb_false. pose proof (mi_cur _ Hm1). unfold Geom.Model.Threshold. lra. }
  cbn [orb].
  destruct (Lss.Learn.pushupdate_spec fsort (l_open t) j (f, g) fsort_sw (ti_heap _ _ _ Hi)) as (q & Hq & Hqi & Hqin & Hqk).
  rewrite Hq. cbn [mbind option_bind]. eexists. split; [reflexivity|].
  assert (j ≠ i) as Hji.
  { intros ->. destruct (Hold _ Hsn) as (_ & _ & Hlt). unfold g in Hlt. lra. }
  assert (Hjn : ns !! j = Some (TNode k (Some i) g o (t_upd kn0) (t_cl kn0))).
  { unfold ns. apply list_lookup_insert. by apply lookup_lt_Some in Hj. }
  assert (Hxn : ∀ x, x ≠ j → ns !! x = l_nodes t !! x).
  { intros x Hxj. unfold ns. rewrite list_lookup_insert_ne by done. by apply Hother. }
  (* no g has grown *)
  assert (Hdown : ∀ x n, l_nodes t !! x = Some n → ∃ n', ns !! x = Some n' ∧ t_st n' = t_st n ∧ (t_g n' <= t_g n)%Q).
  { intros x n Hn. destruct (decide (x = j)) as [->|Hxj].
    - destruct (Hold _ Hn) as (_ & Hst & Hlt). eexists. split; [done|]. cbn. split; [done|lra].
    - exists n. rewrite Hxn by done. split_and!; [done..|lra]. }
  assert (Hcov : ∀ n o', covered (l_nodes t) n o' → covered ns n o').
  { intros n o' [?|(x & kn & Hkn & Hst & Hle')]; [by left|]. right.
    destruct (Hdown _ _ Hkn) as (n' & Hn' & Hst' & Hg'). exists x, n'. split_and!; [done|congruence|lra]. }
  split; [|cbn [l_nodes l_open l_root l_op l_g0]; split_and!; try done].
  2:{ by rewrite Hxn. }
  2:{ rewrite Hqin. by intros [?|?]. }
  2:{ rewrite Hqk. by rewrite skey_ne. }
  2:{ intros β [Hβ1 Hβ2] Hβi. split; cbn [l_nodes l_open].
      - intros x n Hn Hgn Hcl. destruct (decide (x = j)) as [->|Hxj]; [|rewrite Hxn in Hn by done; by apply (Hβ1 x n)].
        rewrite Hjn in Hn. injection Hn as <-. cbn in Hgn, Hcl |- *.
        destruct (l_nodes t !! j) as [kn|] eqn:Ekn.
        + destruct (Hold _ eq_refl) as (-> & Hst & Hlt). assert (t_g kn0 <= β)%Q; [|lra]. apply (Hβ1 j); [done|by rewrite Hst|done].
        + rewrite Hnew in Hcl by done. done.
      - intros x Hxq. rewrite Hqk. destruct (decide (x = j)) as [->|Hxj]; [rewrite skey_eq; cbn; lra|].
        rewrite skey_ne by done. apply Hβ2. apply Hqin in Hxq as [?|?]; done. }
  assert (Hgoals : ∀ x n, ns !! x = Some n → isgoal (t_st n) = true → x = j ∨ l_nodes t !! x = Some n).
  { intros x n Hn _. destruct (decide (x = j)) as [->|Hxj]; [by left|right]. by rewrite <-Hxn. }
  split; cbn [l_nodes l_open l_root l_op l_g0 l_goal].
  - done.
  - intros x Hxq. apply Hqin in Hxq as [->|Hxq]; [by rewrite Hjn|]. destruct (ti_in _ _ _ Hi x Hxq) as [n Hn].
    destruct (Hdown _ _ Hn) as (n' & Hn' & _). by rewrite Hn'.
  - destruct (ti_root _ _ _ Hi) as (n & Hn & Hr). exists n. by rewrite Hxn by done.
  - apply (ti_g0 _ _ _ Hi).
  - intros x n Hn. destruct (decide (x = j)) as [->|Hxj].
    + rewrite Hjn in Hn. injection Hn as <-.
      split; cbn [l_nodes l_open l_root l_op l_g0 l_goal t_st t_g t_par]; rewrite ?Hqk, ?skey_eq; cbn [fst snd].
      * destruct (no_walk _ _ _ _ Hni0) as (ss & os & c & Hw & Hl & Hcu & Hgw).
        exists (ss ++ [k]), (os ++ [o]), (c + cost s o). split_and!.
        -- apply (walk_snoc D (l_root t :: ss)); done.
        -- rewrite app_comm_cons, last_snoc. done.
        -- rewrite not_elem_of_app. split; [done|]. by rewrite elem_of_list_singleton.
        -- unfold g. rewrite Hgw, <-inject_Z_plus. by rewrite Z.add_assoc.
      * exists s, o. split_and!; [by apply Hle|done..].
      * done.
      * pose proof (mi_h0 _ Hm1 k). unfold f. lra.
      * unfold f. lra.
      * done.
      * intros p [= <-]. exists sn. rewrite Hxn by done. split; [done|]. unfold g. lra.
    + rewrite Hxn in Hn by done. destruct (ti_node _ _ _ Hi x n Hn) as [Ha Hb Hcc Hd He Hff Hgg].
      split; cbn [l_nodes l_open l_root l_op l_g0 l_goal]; rewrite ?Hqk, ?skey_ne by done; try done.
      * by apply (seen_mle m).
      * destruct Hle as [Hle _]. specialize (Hle (t_st n)). lra.
      * intros p Hp. destruct (Hgg p Hp) as (pn & Hpn & Hpg). destruct (Hdown _ _ Hpn) as (n' & Hn' & _ & Hg').
        exists n'. split; [done|lra].
  - intros x n Hn Hnx. rewrite Hqin in Hnx. destruct (decide (x = j)) as [->|Hxj]; [exfalso; auto|].
    rewrite Hxn in Hn by done. destruct (ti_exp _ _ _ Hi x n Hn) as [Hcl Hcv]; [auto|]. split; [done|].
    destruct Hcv as [?|Hcv]; [by left|]. right. intros o' Ho' HE.
    destruct (decide (x = i)) as [->|Hxi].
    + specialize (HE eq_refl). simplify_eq. apply elem_of_cons in HE as [->|HE]; [|by apply Hcov, Hcv].
      right. eexists j, _. split; [exact Hjn|]. cbn. split; [done|]. unfold g, s. lra.
    + apply Hcov, Hcv; [done|]. by intros ->.
  - pose proof (ti_goal _ _ _ Hi) as HG. destruct (l_goal t) as [b|] eqn:Eb.
    + destruct HG as (bn & Hbn & Hbg & Hbmin). destruct (Hdown _ _ Hbn) as (bn' & Hbn' & Hbst & Hbg').
      rewrite Hbn'. destruct (isgoal k) eqn:Ek; cbn [andb].
      * destruct (Qltb g (t_g bn')) eqn:El.
        -- apply Qltb_true in El. eexists. split; [exact Hjn|]. cbn. split; [done|].
           intros x n Hn Hgn. destruct (Hgoals x n Hn Hgn) as [->|Ho']; [rewrite Hjn in Hn; injection Hn as <-; cbn; lra|].
           specialize (Hbmin x n Ho' Hgn). lra.
        -- apply Qltb_false in El. exists bn'. split; [done|]. split; [congruence|].
           intros x n Hn Hgn. destruct (Hgoals x n Hn Hgn) as [->|Ho']; [rewrite Hjn in Hn; injection Hn as <-; cbn; lra|].
           specialize (Hbmin x n Ho' Hgn). lra.
      * exists bn'. split; [done|]. split; [congruence|].
        intros x n Hn Hgn. destruct (Hgoals x n Hn Hgn) as [->|Ho']; [rewrite Hjn in Hn; injection Hn as <-; cbn in Hgn; congruence|].
        specialize (Hbmin x n Ho' Hgn). lra.
    + destruct (isgoal k) eqn:Ek; cbn [andb].
      * eexists. split; [exact Hjn|]. cbn. split; [done|].
        intros x n Hn Hgn. destruct (Hgoals x n Hn Hgn) as [->|Ho']; [rewrite Hjn in Hn; injection Hn as <-; cbn; lra|].
        rewrite (HG _ _ Ho') in Hgn. done.
      * intros x n Hn. destruct (isgoal (t_st n)) eqn:Egn; [|done]. exfalso.
        destruct (Hgoals x n Hn Egn) as [->|Ho']; [rewrite Hjn in Hn; injection Hn as <-; cbn in Egn; congruence|].
        rewrite (HG _ _ Ho') in Egn. done.
Qed.

(** One successor. *)
Lemma relax_spec dn m t i sn (o : Op D) :
  tinv (λ j o', j = i → o' ∈ dn) m t → minv m → l_nodes t !! i = Some sn → i ∉ arr (l_open t) → o ∈ ops (t_st sn) →
  t_st sn ∈ g_exp m →
  ∃ m' t', relax D cur (t_st sn) i o (dest (t_st sn) o) (cost (t_st sn) o) m t = Some (m', t') ∧
    tinv (λ j o', j = i → o' ∈ o :: dn) m' t' ∧ minv m' ∧ mle m m' ∧ g_exp m' = g_exp m ∧ (∀ d, near d m → near d m') ∧
    l_nodes t' !! i = Some sn ∧ i ∉ arr (l_open t') ∧ l_root t' = l_root t ∧ l_op t' = l_op t ∧ l_g0 t' = l_g0 t ∧
    key (l_open t') i = key (l_open t) i ∧ (∀ β, parts β t → (β <= (key (l_open t) i).1)%Q → parts β t').
Proof.
  intros Hi Hm Hsn Hni Ho Hx. set (s := t_st sn) in *. set (k := dest s o). set (c := cost s o).
  pose proof (ok_cost OK s o Ho) as Hc. fold c in Hc. rewrite Zle_Qle in Hc. change (inject_Z 0) with 0%Q in Hc.
  unfold relax. rewrite Hsn. cbn [mbind option_bind].
  (* when the successor is dealt with already *)
  assert (Hskip : ∀ m', mle m m' → (k = cur ∨ ∃ j kn, l_nodes t !! j = Some kn ∧ t_st kn = k ∧ (t_g kn <= t_g sn + inject_Z c)%Q) →
    tinv (λ j o', j = i → o' ∈ o :: dn) m' t).
  { intros m' Hle Hcov. apply (tinv_mle _ m); [done|]. destruct Hi as [H1 H2 H3 H4 H5 H6 H7]. split; [done..| |done].
    intros j n Hn Hnj. destruct (H6 j n Hn Hnj) as [Hcl Hcv]. split; [done|]. destruct Hcv as [?|Hcv]; [by left|]. right.
    intros o' Ho' HE. destruct (decide (j = i)) as [->|Hne].
    - simplify_eq. specialize (HE eq_refl). apply elem_of_cons in HE as [->|HE]; [exact Hcov|]. by apply Hcv.
    - apply Hcv; [done|]. by intros ->. }
  destruct (decide _) as [Hd|Hd].
  { eexists _, _. split; [reflexivity|]. split_and!; try done; [|apply mle_refl].
    apply Hskip; [apply mle_refl|]. destruct Hd as [?|Hd]; [by left|]. right.
    destruct (t_par sn) as [p|] eqn:Ep; [|done]. cbn [mbind option_bind] in Hd.
    destruct (no_par _ _ _ _ (ti_node _ _ _ Hi i sn Hsn) p Ep) as (pn & Hpn & Hle). rewrite Hpn in Hd. injection Hd as Hd.
    exists p, pn. split_and!; [done..|]. lra. }
  assert (k ≠ cur) as Hkc. { intros He. apply Hd. by left. }
  set (v := qmax (g_h m k) (g_h m s - inject_Z c)). set (m1 := set_h D m k v).
  assert (mle m m1) as Hle by apply up_mle, qmax_l.
  assert (minv m1) as Hm1 by (apply up_minv; auto).
  assert (∀ d, near d m → near d m1) as Hnear by (intros d; by apply up_near).
  assert (Qltb (g_h m1 k) 0 = false) as ->. { apply Qltb_false, (mi_pos _ Hm1). }
  assert (Hhk : (qmax (g_h m1 k) (g_h m1 s - inject_Z c) <= g_h m1 k)%Q).
  { apply qmax_le; [lra|]. unfold m1. rewrite set_h_eq. destruct (decide (s = k)) as [Hsk|Hne]; [rewrite Hsk, set_h_eq; lra|].
    rewrite set_h_ne by done. apply qmax_r. }
  assert (g_exp m1 = g_exp m) as He1 by done.
  destruct (find_t D (l_nodes t) k) as [j|] eqn:Ef; cbn [fst snd].
  - destruct (find_t_Some _ _ _ Ef) as [(kn & Hkn & Hks) Hj0]. rewrite Hkn.
    destruct (Qle_bool (t_g kn) (t_g sn + inject_Z c)) eqn:Eg.
    { apply Qle_bool_iff in Eg. eexists _, _. split; [reflexivity|]. split_and!; try done. apply Hskip; [done|]. right. by exists j, kn. }
    assert (t_g sn + inject_Z c < t_g kn)%Q as Hlt. { apply Qnot_le_lt. intros H. apply Qle_bool_iff in H. congruence. }
    cbn [mbind option_bind].
    destruct (store_spec dn m m1 t i sn o (l_nodes t) j kn) as (t' & Ht' & Hinv & H1 & H2 & H3 & H4 & H5 & H6 & H7); try done.
    { intros kn' Hkn'. simplify_eq. done. }
    { intros. congruence. }
    exists m1, t'. split; [exact Ht'|]. split_and!; done.
  - assert (Hkn : (l_nodes t ++ [TNode k None 0 nop false false]) !! length (l_nodes t) = Some (TNode k None 0 nop false false)).
    { by rewrite lookup_app_r, Nat.sub_diag. }
    rewrite Hkn. cbn [mbind option_bind].
    destruct (store_spec dn m m1 t i sn o (l_nodes t ++ [TNode k None 0 nop false false]) (length (l_nodes t)) (TNode k None 0 nop false false))
      as (t' & Ht' & Hinv & H1 & H2 & H3 & H4 & H5 & H6 & H7); try done.
    { apply lookup_lt_Some in Hsn. lia. }
    { intros x Hxl. destruct (decide (x < length (l_nodes t))%nat); [by rewrite lookup_app_l|].
      rewrite lookup_app_r by lia. rewrite (lookup_ge_None_2 (l_nodes t)) by lia. apply lookup_ge_None_2. cbn. lia. }
    { intros kn' Hkn'. apply lookup_lt_Some in Hkn'. lia. }
    exists m1, t'. split; [exact Ht'|]. split_and!; done.
Qed.

Lemma edge_eq (s : St D) (o : Op D) : edge s o = (dest s o, cost s o, revop s o).
Proof. unfold dest, cost, revop. by destruct (edge s o) as [[? ?] ?]. Qed.

Lemma relaxes_spec i sn (os : list (Op D)) : ∀ (dn : list (Op D)) m t,
  tinv (λ j o', j = i → o' ∈ dn) m t → minv m → l_nodes t !! i = Some sn → i ∉ arr (l_open t) →
  (∀ o, o ∈ os → o ∈ ops (t_st sn)) → t_st sn ∈ g_exp m →
  ∃ m' t', relaxes D cur (t_st sn) i os m t = Some (m', t') ∧
    tinv (λ j o', j = i → o' ∈ dn ∨ o' ∈ os) m' t' ∧ minv m' ∧ mle m m' ∧ g_exp m' = g_exp m ∧ (∀ d, near d m → near d m') ∧
    l_nodes t' !! i = Some sn ∧ i ∉ arr (l_open t') ∧ l_root t' = l_root t ∧ l_op t' = l_op t ∧ l_g0 t' = l_g0 t ∧
    key (l_open t') i = key (l_open t) i ∧ (∀ β, parts β t → (β <= (key (l_open t) i).1)%Q → parts β t').
Proof.
  induction os as [|o os IH]; intros dn m t Hi Hm Hsn Hni Hos Hx; cbn [relaxes].
  - exists m, t. split; [done|]. split_and!; try done; [|apply mle_refl].
    destruct Hi as [H1 H2 H3 H4 H5 H6 H7]. split; [done..| |done].
    intros j n Hn Hnj. destruct (H6 j n Hn Hnj) as [? [?|Hc]]; [auto|]. split; [done|]. right. intros o Ho HE. apply Hc; [done|].
    intros Hj. destruct (HE Hj) as [?|Hn']; [done|]. by apply elem_of_nil in Hn'.
  - rewrite edge_eq.
    destruct (relax_spec dn m t i sn o) as (m1 & t1 & -> & Hi1 & Hm1 & Hle1 & Hx1 & Hn1 & Hsn1 & Hni1 & Hr1 & Ho1 & Hg1 & Hk1 & Hp1); try done.
    { apply Hos. left. }
    cbn [mbind option_bind].
    destruct (IH (o :: dn) m1 t1) as (m2 & t2 & -> & Hi2 & Hm2 & Hle2 & Hx2 & Hn2 & Hsn2 & Hni2 & Hr2 & Ho2 & Hg2 & Hk2 & Hp2); try done.
    { intros o' Ho'. apply Hos. by right. }
    { by rewrite Hx1. }
    exists m2, t2. split; [done|]. split_and!; try done; [|by apply (mle_trans _ m1)|congruence|auto|congruence..|].
    2:{ intros β Hβ Hb. apply Hp2; [by apply Hp1|]. by rewrite Hk1. }
    destruct Hi2 as [H1 H2 H3 H4 H5 H6 H7]. split; [done..| |done].
    intros j n Hn Hnj. destruct (H6 j n Hn Hnj) as [? [?|Hc]]; [auto|]. split; [done|]. right. intros o' Ho' HE. apply Hc; [done|].
    intros Hj. destruct (HE Hj) as [?|Hn']; [left; by right|]. apply elem_of_cons in Hn' as [->|?]; [left; left|by right].
Qed.

Lemma genops_h (s : St D) (os : list (Op D)) : ∀ m st m' st', genops D s os m st = (m', st') → g_h m' = g_h m ∧ g_exp m' = g_exp m.
Proof.
  induction os as [|o os IH]; intros m st m' st'; cbn [genops]; [by intros [= <- <-]|].
  destruct (edge s o) as [[k c] r]. intros H. apply IH in H as [H1 H2]. done.
Qed.
Lemma succs_spec (s : St D) m st m' st' : succs D s m st = (m', st') → g_h m' = g_h m ∧ s ∈ g_exp m' ∧ ∀ x, x ∈ g_exp m → x ∈ g_exp m'.
Proof.
  unfold succs. destruct (decide _) as [Hd|Hd]; [by intros [= <- <-]|].
  destruct (genops D s (ops s) m (radd_expd st)) as [m1 st1] eqn:E. apply genops_h in E as [Hh Hx]. intros [= <- <-]. cbn.
  split; [done|]. split; [left|]. intros x Hxx. right. by rewrite Hx.
Qed.
Lemma minv_eq m m' : g_h m' = g_h m → minv m → minv m'.
Proof. intros He [H1 H2 H3]. split; by rewrite He. Qed.
Lemma near_eq d m m' : g_h m' = g_h m → near d m → near d m'.
Proof. intros He H. unfold near. by rewrite He. Qed.

(** One expansion. *)
Lemma expand1_spec m t st : tinv alldone m t → minv m →
  match expand1 D lim cur m t st with
  | Some (m', t', st') => tinv alldone m' t' ∧ minv m' ∧ mle m m' ∧ (∀ d, near d m → near d m') ∧
      ((∀ s, 0 <= h0 s)%Q → (∃ β, parts β t) → ∃ β, parts β t') ∧
      l_root t' = l_root t ∧ l_op t' = l_op t ∧ l_g0 t' = l_g0 t
  | None => ∃ i n b bn, goalclosed D t = false ∧ l_nodes t !! i = Some n ∧ isgoal (t_st n) = true ∧
      l_goal t = Some b ∧ l_nodes t !! b = Some bn ∧
      (t_g bn + Threshold <= t_g n)%Q ∧ ((key (l_open t) i).1 <= (key (l_open t) b).1)%Q
  end.
Proof.
  intros Hi Hm. unfold expand1. destruct (empty (l_open t)) eqn:Ee; cbn [orb]; [by split_and!; try apply mle_refl|].
  destruct (goalclosed D t) eqn:Eg; [by split_and!; try apply mle_refl|].
  destruct (rreached lim st); [by split_and!; try apply mle_refl|].
  assert (arr (l_open t) ≠ []) as Hne. { intros H. apply Lss.Learn.empty_true in H. congruence. }
  destruct (Lss.Learn.pop_spec' fsort (l_open t) fsort_sw (ti_heap _ _ _ Hi) Hne) as (q & i & -> & Hqi & Hiq & Hniq & Hqin & Hqk & Hmin).
  cbn [mbind option_bind]. destruct (ti_in _ _ _ Hi i Hiq) as [sn Hsn]. rewrite Hsn. cbn [mbind option_bind].
  set (sn1 := TNode (t_st sn) (t_par sn) (t_g sn) (t_op sn) (t_upd sn) true).
  set (ns := <[i := sn1]> (l_nodes t)). set (ncl := if t_cl sn then _ else _).
  set (t1 := Tree ns q ncl (l_goal t) (l_root t) (l_op t) (l_g0 t)).
  assert (Hsn1 : ns !! i = Some sn1). { apply list_lookup_insert. by apply lookup_lt_Some in Hsn. }
  (* the nodes are the same but for closed *)
  assert (Hsame : ∀ x n, ns !! x = Some n → ∃ n0, l_nodes t !! x = Some n0 ∧ t_st n = t_st n0 ∧ t_g n = t_g n0 ∧ t_par n = t_par n0 ∧
    (x = i ∧ t_cl n = true ∨ n = n0)).
  { intros x n Hn. destruct (decide (x = i)) as [->|Hx].
    - rewrite Hsn1 in Hn. injection Hn as <-. exists sn. split_and!; try done. left. done.
    - unfold ns in Hn. rewrite list_lookup_insert_ne in Hn by done. exists n. split_and!; try done. by right. }
  assert (Hback : ∀ x n0, l_nodes t !! x = Some n0 → ∃ n, ns !! x = Some n ∧ t_st n = t_st n0 ∧ t_g n = t_g n0).
  { intros x n Hn. destruct (decide (x = i)) as [->|Hx].
    - simplify_eq. by exists sn1.
    - exists n. unfold ns. by rewrite list_lookup_insert_ne. }
  assert (Hi1 : ∀ E, (isgoal (t_st sn) = true ∨ ∀ o, ¬ E i o) → tinv E m t1).
  { intros E HE. split; cbn [l_nodes l_open l_root l_op l_g0 l_goal t1].
    - done.
    - intros x Hx. destruct (ti_in _ _ _ Hi x) as [n Hn]; [apply Hqin; auto|]. destruct (Hback _ _ Hn) as (n' & Hn' & _). by rewrite Hn'.
    - destruct (ti_root _ _ _ Hi) as (n & Hn & Hst & Hg). destruct (Hback _ _ Hn) as (n' & Hn' & H1 & H2). exists n'. rewrite H1, H2. done.
    - apply (ti_g0 _ _ _ Hi).
    - intros x n Hn. destruct (Hsame x n Hn) as (n0 & Hn0 & Hst & Hg & Hp & _). destruct (ti_node _ _ _ Hi x n0 Hn0) as [Ha Hb Hcc Hd He Hff Hgg].
      split; cbn [l_nodes l_open l_root l_op l_g0 l_goal t1]; rewrite ?Hqk, ?Hst, ?Hg, ?Hp; try done.
      intros p Hpp. destruct (Hgg p Hpp) as (pn & Hpn & Hle). destruct (Hback _ _ Hpn) as (n' & Hn' & H1 & H2). exists n'. by rewrite H2.
    - intros x n Hn Hnx. destruct (Hsame x n Hn) as (n0 & Hn0 & Hst & Hg & Hp & [[-> Hcl]| ->]).
      + split; [done|]. simplify_eq. rewrite Hst. destruct HE as [?|HE]; [by left|]. right. intros o _ Ho. by destruct (HE o).
      + destruct (decide (x = i)) as [->|Hxi].
        { rewrite Hsn1 in Hn. injection Hn as <-. split; [done|]. cbn. destruct HE as [?|HE]; [by left|]. right. intros o _ Ho. by destruct (HE o). }
        destruct (ti_exp _ _ _ Hi x n0 Hn0) as [Hcl Hc]; [rewrite Hqin; by intros [?|?]|]. split; [done|].
        destruct Hc as [?|Hc]; [by left|]. right. intros o Ho _. destruct (Hc o Ho I) as [?|(j & kn & Hkn & Hks & Hkg)]; [by left|]. right.
        destruct (Hback _ _ Hkn) as (n' & Hn' & H1 & H2). exists j, n'. rewrite H1, H2. done.
    - pose proof (ti_goal _ _ _ Hi) as HG. destruct (l_goal t) as [b|].
      + destruct HG as (bn & Hbn & Hbg & Hbm). destruct (Hback _ _ Hbn) as (n' & Hn' & H1 & H2). exists n'. rewrite H1, H2. split_and!; [done..|].
        intros x n Hn Hgn. destruct (Hsame x n Hn) as (n0 & Hn0 & Hst & Hg & _). rewrite Hg. apply (Hbm x n0); [done|congruence].
      + intros x n Hn. destruct (Hsame x n Hn) as (n0 & Hn0 & Hst & Hg & _). rewrite Hst. by apply (HG x). }
  assert (Hp1 : (∀ s, 0 <= h0 s)%Q → (∃ β, parts β t) → parts (key (l_open t) i).1 t1).
  { intros Hpos (β & Hβ1 & Hβ2). split; cbn [l_nodes l_open t1].
    - intros x n Hn Hgn Hcl. destruct (Hsame x n Hn) as (n0 & Hn0 & Hst & Hg & _ & [[-> _]|He]).
      + rewrite Hg. pose proof (no_f0 _ _ _ _ (ti_node _ _ _ Hi i n0 Hn0)). specialize (Hpos (t_st n0)). lra.
      + destruct (decide (x = i)) as [->|Hxi].
        * rewrite Hg. pose proof (no_f0 _ _ _ _ (ti_node _ _ _ Hi i n0 Hn0)). specialize (Hpos (t_st n0)). lra.
        * subst n0. specialize (Hβ1 x n Hn0 Hgn Hcl). specialize (Hβ2 i Hiq). lra.
    - intros j Hj. rewrite Hqk. assert (j ∈ arr (l_open t)) as Hj' by (apply Hqin; auto).
      apply Hmin, fsort_false in Hj' as [?|[? _]]; lra. }
  destruct (isgoal (t_st sn)) eqn:Egs.
  - pose proof (ti_goal _ _ _ Hi) as HG. change (l_goal t1) with (l_goal t). change (l_nodes t1) with ns.
    unfold goalclosed in Eg. destruct (l_goal t) as [b|] eqn:Eb.
    2:{ rewrite (HG _ _ Hsn) in Egs. done. }
    cbn [mbind option_bind]. destruct HG as (bn & Hbn & Hbg & Hbm). rewrite Hbn in Eg.
    destruct (Hback _ _ Hbn) as (bn' & Hbn' & Hbst & Hbgg). rewrite Hbn'. cbn [mbind option_bind].
    assert (tinv alldone m t1) as Hi2 by (apply Hi1; auto).
    destruct (decide (b = i)) as [Hbi|Hbi]; [split_and!; try done; [apply mle_refl|by eexists; apply Hp1]|].
    destruct (Geom.Model.doubleeq (t_g bn') (t_g sn)) eqn:Ed; [split_and!; try done; [apply mle_refl|by eexists; apply Hp1]|].
    exists i, sn, b, bn. split_and!; try done.
    + unfold Geom.Model.doubleeq in Ed. apply Qltb_false in Ed. rewrite Hbgg in Ed. specialize (Hbm i sn Hsn Egs).
      rewrite Qabs_neg in Ed by lra. lra.
    + assert (b ∈ arr (l_open t)) as Hbo.
      { destruct (decide (b ∈ arr (l_open t))) as [?|Hno]; [done|]. destruct (ti_exp _ _ _ Hi b bn Hbn Hno) as [? _]. congruence. }
      apply Hmin, fsort_false in Hbo as [?|[? _]]; lra.
  - destruct (succs D (t_st sn) m (rcalled st)) as [m1 st1] eqn:Es. apply succs_spec in Es as (Hh1 & Hx1 & Hx1').
    assert (mle m m1) as Hle1. { split; [intros x; rewrite Hh1; lra|done]. }
    assert (minv m1) as Hm1 by (by apply (minv_eq m)).
    destruct (relaxes_spec i sn1 (ops (t_st sn)) [] m1 t1) as (m2 & t2 & Hr & Hi2 & Hm2 & Hle2 & Hx2 & Hn2 & Hsn2 & Hni2 & Hr2 & Ho2 & Hg2 & Hk2 & Hp2); try done.
    { apply (tinv_mle _ m); [done|]. apply Hi1. right. intros o HE. specialize (HE eq_refl). by apply elem_of_nil in HE. }
    change (t_st sn1) with (t_st sn) in Hr. rewrite Hr. cbn [mbind option_bind]. split_and!; try done.
    + destruct Hi2 as [H1 H2 H3 H4 H5 H6 H7]. split; [done..| |done].
      intros j n Hn Hnj. destruct (H6 j n Hn Hnj) as [? [?|Hc]]; [auto|]. split; [done|]. right. intros o' Ho' _. apply Hc; [done|].
      intros ->. right. rewrite Hsn2 in Hn. by injection Hn as <-.
    + by apply (mle_trans _ m1).
    + intros d Hd. apply Hn2. by apply (near_eq d m).
    + intros Hpos Hβ. exists (key (l_open t) i).1. apply Hp2; [by apply Hp1|]. cbn. rewrite Hqk. lra.
Qed.

(** ** What the least key says *)
(** Any way on from a node that avoids the current state leaves the closed nodes through a node of the open list, or
    comes to a goal that has been generated. *)
Lemma chain m t ss os c : tinv alldone m t → walk ss os c → ∀ i n γ, l_nodes t !! i = Some n → head ss = Some (t_st n) →
  last ss = Some γ → isgoal γ = true → cur ∉ tail ss →
  (∃ j kn ss' os' c', j ∈ arr (l_open t) ∧ l_nodes t !! j = Some kn ∧ solution (t_st kn) ss' os' c' ∧
     (t_g kn + inject_Z c' <= t_g n + inject_Z c)%Q) ∨
  (∃ j kn, j ∉ arr (l_open t) ∧ l_nodes t !! j = Some kn ∧ isgoal (t_st kn) = true ∧ (t_g kn <= t_g n + inject_Z c)%Q).
Proof.
  intros Hi. induction 1 as [s|s o ss os c Ho Hw IH]; intros i n γ Hn Hh Hl Hg Hcu.
  - cbn in Hh, Hl. injection Hh as ->. injection Hl as <-. change (inject_Z 0) with 0%Q.
    destruct (decide (i ∈ arr (l_open t))) as [Hin|Hno].
    + left. exists i, n, [t_st n], [], 0. split_and!; [done..| |change (inject_Z 0) with 0%Q; lra].
      split; [constructor|]. split; [done|]. by eexists.
    + right. exists i, n. split_and!; [done..|lra].
  - cbn in Hh. injection Hh as Hs. subst s.
    destruct (decide (i ∈ arr (l_open t))) as [Hin|Hno].
    { left. exists i, n, (t_st n :: dest (t_st n) o :: ss), (o :: os), (cost (t_st n) o + c). split_and!; [done..| |lra].
      split; [by constructor|]. split; [done|]. eauto. }
    destruct (ti_exp _ _ _ Hi i n Hn Hno) as [_ [Hgn|Hc]].
    { right. exists i, n. split_and!; [done..|]. pose proof (walk_nonneg D _ _ _ OK Hw) as Hc0.
      pose proof (ok_cost OK _ _ Ho) as Hc1. assert (0 ≤ cost (t_st n) o + c) as Hc2 by lia.
      rewrite Zle_Qle in Hc2. change (inject_Z 0) with 0%Q in Hc2. lra. }
    destruct (Hc o Ho I) as [He|(j & kn & Hkn & Hst & Hgk)].
    { exfalso. apply Hcu. cbn. rewrite He. left. }
    specialize (IH j kn γ Hkn). cbn [head hd_error] in IH. rewrite Hst in IH.
    assert (Hlast : last (dest (t_st n) o :: ss) = Some γ) by exact Hl.
    assert (Hcu' : cur ∉ ss). { intros H. apply Hcu. cbn. by right. }
    specialize (IH eq_refl Hlast Hg Hcu'). rewrite inject_Z_plus.
    destruct IH as [(j' & kn' & ss' & os' & c' & H1 & H2 & H3 & H4)|(j' & kn' & H1 & H2 & H3 & H4)].
    + left. exists j', kn', ss', os', c'. split_and!; [done..|lra].
    + right. exists j', kn'. split_and!; [done..|lra].
Qed.

(** A way from the root that avoids the current state costs no less than the value of the local search, up to [d], or
    than a goal that has been expanded. *)
Lemma tree_bound d m t f ss os c γ : tinv alldone m t → near d m → (0 <= d)%Q →
  fg D t = Some f → walk (l_root t :: ss) os c → last (l_root t :: ss) = Some γ → isgoal γ = true → cur ∉ ss →
  (f.1 <= inject_Z (l_g0 t + c) + d)%Q ∨
  ∃ j kn, j ∉ arr (l_open t) ∧ l_nodes t !! j = Some kn ∧ isgoal (t_st kn) = true ∧ (t_g kn <= inject_Z (l_g0 t + c))%Q.
Proof.
  intros Hi Hd Hd0 Hf Hw Hl Hg Hcu. destruct (ti_root _ _ _ Hi) as (n & Hn & Hst & Hg0).
  rewrite inject_Z_plus.
  destruct (chain m t _ _ _ Hi Hw 0 n γ Hn) as [(j & kn & ss' & os' & c' & Hj & Hkn & Hs & Hle)|(j & kn & Hj & Hkn & Hgk & Hle)]; try done.
  { cbn. by rewrite Hst. }
  - left. unfold fg in Hf. destruct (front (l_open t)) as [i|] eqn:Ef.
    2:{ apply front_None in Ef. rewrite Ef in Hj. by apply elem_of_nil in Hj. }
    injection Hf as <-. pose proof (front_min fsort _ i j fsort_sw (ti_heap _ _ _ Hi) Ef Hj) as Hm.
    pose proof (no_f _ _ _ _ (ti_node _ _ _ Hi j kn Hkn)) as Hfj. pose proof (Hd _ _ _ _ Hs) as Hh.
    apply fsort_false in Hm as [?|[? _]]; lra.
  - right. exists j, kn. split_and!; [done..|lra].
Qed.

(** The same of an unfinished search whose open list has run empty: its value is the cost of the goal. *)
Lemma tree_empty m t f ss os c γ : tinv alldone m t → arr (l_open t) = [] →
  fg D t = Some f → walk (l_root t :: ss) os c → last (l_root t :: ss) = Some γ → isgoal γ = true → cur ∉ ss →
  (f.1 <= inject_Z (l_g0 t + c))%Q.
Proof.
  intros Hi He Hf Hw Hl Hg Hcu. destruct (ti_root _ _ _ Hi) as (n & Hn & Hst & Hg0).
  rewrite inject_Z_plus.
  destruct (chain m t _ _ _ Hi Hw 0 n γ Hn) as [(j & kn & ss' & os' & c' & Hj & Hkn & Hs & Hle)|(j & kn & Hj & Hkn & Hgk & Hle)]; try done.
  { cbn. by rewrite Hst. }
  - rewrite He in Hj. by apply elem_of_nil in Hj.
  - unfold fg in Hf. assert (front (l_open t) = None) as Ef by by apply front_None. rewrite Ef in Hf.
    pose proof (ti_goal _ _ _ Hi) as HG. destruct (l_goal t) as [b|]; [|done].
    destruct HG as (bn & Hbn & _ & Hbm). rewrite Hbn in Hf. injection Hf as <-. cbn. specialize (Hbm j kn Hkn Hgk). lra.
Qed.

(** A value is reached: by a way from the root to a state on the fringe, or to a goal. *)
Lemma tree_attained m t f : tinv alldone m t → minv m → fg D t = Some f →
  ∃ ss os c x, walk (l_root t :: ss) os c ∧ last (l_root t :: ss) = Some x ∧ cur ∉ ss ∧ seen m x ∧ (f.2 == inject_Z (l_g0 t + c))%Q ∧
    ((f.2 + h0 x <= f.1)%Q ∧ (f.1 <= f.2 + g_h m x)%Q ∧ (h0 cur <= f.1)%Q ∨ isgoal x = true ∧ (f.1 == f.2)%Q).
Proof.
  intros Hi Hm Hf. unfold fg in Hf. destruct (front (l_open t)) as [i|] eqn:Ef.
  - injection Hf as <-. destruct (ti_in _ _ _ Hi i (front_in _ _ Ef)) as [n Hn].
    destruct (ti_node _ _ _ Hi i n Hn) as [(ss & os & c & Hw & Hl & Hcu & Hg) Hb Hcc Hd He Hff Hgg].
    exists ss, os, c, (t_st n). rewrite Hcc. split_and!; try done. left. done.
  - pose proof (ti_goal _ _ _ Hi) as HG. destruct (l_goal t) as [b|]; [|done].
    destruct HG as (bn & Hbn & Hbg & _). rewrite Hbn in Hf. injection Hf as <-.
    destruct (ti_node _ _ _ Hi b bn Hbn) as [(ss & os & c & Hw & Hl & Hcu & Hg) Hb Hcc Hd He Hff Hgg].
    exists ss, os, c, (t_st bn). split_and!; try done. right. done.
Qed.

(** ** All local searches of a step *)
Record finv (os : list (Op D)) m (F : forest D) : Prop := {
  fi_heap : BinHeap.Proofs.inv lsort (λ _, True) (f_lss F);
  fi_in i : i ∈ arr (f_lss F) ↔ (i < length (f_trees F))%nat;
  fi_key i t : f_trees F !! i = Some t → key (f_lss F) i = fg D t;
  fi_len : length (f_trees F) = length os;
  fi_tree i t : f_trees F !! i = Some t →
    tinv alldone m t ∧ os !! i = Some (l_op t) ∧ l_root t = dest cur (l_op t) ∧ l_g0 t = cost cur (l_op t) ∧
    ((∀ s, 0 <= h0 s)%Q → ∃ β, parts β t) }.

Lemma finv_mle os m m' F : mle m m' → finv os m F → finv os m' F.
Proof.
  intros Hle [H1 H2 H3 H4 H5]. split; try done. intros i t Ht. destruct (H5 i t Ht) as (Ha & Hb). split; [|done]. by apply (tinv_mle _ m).
Qed.

Lemma plant_spec os : ∀ dn m F, finv dn m F → minv m → cur ∈ g_exp m → (∀ o, o ∈ os → o ∈ ops cur) →
  ∃ m' F', plant D cur os m F = Some (m', F') ∧ finv (dn ++ os) m' F' ∧ minv m' ∧ mle m m' ∧ (∀ d, near d m → near d m').
Proof.
  induction os as [|o os IH]; intros dn m F HF Hm Hx Hos; cbn [plant].
  - exists m, F. rewrite app_nil_r. split_and!; try done. apply mle_refl.
  - rewrite edge_eq. set (v := qmax _ _). set (m1 := set_h D m (dest cur o) v).
    assert (o ∈ ops cur) as Ho by (apply Hos; left).
    assert (mle m m1) as Hle1 by apply up_mle, qmax_l.
    assert (minv m1) as Hm1 by (apply up_minv; auto).
    assert (h0 cur <= g_h m1 (dest cur o) + inject_Z (cost cur o))%Q as Hpm.
    { unfold m1. rewrite set_h_eq. pose proof (qmax_r (g_h m (dest cur o)) (g_h m cur - inject_Z (cost cur o))) as Hr. fold v in Hr.
      pose proof (mi_h0 _ Hm cur). lra. }
    assert (Qltb (g_h m1 (dest cur o) + inject_Z (cost cur o) + Threshold) (g_h m1 cur) = false) as ->.
    { apply Qltb_false. pose proof (mi_cur _ Hm1). unfold Geom.Model.Threshold. lra. }
    destruct (mktree_spec m1 o Hm1 Ho Hx Hpm) as (t & -> & Hi & Hpt & Hr & Hop & Hg0). cbn [mbind option_bind].
    destruct (push_spec lsort (sw_asym _ lsort_sw) (sw_neg_trans _ lsort_sw) (λ _, True)
      (f_lss F) (length (f_trees F)) (fg D t) (fi_heap _ _ _ HF)) as (q & Hq & Hqi & HP & Hqk).
    { rewrite (fi_in _ _ _ HF). lia. }
    rewrite Hq. cbn [mbind option_bind].
    destruct (IH (dn ++ [o]) m1 (Forest (f_trees F ++ [t]) q)) as (m2 & F2 & -> & HF2 & Hm2 & Hle2 & Hn2); try done.
    + split; cbn [f_trees f_lss].
      * done.
      * intros i. rewrite HP, elem_of_cons, (fi_in _ _ _ HF), app_length. cbn. lia.
      * intros i t' Ht'. rewrite Hqk. apply lookup_app_Some in Ht' as [Ht'|[Hl Ht']].
        -- rewrite skey_ne. { by apply (fi_key _ _ _ HF). } apply lookup_lt_Some in Ht'. lia.
        -- apply list_lookup_singleton_Some in Ht' as [Hz <-]. replace i with (length (f_trees F)) by lia. apply skey_eq.
      * rewrite !app_length, (fi_len _ _ _ HF). done.
      * intros i t' Ht'. apply lookup_app_Some in Ht' as [Ht'|[Hl Ht']].
        -- destruct (fi_tree _ _ _ HF i t' Ht') as (Ha & Hb & Hc). split; [by apply (tinv_mle _ m)|]. split; [|done]. by apply lookup_app_l_Some.
        -- apply list_lookup_singleton_Some in Ht' as [Hz <-]. split; [done|]. rewrite Hop. split; [|done].
           rewrite lookup_app_r by (rewrite <-(fi_len _ _ _ HF); lia). replace (i - length dn)%nat with 0%nat; [done|]. rewrite <-(fi_len _ _ _ HF). lia.
    + intros o' Ho'. apply Hos. by right.
    + exists m2, F2. rewrite <-app_assoc in HF2. split_and!; try done; [by apply (mle_trans _ m1)|]. intros d Hd. apply Hn2. by apply up_near.
Qed.

Lemma upd_finv os m m' F i t t' q : finv os m F → mle m m' → f_trees F !! i = Some t → tinv alldone m' t' →
  ((∀ s, 0 <= h0 s)%Q → (∃ β, parts β t) → ∃ β, parts β t') →
  l_root t' = l_root t → l_op t' = l_op t → l_g0 t' = l_g0 t →
  BinHeap.Proofs.inv lsort (λ _, True) q → (∀ x, x ∈ arr q ↔ x ∈ arr (f_lss F)) → key q = key (setkey (f_lss F) i (fg D t')) →
  finv os m' (Forest (<[i := t']> (f_trees F)) q).
Proof.
  intros HF Hle Ht Hi Hpt Hr Ho Hg Hqi Hqin Hqk. pose proof (lookup_lt_Some _ _ _ Ht) as Hlt.
  split; cbn [f_trees f_lss].
  - done.
  - intros x. rewrite Hqin, insert_length. apply (fi_in _ _ _ HF).
  - intros x u Hu. rewrite Hqk. destruct (decide (x = i)) as [->|Hx].
    + rewrite list_lookup_insert in Hu by done. injection Hu as <-. apply skey_eq.
    + rewrite list_lookup_insert_ne in Hu by done. rewrite skey_ne by done. by apply (fi_key _ _ _ HF).
  - rewrite insert_length. apply (fi_len _ _ _ HF).
  - intros x u Hu. destruct (decide (x = i)) as [->|Hx].
    + rewrite list_lookup_insert in Hu by done. injection Hu as <-. split; [done|]. rewrite Hr, Ho, Hg. destruct (fi_tree _ _ _ HF i t Ht) as (_ & ? & ? & ? & ?). split_and!; auto.
    + rewrite list_lookup_insert_ne in Hu by done. destruct (fi_tree _ _ _ HF x u Hu) as [Ha Hb]. split; [|done]. by apply (tinv_mle _ m).
Qed.

Lemma front_ind0 {K} (lt : K → K → bool) (q : heap K) i : BinHeap.Proofs.inv lt (λ _, True) q → front q = Some i → ind q i = 0.
Proof.
  intros Hi Hf. unfold front in Hf. case_decide; [done|]. by apply (proj2 (inv_exact _ _ _ Hi)) in Hf.
Qed.

Lemma expands_spec stop os e : ∀ k j m F st m' F' st' b j', finv os m F → minv m →
  expands D lim stop e k j cur m F st = Some (m', F', st', b, j') →
  finv os m' F' ∧ minv m' ∧ mle m m' ∧ (∀ d, near d m → near d m').
Proof.
  induction e as [|e IH]; intros k j m F st m' F' st' b j' HF Hm; cbn [expands].
  { intros [= <- <- <- <- <-]. split_and!; try done. apply mle_refl. }
  destruct (stop k j). { intros [= <- <- <- <- <-]. split_and!; try done. apply mle_refl. }
  destruct (rreached lim st). { intros [= <- <- <- <- <-]. split_and!; try done. apply mle_refl. }
  destruct (front (f_lss F)) as [i|] eqn:Ef; [|done]. cbn [mbind option_bind].
  destruct (f_trees F !! i) as [t|] eqn:Et; [|done]. cbn [mbind option_bind].
  destruct (goalclosed D t). { intros [= <- <- <- <- <-]. split_and!; try done. apply mle_refl. }
  destruct (fi_tree _ _ _ HF i t Et) as [Hi _].
  pose proof (expand1_spec m t (rcalled st) Hi Hm) as Hx. destruct (expand1 D lim cur m t (rcalled st)) as [[[m1 t1] st1]|]; [|done].
  destruct Hx as (Hi1 & Hm1 & Hle1 & Hn1 & Hpt & Hr & Ho & Hg). cbn [mbind option_bind].
  destruct (update_spec lsort (sw_asym _ lsort_sw) (sw_neg_trans _ lsort_sw) (λ _, True) (f_lss F) i (fg D t1) (fi_heap _ _ _ HF) (front_in _ _ Ef))
    as (q & Hq & Hqi & HP & Hqk).
  rewrite (front_ind0 lsort _ _ (fi_heap _ _ _ HF) Ef) in Hq. rewrite Hq. cbn [mbind option_bind].
  intros Hrec. apply IH in Hrec as (HF2 & Hm2 & Hle2 & Hn2); [split_and!; try done; [by apply (mle_trans _ m1)|auto]| |done].
  apply (upd_finv os m m1 F i t); try done. intros x. by rewrite HP.
Qed.

Lemma keepgoing_spec go os k r m F b F' : finv os m F → keepgoing D go k r F = Some (b, F') → finv os m F'.
Proof.
  intros HF. unfold keepgoing. case_decide as Hs; [by intros [= <- <-]|].
  destruct (decide (arr (f_lss F) = [])) as [He|Hne].
  { unfold pop. rewrite decide_True by (by rewrite He). done. }
  destruct (Lss.Learn.pop_spec' lsort _ lsort_sw (fi_heap _ _ _ HF) Hne) as (q1 & a & -> & Hq1 & Ha & Hna & Hin1 & Hk1 & _).
  cbn [mbind option_bind].
  destruct (decide (arr q1 = [])) as [He|Hne1].
  { unfold pop. rewrite decide_True by (by rewrite He). done. }
  destruct (Lss.Learn.pop_spec' lsort _ lsort_sw Hq1 Hne1) as (q2 & c & -> & Hq2 & Hc & Hnc & Hin2 & Hk2 & _).
  cbn [mbind option_bind].
  destruct (f_trees F !! a) as [ta|] eqn:Ea; [|done]. cbn [mbind option_bind].
  destruct (f_trees F !! c) as [tc|] eqn:Ec; [|done]. cbn [mbind option_bind].
  assert (a ∉ arr q2) as Ha2. { intros H. apply Hna, Hin2. by right. }
  destruct (push_spec lsort (sw_asym _ lsort_sw) (sw_neg_trans _ lsort_sw) (λ _, True) q2 a (fg D ta) Hq2 Ha2) as (q3 & -> & Hq3 & HP3 & Hk3).
  cbn [mbind option_bind].
  assert (c ∉ arr q3) as Hc3. { rewrite HP3, elem_of_cons. intros [->|H]; [|done]. done. }
  destruct (push_spec lsort (sw_asym _ lsort_sw) (sw_neg_trans _ lsort_sw) (λ _, True) q3 c (fg D tc) Hq3 Hc3) as (q4 & -> & Hq4 & HP4 & Hk4).
  cbn [mbind option_bind]. intros [= <- <-]. destruct HF as [H1 H2 H3 H4 H5]. split; cbn [f_trees f_lss]; try done.
  - intros i. rewrite <-H2, HP4, elem_of_cons, HP3, elem_of_cons, Hin1, Hin2. naive_solver.
  - intros i t Ht. rewrite Hk4. destruct (decide (i = c)) as [->|Hic]; [rewrite skey_eq; congruence|]. rewrite skey_ne by done.
    rewrite Hk3. destruct (decide (i = a)) as [->|Hia]; [rewrite skey_eq; congruence|]. rewrite skey_ne by done.
    rewrite Hk2, Hk1. by apply H3.
Qed.

Lemma rounds_spec stop go grain os fuel : ∀ k r j m F st m' F' st', finv os m F → minv m →
  rounds D lim stop go grain fuel k r j cur m F st = Some (m', F', st') →
  finv os m' F' ∧ minv m' ∧ mle m m' ∧ (∀ d, near d m → near d m').
Proof.
  induction fuel as [|fuel IH]; intros k r j m F st m' F' st' HF Hm; [done|]. cbn [rounds].
  destruct (expands D lim stop grain k j cur m F st) as [[[[[m1 F1] st1] ls] j1]|] eqn:Ex; [|done]. cbn [mbind option_bind].
  apply expands_spec with (os := os) in Ex as (HF1 & Hm1 & Hle1 & Hn1); [|done..].
  destruct (rreached lim st1); [by intros [= <- <- <-]|].
  destruct (front (f_lss F1)) as [i|]; [|done]. cbn [mbind option_bind].
  destruct (f_trees F1 !! i) as [t|]; [|done]. cbn [mbind option_bind].
  destruct (l_goal t); [by intros [= <- <- <-]|].
  destruct ls; [by intros [= <- <- <-]|].
  destruct (keepgoing D go k r F1) as [[b F2]|] eqn:Ek; [|done]. cbn [mbind option_bind].
  apply (keepgoing_spec go os k r m1) in Ek; [|done].
  destruct b; [|by intros [= <- <- <-]].
  intros Hr. apply IH in Hr as (HF3 & Hm3 & Hle3 & Hn3); [|done..].
  split_and!; try done; [by apply (mle_trans _ m1)|auto].
Qed.

Lemma reinit_finv os m F q : finv os m F →
  reinit lsort (Heap (arr (f_lss F)) (ind (f_lss F)) (λ i, match f_trees F !! i with Some t => fg D t | None => None end)) = Some q →
  finv os m (Forest (f_trees F) q).
Proof.
  intros [H1 H2 H3 H4 H5].
  destruct (reinit_spec lsort (sw_asym _ lsort_sw) (sw_neg_trans _ lsort_sw) (λ _, True)
    (Heap (arr (f_lss F)) (ind (f_lss F)) (λ i, match f_trees F !! i with Some t => fg D t | None => None end))) as (q' & -> & Hqi & HP & Hqk).
  { apply H1. } { apply H1. }
  intros [= <-]. split; cbn [f_trees f_lss]; try done.
  - intros i. rewrite HP. apply H2.
  - intros i t Ht. rewrite Hqk. cbn. by rewrite Ht.
Qed.
End dta.
