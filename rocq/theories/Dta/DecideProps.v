(** DTA-star's decision to go on with a lookahead: C140. *)
From stdpp Require Import prelude.
From Coq Require Import ZArith QArith Qround Lia.
From Verif Require Import Dta.Table Dta.TableProps Dta.Decide.
Local Open Scope Q_scope.

(** ** Specification *)

(** The probability that the table gives for an open node, a depth and a value of f. *)
Definition chance (q : list (list (list Q))) (hm fm : Q) (x : onode) (d f : nat) (p : Q) : Prop :=
  prob q (ipart hm) d (ipart (stdmin (inject_Z (Z.of_nat f) - n_g x) fm)) = Some p.

(** A sum. *)
Definition total (ps : list Q) : Q := foldr Qplus 0 ps.
(** A chance of a node of [M] for each value of f from [f] on, for depth [d]. *)
Definition chances (q : list (list (list Q))) (hm fm : Q) (M : list onode) (d f : nat) (ps : list Q) : Prop :=
  ∀ k p, ps !! k = Some p → ∃ x, x ∈ M ∧ chance q hm fm x d (f + k) p.

Section Decide.
Context (q : list (list (list Q))) (hm fm : Q) (maxdepth : nat) (meanbr r : Q).
Local Notation keepgoing := (Decide.keepgoing q hm fm maxdepth meanbr r).

Lemma upto_le fbeta nodes : (upto fbeta nodes ≤ length nodes)%nat.
Proof. induction nodes as [|x nodes IH]; cbn; [done|]. destruct (Qle_bool _ _); lia. Qed.
Lemma upto_all fbeta nodes : (∀ x, x ∈ nodes → n_f x <= fbeta) → upto fbeta nodes = length nodes.
Proof.
  induction nodes as [|x nodes IH]; intros H; [done|]. cbn. rewrite (proj2 (Qle_bool_iff _ _)) by (apply H; left).
  rewrite IH; [done|]. intros; apply H; by right.
Qed.
Lemma upto_some fbeta nodes x : x ∈ nodes → fbeta < n_f x → (upto fbeta nodes < length nodes)%nat.
Proof.
  intros Hx Hlt. induction nodes as [|y nodes IH]; [by apply elem_of_nil in Hx|]. cbn. destruct (Qle_bool (n_f y) fbeta) eqn:E; [|lia].
  apply Qle_bool_iff in E. apply elem_of_cons in Hx as [->|Hx]; [by apply Qlt_not_le in Hlt|]. specialize (IH Hx). lia.
Qed.

Lemma grow_not_false nodes fbeta f0 stride : ∀ fuel msize mlast tab, (msize < length nodes)%nat →
  grow q hm fm maxdepth meanbr r fuel nodes fbeta f0 stride msize mlast tab ≠ Some false.
Proof.
  induction fuel as [|fuel IH]; intros msize mlast tab Hm; [done|]. cbn [grow]. rewrite decide_True by done.
  destruct (decide (S msize < length nodes - 1)%nat) as [Hl|]; [|done].
  destruct (nodes !! S (S msize)) as [y|]; [|done]. cbn [fmap option_fmap option_map mbind option_bind].
  destruct (Qle_bool _ _); [done|]. destruct (fbin _ _) as [f1|]; [|done]. cbn [mbind option_bind].
  destruct (overd _ _ _ _ _ _ _ _ _ _ _ _) as [[go tab']|]; [|done]. cbn [mbind option_bind]. destruct go; [done|]. apply IH. lia.
Qed.

Lemma overd_empty stride ns msize f0 f1 : (f1 ≤ f0)%nat → ∀ cnt d tab,
  overd q hm fm meanbr r stride ns msize f0 f1 cnt d tab = Some (false, tab).
Proof.
  intros H. induction cnt as [|cnt IH]; intros d tab; [done|]. cbn [overd]. replace (f1 - f0)%nat with 0%nat by lia.
  cbn [overf mbind option_bind]. apply IH.
Qed.
Lemma grow_training nodes fbeta stride : 0 <= fm → (∀ x, x ∈ nodes → n_f x <= fm) → ∀ fuel msize mlast tab, (msize < length nodes)%nat →
  grow q hm fm maxdepth meanbr r fuel nodes fbeta (ipart fm) stride msize mlast tab = None.
Proof.
  intros H0 Hle. induction fuel as [|fuel IH]; intros msize mlast tab Hm; [done|]. cbn [grow]. rewrite decide_True by done.
  destruct (decide (S msize < length nodes - 1)%nat) as [Hl|]; [|done].
  destruct (nodes !! S (S msize)) as [y|] eqn:Ey; [|done]. cbn [fmap option_fmap option_map mbind option_bind].
  destruct (Qle_bool _ _); [done|]. unfold fbin. apply elem_of_list_lookup_2 in Ey. pose proof (stdmax_r _ _ (Hle y Ey)) as E.
  rewrite tounsigned_nonneg by (by rewrite E). cbn [mbind option_bind]. rewrite (ipart_eq _ _ E), overd_empty by done.
  cbn [mbind option_bind]. apply IH. lia.
Qed.

(** ** C140: the decision *)

(** With a single lookahead, or if no open node of the best lookahead is above the f of the second, it stops. *)
Theorem C140_stops nlss fbeta nodes : 0 <= fm → nodes ≠ [] → (∀ x, x ∈ nodes → 0 <= n_f x) →
  nlss = 1%nat ∨ (∀ x, x ∈ nodes → n_f x <= fbeta) → keepgoing nlss fbeta nodes = Some false.
Proof.
  intros H0 Hne Hpos H. unfold Decide.keepgoing. case_decide as Hn; [done|]. destruct H as [?|H]; [done|].
  unfold fbin. pose proof (proj2 (stdmax_le fbeta fm)) as Hs. rewrite tounsigned_nonneg by (by eapply Qle_trans). cbn [mbind option_bind].
  destruct (last nodes) as [b|] eqn:El; [|by apply last_None in El]. cbn [mbind option_bind].
  assert (b ∈ nodes) as Hb by (apply last_Some in El as [l ->]; apply elem_of_app; right; left).
  rewrite tounsigned_nonneg by (eapply Qle_trans; [by apply Hpos|apply Qle_ceiling]). cbn [mbind option_bind grow].
  rewrite upto_all by done. by rewrite decide_False by lia.
Qed.

(** Otherwise it never decides to stop, whatever the table, the time and the weights: it goes on, or what it does is not
    defined. *)
Theorem C140_never_stops nlss fbeta nodes x : nlss ≠ 1%nat → x ∈ nodes → fbeta < n_f x → keepgoing nlss fbeta nodes ≠ Some false.
Proof.
  intros Hn Hx Hlt. unfold Decide.keepgoing. rewrite decide_False by done. destruct (fbin fm fbeta) as [f0|]; [|done]. cbn [mbind option_bind].
  destruct (last nodes) as [b|]; [|done]. cbn [mbind option_bind]. destruct (tounsigned _) as [m|]; [|done]. cbn [mbind option_bind].
  apply grow_not_false. by eapply upto_some.
Qed.

(** As long as all f are within those of the training it is not defined at all. *)
Theorem C140_training_undefined nlss fbeta nodes x : 0 <= fm → nlss ≠ 1%nat → x ∈ nodes → fbeta < n_f x →
  (∀ y, y ∈ nodes → n_f y <= fm) → keepgoing nlss fbeta nodes = None.
Proof.
  intros H0 Hn Hx Hlt Hle. unfold Decide.keepgoing. rewrite decide_False by done. unfold fbin.
  assert (fbeta <= fm) as Hb by (eapply Qle_trans; [by apply Qlt_le_weak|by apply Hle]). pose proof (stdmax_r _ _ Hb) as E.
  rewrite tounsigned_nonneg by (by rewrite E). cbn [mbind option_bind]. rewrite (ipart_eq _ _ E).
  destruct (last nodes) as [b|]; [|done]. cbn [mbind option_bind]. destruct (tounsigned _) as [m|]; [|done]. cbn [mbind option_bind].
  apply grow_training; [done..|]. by eapply upto_some.
Qed.

(** What is in the cache are chances of the nodes tried so far. *)
Definition tabok (M : list onode) (stride : nat) (tab : list (option Q)) : Prop :=
  ∀ d f v, (f < stride)%nat → tab !! (d * stride + f)%nat = Some (Some v) → ∃ x, x ∈ M ∧ chance q hm fm x d f v.
Lemma tabok_more (M M' : list onode) stride tab : (∀ x, x ∈ M → x ∈ M') → tabok M stride tab → tabok M' stride tab.
Proof. intros H Ht d f v Hf E. destruct (Ht d f v Hf E) as (x & Hx & Hc). eauto. Qed.

Lemma minover_spec (M : list onode) d f ns : 0 <= hm → (∀ x, x ∈ ns → x ∈ M) → ∀ m m', minover q hm fm d f ns m = Some m' →
  (∀ v, m = Some v → ∃ x, x ∈ M ∧ chance q hm fm x d f v) → (ns ≠ [] → m' ≠ None) ∧ (m ≠ None → m' ≠ None) ∧
  (∀ v, m' = Some v → ∃ x, x ∈ M ∧ chance q hm fm x d f v).
Proof.
  intros H0. induction ns as [|x ns IH]; intros Hns m m' Hm Hok; cbn [minover] in Hm.
  { injection Hm as <-. done. }
  rewrite C139_bin_used in Hm by done. cbn [mbind option_bind] in Hm.
  destruct (tounsigned _) as [ff|] eqn:Eu; [|done]. cbn [mbind option_bind] in Hm.
  destruct (prob q (ipart hm) d ff) as [p|] eqn:Ep; [|done]. cbn [mbind option_bind] in Hm.
  assert (chance q hm fm x d f p) as Hc.
  { unfold chance, ipart at 2. unfold tounsigned in Eu. destruct (Qle_bool _ _); [done|]. by injection Eu as ->. }
  set (m1 := Some (match m with Some m => stdmin m p | None => p end)) in Hm.
  assert (∀ v, m1 = Some v → ∃ x, x ∈ M ∧ chance q hm fm x d f v) as Hok1.
  { intros v [= <-]. destruct m as [m|]; [|by exists x; split; [apply Hns; left|]].
    unfold stdmin. destruct (Qle_bool m p); [by apply Hok|]. exists x. split; [apply Hns; left|done]. }
  destruct (Qeq_bool p 0).
  - injection Hm as <-. done.
  - destruct (IH ltac:(intros; apply Hns; by right) m1 m' Hm Hok1) as (_ & H2 & H3). specialize (H2 ltac:(done)). done.
Qed.

Lemma overf_spec (M : list onode) stride d ns cost : 0 <= hm → (∀ x, x ∈ ns → x ∈ M) → ns ≠ [] → ∀ cnt f sum tab go tab',
  cnt = 0%nat ∨ (f + cnt ≤ stride)%nat → tabok M stride tab → overf q hm fm d stride ns cost cnt f sum tab = Some (go, tab') →
  tabok M stride tab' ∧ (go = true → ∃ ps, ps ≠ [] ∧ chances q hm fm M d f ps ∧ cost <= sum + total ps).
Proof.
  intros H0 Hns Hne. induction cnt as [|cnt IH]; intros f sum tab go tab' Hf Ht Ho; cbn [overf] in Ho.
  { injection Ho as <- <-. done. }
  destruct Hf as [?|Hf]; [done|]. destruct (tab !! _) as [m0|] eqn:E0; [|done]. cbn [mbind option_bind] in Ho.
  destruct (minover q hm fm d f ns m0) as [m|] eqn:Em; [|done]. cbn [mbind option_bind] in Ho.
  destruct (minover_spec M d f ns H0 Hns m0 m Em) as (H1 & _ & H3).
  { intros v ->. apply (Ht d f v); [lia|done]. }
  assert (tabok M stride (<[(d * stride + f)%nat:=m]> tab)) as Ht'.
  { intros d' f' v Hf' E. destruct (decide ((d' * stride + f')%nat = (d * stride + f)%nat)) as [Ei|Ei].
    - assert (d' = d ∧ f' = f) as [-> ->].
      { rewrite !(Nat.mul_comm _ stride) in Ei. apply Nat.div_mod_unique in Ei; [done|lia|lia]. }
      rewrite list_lookup_insert in E by (by apply lookup_lt_Some in E0). injection E as ->. by apply H3.
    - rewrite list_lookup_insert_ne in E by done. by apply (Ht d' f' v). }
  destruct m as [v|]; [|by specialize (H1 Hne)]. destruct (H3 v eq_refl) as (x & Hx & Hc).
  destruct (Qle_bool cost (sum + v)) eqn:Ec.
  - injection Ho as <- <-. split; [done|]. intros _. exists [v]. split_and!; [done| |].
    + intros [|k] p; [|done]. intros [= <-]. rewrite Nat.add_0_r. by exists x.
    + cbn. apply Qle_bool_iff in Ec. by rewrite Qplus_0_r.
  - destruct (IH (S f) (sum + v) _ go tab' ltac:(lia) Ht' Ho) as [H4 H5]. split; [done|]. intros Hgo. destruct (H5 Hgo) as (ps & Hps & Hch & Hle).
    exists (v :: ps). split_and!; [done| |].
    + intros [|k] p; [intros [= <-]; rewrite Nat.add_0_r; by exists x|]. cbn [lookup list_lookup]. intros Hk.
      rewrite <- Nat.add_succ_comm. by apply Hch.
    + cbn [total foldr]. by rewrite Qplus_assoc.
Qed.

Lemma overd_spec (M : list onode) stride ns msize f0 f1 : 0 <= hm → (∀ x, x ∈ ns → x ∈ M) → ns ≠ [] → ((f1 ≤ f0)%nat ∨ (f1 ≤ stride)%nat) → ∀ cnt d tab go tab',
  tabok M stride tab → overd q hm fm meanbr r stride ns msize f0 f1 cnt d tab = Some (go, tab') →
  tabok M stride tab' ∧ (go = true → ∃ d' ps, (d ≤ d' < d + cnt)%nat ∧ ps ≠ [] ∧ chances q hm fm M d' f0 ps ∧
    r * inject_Z (Z.of_nat msize) * Qpower meanbr (Z.of_nat d') <= total ps).
Proof.
  intros H0 Hns Hne Hf. induction cnt as [|cnt IH]; intros d tab go tab' Ht Ho; cbn [overd] in Ho.
  { injection Ho as <- <-. done. }
  destruct (overf _ _ _ _ _ _ _ _ _ _ _) as [[go1 tab1]|] eqn:E1; [|done]. cbn [mbind option_bind] in Ho.
  assert ((f1 - f0)%nat = 0%nat ∨ (f0 + (f1 - f0) ≤ stride)%nat) as Hr by lia.
  destruct (overf_spec M stride d ns _ H0 Hns Hne _ _ _ _ _ _ Hr Ht E1) as [H1 H2]. destruct go1.
  - injection Ho as <- <-. split; [done|]. intros _. destruct (H2 eq_refl) as (ps & Hps & Hch & Hle). exists d, ps.
    split_and!; [lia|lia|done|done|]. by rewrite Qplus_0_l in Hle.
  - destruct (IH _ _ _ _ H1 Ho) as [H3 H4]. split; [done|]. intros Hgo. destruct (H4 Hgo) as (d' & ps & ? & ? & ? & ?).
    exists d', ps. split_and!; [lia|lia|done..].
Qed.

Lemma grow_true nodes fbeta f0 stride : 0 <= hm → (∀ x f1, x ∈ nodes → fbin fm (n_f x) = Some f1 → (f1 ≤ f0)%nat ∨ (f1 ≤ stride)%nat) →
  ∀ fuel msize mlast tab, (mlast ≤ msize)%nat → tabok (take msize nodes) stride tab →
  grow q hm fm maxdepth meanbr r fuel nodes fbeta f0 stride msize mlast tab = Some true →
  ∃ m d ps, (msize < m ≤ length nodes)%nat ∧ (1 ≤ d ≤ maxdepth)%nat ∧ ps ≠ [] ∧ chances q hm fm (take m nodes) d f0 ps ∧
    r * inject_Z (Z.of_nat m) * Qpower meanbr (Z.of_nat d) <= total ps.
Proof.
  intros H0 Hf. induction fuel as [|fuel IH]; intros msize mlast tab Hml Ht Hg; [done|]. cbn [grow] in Hg.
  case_decide as Hm; [|done].
  destruct (decide (S msize < length nodes - 1)%nat) as [Hl|]; [|done].
  destruct (nodes !! S (S msize)) as [y|] eqn:Ey; [|done]. cbn [fmap option_fmap option_map mbind option_bind] in Hg.
  destruct (Qle_bool _ _); [done|]. destruct (fbin _ _) as [f1|] eqn:Ef; [|done]. cbn [mbind option_bind] in Hg.
  destruct (overd _ _ _ _ _ _ _ _ _ _ _ _) as [[go tab']|] eqn:Eo; [|done]. cbn [mbind option_bind] in Hg.
  apply elem_of_list_lookup_2 in Ey.
  assert (∀ x, x ∈ take (S msize - mlast) (drop mlast nodes) → x ∈ take (S msize) nodes) as Hsub.
  { intros x Hx. apply elem_of_list_lookup in Hx as [k Hk]. apply lookup_take_Some in Hk as [Hk Hlt]. rewrite lookup_drop in Hk.
    apply elem_of_list_lookup. exists (mlast + k)%nat. apply lookup_take_Some. split; [done|lia]. }
  assert (take (S msize - mlast) (drop mlast nodes) ≠ []) as Hne.
  { intros E. apply (f_equal length) in E. rewrite take_length, drop_length in E. cbn [length] in E. lia. }
  assert (tabok (take (S msize) nodes) stride tab) as Ht'.
  { eapply tabok_more; [|exact Ht]. intros x Hx. apply elem_of_list_lookup in Hx as [k Hk]. apply lookup_take_Some in Hk as [Hk Hlt].
    apply elem_of_list_lookup. exists k. apply lookup_take_Some. split; [done|lia]. }
  destruct (overd_spec (take (S msize) nodes) stride _ _ _ _ H0 Hsub Hne (Hf _ _ Ey Ef) _ _ _ _ _ Ht' Eo) as [H1 H2]. destruct go.
  - destruct (H2 eq_refl) as (d' & ps & ? & ? & ? & ?). exists (S msize), d', ps. split_and!; [lia|lia|lia|lia|done..].
  - destruct (IH _ _ _ (le_n (S msize)) H1 Hg) as (m & d & ps & ? & ? & ? & ? & ?). exists m, d, ps. split_and!; [lia|lia|lia|lia|done..].
Qed.

(** If it goes on there are a set of the first nodes, larger than that of the nodes up to the f of the second lookahead, and
    a depth of the table, for which chances of nodes of the set, one for each f from the f of the second lookahead (or of
    the training) on, add up to the cost of expanding the set to that depth.  That they are the least chances
    is not true: C140_cache_refuted. *)
Theorem C140_goes nlss fbeta nodes back : 0 <= hm → 0 <= fm → last nodes = Some back → (∀ x, x ∈ nodes → n_f x <= n_f back) →
  keepgoing nlss fbeta nodes = Some true →
  ∃ m d ps, (m ≤ length nodes)%nat ∧ (∃ x, x ∈ take m nodes ∧ fbeta < n_f x) ∧ (1 ≤ d ≤ maxdepth)%nat ∧ ps ≠ [] ∧
    chances q hm fm (take m nodes) d (Nat.max (ipart fbeta) (ipart fm)) ps ∧
    r * inject_Z (Z.of_nat m) * Qpower meanbr (Z.of_nat d) <= total ps.
Proof.
  intros H0 H0f Hb Hle Hk. unfold Decide.keepgoing in Hk. case_decide; [done|].
  pose proof (proj2 (stdmax_le fbeta fm)) as Hs. unfold fbin in Hk at 1. rewrite tounsigned_nonneg in Hk by (by eapply Qle_trans).
  assert (ipart (stdmax fbeta fm) = Nat.max (ipart fbeta) (ipart fm)) as Emax.
  { destruct (stdmax_le fbeta fm) as [L1 L2]. apply Qfloor_resp_le in L1, L2. unfold ipart in *.
    destruct (stdmax_cases fbeta fm) as [E|E]; rewrite E in *; lia. }
  rewrite Emax in Hk. cbn [mbind option_bind] in Hk. rewrite Hb in Hk. cbn [mbind option_bind] in Hk.
  destruct (tounsigned _) as [rm|] eqn:Er; [|done]. cbn [mbind option_bind] in Hk.
  assert (rm = Z.to_nat (Qceiling (n_f back))) as Erm.
  { unfold tounsigned in Er. destruct (Qle_bool _ _); [done|]. rewrite Qfloor_Z in Er. by injection Er. }
  apply grow_true in Hk as (m & d & ps & Hm & Hd & Hps & Hch & Hc).
  - exists m, d, ps. split_and!; [lia| |lia|lia|done|done|done].
    assert (∃ x, nodes !! upto fbeta nodes = Some x ∧ fbeta < n_f x) as (x & Hx & Hlt).
    { assert (upto fbeta nodes < length nodes)%nat as Hu by lia. clear -Hu. induction nodes as [|y nodes IH]; cbn in *; [lia|].
      destruct (Qle_bool (n_f y) fbeta) eqn:E; [apply IH; lia|]. exists y. split; [done|]. apply Qnot_le_lt. intros H%Qle_bool_iff. congruence. }
    exists x. split; [|done]. apply elem_of_list_lookup. exists (upto fbeta nodes). apply lookup_take_Some. split; [done|lia].
  - done.
  - intros x f1 Hx Hf1. unfold fbin in Hf1. unfold tounsigned in Hf1. destruct (Qle_bool _ _); [done|]. injection Hf1 as <-.
    destruct (stdmax_cases (n_f x) fm) as [E|E]; rewrite E; [right|left; unfold ipart; lia].
    pose proof (Qle_trans _ _ _ (Qfloor_le (n_f x)) (Qle_trans _ _ _ (Hle x Hx) (Qle_ceiling (n_f back)))) as H1. rewrite <- Zle_Qle in H1. lia.
  - lia.
  - intros d' f' v _ E. apply lookup_replicate in E as [? _]. done.
Qed.
End Decide.

(** ** Examples *)

(** A table trained with one row. *)
Definition ex_row : list row := [Row 1 1 10].
Definition ex_nodes : list onode := [ONode 11 0 2; ONode 11 9 2; ONode 11 9 2; ONode 13 9 2; ONode 13 9 2].
(** The first node is in all sets that are tried and the table gives it no chance at any f, so that the gain - the sum of
    the least chances of the nodes of a set - is zero, below the cost.  But it goes on: the cache of the minima does not
    know the earlier nodes for values of f that come into range later. *)
Theorem C140_cache_refuted : ∃ q, train ex_row = Some q ∧
  keepgoing q 1 10 1 1 (1 # 10) 2 (21 # 2) ex_nodes = Some true ∧
  ∀ f, (10 ≤ f)%nat → ∃ p, chance q 1 10 (ONode 11 0 2) 1 f p ∧ p == 0.
Proof.
  eexists. split; [vm_compute; reflexivity|]. split; [vm_compute; reflexivity|]. intros f Hf. exists 0. split; [|reflexivity].
  unfold chance. cbn [n_g]. assert (stdmin (inject_Z (Z.of_nat f) - 0) 10 == 10) as E.
  { unfold stdmin. destruct (Qle_bool _ _) eqn:E; [|reflexivity]. apply Qle_bool_iff in E. unfold Qle in E. cbn in E.
    assert (f = 10%nat) as -> by lia. reflexivity. }
  rewrite (ipart_eq _ _ E). vm_compute. reflexivity.
Qed.
(** It meets the hypotheses of C140_goes. *)
Example C140_goes_example : last ex_nodes = Some (ONode 13 9 2) ∧ ∀ x, x ∈ ex_nodes → n_f x <= n_f (ONode 13 9 2).
Proof.
  split; [done|]. intros r Hr. repeat (apply elem_of_cons in Hr as [->|Hr]; [by apply Qle_bool_iff|]). by apply elem_of_nil in Hr.
Qed.
(** All f within the training: not defined. *)
Example C140_example : ∃ q, train [Row 1 1 20] = Some q ∧ keepgoing q 1 20 1 1 (1 # 10) 2 (21 # 2) ex_nodes = None ∧
  keepgoing q 1 20 1 1 (1 # 10) 2 13 ex_nodes = Some false.
Proof. eexists. split_and!; vm_compute; reflexivity. Qed.

Print Assumptions C140_stops.
Print Assumptions C140_never_stops.
Print Assumptions C140_training_undefined.
Print Assumptions C140_goes.
Print Assumptions C140_cache_refuted.
