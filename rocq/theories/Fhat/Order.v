(** fhatlrtastar.hpp: what the nodes of a lookahead are ordered by, what errors are observed in it, and where it moves. *)
From stdpp Require Import prelude.
From Coq Require Import ZArith Lia ZifyBool ZifyNat QArith Qabs Lqa.
From Verif Require Import BinHeap.Model BinHeap.Proofs.
From Verif Require Import Search.Domain Search.Model Search.Props Rta.Model Lss.Model Lss.Learn Lss.Look Lss.Run Lss.Props.
From Verif Require Import Fhat.Model Fhat.Proofs Fhat.Learn.
Local Open Scope Z_scope.

(** ** The heap does not write keys *)
Section heap.
Context {K : Type} (lt : K → K → bool).
Lemma swap_key (q : heap K) i j q' : swap q i j = Some q' → key q' = key q.
Proof.
  unfold swap. destruct (arr q !! i); [|done]. cbn [mbind option_bind]. destruct (arr q !! j); [|done]. cbn [mbind option_bind].
  intros H. apply (inj Some) in H. by rewrite <-H.
Qed.
Lemma pullup_key fuel : ∀ (q : heap K) i q' i', pullup lt fuel q i = Some (q', i') → key q' = key q.
Proof.
  induction fuel as [|fuel IH]; intros q i q' i' H; [done|]. unfold pullup in H; fold (pullup lt) in H. case_decide; [by (apply (inj Some) in H; injection H as <- _)|].
  destruct (arr q !! i); [|done]. cbn [mbind option_bind] in H. destruct (arr q !! parent i); [|done]. cbn [mbind option_bind] in H.
  destruct (pred lt q _ _); [|by injection H as <- _]. destruct (swap q i (parent i)) as [q1|] eqn:E; [|done]. cbn [mbind option_bind] in H.
  apply IH in H. by rewrite H, (swap_key _ _ _ _ E).
Qed.
Lemma pushdown_key fuel : ∀ (q : heap K) i q' i', pushdown lt fuel q i = Some (q', i') → key q' = key q.
Proof.
  induction fuel as [|fuel IH]; intros q i q' i' H; [done|]. unfold pushdown in H; fold (pushdown lt) in H.
  destruct (if decide (BinHeap.Model.left i < _)%nat then _ else _) as [s1|]; [|done]. cbn [mbind option_bind] in H.
  destruct (if decide (BinHeap.Model.right i < _)%nat then _ else _) as [s2|]; [|done]. cbn [mbind option_bind] in H.
  case_decide; [by (apply (inj Some) in H; injection H as <- _)|]. destruct (swap q s2 i) as [q1|] eqn:E; [|done]. cbn [mbind option_bind] in H.
  apply IH in H. by rewrite H, (swap_key _ _ _ _ E).
Qed.
Lemma push_key (q : heap K) e q' : push lt q e = Some q' → key q' = key q.
Proof.
  unfold push. destruct (pullup _ _ _ _) as [[q1 i1]|] eqn:E; [|done]. cbn [mbind option_bind]. intros H. apply (inj Some) in H. subst q1.
  apply pullup_key in E. by rewrite E.
Qed.
Lemma pushupdate_key (q : heap K) e i q' : pushupdate lt q e i = Some q' → key q' = key q.
Proof.
  unfold pushupdate. case_decide as Hd1; [apply push_key|]. unfold update. case_decide as Hd2; [done|].
  destruct (pullup _ _ _ _) as [[q1 i1]|] eqn:E; [|done]. cbn [mbind option_bind].
  destruct (pushdown _ _ _ _) as [[q2 i2]|] eqn:E2; [|done]. cbn [mbind option_bind]. intros H. apply (inj Some) in H. subst q2.
  apply pullup_key in E. apply pushdown_key in E2. by rewrite E2, E.
Qed.
Lemma pop_key (q : heap K) q' r : pop lt q = Some (q', r) → key q' = key q.
Proof.
  unfold pop. case_decide as Hd; [by intros [= <- _]|]. destruct (arr q !! 0%nat); [|done]. cbn [mbind option_bind].
  destruct (if decide (1 < _)%nat then _ else _) as [q1|] eqn:E; [|done]. cbn [mbind option_bind]. intros H. apply (inj Some) in H. injection H as <- _.
  cbn [setind key]. case_decide; [|apply (inj Some) in E; by rewrite <-E].
  destruct (last (arr q)); [|done]. cbn [mbind option_bind] in E. destruct (arr (setarr _ _) !! 0%nat); [|done]. cbn [mbind option_bind] in E.
  destruct (pushdown _ _ _ _) as [[q2 i2]|] eqn:E2; [|done]. cbn [mbind option_bind] in E. apply (inj Some) in E. subst q2.
  apply pushdown_key in E2. by rewrite E2.
Qed.
End heap.

(** ** Specification *)
(** The average after the errors [tr], one for each expansion, where an expansion may have none: an error [e] of the n-th
    expansion moves it by (e - a) / (n + 1). *)
Fixpoint running (tr : list (option Q)) (n : nat) (a : Q) : Q :=
  match tr with
  | [] => a
  | None :: tr => running tr (S n) a
  | Some e :: tr => running tr (S n) (a + (e - a) / inject_Z (Z.of_nat (n + 2)))%Q
  end.

(** The two errors of each expansion. *)
Definition herrs {S : Type} (tr : list (S * option (Q * Q))) : list (option Q) := map (λ x, option_map fst x.2) tr.
Definition derrs {S : Type} (tr : list (S * option (Q * Q))) : list (option Q) := map (λ x, option_map snd x.2) tr.

(** Cost so far, value and correction. *)
Definition est {D : domain} (er : errs) (dm : dist D) (v : St D → Z) (s : St D) (g : Z) : Q :=
  (inject_Z g + (inject_Z (v s) + herror er * (n_derr dm s / (1 - derror er))))%Q.

(** An error that may be observed when [s] is expanded: [p] is the state it was reached from.  The error of h is that of
    the successor with the least f, so it is no more than that of any successor; a successor may be reached at a lower cost
    otherwise. *)
Definition observed {D : domain} (v : St D → Z) (d : St D → Q) (s : St D) (e : option (Q * Q)) : Prop :=
  ∃ p : option (St D),
    match e with
    | None => ∀ o, o ∈ ops s → Some (dest s o) = p
    | Some (eh, ed) => (0 <= eh)%Q ∧
      (∀ o, o ∈ ops s → Some (dest s o) ≠ p → (eh <= inject_Z (Z.max 0 (cost s o + v (dest s o) - v s)))%Q) ∧
      ∃ o, o ∈ ops s ∧ Some (dest s o) ≠ p ∧
        ((d (dest s o) + 1 - d s <= 0)%Q ∧ ed = 0%Q ∨ (0 <= d (dest s o) + 1 - d s < 1)%Q ∧ (ed == d (dest s o) + 1 - d s)%Q ∨
         (1 <= d (dest s o) + 1 - d s)%Q ∧ (ed == 1 - (1 # 67108864))%Q)
    end.

Section order.
Context (D : domain) (OK : domain_ok D) (lim : limits) (stop : nat → nat → bool) (junk : Q) (er : errs) (dm : dist D) (v : St D → Z).
Implicit Types (L : fss D) (m : mem D).
Notation kof L a := (key (f_open L) a).

Record kinv L : Prop := {
  ki_g a n : f_nodes L !! a = Some n → is_Some (l_g D n);
  ki_par a n p : f_nodes L !! a = Some n → l_par D n = Some p → is_Some (f_nodes L !! p);
  ki_key a n g : f_nodes L !! a = Some n → l_g D n = Some g →
    (kof L a).1.2 = g + v (l_st D n) ∧ (kof L a).2 = g ∧ (a ≠ 0%nat → (kof L a).1.1 = est er dm v (l_st D n) g) }.

Definition parentof (ns : list (lnode D)) (i : nat) : option (St D) := sn ← ns !! i; p ← l_par D sn; l_st D <$> ns !! p.

(** Nodes stay, at costs that may be lower; new ones are not closed. *)
Record grows (ns ns' : list (lnode D)) : Prop := {
  gr_stay a n g : ns !! a = Some n → l_g D n = Some g → ∃ n' g', ns' !! a = Some n' ∧ l_st D n' = l_st D n ∧ l_cl D n' = l_cl D n ∧ l_g D n' = Some g' ∧ g' ≤ g;
  gr_new a n' : ns' !! a = Some n' → l_cl D n' = true → ∃ n, ns !! a = Some n ∧ l_st D n = l_st D n' ∧ l_cl D n = true }.
Lemma grows_refl ns : grows ns ns.
Proof. split; [intros a n g ??; exists n, g; split_and!; (done || lia)|]. intros a n' ??. by exists n'. Qed.
Lemma grows_trans a b c : grows a b → grows b c → grows a c.
Proof.
  intros [H1 H2] [H3 H4]. split.
  - intros i n g Hn Hg. destruct (H1 i n g Hn Hg) as (n1 & g1 & ? & ? & ? & Hg1 & ?). destruct (H3 i n1 g1) as (n2 & g2 & ? & ? & ? & Hg2 & ?); [done..|].
    exists n2, g2. split_and!; (congruence || lia).
  - intros i n' Hn Hc. destruct (H4 i n' Hn Hc) as (n1 & ? & ? & ?). destruct (H2 i n1) as (n2 & ? & ? & ?); [done..|]. exists n2. split_and!; congruence.
Qed.

Lemma frelax_keys m i o k c L goal best L' goal' best' sn sg :
  0 ≤ c → kinv L → (∀ s, m_h D m s = v s) → f_nodes L !! i = Some sn → l_g D sn = Some sg →
  (∀ b, best = Some b → is_Some (f_nodes L !! b)) →
  frelax D er dm m i o k c L goal best = Some (L', goal', best') →
  kinv L' ∧ grows (f_nodes L) (f_nodes L') ∧ parentof (f_nodes L') i = parentof (f_nodes L) i ∧
  (∃ sn', f_nodes L' !! i = Some sn' ∧ l_st D sn' = l_st D sn ∧ l_g D sn' = Some sg) ∧
  (∀ a n, f_nodes L !! a = Some n → (kof L' a).1.2 ≤ (kof L a).1.2) ∧
  (parentof (f_nodes L) i = Some k ∧ L' = L ∧ best' = best ∨
   parentof (f_nodes L) i ≠ Some k ∧ ∃ j kn g b, f_nodes L' !! j = Some kn ∧ l_st D kn = k ∧ l_g D kn = Some g ∧ g ≤ sg + c ∧
     best' = Some b ∧ (b = j ∨ best = Some b) ∧ (kof L' b).1.2 ≤ (kof L' j).1.2 ∧ (∀ b0, best = Some b0 → (kof L' b).1.2 ≤ (kof L' b0).1.2) ∧
     ∀ a, a ≠ j → kof L' a = kof L a).
Proof.
  intros Hc Hk Hm Hsn Hsg Hb Hr. unfold frelax in Hr. rewrite Hsn in Hr. cbn [mbind option_bind] in Hr.
  assert (parentof (f_nodes L) i = (p ← l_par D sn; l_st D <$> f_nodes L !! p)) as Hpo by (unfold parentof; by rewrite Hsn). rewrite <-Hpo in Hr.
  case_decide as Hp.
  { injection Hr as <- <- <-. split_and!; [done|apply grows_refl|done|by exists sn|done|by left]. }
  destruct (match find_l D (f_nodes L) k with Some j => (f_nodes L, j) | None => (f_nodes L ++ [LNode D k None None nop false false], length (f_nodes L)) end)
    as [ns j] eqn:Ens.
  assert (∃ kn, ns !! j = Some kn ∧ l_st D kn = k ∧ (∀ a n, f_nodes L !! a = Some n → ns !! a = Some n) ∧ (∀ a n, a ≠ j → ns !! a = Some n → f_nodes L !! a = Some n) ∧
    (f_nodes L !! j = Some kn ∨ f_nodes L !! j = None ∧ l_g D kn = None ∧ l_cl D kn = false)) as (kn & Hj & Hjk & Hfwd & Hback & Hjd).
  { destruct (find_l D (f_nodes L) k) as [j'|] eqn:Hf; injection Ens as <- <-.
    - apply find_l_Some in Hf as (kn & ? & ?). exists kn. split_and!; auto.
    - eexists. split_and!; [by apply list_lookup_middle|done| | |].
      + intros a n Ha. rewrite lookup_app_l; [done|]. by eapply lookup_lt_Some.
      + intros a n Hne [Ha|[Hge Ha]]%lookup_app_Some; [done|]. apply list_lookup_singleton_Some in Ha as [? _]. lia.
      + right. split_and!; [|done|done]. apply lookup_ge_None. lia. }
  clear Ens Hpo. rewrite Hj in Hr. cbn [mbind option_bind] in Hr. rewrite Hsg in Hr. cbn [mbind option_bind] in Hr.
  destruct (if match l_g D kn with None => true | Some kg => _ end then _ else _) as [L1|] eqn:E; [|done]. cbn [mbind option_bind] in Hr.
  assert (Hmain : kinv L1 ∧ grows (f_nodes L) (f_nodes L1) ∧ parentof (f_nodes L1) i = parentof (f_nodes L) i ∧
    (∃ sn', f_nodes L1 !! i = Some sn' ∧ l_st D sn' = l_st D sn ∧ l_g D sn' = Some sg) ∧
    (∀ a n, f_nodes L !! a = Some n → (kof L1 a).1.2 ≤ (kof L a).1.2) ∧ (∀ a, a ≠ j → kof L1 a = kof L a) ∧
    ∃ kn' g, f_nodes L1 !! j = Some kn' ∧ l_st D kn' = k ∧ l_g D kn' = Some g ∧ g ≤ sg + c).
  { destruct (match l_g D kn with None => true | Some kg => bool_decide (sg + c < kg) end) eqn:Eu.
    - destruct (pushupdate _ _ _ _) as [q|] eqn:Eq; [|done]. cbn [mbind option_bind] in E. apply (inj Some) in E. subst L1. cbn [f_nodes f_open].
      apply pushupdate_key in Eq. rewrite Eq. cbn [setkey key].
      set (kn' := LNode D k (Some i) (Some (sg + c)) o (l_upd D kn) (l_cl D kn)).
      assert (Hget : ∀ a n, <[j := kn']> ns !! a = Some n → a = j ∧ n = kn' ∨ a ≠ j ∧ f_nodes L !! a = Some n).
      { intros a n [(-> & <- & _)|[? Ha]]%list_lookup_insert_Some; [by left|]. right. split; [done|by apply Hback]. }
      assert (Hput : ∀ a n, a ≠ j → f_nodes L !! a = Some n → <[j := kn']> ns !! a = Some n).
      { intros a n Hne Ha. rewrite list_lookup_insert_ne by done. by apply Hfwd. }
      assert (<[j := kn']> ns !! j = Some kn') as Hnew by (by apply list_lookup_insert; eapply lookup_lt_Some).
      assert (i ≠ j) as Hij.
      { intros ->. destruct Hjd as [Hjd|[Hjd _]]; [|congruence]. rewrite Hsn in Hjd. injection Hjd as <-. rewrite Hsg in Eu. case_bool_decide; [lia|done]. }
      split_and!.
      + split; cbn [f_nodes f_open].
        * intros a n Ha. destruct (Hget a n Ha) as [[-> ->]|[_ Ha']]; [by eexists|]. by eapply ki_g.
        * intros a n p Ha Hpa. assert (∃ pn, ns !! p = Some pn) as [pn Hpn].
          { destruct (Hget a n Ha) as [[-> ->]|[_ Ha']]; [unfold kn' in Hpa; cbn [l_par] in Hpa; injection Hpa as <-; exists sn; by apply Hfwd|].
            destruct (ki_par _ Hk _ _ _ Ha' Hpa) as [pn ?]. exists pn. by apply Hfwd. }
          apply lookup_lt_is_Some. rewrite insert_length. by eapply lookup_lt_Some.
        * rewrite Eq. cbn [setkey key]. intros a n g Ha Hg. destruct (Hget a n Ha) as [[-> ->]|[Hne Ha']].
          -- unfold kn' in Hg |- *. cbn [l_g l_st] in Hg |- *. injection Hg as <-. rewrite decide_True by done. cbn [fst snd].
             split_and!; [by rewrite Hm|done|]. intros _. unfold guess, est. by rewrite Hm.
          -- rewrite decide_False by done. by eapply (ki_key _ Hk).
      + split.
        * intros a n g Ha Hg. destruct (decide (a = j)) as [->|Hne].
          -- destruct Hjd as [Hjd|[Hjd _]]; [|congruence]. rewrite Ha in Hjd. injection Hjd as <-.
             exists kn', (sg + c). split_and!; [done|by unfold kn'|done|done|]. rewrite Hg in Eu. case_bool_decide; [lia|done].
          -- exists n, g. split_and!; [by apply Hput|done|done|done|lia].
        * intros a n' Ha Hcl. destruct (Hget a n' Ha) as [[-> ->]|[_ Ha']]; [|by exists n'].
          destruct Hjd as [Hjd|(_ & _ & Hjd)]; [|unfold kn' in Hcl; cbn [l_cl] in Hcl; congruence]. exists kn. split_and!; [done|done|done].
      + unfold parentof. rewrite (Hput i sn Hij Hsn), Hsn. cbn [mbind option_bind]. destruct (l_par D sn) as [p|] eqn:Ep; [|done]. cbn [mbind option_bind].
        destruct (ki_par _ Hk _ _ _ Hsn Ep) as [pn Hpn]. rewrite Hpn. destruct (decide (p = j)) as [->|Hne].
        * rewrite Hnew. destruct Hjd as [Hjd|(Hjd & _ & _)]; [|congruence].
          rewrite Hpn in Hjd. injection Hjd as ->. cbn [fmap option_fmap option_map]. by rewrite Hjk.
        * by rewrite (Hput p pn Hne Hpn).
      + exists sn. split_and!; [by apply Hput|done|done].
      + intros a n Ha. case_decide as Ha'; [|done]. subst a. cbn [fst snd]. destruct (ki_g _ Hk _ _ Ha) as [g Hg].
        destruct (ki_key _ Hk _ _ _ Ha Hg) as (-> & _). destruct Hjd as [Hjd|[Hjd _]]; [|congruence]. rewrite Ha in Hjd. injection Hjd as <-.
        rewrite Hg in Eu. rewrite Hm, Hjk. case_bool_decide; [lia|done].
      + intros a Ha. by rewrite decide_False.
      + exists kn', (sg + c). split_and!; [done|done|done|lia].
    - apply (inj Some) in E. subst L1. cbn [f_nodes f_open]. destruct (l_g D kn) as [kg|] eqn:Hkg; [|done]. case_bool_decide; [done|].
      destruct Hjd as [Hjd|(_ & ? & _)]; [|done].
      assert (Hb' : ∀ a n, ns !! a = Some n → f_nodes L !! a = Some n). { intros a n Ha. destruct (decide (a = j)) as [->|?]; [congruence|by apply Hback]. }
      assert (ns = f_nodes L) as ->. { apply list_eq. intros a. apply option_eq. intros n. split; auto. }
      split_and!; [|apply grows_refl|done|by exists sn|done|done|].
      + split; cbn [f_nodes f_open]; apply Hk.
      + exists kn, kg. split_and!; [done|done|done|lia]. }
  destruct Hmain as (H1 & H2 & H3 & H4 & H5 & H6 & kn' & g & H7 & H8 & H9 & H10).
  rewrite H7 in Hr. cbn [mbind option_bind] in Hr.
  destruct (if isgoal k then _ else _) as [goal1|]; [|done]. cbn [mbind option_bind] in Hr. apply (inj Some) in Hr. injection Hr as <- _ <-.
  split_and!; [done|done|done|done|done|]. right. split; [done|]. unfold kf.
  destruct best as [b0|].
  - case_bool_decide as Hlt; [exists j, kn', g, j|exists j, kn', g, b0]; (split_and!; try done; auto); intros; simplify_eq; lia.
  - exists j, kn', g, j. split_and!; try done; auto.
Qed.

(** What is known of the successors gone through, [dn], when [i], of state [x], is expanded. *)
Definition kids L i (x : St D) sg (best : option nat) (dn : list (Op D)) : Prop :=
  (∀ o, o ∈ dn → parentof (f_nodes L) i ≠ Some (dest x o) → ∃ b j n g, best = Some b ∧ f_nodes L !! j = Some n ∧ l_st D n = dest x o ∧
     l_g D n = Some g ∧ g ≤ sg + cost x o ∧ (kof L b).1.2 ≤ (kof L j).1.2) ∧
  (∀ b, best = Some b → ∃ o n, o ∈ dn ∧ parentof (f_nodes L) i ≠ Some (dest x o) ∧ f_nodes L !! b = Some n ∧ l_st D n = dest x o).

Lemma frelaxes_keys m i (x : St D) os : ∀ L goal best L' goal' best' sn sg dn,
  (∀ o, o ∈ os → o ∈ ops x) → kinv L → (∀ s, m_h D m s = v s) → f_nodes L !! i = Some sn → l_g D sn = Some sg → l_st D sn = x → kids L i x sg best dn →
  frelaxes D er dm m i x os L goal best = Some (L', goal', best') →
  kinv L' ∧ grows (f_nodes L) (f_nodes L') ∧ parentof (f_nodes L') i = parentof (f_nodes L) i ∧
  (∃ sn', f_nodes L' !! i = Some sn' ∧ l_st D sn' = x ∧ l_g D sn' = Some sg) ∧ ∃ dn', (∀ o, o ∈ dn' ↔ o ∈ os ∨ o ∈ dn) ∧ kids L' i x sg best' dn'.
Proof.
  induction os as [|o os IH]; intros L goal best L' goal' best' sn sg dn Hos Hk Hm Hsn Hsg Hx Hkids Hr; cbn [frelaxes] in Hr.
  { injection Hr as <- <- <-. split_and!; [done|apply grows_refl|done|by exists sn|]. exists dn. split; [|done]. intros o. split; [by right|]. by intros [?%elem_of_nil|?]. }
  destruct (edge x o) as [[k c] r] eqn:E.
  assert (dest x o = k ∧ cost x o = c) as [Hdk Hck] by (unfold dest, cost; by rewrite E).
  destruct (frelax D er dm m i o k c L goal best) as [[[L1 goal1] best1]|] eqn:E1; [|done]. cbn [mbind option_bind] in Hr.
  assert (0 ≤ c) as Hc. { rewrite <-Hck. apply (ok_cost OK). apply Hos. left. }
  destruct (frelax_keys m i o k c L goal best L1 goal1 best1 sn sg Hc Hk Hm Hsn Hsg) as (H1 & H2 & H3 & (sn1 & H4 & H5 & H6) & H7 & H8); [|done|].
  { intros b Hb. destruct (proj2 Hkids b Hb) as (_ & n & _ & _ & ? & _). eauto. }
  assert (kids L1 i x sg best1 (o :: dn)) as Hkids1.
  { destruct Hkids as [K1 K2]. destruct H8 as [(Hpk & -> & ->)|(Hpk & j & kn & g & b & Hj & Hjs & Hjg & Hle & -> & Hbj & Hbk & Hb0 & Hoth)].
    - split.
      + intros o' [->|Ho']%elem_of_cons Hne; [congruence|]. by apply K1.
      + intros b Hb. destruct (K2 b Hb) as (o' & n & ? & ? & ? & ?). exists o', n. split_and!; [by right|done..].
    - split; rewrite H3.
      + intros o' Ho' Hne. destruct (decide (dest x o' = k ∧ sg + c ≤ sg + cost x o')) as [[Ed Ec]|Hnd].
        * exists b, j, kn, g. split_and!; [done|done|congruence|done|lia|done].
        * apply elem_of_cons in Ho' as [->|Ho']; [exfalso; apply Hnd; split; [done|lia]|].
          destruct (K1 o' Ho' Hne) as (b1 & j1 & n1 & g1 & -> & Hj1 & Hs1 & Hg1 & Hle1 & Hk1).
          destruct (gr_stay _ _ H2 j1 n1 g1 Hj1 Hg1) as (n2 & g2 & Hj2 & Hs2 & _ & Hg2 & Hle2).
          exists b, j1, n2, g2. split_and!; [done|done|congruence|done|lia|].
          destruct (decide (j1 = j)) as [->|Hne1]; [done|]. rewrite (Hoth j1 Hne1). pose proof (Hb0 b1 eq_refl).
          destruct (K2 b1 eq_refl) as (_ & nb & _ & _ & Hnb & _). pose proof (H7 b1 nb Hnb). lia.
      + intros b' [= <-]. destruct Hbj as [->|Hbj].
        * exists o, kn. split_and!; [left|congruence|done|congruence].
        * destruct (K2 b Hbj) as (o' & n & Ho' & Hne & Hn & Hs). destruct (ki_g _ Hk b n Hn) as [gn Hgn].
          destruct (gr_stay _ _ H2 b n gn Hn Hgn) as (n2 & g2 & Hj2 & Hs2 & _). exists o', n2. split_and!; [by right|done|done|congruence]. }
  destruct (IH L1 goal1 best1 L' goal' best' sn1 sg (o :: dn)) as (I1 & I2 & I3 & I4 & dn' & I5 & I6); [|done|done|done|done|congruence|done|done|].
  { intros o' Ho'. apply Hos. by right. }
  split_and!; [done|by eapply grows_trans|congruence|done|]. exists dn'. split; [|done]. intros o'. rewrite I5, !elem_of_cons. naive_solver.
Qed.

Lemma derr_cases a b :
  (a + 1 - b <= 0)%Q ∧ derr a b = 0%Q ∨ (0 <= a + 1 - b < 1)%Q ∧ (derr a b == a + 1 - b)%Q ∨ (1 <= a + 1 - b)%Q ∧ (derr a b == 1 - (1 # 67108864))%Q.
Proof.
  unfold derr. set (e := (a + 1 - b)%Q). unfold Qltb, Geom.Model.Qltb. destruct (Qle_bool 0 e) eqn:E0; cbn [negb].
  - apply Qle_bool_iff in E0. destruct (Qle_bool 1 e) eqn:E1.
    + apply Qle_bool_iff in E1. right. right. split; [done|]. reflexivity.
    + right. left. split; [|reflexivity]. split; [done|]. apply Qnot_le_lt. rewrite <-Qle_bool_iff. congruence.
  - left. split; [|done]. apply Qlt_le_weak, Qnot_le_lt. rewrite <-Qle_bool_iff. congruence.
Qed.

Lemma floop_observed fuel k : ∀ n m L st goal nx m' L' st' goal' nx',
  mem_ok m → cons_h D v → (∀ s, m_h D m s = v s) → kinv L →
  floop D lim stop er dm fuel k n m L st goal nx = Some (m', L', st', goal', nx') →
  (∀ s, m_h D m' s = v s) ∧ kinv L' ∧ ext D (f_nodes L) (f_nodes L') ∧
  ∃ tr : list (St D * option (Q * Q)), Forall (λ x, observed v (n_d dm) x.1 x.2) tr ∧
    (∀ s, closed_st (f_nodes L') s ↔ closed_st (f_nodes L) s ∨ s ∈ tr.*1) ∧
    (herror nx' == running (herrs tr) n (herror nx))%Q ∧ (derror nx' == running (derrs tr) n (derror nx))%Q.
Proof.
  induction fuel as [|fuel IH]; intros n m L st goal nx m' L' st' goal' nx' Hm Hcv Hv Hk Hr; [done|]. cbn [floop] in Hr.
  assert (Hend : ∃ tr : list (St D * option (Q * Q)), Forall (λ x, observed v (n_d dm) x.1 x.2) tr ∧
    (∀ s, closed_st (f_nodes L) s ↔ closed_st (f_nodes L) s ∨ s ∈ tr.*1) ∧
    (herror nx == running (herrs tr) n (herror nx))%Q ∧ (derror nx == running (derrs tr) n (derror nx))%Q).
  { exists []. split_and!; [done| |reflexivity|reflexivity]. intros s. split; [by left|]. by intros [?|?%elem_of_nil]. }
  destruct (empty (f_open L)). { apply (inj Some) in Hr. injection Hr as <- <- <- <- <-. split_and!; [done|done|apply ext_refl|done]. }
  destruct (stop k n). { apply (inj Some) in Hr. injection Hr as <- <- <- <- <-. split_and!; [done|done|apply ext_refl|done]. }
  destruct (rreached lim st). { apply (inj Some) in Hr. injection Hr as <- <- <- <- <-. split_and!; [done|done|apply ext_refl|done]. }
  clear Hend. destruct (pop fhatsort (f_open L)) as [[q [i|]]|] eqn:Eq; [|done..]. cbn [mbind option_bind] in Hr. apply pop_key in Eq.
  destruct (f_nodes L !! i) as [sn|] eqn:Hsn; [|done]. cbn [mbind option_bind] in Hr.
  destruct (expand_spec D OK lim stop (l_st D sn) m (rcalled st) Hm) as (m1 & st1 & Hx & Hm1 & _ & _ & Hh & _). rewrite Hx in Hr.
  assert (∀ s, m_h D m1 s = v s) as Hv1. { intros s. rewrite Hh; [done|]. intros s' o Ho. rewrite !Hv. by apply Hcv. }
  set (sn1 := LNode D (l_st D sn) (l_par D sn) (l_g D sn) (l_op D sn) (l_upd D sn) true) in Hr.
  set (L0 := Fss (<[i := sn1]> (f_nodes L)) q (if l_cl D sn then f_ncl L else S (f_ncl L))) in Hr.
  destruct (frelaxes D er dm m1 i (l_st D sn) (ops (l_st D sn)) L0 goal None) as [[[L1 goal1] best1]|] eqn:Ef; [|done]. cbn [mbind option_bind] in Hr.
  destruct (observe D dm L1 i (l_st D sn) best1 (S n) nx) as [nx1|] eqn:Eo; [|done]. cbn [mbind option_bind] in Hr.
  assert (Hget : ∀ a x, <[i := sn1]> (f_nodes L) !! a = Some x → a = i ∧ x = sn1 ∨ a ≠ i ∧ f_nodes L !! a = Some x).
  { intros a x [(-> & <- & _)|[? Ha]]%list_lookup_insert_Some; [by left|]. right. done. }
  assert (<[i := sn1]> (f_nodes L) !! i = Some sn1) as Hnew by (by apply list_lookup_insert; eapply lookup_lt_Some).
  destruct (ki_g _ Hk i sn Hsn) as [sg Hsg].
  assert (kinv L0) as Hk0.
  { split; cbn [L0 f_nodes f_open].
    - intros a x Ha. destruct (Hget a x Ha) as [[-> ->]|[_ Ha']]; [unfold sn1; cbn [l_g]|]; by eapply ki_g.
    - intros a x p Ha Hp. apply lookup_lt_is_Some. rewrite insert_length. apply lookup_lt_is_Some.
      destruct (Hget a x Ha) as [[-> ->]|[_ Ha']]; [unfold sn1 in Hp; cbn [l_par] in Hp|]; by eapply (ki_par _ Hk).
    - rewrite Eq. intros a x g Ha Hg. destruct (Hget a x Ha) as [[-> ->]|[_ Ha']]; [|by eapply (ki_key _ Hk)].
      unfold sn1 in Hg |- *. cbn [l_g l_st] in Hg |- *. by eapply (ki_key _ Hk). }
  assert (kids L0 i (l_st D sn) sg None []) as Hkids0 by (split; [by intros o ?%elem_of_nil|done]).
  destruct (frelaxes_keys m1 i (l_st D sn) (ops (l_st D sn)) L0 goal None L1 goal1 best1 sn1 sg [] (λ o H, H) Hk0 Hv1 Hnew Hsg eq_refl Hkids0 Ef)
    as (I1 & I2 & I3 & (sn' & I4 & I5 & I6) & dn & I7 & [I8 I9]).
  assert (Hcl : ∀ s, closed_st (f_nodes L1) s ↔ closed_st (f_nodes L) s ∨ s = l_st D sn).
  { intros s. split.
    - intros (a & x & Ha & Hc & <-). destruct (gr_new _ _ I2 a x Ha Hc) as (x0 & Hx0 & Hs0 & Hc0). rewrite <-Hs0.
      destruct (Hget a x0 Hx0) as [[-> ->]|[_ Hx0']]; [by right|]. left. by exists a, x0.
    - intros Hs. assert (∃ a x g, <[i := sn1]> (f_nodes L) !! a = Some x ∧ l_cl D x = true ∧ l_st D x = s ∧ l_g D x = Some g) as (a & x & g & Ha & Hc & <- & Hg).
      { destruct Hs as [(a & x & Ha & Hc & <-)| ->]; [|by exists i, sn1, sg]. destruct (decide (a = i)) as [->|Hne].
        - exists i, sn1, sg. simplify_eq. done.
        - destruct (ki_g _ Hk a x Ha) as [g Hg]. exists a, x, g. by rewrite list_lookup_insert_ne. }
      destruct (gr_stay _ _ I2 a x g Ha Hg) as (x' & g' & Ha' & Hs' & Hc' & _). exists a, x'. split_and!; congruence. }
  assert (ext D (f_nodes L) (f_nodes L1)) as Hext0.
  { intros a x Ha. assert (∃ x1 g, <[i := sn1]> (f_nodes L) !! a = Some x1 ∧ l_st D x1 = l_st D x ∧ l_g D x1 = Some g) as (x1 & g & Hx1 & Hs1 & Hg1).
    { destruct (decide (a = i)) as [->|Hne]; [exists sn1, sg; by simplify_eq|]. destruct (ki_g _ Hk a x Ha) as [g Hg]. exists x, g. by rewrite list_lookup_insert_ne. }
    destruct (gr_stay _ _ I2 a x1 g Hx1 Hg1) as (x' & _ & Ha' & Hs' & _). exists x'. split; [done|congruence]. }
  assert (∃ e, observed v (n_d dm) (l_st D sn) e ∧
    (herror nx1 == running [option_map fst e] n (herror nx))%Q ∧ (derror nx1 == running [option_map snd e] n (derror nx))%Q) as (e & He & He1 & He2).
  { unfold observe in Eo. destruct best1 as [b|].
    - destruct (I9 b eq_refl) as (o & bn & Ho & Hne & Hbn & Hbs). rewrite Hbn in Eo. cbn [mbind option_bind] in Eo. apply (inj Some) in Eo.
      exists (Some (herr (kf (kof L1 b)) (kf (kof L1 i)), derr (n_d dm (l_st D bn)) (n_d dm (l_st D sn)))).
      rewrite <-Eo. cbn [herror derror running fmap option_fmap option_map fst snd]. unfold blend.
      replace (S n + 1)%nat with (n + 2)%nat by lia. split_and!; [|reflexivity..].
      exists (parentof (f_nodes L1) i). split; [apply herr_nonneg|]. split.
      + intros o' Ho' Hp'. destruct (I8 o') as (b' & j & nj & g & Hb' & Hj & Hjs & Hjg & Hle & Hkk); [by apply I7; left|congruence|]. injection Hb' as <-.
        destruct (ki_key _ I1 j nj g Hj Hjg) as (E1 & _). destruct (ki_key _ I1 i sn' sg I4 I6) as (E2 & _).
        unfold herr, kf. rewrite <-Zle_Qle. rewrite E2, I5. rewrite E1, Hjs in Hkk. lia.
      + exists o. split_and!; [by apply I7 in Ho as [?|?%elem_of_nil]|congruence|]. rewrite <-Hbs. apply derr_cases.
    - exists None. apply (inj Some) in Eo. subst nx1. cbn [running fmap option_fmap option_map]. split_and!; [|reflexivity..].
      exists (parentof (f_nodes L1) i). intros o Ho. destruct (decide (Some (dest (l_st D sn) o) = parentof (f_nodes L1) i)) as [?|Hne]; [done|].
      destruct (I8 o) as (b & _ & _ & _ & ? & _); [by apply I7; left|congruence|done]. }
  assert (Hrun : ∀ tr a b b' (p : Q * Q → Q), (b == running [option_map p e] n a)%Q → (b' == running tr (S n) b)%Q → (b' == running (option_map p e :: tr) n a)%Q).
  { assert (∀ tr n a b, (a == b)%Q → (running tr n a == running tr n b)%Q) as Hext.
    { clear. induction tr as [|[x|] tr IH]; intros n a b Hab; cbn [running]; [done| |by apply IH]. apply IH. by rewrite Hab. }
    intros tr a b b' p Hb Hb'. rewrite Hb'. rewrite (Hext _ _ _ _ Hb). destruct e as [e|]; cbn [fmap option_fmap option_map running]; reflexivity. }
  destruct (isgoal (l_st D sn)).
  - destruct (push fhatsort (f_open L1) i) as [q1|] eqn:Eq1; [|done]. cbn [mbind option_bind] in Hr. apply (inj Some) in Hr. injection Hr as <- <- <- <- <-.
    apply push_key in Eq1. split_and!; [done| |done|].
    + split; cbn [f_nodes f_open]; rewrite ?Eq1; apply I1.
    + exists [(l_st D sn, e)]. split_and!; [by repeat constructor| |exact He1|exact He2].
      intros s. cbn [f_nodes fmap list_fmap fst]. rewrite Hcl, elem_of_list_singleton. done.
  - destruct (IH _ _ _ _ _ _ _ _ _ _ _ Hm1 Hcv Hv1 I1 Hr) as (J1 & J2 & J7 & tr & J3 & J4 & J5 & J6). split_and!; [done|done|by eapply ext_trans|].
    exists ((l_st D sn, e) :: tr). split_and!; [by constructor| | |].
    + intros s. rewrite J4, Hcl. cbn [fmap list_fmap fst]. rewrite elem_of_cons. naive_solver.
    + cbn [herrs derrs map fst snd]. by eapply Hrun.
    + cbn [herrs derrs map fst snd]. by eapply Hrun.
Qed.

Lemma finit_keys m cur L : (∀ s, m_h D m s = v s) → finit D junk m cur = Some L → kinv L ∧ f_nodes L = [LNode D cur None (Some 0) nop false false].
Proof.
  intros Hv H. unfold finit in H. destruct (push _ _ _) as [q|] eqn:E; [|done]. cbn [mbind option_bind] in H. apply (inj Some) in H. subst L. cbn [f_nodes f_open].
  split; [|done]. apply push_key in E. split; cbn [f_nodes f_open].
  - intros a n Ha. apply list_lookup_singleton_Some in Ha as [_ <-]. by eexists.
  - intros a n p Ha Hp. apply list_lookup_singleton_Some in Ha as [_ <-]. done.
  - intros a n g Ha Hg. apply list_lookup_singleton_Some in Ha as [-> <-]. injection Hg as <-. rewrite E. cbn. by rewrite Hv.
Qed.
End order.

(** ** Where the search moves *)
(** What makes one open node better than another. *)
Definition better (a b : Q * Z * Z) : Prop :=
  (a.1.1 < b.1.1)%Q ∨ (a.1.1 == b.1.1)%Q ∧ (a.1.2 < b.1.2 ∨ a.1.2 = b.1.2 ∧ b.2 < a.2).
Lemma better_trans a b c : better a b → better b c → better a c.
Proof.
  unfold better. intros [H1|[H1 H2]] [H3|[H3 H4]]; [left; lra|left; lra|left; lra|]. right. split; [lra|]. lia.
Qed.
(** The two estimates are the same or differ by more than the tolerance of the comparison. *)
Definition apart (a b : Q) : Prop := (a == b)%Q ∨ (1 # 67108864 <= Qabs (a - b))%Q.
Lemma fhatsort_better a b : apart a.1.1 b.1.1 → fhatsort a b = true ↔ better a b.
Proof.
  destruct a as [[fa f] g], b as [[fb f'] g']. unfold apart, better, fhatsort, doubleeq, Geom.Model.doubleeq, Qltb, Geom.Model.Qltb. cbn [fst snd].
  assert (∀ x y, negb (Qle_bool x y) = true ↔ (y < x)%Q) as Hlt.
  { intros x y. rewrite negb_true_iff, <-not_true_iff_false, Qle_bool_iff. split; [apply Qnot_le_lt|]. intros ??. lra. }
  intros Hap. destruct (negb (Qle_bool Geom.Model.Threshold (Qabs (fa - fb)))) eqn:E.
  - apply Hlt in E. destruct Hap as [Hap|Hap]; [|unfold Geom.Model.Threshold in E; lra].
    repeat case_bool_decide; split; intros; try done; try lia; try (right; split; [done|lia]).
    all: destruct H1 as [?|[_ ?]] || destruct H0 as [?|[_ ?]]; [lra|lia].
  - rewrite Hlt. assert (¬ (fa == fb)%Q) as Hne.
    { intros Heq. assert (Qabs (fa - fb) == 0)%Q as H0. { setoid_replace (fa - fb)%Q with 0%Q by lra. done. }
      apply negb_false_iff, Qle_bool_iff in E. unfold Geom.Model.Threshold in E. lra. }
    split; [by left|]. intros [?|[? _]]; done.
Qed.

Lemma fbest_least D ns (q : heap (Q * Z * Z)) cur es : ∀ best b,
  (∀ e e', (e ∈ es ∧ (∀ n, ns !! e = Some n → l_st D n ≠ cur) ∨ best = Some e) → (e' ∈ es ∧ (∀ n, ns !! e' = Some n → l_st D n ≠ cur) ∨ best = Some e') →
     apart (key q e).1.1 (key q e').1.1) →
  fbest D ns q cur es best = Some (Some b) →
  (best = Some b ∨ b ∈ es ∧ ∃ n, ns !! b = Some n ∧ l_st D n ≠ cur) ∧ (∀ b0, best = Some b0 → ¬ better (key q b0) (key q b)) ∧
  ∀ e n, e ∈ es → ns !! e = Some n → l_st D n ≠ cur → ¬ better (key q e) (key q b).
Proof.
  assert (∀ k : Q * Z * Z, ¬ better k k) as Hirr. { intros k [?|[_ ?]]; [lra|lia]. }
  induction es as [|e es IH]; intros best b Hap Hb; cbn [fbest] in Hb.
  { apply (inj Some) in Hb. subst best. split_and!; [by left|by intros b0 [= <-]|by intros e n ?%elem_of_nil]. }
  destruct (ns !! e) as [n|] eqn:Hn; [|done]. cbn [mbind option_bind] in Hb. case_decide as Hc.
  - destruct (IH best b) as (H1 & H2 & H3); [|done|].
    { intros x y Hx Hy. apply Hap; [destruct Hx as [[? ?]|?]|destruct Hy as [[? ?]|?]]; try (by right); left; (split; [by right|done]). }
    split_and!; [|done|].
    + destruct H1 as [?|[? ?]]; [by left|right; split; [by right|done]].
    + intros x nx [->|Hx]%elem_of_cons Hnx Hne; [congruence|]. by eapply H3.
  - set (best1 := match best with Some b0 => if pred fhatsort q e b0 then Some e else Some b0 | None => Some e end) in Hb.
    assert (Hme : ∀ n0, ns !! e = Some n0 → l_st D n0 ≠ cur) by (intros n0 ?; congruence).
    assert (Hb1 : best1 = Some e ∨ best1 = best). { unfold best1. destruct best; [destruct (pred _ _ _ _)|]; auto. }
    destruct (IH best1 b) as (H1 & H2 & H3); [|done|].
    { intros x y Hx Hy.
      assert (∀ z, (z ∈ es ∧ (∀ n, ns !! z = Some n → l_st D n ≠ cur) ∨ best1 = Some z) → (z ∈ e :: es ∧ (∀ n, ns !! z = Some n → l_st D n ≠ cur) ∨ best = Some z)) as Hz.
      { intros z [[? ?]|Hz]; [left; split; [by right|done]|]. destruct Hb1 as [E|E]; rewrite E in Hz; [|by right]. injection Hz as <-. left. split; [left|done]. }
      apply Hap; by apply Hz. }
    assert (Hbe : ∀ x, best1 = Some x → ¬ better (key q e) (key q x) ∧ ∀ b0, best = Some b0 → ¬ better (key q b0) (key q x)).
    { intros x Hx. unfold best1 in Hx. destruct best as [b0|]; [|injection Hx as <-; split; [apply Hirr|done]].
      assert (fhatsort (key q e) (key q b0) = true ↔ better (key q e) (key q b0)) as Hfb.
      { apply fhatsort_better, Hap; [left; split; [left|done]|by right]. }
      unfold pred in Hx. destruct (fhatsort (key q e) (key q b0)) eqn:E; injection Hx as <-.
      - split; [apply Hirr|]. intros b1 [= <-] Hbb. apply (Hirr (key q e)). eapply better_trans; [|exact Hbb]. by apply Hfb.
      - split; [|intros b1 [= <-]; apply Hirr]. intros Hbb. by apply Hfb in Hbb. }
    assert (Hnt : ∀ x, best1 = Some x → ∀ y, ¬ better (key q y) (key q x) → ¬ better (key q x) (key q b) → ¬ better (key q y) (key q b)).
    { clear. intros x _ y H1 H2 H3. unfold better in *. destruct (Qlt_le_dec (key q y).1.1 (key q x).1.1); [tauto|]. destruct (Qlt_le_dec (key q x).1.1 (key q b).1.1); [tauto|].
      destruct H3 as [H3|[H3 H4]]; [lra|].
      assert ((key q y).1.1 == (key q x).1.1)%Q by lra. assert ((key q x).1.1 == (key q b).1.1)%Q by lra.
      destruct (decide ((key q y).1.2 < (key q x).1.2 ∨ (key q y).1.2 = (key q x).1.2 ∧ (key q x).2 < (key q y).2)); [tauto|].
      destruct (decide ((key q x).1.2 < (key q b).1.2 ∨ (key q x).1.2 = (key q b).1.2 ∧ (key q b).2 < (key q x).2)); [tauto|]. lia. }
    assert (∃ x, best1 = Some x) as [x Hx]. { unfold best1. destruct best; [destruct (pred _ _ _ _)|]; eauto. }
    destruct (Hbe x Hx) as [Hb2 Hb3]. split_and!.
    + destruct H1 as [H1|[H1 ?]]; [|right; split; [by right|done]]. destruct Hb1 as [E|E]; rewrite E in H1; [|by left]. injection H1 as <-. right. split; [left|eauto].
    + intros b0 Hb0. apply (Hnt x Hx); [by apply Hb3|by apply H2].
    + intros y ny [->|Hy]%elem_of_cons Hny Hne; [|by eapply H3]. apply (Hnt x Hx); [done|by apply H2].
Qed.

(** *** The averages *)
(** The errors that are used in the next lookahead are those observed in this one: each expanded state is observed, and
    each error moves the average. *)
Theorem C121_observed D (OK : domain_ok D) lim stop junk fuel k er dm m st cur m' L st' goal er' :
  mem_ok m → cons_h D (m_h D m) → expandFss D lim stop junk fuel k er dm m st cur = Some (m', L, st', goal, er') →
  ∃ tr : list (St D * option (Q * Q)), Forall (λ x, observed (m_h D m) (n_d dm) x.1 x.2) tr ∧
    (∀ s, closed_st (f_nodes L) s ↔ s ∈ tr.*1) ∧
    (herror er' == running (herrs tr) 0 0)%Q ∧ (derror er' == running (derrs tr) 0 0)%Q.
Proof.
  intros Hm Hc Hr. unfold expandFss in Hr. destruct (finit D junk m cur) as [L0|] eqn:E0; [|done]. cbn [mbind option_bind] in Hr.
  destruct (finit_keys D junk er dm (m_h D m) m cur L0 (λ s, eq_refl) E0) as [Hk Hn].
  destruct (floop_observed D OK lim stop er dm (m_h D m) fuel k 0 m L0 st None (Errs 0 0) m' L st' goal er' Hm Hc (λ s, eq_refl) Hk Hr)
    as (_ & _ & _ & tr & H1 & H2 & H3 & H4).
  exists tr. split_and!; [done| |done|done]. intros s. rewrite H2. split; [|by right]. intros [(i & n & Hi & Hcl & _)|?]; [|done].
  rewrite Hn in Hi. apply list_lookup_singleton_Some in Hi as [_ <-]. done.
Qed.
(** The closed form. *)
Theorem C121_average es : (running (map Some es) 0 0 == fold_right Qplus 0 es / inject_Z (Z.of_nat (length es + 1)))%Q.
Proof.
  assert (∀ es n a s, a == s / inject_Z (Z.of_nat (n + 1)) → running (map Some es) n a == (s + fold_right Qplus 0 es) / inject_Z (Z.of_nat (n + length es + 1)))%Q as Hg.
  { clear es. induction es as [|e es IH]; intros n a s Ha; cbn [running map fold_right length].
    - rewrite Ha. replace (n + 0 + 1)%nat with (n + 1)%nat by lia. setoid_replace (s + 0)%Q with s by lra. reflexivity.
    - rewrite (IH (S n) _ (s + e)%Q).
      + replace (S n + length es + 1)%nat with (n + S (length es) + 1)%nat by lia.
        setoid_replace (s + e + fold_right Qplus 0 es)%Q with (s + (e + fold_right Qplus 0 es))%Q by lra. reflexivity.
      + rewrite Ha. replace (Z.of_nat (S n + 1)) with (Z.of_nat (n + 1) + 1) by lia. replace (Z.of_nat (n + 2)) with (Z.of_nat (n + 1) + 1) by lia.
        rewrite inject_Z_plus. change (inject_Z 1) with 1%Q.
        assert (0 < inject_Z (Z.of_nat (n + 1)))%Q. { change 0%Q with (inject_Z 0). rewrite <-Zlt_Qlt. lia. }
        field. lra. }
  rewrite (Hg es 0%nat 0%Q 0%Q); [|done]. setoid_replace (0 + fold_right Qplus 0 es)%Q with (fold_right Qplus 0%Q es) by lra. reflexivity.
Qed.

(** *** The move *)
(** [s] is on the open list with the cost [g]. *)
Definition opened {D : domain} (L : fss D) (s : St D) (g : Z) : Prop :=
  ∃ i n, i ∈ arr (f_open L) ∧ f_nodes L !! i = Some n ∧ l_st D n = s ∧ l_g D n = Some g.
(** If no goal was seen the search moves to an open state of least estimate; among those the least f and then the largest g
    decide.  The estimates of the open states are to be equal or apart by the tolerance of their comparison. *)
Theorem C121_move D (OK : domain_ok D) lim stop junk fuel k er dm m st cur m' L st' er' os s' :
  mem_ok m → cons_h D (m_h D m) → isgoal cur = false → expandFss D lim stop junk fuel k er dm m st cur = Some (m', L, st', None, er') →
  fmove D false L cur None = Some (os, s') →
  let keyof s g := (est er dm (m_h D m) s g, g + m_h D m s, g) in
  (∀ s g t g', opened L s g → s ≠ cur → opened L t g' → t ≠ cur → apart (est er dm (m_h D m) s g) (est er dm (m_h D m) t g')) →
  s' ≠ cur ∧ ∃ g, opened L s' g ∧ ∀ t g', opened L t g' → t ≠ cur → ¬ better (keyof t g') (keyof s' g).
Proof.
  intros Hm Hc Hg Hr Hmv keyof Hap.
  pose proof Hr as Hr0. unfold expandFss in Hr. destruct (finit D junk m cur) as [L0|] eqn:E0; [|done]. cbn [mbind option_bind] in Hr.
  destruct (finit_keys D junk er dm (m_h D m) m cur L0 (λ s, eq_refl) E0) as [Hk Hn].
  destruct (floop_observed D OK lim stop er dm (m_h D m) fuel k 0 m L0 st None (Errs 0 0) m' L st' None er' Hm Hc (λ s, eq_refl) Hk Hr)
    as (_ & HkL & Hex & _).
  destruct (expandFss_spec D (λ _, 0) (λ _, 0%Q) _ _ _ _ _ _ _ _ _ _ _ _ _ _ _ Hg Hr0) as [(L1 & goal0 & Hi & _ & _ & Hn1) _]. destruct (Hn1 eq_refl) as [<- ->]. clear Hn1.
  assert (Hroot : ∃ n, f_nodes L !! 0%nat = Some n ∧ l_st D n = cur).
  { apply (Hex 0%nat (LNode D cur None (Some 0) nop false false)). by rewrite Hn. }
  assert (Hkey : ∀ e n, e ∈ arr (f_open L) → f_nodes L !! e = Some n → l_st D n ≠ cur → ∃ g, opened L (l_st D n) g ∧ l_g D n = Some g ∧ key (f_open L) e = keyof (l_st D n) g).
  { intros e n He Hne Hcur. destruct (ki_g _ _ _ _ _ HkL e n Hne) as [g Hgn]. exists g. split; [by exists e, n|]. split; [done|].
    destruct (ki_key _ _ _ _ _ HkL e n g Hne Hgn) as (K1 & K2 & K3). unfold keyof. destruct (key (f_open L) e) as [[a b] c]. cbn [fst snd] in K1, K2, K3.
    rewrite K1, K2, K3; [done|]. intros ->. destruct Hroot as (n0 & ? & ?). congruence. }
  unfold fmove in Hmv. destruct (fbest D (f_nodes L) (f_open L) cur (arr (f_open L)) None) as [[b|]|] eqn:Eb; [|done..].
  cbn [mbind option_bind] in Hmv. destruct (f_nodes L !! b) as [bn|] eqn:Hbn; [|done]. cbn [mbind option_bind] in Hmv. case_decide as Hne; [done|].
  destruct (upward D _ _ cur b None) as [[us r]|]; [|done]. cbn [mbind option_bind] in Hmv. apply (inj Some) in Hmv. injection Hmv as _ <-.
  apply fbest_least in Eb as (H1 & _ & H3).
  2:{ intros e e' [[He Hen]|?] [[He' Hen']|?]; [|done..].
      destruct (ni_in _ _ _ _ _ _ _ Hi e He) as [n Hn1]. destruct (ni_in _ _ _ _ _ _ _ Hi e' He') as [n' Hn1'].
      destruct (Hkey e n He Hn1 (Hen n Hn1)) as (g & Ho & _ & ->). destruct (Hkey e' n' He' Hn1' (Hen' n' Hn1')) as (g' & Ho' & _ & ->).
      unfold keyof. cbn [fst]. apply Hap; [done|by apply Hen|done|by apply Hen']. }
  destruct H1 as [?|[Hb _]]; [done|]. split; [done|]. destruct (Hkey b bn Hb Hbn Hne) as (g & Ho & _ & Ek). exists g. split; [done|].
  intros t g' (i & n & Hi' & Hni & <- & Hgi) Ht. rewrite <-Ek. destruct (Hkey i n Hi' Hni Ht) as (g1 & _ & Hg1 & Ek1).
  assert (g1 = g') as -> by congruence. rewrite <-Ek1. by eapply H3.
Qed.

(** *** The comparison has a tolerance
    Estimates that are apart by less than it count as equal, and then f decides: the comparison of three nodes can go round
    in a circle.  The open list is a heap over that comparison, so that which node comes first is not determined. *)
Theorem C121_order_refuted : ∃ a b c, fhatsort a b = true ∧ fhatsort b c = true ∧ fhatsort c a = true.
Proof. exists (0%Q, 3, 0), ((6 # 268435456)%Q, 1, 0), ((3 # 268435456)%Q, 2, 0). by vm_compute. Qed.

(** *** An instance: the first lookahead, of one expansion, on the graph of Lss/Props.v.  Open are 1 at the cost 1 and 2 at the
    cost 3; it moves to 1. *)
Definition openlist {D : domain} (L : fss D) : list (St D * Z) :=
  omap (λ i, match f_nodes L !! i with Some n => (λ g, (l_st D n, g)) <$> l_g D n | None => None end) (arr (f_open L)).
Lemma opened_openlist {D : domain} (L : fss D) s g : opened L s g → (s, g) ∈ openlist L.
Proof. intros (i & n & Hi & Hn & <- & Hg). apply elem_of_list_omap. exists i. split; [done|]. rewrite Hn, Hg. done. Qed.
Definition look1 : option (mem lss_dom * fss lss_dom * rcount * option nat * errs) :=
  expandFss lss_dom no_limits (nodes 1) 5%Q 10 0 (Errs 0 0) (Dist (D:=lss_dom) (λ _, 1%Q) (λ _, 1%Q)) (mem0 lss_dom (λ _, 0)) (RCount 0 0 0) 0%nat.
Definition look1_seen : option (list (nat * Z) * option nat * Q * Q * option (list nat * nat)) :=
  match look1 with Some (_, L, _, goal, er) => Some (openlist L, goal, herror er, derror er, fmove lss_dom false L 0%nat goal) | None => None end.
Example fhat_move : ∃ m' L st' er', look1 = Some (m', L, st', None, er') ∧ (herror er' == 1 # 2)%Q ∧ (derror er' == (1 # 2) - (1 # 134217728))%Q ∧
  fmove lss_dom false L 0%nat None = Some ([1], 1)%nat ∧
  ∀ s g t g', opened L s g → opened L t g' → apart (est (Errs 0 0) (Dist (D:=lss_dom) (λ _, 1%Q) (λ _, 1%Q)) (λ _, 0) s g) (est (Errs 0 0) (Dist (D:=lss_dom) (λ _, 1%Q) (λ _, 1%Q)) (λ _, 0) t g').
Proof.
  assert (∃ eh ed, look1_seen = Some ([(1, 1%Z); (2, 3%Z)]%nat, None, eh, ed, Some ([1], 1)%nat) ∧ (eh == 1 # 2)%Q ∧ (ed == (1 # 2) - (1 # 134217728))%Q) as (eh & ed & H & H1 & H2).
  { eexists _, _. split; [vm_compute; reflexivity|]. split; vm_compute; reflexivity. }
  unfold look1_seen in H. destruct look1 as [[[[[m' L] st'] goal] er']|]; [|done]. injection H as Ho -> <- <- Hf.
  exists m', L, st', er'. split_and!; [done|done|done|done|].
  assert (∀ s g, opened L s g → (s = 1%nat ∧ g = 1) ∨ (s = 2%nat ∧ g = 3)) as Hop.
  { intros s g Hs%opened_openlist. rewrite Ho in Hs. apply elem_of_cons in Hs as [[= -> ->]|Hs]; [by left|]. apply elem_of_list_singleton in Hs as [= -> ->]. by right. }
  intros s g t g' [[-> ->]|[-> ->]]%Hop [[-> ->]|[-> ->]]%Hop; vm_compute; (left; reflexivity) || (right; discriminate).
Qed.

Print Assumptions C121_observed.
Print Assumptions C121_average.
Print Assumptions C121_move.
Print Assumptions C121_order_refuted.
