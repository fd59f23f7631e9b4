(** The lookahead of fhatlrtastar.hpp, whatever order the open list is in. *)
From stdpp Require Import prelude.
From Coq Require Import ZArith Lia ZifyBool ZifyNat QArith Lqa.
From Verif Require Import Common.Orders Common.Fuel BinHeap.Model BinHeap.Proofs.
From Verif Require Import Search.Domain Search.Model Search.Props Rta.Model Lss.Model Lss.Learn Lss.Look Lss.Run Lss.Props.
From Verif Require Import Fhat.Model.
From Verif Require Bugsy.Proofs.
Local Open Scope Z_scope.
Notation shape := Bugsy.Proofs.shape.

Lemma pushupdate_shape {K} (lt : K → K → bool) (q : heap K) e k : shape q →
  ∃ q', pushupdate lt (setkey q e k) e (ind (setkey q e k) e) = Some q' ∧ shape q' ∧
    (∀ x, x ∈ arr q' ↔ x = e ∨ x ∈ arr q) ∧ key q' = key (setkey q e k).
Proof.
  intros Hs. pose proof (Bugsy.Proofs.shape_setkey q e k Hs) as Hs'. pose proof (Bugsy.Proofs.shape_ind _ e Hs') as Hi.
  unfold pushupdate. case_decide as Hd.
  - apply Hi in Hd. destruct (Bugsy.Proofs.push_shape lt _ e Hs' Hd) as (q' & -> & H1 & H2 & H3).
    exists q'. split_and!; [done|done| |done]. intros x. rewrite H2. apply elem_of_cons.
  - assert (e ∈ arr (setkey q e k)) as Hin. { destruct (decide (e ∈ arr (setkey q e k))) as [?|Hn]; [done|]. apply Hi in Hn. lia. }
    destruct (Bugsy.Proofs.update_shape lt _ e Hs' Hin) as (q' & -> & H1 & H2 & H3).
    exists q'. split_and!; [done|done| |done]. intros x. rewrite H2. split; [auto|]. intros [->|?]; done.
Qed.

Lemma filter_insert_length {A} (P : A → Prop) `{!∀ x, Decision (P x)} (l : list A) j x y :
  l !! j = Some x → (P x ↔ P y) → length (filter P (<[j:=y]> l)) = length (filter P l).
Proof.
  revert j. induction l as [|a l IH]; intros [|j] Hj Hxy; [done..| |]; simpl in Hj |- *; rewrite !filter_cons.
  - injection Hj as ->. repeat case_decide; naive_solver.
  - specialize (IH j Hj Hxy). case_decide; simpl; lia.
Qed.
Lemma filter_insert_more {A} (P : A → Prop) `{!∀ x, Decision (P x)} (l : list A) j x y :
  l !! j = Some x → ¬ P x → P y → length (filter P (<[j:=y]> l)) = S (length (filter P l)).
Proof.
  revert j. induction l as [|a l IH]; intros [|j] Hj Hx Hy; [done..| |]; simpl in Hj |- *; rewrite !filter_cons.
  - injection Hj as ->. by rewrite decide_True, decide_False.
  - specialize (IH j Hj Hx Hy). case_decide; simpl; lia.
Qed.

(** ** Errors *)
Definition errs_ok (er : errs) : Prop := (0 <= herror er)%Q ∧ (0 <= derror er)%Q ∧ (derror er < 1)%Q.

Lemma blend_bounds lo hi old new n : (lo <= old)%Q → (old <= hi)%Q → (lo <= new)%Q → (new <= hi)%Q →
  (lo <= blend old new n)%Q ∧ (blend old new n <= hi)%Q.
Proof.
  intros. unfold blend. set (q := inject_Z (Z.of_nat (n + 1))).
  assert (1 <= q)%Q as Hq. { unfold q. change 1%Q with (inject_Z 1). rewrite <-Zle_Qle. lia. }
  set (t := (1 / q)%Q).
  assert (0 <= t)%Q as Ht0. { unfold t. apply Qle_shift_div_l; lra. }
  assert (t <= 1)%Q as Ht1. { unfold t. apply Qle_shift_div_r; lra. }
  assert (old + (new - old) / q == old + (new - old) * t)%Q as E. { unfold t. field. lra. }
  rewrite E. split; nra.
Qed.
Lemma blend_below lo old new n : (lo <= old)%Q → (lo <= new)%Q → (lo <= blend old new n)%Q.
Proof.
  intros H1 H2. destruct (Qlt_le_dec old new).
  - apply (blend_bounds lo new); lra.
  - apply (blend_bounds lo old); lra.
Qed.
Lemma herr_nonneg a b : (0 <= herr a b)%Q.
Proof. unfold herr. change 0%Q with (inject_Z 0). rewrite <-Zle_Qle. lia. Qed.
Lemma derr_bounds a b : (0 <= derr a b)%Q ∧ (derr a b < 1)%Q.
Proof.
  unfold derr. assert (0 < Geom.Model.Threshold)%Q by done. assert (Geom.Model.Threshold < 1)%Q by done.
  set (e := (a + 1 - b)%Q). set (e' := if Qltb e 0 then 0%Q else e).
  assert (0 <= e')%Q as He'. { unfold e'. destruct (Qltb e 0) eqn:E; [lra|]. unfold Geom.Model.Qltb in E. apply negb_false_iff, Qle_bool_iff in E. done. }
  destruct (Qle_bool 1 e') eqn:E; [lra|]. split; [done|].
  apply Qnot_le_lt. rewrite <-Qle_bool_iff. congruence.
Qed.

Section fhat.
Context (D : domain) (h : St D → Z) (d : St D → Q) (onestep : bool) (lim : limits) (stop : nat → nat → bool) (junk : Q).
Notation mem := (mem D).
Notation lnode := (lnode D).
Notation fss := (fss D).
Notation dist := (dist D).
Implicit Types (ns : list lnode) (m : mem) (L : fss) (dm : dist) (er nx : errs).

Lemma observe_ok dm L i s best n er er' : observe D dm L i s best n er = Some er' → errs_ok er → errs_ok er'.
Proof.
  intros Ho (H1 & H2 & H3). unfold observe in Ho. destruct best as [b|]; [|by injection Ho as <-].
  destruct (f_nodes L !! b) as [bn|]; [|done]. cbn [mbind option_bind] in Ho. injection Ho as <-.
  split; cbn [herror derror]; [apply blend_below; [done|apply herr_nonneg]|].
  destruct (derr_bounds (n_d dm (l_st D bn)) (n_d dm s)) as [H4 H5]. set (e := derr _ _) in *.
  split; [by apply blend_below|].
  destruct (Qlt_le_dec (derror er) e); [apply (Qle_lt_trans _ e); [|done]|apply (Qle_lt_trans _ (derror er)); [|done]];
    apply (blend_bounds 0); lra.
Qed.

(** ** The lookahead *)
Lemma expand_ops_exp n os m st : m_exp D (expand_ops D n os m st).1 = m_exp D m.
Proof.
  revert m st. induction os as [|o os IH]; intros m st; [done|]. cbn [expand_ops]. destruct (edge n o) as [[k c] r]. by rewrite IH.
Qed.
Lemma expand_exp n m st s : s = n ∨ s ∈ m_exp D m → s ∈ m_exp D (expand D n m st).1.
Proof.
  unfold expand. case_decide as Hn; [by intros [->|?]|].
  pose proof (expand_ops_exp n (ops n) m (radd_expd st)) as He. destruct (expand_ops D n (ops n) m (radd_expd st)) as [m' st'].
  cbn [fst m_exp] in *. rewrite He. intros [->|?]; [left|by right].
Qed.

(** [cur]: the node that is being expanded; its operators in [dn] have been dealt with. *)
Record ninv (root : St D) m L (goal : option nat) (cur : option nat) (dn : list (Op D)) : Prop := {
  ni_nodup : NoDup (l_st D <$> f_nodes L);
  ni_shape : shape (f_open L);
  ni_in i : i ∈ arr (f_open L) → is_Some (f_nodes L !! i);
  ni_open i n : f_nodes L !! i = Some n → l_cl D n = false → i ∈ arr (f_open L);
  ni_upd i n : f_nodes L !! i = Some n → l_upd D n = false;
  ni_ncl : f_ncl L = length (filter (λ n, l_cl D n = true) (f_nodes L));
  ni_exp i n : f_nodes L !! i = Some n → l_cl D n = true → l_st D n ∈ m_exp D m;
  ni_succ i n o : f_nodes L !! i = Some n → l_cl D n = true → o ∈ ops (l_st D n) → cur ≠ Some i ∨ o ∈ dn →
    ∃ j k, f_nodes L !! j = Some k ∧ l_st D k = dest (l_st D n) o;
  ni_g i n : f_nodes L !! i = Some n → is_Some (l_g D n);
  ni_reach i n : f_nodes L !! i = Some n → reachable root (l_st D n);
  ni_par : pinv D (f_nodes L);
  ni_goal : gok D (f_nodes L) goal;
  ni_nogoal : goal = None → ∀ i n, f_nodes L !! i = Some n → isgoal (l_st D n) = false }.

Lemma reach_step root (s : St D) o : reachable root s → o ∈ ops s → reachable root (dest s o).
Proof.
  intros (ss & os & c & Hw & Hh & Hl) Ho. exists (ss ++ [dest s o]), (os ++ [o]), (c + cost s o).
  split_and!; [by apply walk_snoc|by destruct ss|by rewrite last_snoc].
Qed.

Lemma frelax_spec root er dm m i o L goal best sn dn :
  ninv root m L goal (Some i) dn → f_nodes L !! i = Some sn → o ∈ ops (l_st D sn) →
  (∀ b, best = Some b → is_Some (f_nodes L !! b)) →
  ∃ L' goal' best', frelax D er dm m i o (dest (l_st D sn) o) (cost (l_st D sn) o) L goal best = Some (L', goal', best') ∧
    ninv root m L' goal' (Some i) (o :: dn) ∧ (∀ b, best' = Some b → is_Some (f_nodes L' !! b)) ∧ ext D (f_nodes L) (f_nodes L').
Proof.
  intros Hi Hsn Ho Hbe. set (k := dest (l_st D sn) o). set (c := cost (l_st D sn) o).
  unfold frelax. rewrite Hsn. cbn [mbind option_bind].
  case_decide as Hpar.
  { exists L, goal, best. split_and!; [done| |done|apply ext_refl].
    destruct (l_par D sn) as [p|] eqn:Ep; [|done]. cbn [mbind option_bind] in Hpar.
    destruct (f_nodes L !! p) as [pn|] eqn:Hpn; [|done]. injection Hpar as Hpk.
    destruct Hi. split; try done. intros i' n o' Hn Hc Ho' [Hne|[->|Hin]%elem_of_cons]; [by eapply ni_succ0; eauto| |by eapply ni_succ0; eauto].
    destruct (decide (i' = i)) as [->|Hne]; [|eapply ni_succ0; eauto; left; congruence].
    simplify_eq. by exists p, pn. }
  destruct (match find_l D (f_nodes L) k with Some j => (f_nodes L, j) | None => (f_nodes L ++ [LNode D k None None nop false false], length (f_nodes L)) end)
    as [ns j] eqn:Ens.
  destruct (ni_g _ _ _ _ _ _ Hi i sn Hsn) as [sg Hsg].
  assert (NoDup (l_st D <$> ns) ∧ pinv D ns ∧ ext D (f_nodes L) ns ∧ (∀ a n, ns !! a = Some n → reachable root (l_st D n) ∧ l_upd D n = false) ∧
    (∀ a n, a ≠ j → ns !! a = Some n → f_nodes L !! a = Some n) ∧ (∀ a n, f_nodes L !! a = Some n → ns !! a = Some n) ∧
    filter (λ n, l_cl D n = true) ns = filter (λ n, l_cl D n = true) (f_nodes L) ∧
    ∃ kn, ns !! j = Some kn ∧ l_st D kn = k ∧ (f_nodes L !! j = Some kn ∨ l_g D kn = None ∧ l_cl D kn = false)) as (Hnd & Hp1 & He1 & Hn1 & Hback & Hfwd & Hfil & kn & Hj & Hjk & Hjd).
  { assert (Hreach : reachable root k). { apply reach_step; [by eapply (ni_reach _ _ _ _ _ _ Hi)|done]. }
    destruct (find_l D (f_nodes L) k) as [j'|] eqn:Hf; injection Ens as <- <-.
    - split_and!; [apply Hi|apply Hi|apply ext_refl| |done|done|done|].
      + intros a n Hn. split; [by eapply (ni_reach _ _ _ _ _ _ Hi)|by eapply (ni_upd _ _ _ _ _ _ Hi)].
      + apply find_l_Some in Hf as (kn & ? & ?). exists kn. auto.
    - split_and!.
      + rewrite fmap_app. apply NoDup_app. split; [apply Hi|]. split; [|apply NoDup_singleton].
        intros x (n & -> & (a & Ha)%elem_of_list_lookup)%elem_of_list_fmap Hx%elem_of_list_singleton. by eapply find_l_None in Hf.
      + apply pinv_snoc; [apply Hi|done].
      + intros a n Hn. exists n. split; [|done]. rewrite lookup_app_l; [done|]. by eapply lookup_lt_Some.
      + intros a n [Ha|[_ Ha]]%lookup_app_Some.
        * split; [by eapply (ni_reach _ _ _ _ _ _ Hi)|by eapply (ni_upd _ _ _ _ _ _ Hi)].
        * by apply list_lookup_singleton_Some in Ha as [_ <-].
      + intros a n Hne [Ha|[Hge Ha]]%lookup_app_Some; [done|]. apply list_lookup_singleton_Some in Ha as [? _]. lia.
      + intros a n Ha. rewrite lookup_app_l; [done|]. by eapply lookup_lt_Some.
      + rewrite filter_app. cbn. rewrite app_nil_r. done.
      + eexists. split; [by apply list_lookup_middle|]. split; [done|]. by right. }
  rewrite Hj. cbn [mbind option_bind]. rewrite Hsg. cbn [mbind option_bind].
  set (upd := match l_g D kn with None => true | Some kg => bool_decide (sg + c < kg) end).
  assert (Hnewgoal : ∀ a n, ns !! a = Some n → goal = None → isgoal k = false → isgoal (l_st D n) = false).
  { intros a n Ha Hgn Hgk. destruct (decide (a = j)) as [->|Hne]; [congruence|]. eapply (ni_nogoal _ _ _ _ _ _ Hi Hgn). by apply Hback. }
  assert (Hsucc : ∀ a n o', ns !! a = Some n → l_cl D n = true → o' ∈ ops (l_st D n) → Some i ≠ Some a ∨ o' ∈ o :: dn →
    ∃ b x, ns !! b = Some x ∧ l_st D x = dest (l_st D n) o').
  { intros a n o' Ha Hc Ho' Hor.
    assert (f_nodes L !! a = Some n) as Ha'. { destruct (decide (a = j)) as [->|Hne]; [|by apply Hback]. simplify_eq. destruct Hjd as [?|[_ ?]]; congruence. }
    assert ((a = i ∧ o' = o) ∨ (Some i ≠ Some a ∨ o' ∈ dn)) as [[-> ->]|Hor'].
    { destruct Hor as [?|[->|?]%elem_of_cons]; auto. destruct (decide (a = i)) as [->|?]; [auto|]. right. left. congruence. }
    - simplify_eq. by exists j, kn.
    - destruct (ni_succ _ _ _ _ _ _ Hi a n o' Ha' Hc Ho' Hor') as (b & x & ? & ?). exists b, x. split; [by apply Hfwd|done]. }
  assert (∃ L1, ((if upd then
           q ← pushupdate fhatsort (setkey (f_open L) j (guess D er dm m k (sg + c), sg + c + m_h D m k, sg + c)) j
                 (ind (setkey (f_open L) j (guess D er dm m k (sg + c), sg + c + m_h D m k, sg + c)) j);
           Some (Fss (<[j := LNode D k (Some i) (Some (sg + c)) o (l_upd D kn) (l_cl D kn)]> ns) q (f_ncl L))
         else Some (Fss ns (f_open L) (f_ncl L))) = Some L1) ∧ ext D ns (f_nodes L1) ∧
     (∀ goal', (goal' = None → goal = None ∧ isgoal k = false) → gok D (f_nodes L1) goal' → ninv root m L1 goal' (Some i) (o :: dn))) as (L1 & -> & He2 & HL1).
  { destruct upd eqn:Eu.
    - destruct (pushupdate_shape fhatsort (f_open L) j (guess D er dm m k (sg + c), sg + c + m_h D m k, sg + c) (ni_shape _ _ _ _ _ _ Hi)) as (q' & Hq & Hs' & Hin & _).
      rewrite Hq. cbn [mbind option_bind]. eexists. split; [done|]. cbn [f_nodes].
      set (kn' := LNode D k (Some i) (Some (sg + c)) o (l_upd D kn) (l_cl D kn)).
      assert (ext D ns (<[j := kn']> ns)) as Hex by (by eapply ext_insert).
      assert (Hget : ∀ a n, <[j := kn']> ns !! a = Some n → a = j ∧ n = kn' ∨ a ≠ j ∧ ns !! a = Some n ∧ f_nodes L !! a = Some n).
      { intros a n [(-> & <- & _)|[? Ha]]%list_lookup_insert_Some; [by left|]. right. split_and!; [done|done|by apply Hback]. }
      split; [done|]. intros goal' Hgn Hgk. split; cbn [f_nodes f_open f_ncl].
      + rewrite list_fmap_insert. rewrite list_insert_id; [done|]. rewrite list_lookup_fmap, Hj. simpl. by rewrite Hjk.
      + done.
      + intros a [->|Ha]%Hin; [by rewrite list_lookup_insert by by eapply lookup_lt_Some|].
        destruct (ni_in _ _ _ _ _ _ Hi a Ha) as [n Hn]. destruct (Hex a n) as (? & ? & _); [by apply Hfwd|eauto].
      + intros a n Ha Hc. apply Hin. destruct (Hget _ _ Ha) as [[-> _]|(? & _ & Ha')]; [by left|]. right. by eapply (ni_open _ _ _ _ _ _ Hi).
      + intros a n Ha. destruct (Hget _ _ Ha) as [[_ ->]|(? & Ha' & _)]; [|by eapply Hn1]. unfold kn'. cbn [l_upd]. by eapply Hn1.
      + rewrite (ni_ncl _ _ _ _ _ _ Hi), <-Hfil. symmetry. by apply (filter_insert_length _ _ _ kn).
      + intros a n Ha Hc. destruct (Hget _ _ Ha) as [[-> ->]|(? & _ & Ha')]; [|by eapply (ni_exp _ _ _ _ _ _ Hi)].
        unfold kn' in Hc |- *. cbn [l_cl l_st] in Hc |- *. destruct Hjd as [Hjd|[_ ?]]; [|congruence]. rewrite <-Hjk. by eapply (ni_exp _ _ _ _ _ _ Hi).
      + intros a n o' Ha Hc Ho' Hor.
        assert (∃ n0, ns !! a = Some n0 ∧ l_cl D n0 = true ∧ l_st D n0 = l_st D n) as (n0 & Hn0 & Hc0 & Hs0).
        { destruct (Hget _ _ Ha) as [[-> ->]|(? & ? & _)]; [exists kn|exists n]; done. }
        rewrite <-Hs0 in Ho' |- *. destruct (Hsucc a n0 o' Hn0 Hc0 Ho' Hor) as (b & x & Hx & <-).
        destruct (Hex b x Hx) as (x' & ? & ?). by exists b, x'.
      + intros a n Ha. destruct (Hget _ _ Ha) as [[-> ->]|(? & _ & Ha')]; [by eexists|]. by eapply (ni_g _ _ _ _ _ _ Hi).
      + intros a n Ha. destruct (Hget _ _ Ha) as [[-> ->]|(? & Ha' & _)]; [|by eapply Hn1]. unfold kn'. cbn [l_st]. rewrite <-Hjk. by eapply Hn1.
      + eapply pinv_insert; [done|exact Hj|done|]. simpl. intros p [= <-].
        destruct (He1 i sn Hsn) as (sn' & Hsn' & E). exists sn'. split; [done|]. rewrite E. done.
      + done.
      + intros Hno a n Ha. destruct (Hgn Hno) as [Hg0 Hgk0]. destruct (Hget _ _ Ha) as [[-> ->]|(? & Ha' & _)]; [done|]. by eapply Hnewgoal.
    - eexists. split; [done|]. cbn [f_nodes]. split; [apply ext_refl|].
      assert (f_nodes L !! j = Some kn) as Hj0. { destruct Hjd as [?|[Hgn _]]; [done|]. unfold upd in Eu. by rewrite Hgn in Eu. }
      assert (Hback' : ∀ a n, ns !! a = Some n → f_nodes L !! a = Some n).
      { intros a n Ha. destruct (decide (a = j)) as [->|?]; [congruence|by apply Hback]. }
      intros goal' Hgn Hgk. split; cbn [f_nodes f_open f_ncl]; try done.
      + apply Hi.
      + intros a Ha. destruct (ni_in _ _ _ _ _ _ Hi a Ha) as [n Hn]. exists n. by apply Hfwd.
      + intros a n Ha. eapply (ni_open _ _ _ _ _ _ Hi). by apply Hback'.
      + intros a n Ha. by eapply Hn1.
      + rewrite Hfil. apply Hi.
      + intros a n Ha. eapply (ni_exp _ _ _ _ _ _ Hi). by apply Hback'.
      + intros a n Ha. eapply (ni_g _ _ _ _ _ _ Hi). by apply Hback'.
      + intros a n Ha. by eapply Hn1.
      + intros Hno a n Ha. destruct (Hgn Hno) as [Hg0 Hgk0]. by eapply Hnewgoal. }
  cbn [mbind option_bind].
  destruct (He2 j kn Hj) as (kn' & Hj' & Ek). rewrite Hj'. cbn [mbind option_bind].
  assert (ext D (f_nodes L) (f_nodes L1)) as He by by eapply ext_trans.
  assert (Hgk : gok D (f_nodes L1) goal) by (eapply gok_ext; [apply Hi|done]).
  set (bb := match best with None => Some j | Some b => if bool_decide (kf (key (f_open L1) j) < kf (key (f_open L1) b)) then Some j else best end).
  assert (Hbb : ∀ b, bb = Some b → is_Some (f_nodes L1 !! b)).
  { intros b Hb. assert (b = j ∨ best = Some b) as [->|Hb']; [|eauto|].
    { unfold bb in Hb. destruct best as [b0|]; [|injection Hb; auto]. case_bool_decide; [injection Hb; auto|auto]. }
    destruct (Hbe b Hb') as [n Hn]. destruct (He b n Hn) as (? & ? & _). eauto. }
  destruct (isgoal k) eqn:Hgoalk.
  2:{ cbn [mbind option_bind]. eexists L1, goal, bb. split; [done|]. split_and!; [|done|done]. by apply HL1. }
  assert (Hjg : gok D (f_nodes L1) (Some j)). { intros b [= <-]. exists kn'. split; [done|]. congruence. }
  destruct goal as [b|].
  - destruct (Hgk b eq_refl) as (bn & Hbn & _). rewrite Hbn. cbn [mbind option_bind].
    pose proof (HL1 (Some j) ltac:(done) Hjg) as HI.
    destruct (ni_g _ _ _ _ _ _ HI j kn' Hj') as [kg ->]. cbn [mbind option_bind].
    destruct (ni_g _ _ _ _ _ _ HI b bn Hbn) as [bg ->]. cbn [mbind option_bind].
    eexists L1, _, bb. split; [done|]. split_and!; [|done|done]. case_bool_decide; [done|]. by apply HL1.
  - cbn [mbind option_bind]. eexists L1, _, bb. split; [done|]. split_and!; [|done|done]. by apply HL1.
Qed.

Lemma frelaxes_spec root er dm m i (x : St D) os : ∀ L goal best sn dn,
  ninv root m L goal (Some i) dn → f_nodes L !! i = Some sn → l_st D sn = x → (∀ o, o ∈ os → o ∈ ops x) →
  (∀ b, best = Some b → is_Some (f_nodes L !! b)) →
  ∃ L' goal' best' dn', frelaxes D er dm m i x os L goal best = Some (L', goal', best') ∧
    ninv root m L' goal' (Some i) dn' ∧ (∀ o, o ∈ os ∨ o ∈ dn → o ∈ dn') ∧
    (∀ b, best' = Some b → is_Some (f_nodes L' !! b)) ∧ ext D (f_nodes L) (f_nodes L').
Proof.
  induction os as [|o os IH]; intros L goal best sn dn Hi Hsn Hx Hos Hb; cbn [frelaxes].
  { exists L, goal, best, dn. split_and!; [done|done| |done|apply ext_refl]. intros o [?%elem_of_nil|?]; done. }
  destruct (edge x o) as [[k c] r] eqn:E.
  destruct (frelax_spec root er dm m i o L goal best sn dn Hi Hsn) as (L1 & goal1 & best1 & Hr & Hi1 & Hb1 & He1); [rewrite Hx; apply Hos; left|done|].
  rewrite Hx in Hr. unfold dest, cost in Hr. rewrite E in Hr. cbn [fst snd] in Hr. rewrite Hr. cbn [mbind option_bind].
  destruct (He1 i sn Hsn) as (sn1 & Hsn1 & Es).
  destruct (IH L1 goal1 best1 sn1 (o :: dn) Hi1 Hsn1) as (L' & goal' & best' & dn' & Hr' & Hi' & Hd' & Hb' & He'); [congruence|intros; apply Hos; by right|done|].
  exists L', goal', best', dn'. split_and!; [done|done| |done|by eapply ext_trans].
  intros o' [[->|?]%elem_of_cons|?]; apply Hd'; [right; left|by left|right; by right].
Qed.

(** What holds when the lookahead is over. [L0]: before the popped goal is put back. *)
Definition seen root m L (goal : option nat) : Prop :=
  ∃ L0 goal0, ninv root m L0 goal0 None [] ∧ f_nodes L = f_nodes L0 ∧ gok D (f_nodes L) goal ∧ (goal = None → L = L0 ∧ goal0 = None).
Lemma seen_here root m L goal : ninv root m L goal None [] → seen root m L goal.
Proof. intros Hi. exists L, goal. split_and!; [done|done|apply Hi|done]. Qed.

Lemma fpush_some {K} (lt : K → K → bool) (q : heap K) i : ∃ q', push lt q i = Some q'.
Proof.
  unfold push. set (q1 := setind _ _ _).
  destruct (pullup_rearr lt (BinHeap.Model.fuel q1) q1 (length (arr q1) - 1)) as (q' & i' & Hp & _).
  - unfold BinHeap.Model.fuel. lia.
  - unfold q1. simpl. rewrite app_length. simpl. lia.
  - rewrite Hp. by exists q'.
Qed.

(** One round: popping a node and expanding it. *)
Lemma fstep root er dm n m L goal st nx : ninv root m L goal None [] → arr (f_open L) ≠ [] → errs_ok nx →
  ∃ q i sn m1 st1 L1 goal1 best nx1,
    pop fhatsort (f_open L) = Some (q, Some i) ∧ f_nodes L !! i = Some sn ∧ expand D (l_st D sn) m (rcalled st) = (m1, st1) ∧
    frelaxes D er dm m1 i (l_st D sn) (ops (l_st D sn))
      (Fss (<[i := LNode D (l_st D sn) (l_par D sn) (l_g D sn) (l_op D sn) (l_upd D sn) true]> (f_nodes L)) q (if l_cl D sn then f_ncl L else S (f_ncl L))) goal None
      = Some (L1, goal1, best) ∧
    observe D dm L1 i (l_st D sn) best n nx = Some nx1 ∧ errs_ok nx1 ∧ ninv root m1 L1 goal1 None [] ∧
    ∃ sn', f_nodes L1 !! i = Some sn' ∧ l_st D sn' = l_st D sn.
Proof.
  intros Hi Hne Hnx. destruct (arr (f_open L)) as [|i l] eqn:Harr; [done|].
  destruct (Bugsy.Proofs.pop_shape fhatsort _ _ _ (ni_shape _ _ _ _ _ _ Hi) Harr) as (q & Hq & Hsq & Hperm & _).
  destruct (ni_in _ _ _ _ _ _ Hi i) as [sn Hsn]; [rewrite Harr; left|].
  destruct (expand D (l_st D sn) m (rcalled st)) as [m1 st1] eqn:Ex.
  pose proof (expand_exp (l_st D sn) m (rcalled st)) as Hexp. rewrite Ex in Hexp. cbn [fst] in Hexp.
  set (sn1 := LNode D (l_st D sn) (l_par D sn) (l_g D sn) (l_op D sn) (l_upd D sn) true).
  set (L1 := Fss (<[i := sn1]> (f_nodes L)) q (if l_cl D sn then f_ncl L else S (f_ncl L))).
  assert (ext D (f_nodes L) (<[i := sn1]> (f_nodes L))) as He by (by eapply ext_insert).
  assert (Hget : ∀ a n, <[i := sn1]> (f_nodes L) !! a = Some n → a = i ∧ n = sn1 ∨ a ≠ i ∧ f_nodes L !! a = Some n).
  { intros a n0 [(-> & <- & _)|[? Ha]]%list_lookup_insert_Some; [by left|]. right. done. }
  assert (Hnd : NoDup (i :: l)). { rewrite <-Harr. apply (ni_shape _ _ _ _ _ _ Hi). }
  assert (ninv root m1 L1 goal (Some i) []) as Hi1.
  { split; cbn [f_nodes f_open f_ncl L1].
    - rewrite list_fmap_insert. rewrite list_insert_id; [apply Hi|]. rewrite list_lookup_fmap, Hsn. done.
    - done.
    - intros a Ha. rewrite Hperm in Ha. destruct (ni_in _ _ _ _ _ _ Hi a) as [n0 Hn0]; [rewrite Harr; by right|]. destruct (He a n0 Hn0) as (? & ? & _). eauto.
    - intros a n0 Ha Hc. destruct (Hget _ _ Ha) as [[-> ->]|[Hne' Ha']]; [done|]. rewrite Hperm.
      pose proof (ni_open _ _ _ _ _ _ Hi a n0 Ha' Hc) as Hin. rewrite Harr in Hin. by apply elem_of_cons in Hin as [?|?].
    - intros a n0 Ha. destruct (Hget _ _ Ha) as [[-> ->]|[_ Ha']]; [unfold sn1; cbn [l_upd]|]; by eapply (ni_upd _ _ _ _ _ _ Hi).
    - rewrite (ni_ncl _ _ _ _ _ _ Hi). destruct (l_cl D sn) eqn:Hc.
      + symmetry. by apply (filter_insert_length _ _ _ sn).
      + symmetry. apply (filter_insert_more _ _ _ sn); [done|congruence|done].
    - intros a n0 Ha Hc. apply Hexp. destruct (Hget _ _ Ha) as [[-> ->]|[_ Ha']]; [by left|]. right. by eapply (ni_exp _ _ _ _ _ _ Hi).
    - intros a n0 o Ha Hc Ho [Hne'|?%elem_of_nil]; [|done]. destruct (Hget _ _ Ha) as [[-> ->]|[_ Ha']]; [done|].
      destruct (ni_succ _ _ _ _ _ _ Hi a n0 o Ha' Hc Ho) as (b & x & Hb & <-); [by left|].
      destruct (He b x Hb) as (x' & ? & ?). by exists b, x'.
    - intros a n0 Ha. destruct (Hget _ _ Ha) as [[-> ->]|[_ Ha']]; [unfold sn1; cbn [l_g]|]; by eapply (ni_g _ _ _ _ _ _ Hi).
    - intros a n0 Ha. destruct (Hget _ _ Ha) as [[-> ->]|[_ Ha']]; [unfold sn1; cbn [l_st]|]; by eapply (ni_reach _ _ _ _ _ _ Hi).
    - eapply pinv_insert; [apply Hi|exact Hsn|done|]. intros p Hpp. by apply (ni_par _ _ _ _ _ _ Hi i sn p).
    - eapply gok_ext; [apply Hi|done].
    - intros Hg a n0 Ha. destruct (Hget _ _ Ha) as [[-> ->]|[_ Ha']]; [unfold sn1; cbn [l_st]|]; by eapply (ni_nogoal _ _ _ _ _ _ Hi). }
  destruct (frelaxes_spec root er dm m1 i (l_st D sn) (ops (l_st D sn)) L1 goal None sn1 [] Hi1) as (L2 & goal2 & best2 & dn & Hr & Hi2 & Hdn & Hb2 & He2).
  { cbn [f_nodes L1]. by rewrite list_lookup_insert by by eapply lookup_lt_Some. }
  { done. } { done. } { done. }
  assert (∃ nx1, observe D dm L2 i (l_st D sn) best2 n nx = Some nx1) as [nx1 Hob].
  { unfold observe. destruct best2 as [b|]; [|eauto]. destruct (Hb2 b eq_refl) as [bn ->]. cbn [mbind option_bind]. eauto. }
  destruct (He i sn Hsn) as (a1 & Ha1 & Ea1). destruct (He2 i a1 Ha1) as (a2 & Ha2 & Ea2).
  exists q, i, sn, m1, st1, L2, goal2, best2, nx1. split_and!; [done..|by eapply observe_ok| |].
  - destruct Hi2. split; try done. intros a n0 o Ha Hc Ho _. eapply ni_succ0; eauto.
    destruct (decide (a = i)) as [->|?]; [right|left; congruence]. apply Hdn. left.
    assert (n0 = a2) as -> by congruence. rewrite Ea2, Ea1 in Ho. done.
  - exists a2. split; [done|congruence].
Qed.

Lemma floop_spec root er dm fuel k : ∀ n m L st goal nx m' L' st' goal' nx',
  ninv root m L goal None [] → errs_ok nx →
  floop D lim stop er dm fuel k n m L st goal nx = Some (m', L', st', goal', nx') → seen root m' L' goal' ∧ errs_ok nx'.
Proof.
  induction fuel as [|fuel IH]; intros n m L st goal nx m' L' st' goal' nx' Hi Hnx Hr; [done|]. cbn [floop] in Hr.
  destruct (empty (f_open L)) eqn:Hem. { apply (inj Some) in Hr. injection Hr as <- <- <- <- <-. split; [by apply seen_here|done]. }
  destruct (stop k n). { apply (inj Some) in Hr. injection Hr as <- <- <- <- <-. split; [by apply seen_here|done]. }
  destruct (rreached lim st). { apply (inj Some) in Hr. injection Hr as <- <- <- <- <-. split; [by apply seen_here|done]. }
  assert (arr (f_open L) ≠ []) as Hne. { intros E. apply empty_true in E. congruence. }
  destruct (fstep root er dm (S n) m L goal st nx Hi Hne Hnx) as (q & i & sn & m1 & st1 & L1 & goal1 & best & nx1 & Hq & Hsn & Hx & Hre & Hob & Hnx1 & Hi1 & sn' & Hsn' & Hs').
  rewrite Hq in Hr. cbn [mbind option_bind] in Hr. rewrite Hsn in Hr. cbn [mbind option_bind] in Hr. rewrite Hx, Hre in Hr.
  cbn [mbind option_bind] in Hr. rewrite Hob in Hr. cbn [mbind option_bind] in Hr.
  destruct (isgoal (l_st D sn)) eqn:Hg; [|by eapply IH].
  destruct (push fhatsort (f_open L1) i) as [q1|]; [|done]. cbn [mbind option_bind] in Hr.
  apply (inj Some) in Hr. injection Hr as <- <- <- <- <-. split; [|done].
  exists L1, goal1. split_and!; [done|done| |done]. intros b [= <-]. exists sn'. cbn [f_nodes]. split; [done|congruence].
Qed.

(** With a lookahead limit that stops it, the lookahead comes to its end. *)
Lemma floop_total root er dm k N : stop k N = true → ∀ a n m L st goal nx, (N ≤ n + a)%nat → (n ≤ N)%nat →
  ninv root m L goal None [] → errs_ok nx → is_Some (floop D lim stop er dm (S a) k n m L st goal nx).
Proof.
  intros HN. induction a as [|a IH]; intros n m L st goal nx Hle Hge Hi Hnx.
  { cbn [floop]. destruct (empty (f_open L)); [eauto|]. replace n with N by lia. rewrite HN. eauto. }
  remember (S a) as sa. cbn [floop].
  destruct (empty (f_open L)) eqn:Hem; [eauto|]. destruct (stop k n) eqn:Hst; [eauto|]. destruct (rreached lim st); [eauto|].
  assert (arr (f_open L) ≠ []) as Hne. { intros E. apply empty_true in E. congruence. }
  destruct (fstep root er dm (S n) m L goal st nx Hi Hne Hnx) as (q & i & sn & m1 & st1 & L1 & goal1 & best & nx1 & Hq & Hsn & Hx & Hre & Hob & Hnx1 & Hi1 & sn' & Hsn' & Hs').
  rewrite Hq. cbn [mbind option_bind]. rewrite Hsn. cbn [mbind option_bind]. rewrite Hx, Hre.
  cbn [mbind option_bind]. rewrite Hob. cbn [mbind option_bind].
  destruct (isgoal (l_st D sn)) eqn:Hg.
  - destruct (fpush_some fhatsort (f_open L1) i) as [q1 ->]. cbn [mbind option_bind]. eauto.
  - subst sa. apply IH; [lia| |done..]. assert (n ≠ N) by congruence. lia.
Qed.

Lemma finit_spec m root : isgoal root = false → ∃ L, finit D junk m root = Some L ∧ ninv root m L None None [].
Proof.
  intros Hg. unfold finit.
  assert (shape (setkey (new (λ _, (0%Q, 0, 0))) 0 (junk, m_h D m root, 0))) as Hs0.
  { apply Bugsy.Proofs.shape_setkey. split; [split|].
    - constructor.
    - intros i e He. done.
    - done. }
  destruct (Bugsy.Proofs.push_shape fhatsort _ 0%nat Hs0) as (q & -> & Hs & HP & _); [apply not_elem_of_nil|].
  cbn [mbind option_bind]. eexists. split; [done|]. simpl in HP. apply Permutation_singleton_r in HP.
  assert (HI : ∀ i n, [LNode D root None (Some 0) nop false false] !! i = Some n → i = 0%nat ∧ n = LNode D root None (Some 0) nop false false).
  { by intros i n [-> <-]%list_lookup_singleton_Some. }
  split; cbn [f_nodes f_open f_ncl].
  - apply NoDup_singleton.
  - done.
  - intros i. rewrite HP. intros ->%elem_of_list_singleton. by eexists.
  - intros i n [-> ->]%HI _. rewrite HP. left.
  - by intros i n [-> ->]%HI.
  - done.
  - by intros i n [-> ->]%HI.
  - by intros i n o [-> ->]%HI.
  - intros i n [-> ->]%HI. by eexists.
  - intros i n [-> ->]%HI. cbn [l_st]. exists [root], [], 0. split_and!; [constructor|done..].
  - by intros i n p [-> ->]%HI.
  - done.
  - by intros _ i n [-> ->]%HI.
Qed.

Lemma expandFss_spec fuel k er dm m st cur m' L st' goal er' : isgoal cur = false →
  expandFss D lim stop junk fuel k er dm m st cur = Some (m', L, st', goal, er') → seen cur m' L goal ∧ errs_ok er'.
Proof.
  intros Hg Hr. unfold expandFss in Hr. destruct (finit_spec m cur Hg) as (L0 & H0 & Hi). rewrite H0 in Hr. cbn [mbind option_bind] in Hr.
  eapply floop_spec; [exact Hi| |exact Hr]. done.
Qed.

(** ** Moves *)
Lemma fbest_in ns q cur es : ∀ best b, fbest D ns q cur es best = Some (Some b) →
  best = Some b ∨ ∃ n, ns !! b = Some n.
Proof.
  induction es as [|e es IH]; intros best b Hb; cbn [fbest] in Hb; [apply (inj Some) in Hb; auto|].
  destruct (ns !! e) as [n|] eqn:Hn; [|done]. cbn [mbind option_bind] in Hb. case_decide; [by apply IH|].
  destruct (IH _ _ Hb) as [Hb'|?]; [|auto]. destruct best as [b'|]; [|simplify_eq; eauto].
  destruct (BinHeap.Model.pred _ _ _ _); simplify_eq; eauto.
Qed.

Lemma fmove_sound L cur goal os s' :
  pinv D (f_nodes L) → gok D (f_nodes L) goal → fmove D onestep L cur goal = Some (os, s') →
  ∃ ss c, walk ss os c ∧ head ss = Some cur ∧ last ss = Some s' ∧ os ≠ [] ∧
    (onestep = false → is_Some goal → isgoal s' = true) ∧ (onestep = true → length os = 1%nat).
Proof.
  intros Hp Hg Hm. unfold fmove in Hm.
  destruct (match goal with Some b => Some (Some b) | None => _ end) as [[b|]|] eqn:Hb; [|done..].
  cbn [mbind option_bind] in Hm. destruct (f_nodes L !! b) as [bn|] eqn:Hbn; [|done]. cbn [mbind option_bind] in Hm.
  case_decide as Hne; [done|].
  destruct (upward D _ _ cur b None) as [[us r]|] eqn:Hu; [|done]. cbn [mbind option_bind] in Hm.
  destruct (upward_sound D _ _ _ _ _ _ _ _ Hp Hbn Hu) as (ss & c & Hw & Hh & Hl & H0 & H1).
  assert (us ≠ []) as Hus.
  { intros ->. rewrite reverse_nil in Hw. inversion Hw; subst. simpl in *. by simplify_eq. }
  destruct onestep.
  - destruct (H1 Hus) as (o & ri & rn & Ho & Hr & Hrn & Hoo & Hd). rewrite Ho in Hm. cbn [mbind option_bind] in Hm.
    rewrite Hr in Hm. cbn [mbind option_bind] in Hm. rewrite Hrn in Hm. cbn [mbind option_bind] in Hm.
    apply (inj Some) in Hm. injection Hm as <- <-. exists [cur; l_st D rn], (cost cur o + 0).
    rewrite <-Hd. split_and!; try done. apply walk_step; [done|constructor].
  - apply (inj Some) in Hm. injection Hm as <- <-. exists ss, c. split_and!; try done.
    + intros E. apply (f_equal reverse) in E. by rewrite reverse_involutive in E.
    + intros _ [b' ->]. simplify_eq. destruct (Hg b eq_refl) as (n & Hn & ?). by simplify_eq.
Qed.

(** ** Learning: d and derr *)
(** derr of a state is the d of some state. *)
Definition derr_from dm : Prop := ∀ s, ∃ t, n_derr dm s = d t.
Lemma fbackups_derr x ps : ∀ m dm ns q upd m' dm' ns' q' upd', fbackups D x ps m dm ns q upd = Some (m', dm', ns', q', upd') →
  derr_from dm → derr_from dm'.
Proof.
  induction ps as [|[p c] ps IH]; intros m dm ns q upd m' dm' ns' q' upd' Hr Hd; cbn [fbackups] in Hr; [by injection Hr as <- <- <- <- <-|].
  destruct (find_l D ns p) as [j|]; [|by eapply IH]. destruct (ns !! j) as [sp|]; [|done]. cbn [mbind option_bind] in Hr.
  destruct (l_cl D sp); [|by eapply IH]. destruct (negb (l_upd D sp) || _); [|by eapply IH].
  destruct (pushupdate _ _ _ _) as [q1|]; [|done]. cbn [mbind option_bind] in Hr. eapply IH; [exact Hr|].
  intros s. cbn [set_d n_derr]. unfold fset. case_decide; [apply Hd|apply Hd].
Qed.
Lemma flloop_derr fuel : ∀ m dm ns q ncl upd m' dm' upd', flloop D fuel m dm ns q ncl upd = Some (m', dm', upd') →
  derr_from dm → derr_from dm'.
Proof.
  induction fuel as [|fuel IH]; intros m dm ns q ncl upd m' dm' upd' Hr Hd; [done|]. cbn [flloop] in Hr.
  case_decide; [by injection Hr as <- <- <-|]. destruct (empty q); [by injection Hr as <- <- <-|].
  destruct (pop hsort q) as [[q1 [i|]]|]; [|done..]. cbn [mbind option_bind] in Hr. destruct (ns !! i) as [sn|]; [|done].
  cbn [mbind option_bind] in Hr. destruct (fbackups _ _ _ _ _ _ _ _) as [[[[[m1 dm1] ns1] q2] upd1]|] eqn:Eb; [|done].
  cbn [mbind option_bind] in Hr. eapply IH; [exact Hr|]. by eapply fbackups_derr.
Qed.
Lemma fLearning_derr fuel m dm L m' dm' : fLearning D h fuel m dm L = Some (m', dm') → derr_from dm → derr_from dm'.
Proof.
  intros Hr Hd. unfold fLearning in Hr. destruct (append _ _ _) as [q|]; [|done]. cbn [mbind option_bind] in Hr.
  destruct (flloop _ _ _ _ _ _ _ _) as [[[m1 dm1] upd]|] eqn:El; [|done]. cbn [mbind option_bind] in Hr.
  apply (inj Some) in Hr. injection Hr as <- <-. by eapply flloop_derr.
Qed.

(** ** The whole search *)
Lemma fsloop_spec s0 fuel efuel : ∀ k cur os M st ss c M' st' cur' os',
  walk ss os c → head ss = Some s0 → last ss = Some cur → errs_ok (fm_errs M) → derr_from (fm_dist M) →
  fsloop D h onestep lim stop junk fuel efuel k cur os M st = Some (M', st', cur', os') →
  errs_ok (fm_errs M') ∧ derr_from (fm_dist M') ∧ ∃ ss' c', walk ss' os' c' ∧ head ss' = Some s0 ∧ last ss' = Some cur'.
Proof.
  induction fuel as [|fuel IH]; intros k cur os M st ss c M' st' cur' os' Hw Hh Hl He Hd Hr; [done|]. cbn [fsloop] in Hr.
  destruct (isgoal cur) eqn:Hgc. { apply (inj Some) in Hr. injection Hr as <- <- <- <-. eauto 10. }
  destruct (rreached lim st). { apply (inj Some) in Hr. injection Hr as <- <- <- <-. eauto 10. }
  destruct (expandFss _ _ _ _ _ _ _ _ _ _ _) as [[[[[m1 L] st1] goal] er1]|] eqn:Ee; [|done]. cbn [mbind option_bind] in Hr.
  destruct (expandFss_spec _ _ _ _ _ _ _ _ _ _ _ _ Hgc Ee) as [(L0 & goal0 & Hi & HL & Hgk & _) He1].
  destruct (rreached lim st1). { apply (inj Some) in Hr. injection Hr as <- <- <- <-. eauto 10. }
  destruct (match goal with Some _ => Some (m1, fm_dist M) | None => _ end) as [[m2 dm2]|] eqn:El; [|done]. cbn [mbind option_bind] in Hr.
  assert (derr_from dm2) as Hd2. { destruct goal; [by injection El as <- <-|]. by eapply fLearning_derr. }
  destruct (fmove D onestep L cur goal) as [[os1 cur1]|] eqn:Em; [|done]. cbn [mbind option_bind] in Hr.
  assert (pinv D (f_nodes L)) as Hp by (rewrite HL; apply Hi).
  destruct (fmove_sound _ _ _ _ _ Hp Hgk Em) as (ss1 & c1 & Hw1 & Hh1 & Hl1 & _).
  destruct ss1 as [|? ss1]; [done|]. injection Hh1 as ->.
  eapply (IH _ _ _ _ _ (ss ++ ss1) (c + c1)); [| | | | |exact Hr]; [..|done|done].
  - by eapply walk_app.
  - by destruct ss.
  - rewrite last_app. rewrite last_cons in Hl1. destruct (last ss1); [done|]. by rewrite Hl.
Qed.
End fhat.
