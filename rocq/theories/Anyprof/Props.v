(** Training a profile: the probabilities are the smoothed and normalised frequencies of the training data (C70). *)
From stdpp Require Import prelude.
From Coq Require Import Sorted QArith Qround Lqa Lia.
From Verif Require Import Anyprof.Model Anyprof.Monitor.

(** ** Specification *)

(** Solutions come in the order of time and never get worse. *)
Definition valid (st : stream) : Prop := StronglySorted (λ a b, stime a < stime b ∧ scost b <= scost a) st.
(** The tight bounds of the costs and times of a list of solutions. *)
Definition is_extents (e : extents) (l : list solution) : Prop :=
  (∀ s, s ∈ l → mincost e <= scost s <= maxcost e ∧ mintime e <= stime s <= maxtime e) ∧
  (∃ s, s ∈ l ∧ scost s = mincost e) ∧ (∃ s, s ∈ l ∧ scost s = maxcost e) ∧
  (∃ s, s ∈ l ∧ stime s = mintime e) ∧ (∃ s, s ∈ l ∧ stime s = maxtime e).
(** [b] is the one of [n] equal parts of the interval from [lo] to [hi] that holds [x]. *)
Definition part (n : nat) (lo hi x : Q) (b : nat) : Prop :=
  (b < n)%nat ∧ lo <= x ∧ x <= hi ∧
  ((x == hi ∧ b = (n - 1)%nat) ∨ (x < hi ∧ qn b * (hi - lo) <= qn n * (x - lo) ∧ qn n * (x - lo) < (qn b + 1) * (hi - lo))).

(** Each solution together with those after it in its stream. *)
Fixpoint suffixes (st : stream) : list (solution * stream) := match st with [] => [] | s :: rest => (s, rest) :: suffixes rest end.
Definition allsuffixes (streams : list stream) : list (solution * stream) := concat (map suffixes streams).

Section spec.
Context (nc nt : nat) (e : extents) (all : list (solution * stream)).
Local Notation cb s := (costbin nc e (scost s)).
Definition within (dt : nat) (s r : solution) : bool := match timebin nt e (stime r - stime s) with Some b => bool_decide (b ≤ dt)%nat | None => false end.
(** The incumbent [dt] time bins after [s]. *)
Definition later (s : solution) (rest : stream) (dt : nat) : solution := default s (last (filter (λ r, within dt s r = true) rest)).
(** How many solutions are in bin [qi], and how many of these have an incumbent in bin [qj] after [dt] time bins. *)
Definition seen (qi : nat) : nat := length (filter (λ sr, cb sr.1 = Some qi) all).
Definition moved (qj qi dt : nat) : nat := length (filter (λ sr, cb sr.1 = Some qi ∧ cb (later sr.1 sr.2 dt) = Some qj) all).
Definition freq (qj qi dt : nat) : Q := if decide (seen qi = 0%nat) then 0 else qn (moved qj qi dt) / qn (seen qi).
End spec.

(** ** Extents and bins *)
Lemma getextents_concat streams : getextents streams = foldl widen None (concat streams).
Proof.
  unfold getextents. generalize (@None extents). induction streams as [|st streams IH]; intros o; [done|]. cbn [foldl concat]. rewrite IH, foldl_app. done.
Qed.
Lemma widen_ext e l s : is_extents e l → ∃ e', widen (Some e) s = Some e' ∧ is_extents e' (l ++ [s]).
Proof.
  intros (Hb & (a & Ha & Ea) & (b & Hb' & Eb) & (c & Hc & Ec) & (d & Hd & Ed)). eexists. split; [done|].
  assert (s ∈ l ++ [s]) as Hs by (apply elem_of_app; right; by left).
  assert (∀ x, x ∈ l → x ∈ l ++ [s]) as Hl by (intros; apply elem_of_app; by left).
  split; [|split; [|split; [|split]]]; cbn [mincost maxcost mintime maxtime].
  - intros x [Hx|Hx%elem_of_list_singleton]%elem_of_app.
    + destruct (Hb x Hx) as [[??] [??]].
      repeat match goal with |- context [ltb ?a ?b] => let E := fresh in destruct (ltb a b) eqn:E; [apply ltb_true in E|apply ltb_false in E] end; split; split; lra.
    + subst x. repeat match goal with |- context [ltb ?a ?b] => let E := fresh in destruct (ltb a b) eqn:E; [apply ltb_true in E|apply ltb_false in E] end; split; split; lra.
  - destruct (ltb _ _); eauto.
  - destruct (ltb _ _); eauto.
  - destruct (ltb _ _); eauto.
  - destruct (ltb _ _); eauto.
Qed.
Lemma extents_ok l : l ≠ [] → ∃ e, foldl widen None l = Some e ∧ is_extents e l.
Proof.
  induction l as [|s l IH] using rev_ind; [done|]. intros _. rewrite foldl_app. destruct (decide (l = [])) as [->|Hne].
  - exists (Ext (scost s) (scost s) (stime s) (stime s)). split; [done|]. cbn [app]. assert (s ∈ [s]) by left.
    split; [|split; [|split; [|split]]]; cbn [mincost maxcost mintime maxtime]; eauto. intros x ->%elem_of_list_singleton. split; split; lra.
  - destruct (IH Hne) as (e & -> & He). by apply widen_ext.
Qed.

Lemma trunc_spec x n b : 0 <= x → x < qn n → (trunc x < n)%nat ∧ (trunc x = b ↔ qn b <= x ∧ x < qn b + 1).
Proof.
  intros H0 Hn. unfold trunc. pose proof (Qfloor_le x) as H1. pose proof (Qlt_floor x) as H2.
  assert (0 ≤ Qfloor x)%Z as Hz. { change 0%Z with (Qfloor 0). by apply Qfloor_resp_le. }
  split.
  - unfold qn in Hn. assert (inject_Z (Qfloor x) < inject_Z (Z.of_nat n)) as H by lra. rewrite <-Zlt_Qlt in H. lia.
  - split.
    + intros <-. unfold qn. rewrite Z2Nat.id by done. rewrite inject_Z_plus in H2. change (inject_Z 1) with 1 in H2. lra.
    + unfold qn. intros [H3 H4]. assert (inject_Z (Z.of_nat b) < inject_Z (Qfloor x + 1)) as H5 by lra.
      assert (inject_Z (Qfloor x) < inject_Z (Z.of_nat b + 1)) as H6 by (rewrite inject_Z_plus; change (inject_Z 1) with 1; lra).
      rewrite <-Zlt_Qlt in H5, H6. lia.
Qed.
Lemma part_bin n lo hi x b : (1 ≤ n)%nat → lo <= x → x < hi →
  (trunc ((x - lo) / ((hi - lo) / qn n)) < n)%nat ∧ (trunc ((x - lo) / ((hi - lo) / qn n)) = b ↔ part n lo hi x b).
Proof.
  intros Hn Hlo Hhi. assert (0 < qn n) as Hqn by (apply qn_pos; lia). set (z := (x - lo) / ((hi - lo) / qn n)).
  assert (z * (hi - lo) == qn n * (x - lo)) as Hz. { unfold z. field. split; lra. }
  assert (0 <= z) as H0. { destruct (Qlt_le_dec z 0); [|done]. assert (0 <= qn n * (x - lo)) by nra. assert (0 < (- z) * (hi - lo)) by (apply Qmult_lt_0_compat; lra). lra. }
  assert (z < qn n) as H1.
  { destruct (Qlt_le_dec z (qn n)); [done|]. assert (0 <= (z - qn n) * (hi - lo)) by (apply Qmult_le_0_compat; lra). assert (0 < qn n * (hi - x)) by (apply Qmult_lt_0_compat; lra). lra. }
  destruct (trunc_spec z n b H0 H1) as [Hr Heq]. split; [done|]. rewrite Heq. unfold part. split.
  - intros [Hb1 Hb2]. assert (b < n)%nat. { unfold qn in *. assert (inject_Z (Z.of_nat b) < inject_Z (Z.of_nat n)) as H by lra. rewrite <-Zlt_Qlt in H. lia. }
    split; [done|]. split; [done|]. split; [lra|]. right. split; [done|]. split.
    + assert (0 <= (z - qn b) * (hi - lo)) by (apply Qmult_le_0_compat; lra). lra.
    + assert (0 < (qn b + 1 - z) * (hi - lo)) by (apply Qmult_lt_0_compat; lra). lra.
  - intros (_ & _ & _ & [[? _]|(_ & Hb1 & Hb2)]); [lra|]. split.
    + destruct (Qlt_le_dec z (qn b)); [|done]. assert (0 < (qn b - z) * (hi - lo)) by (apply Qmult_lt_0_compat; lra). lra.
    + destruct (Qlt_le_dec z (qn b + 1)); [done|]. assert (0 <= (z - (qn b + 1)) * (hi - lo)) by (apply Qmult_le_0_compat; lra). lra.
Qed.
Lemma trunc_comp x y : x == y → trunc x = trunc y.
Proof. intros E. unfold trunc. by rewrite (Qfloor_comp x y E). Qed.

(** The bins are the equal parts of the costs and the times seen. *)
Theorem C70_bins nc nt e x b :
  (costbin nc e x = Some b ↔ part nc (mincost e) (maxcost e) x b) ∧
  (timebin nt e x = Some b ↔ part nt 0 (maxtime e - mintime e) x b).
Proof.
  assert (∀ n lo hi z, z == (x - lo) / ((hi - lo) / qn n) →
    (if negb (Qle_bool lo x) || negb (Qle_bool x hi) || bool_decide (n = 0%nat) then None
     else if Qeq_bool x hi then Some (n - 1)%nat else Some (trunc z)) = Some b ↔ part n lo hi x b) as H.
  { intros n lo hi z Hz. destruct (Qle_bool lo x) eqn:E1; cbn [negb orb].
    2:{ split; [done|]. intros (_ & Hl & _). apply Qle_bool_iff in Hl. congruence. }
    destruct (Qle_bool x hi) eqn:E2; cbn [negb orb].
    2:{ split; [done|]. intros (_ & _ & Hl & _). apply Qle_bool_iff in Hl. congruence. }
    apply Qle_bool_iff in E1, E2. case_bool_decide as Hn; [split; [done|intros [? _]; lia]|].
    destruct (Qeq_bool x hi) eqn:E3.
    - apply Qeq_bool_iff in E3. split.
      + intros [= <-]. split; [lia|]. split; [done|]. split; [done|]. by left.
      + intros (_ & _ & _ & [[_ ->]|[? _]]); [done|lra].
    - apply Qeq_bool_neq in E3. assert (x < hi) as Hlt. { apply Qle_lteq in E2 as [?|?]; [done|by destruct E3]. }
      rewrite (trunc_comp _ _ Hz). destruct (part_bin n lo hi x b ltac:(lia) E1 Hlt) as [_ <-]. split; [by intros [= ->]|by intros ->]. }
  split; [apply (H nc (mincost e) (maxcost e)); lra|]. apply (H nt 0 (maxtime e - mintime e)).
  setoid_replace (x - 0) with x by lra. setoid_replace (maxtime e - mintime e - 0) with (maxtime e - mintime e) by lra. done.
Qed.
Lemma part_total n lo hi x : (1 ≤ n)%nat → lo <= x → x <= hi → ∃ b, part n lo hi x b.
Proof.
  intros Hn H1 H2. apply Qle_lteq in H2 as H2'. destruct H2' as [Hlt|Heq].
  - destruct (part_bin n lo hi x (trunc ((x - lo) / ((hi - lo) / qn n))) Hn H1 Hlt) as [_ [H _]]. eauto.
  - exists (n - 1)%nat. split; [lia|]. split; [done|]. split; [done|]. by left.
Qed.
Lemma part_mono n lo hi x y a b : part n lo hi x a → part n lo hi y b → x <= y → (a ≤ b)%nat.
Proof.
  intros (Ha & Hx1 & Hx2 & Hx) (Hb & Hy1 & Hy2 & Hy) Hle. destruct Hy as [[_ ->]|(Hy & Hy3 & Hy4)]; [lia|].
  destruct Hx as [[? _]|(Hx & Hx3 & Hx4)]; [lra|]. assert (0 < qn n) by (apply qn_pos; lia).
  destruct (decide (a ≤ b)%nat); [done|]. exfalso. assert (qn b + 1 <= qn a) as Hba.
  { rewrite <-qn_S. unfold qn. rewrite <-Zle_Qle. lia. }
  assert (0 <= (qn a - (qn b + 1)) * (hi - lo)) by (apply Qmult_le_0_compat; lra).
  assert (0 <= qn n * (y - x)) by (apply Qmult_le_0_compat; lra). lra.
Qed.
Lemma part_unique n lo hi x a b : part n lo hi x a → part n lo hi x b → a = b.
Proof. intros H1 H2. pose proof (part_mono _ _ _ _ _ _ _ H1 H2 ltac:(lra)). pose proof (part_mono _ _ _ _ _ _ _ H2 H1 ltac:(lra)). lia. Qed.

(** ** Counting *)
Definition one (P : Prop) `{Decision P} : nat := if decide P then 1%nat else 0%nat.
Lemma one_iff P Q' `{Decision P, Decision Q'} : (P ↔ Q') → one P = one Q'.
Proof. intros E. unfold one. destruct (decide P), (decide Q'); tauto. Qed.

Section counts.
Context (nc nt : nat).
Definition tbok (tb : tables) : Prop := length (qt tb) = (nc * nt)%nat ∧ length (qqt tb) = (nc * nc * nt)%nat.
Definition A (tb : tables) (q d : nat) : nat := default 0%nat (qt tb !! qtindex nt q d).
Definition BB (tb : tables) (qj q d : nat) : nat := default 0%nat (qqt tb !! qqtindex nc nt qj q d).

Lemma qtindex_lt q d : (q < nc)%nat → (d < nt)%nat → (qtindex nt q d < nc * nt)%nat.
Proof. unfold qtindex. intros. assert (S q * nt ≤ nc * nt)%nat by (apply Nat.mul_le_mono_r; lia). lia. Qed.
Lemma qtindex_inj q d q' d' : (d < nt)%nat → (d' < nt)%nat → qtindex nt q d = qtindex nt q' d' → q = q' ∧ d = d'.
Proof.
  unfold qtindex. intros H1 H2 E. assert (q = q') as ->; [|lia]. destruct (Nat.lt_trichotomy q q') as [?|[?|?]]; [|done|].
  - assert (S q * nt ≤ q' * nt)%nat by (apply Nat.mul_le_mono_r; lia). lia.
  - assert (S q' * nt ≤ q * nt)%nat by (apply Nat.mul_le_mono_r; lia). lia.
Qed.
Lemma qqtindex_eq qj q d : qqtindex nc nt qj q d = (qj * (nc * nt) + qtindex nt q d)%nat.
Proof. unfold qqtindex, qtindex. lia. Qed.
Lemma qqtindex_lt qj q d : (qj < nc)%nat → (q < nc)%nat → (d < nt)%nat → (qqtindex nc nt qj q d < nc * nc * nt)%nat.
Proof. intros. rewrite qqtindex_eq. pose proof (qtindex_lt q d). assert (S qj * (nc * nt) ≤ nc * (nc * nt))%nat by (apply Nat.mul_le_mono_r; lia). lia. Qed.
Lemma qqtindex_inj qj q d qj' q' d' : (q < nc)%nat → (q' < nc)%nat → (d < nt)%nat → (d' < nt)%nat →
  qqtindex nc nt qj q d = qqtindex nc nt qj' q' d' → qj = qj' ∧ q = q' ∧ d = d'.
Proof.
  intros H1 H2 H3 H4. rewrite !qqtindex_eq. intros E. pose proof (qtindex_lt q d H1 H3). pose proof (qtindex_lt q' d' H2 H4).
  assert (qj = qj') as ->.
  { destruct (Nat.lt_trichotomy qj qj') as [?|[?|?]]; [|done|].
    - assert (S qj * (nc * nt) ≤ qj' * (nc * nt))%nat by (apply Nat.mul_le_mono_r; lia). lia.
    - assert (S qj' * (nc * nt) ≤ qj * (nc * nt))%nat by (apply Nat.mul_le_mono_r; lia). lia. }
  split; [done|]. apply qtindex_inj; [done..|]. lia.
Qed.

(** One tick of both tables. *)
Lemma tick tb qi curq dt : tbok tb → (qi < nc)%nat → (curq < nc)%nat → (dt < nt)%nat →
  ∃ tb', match bump (qt tb) (qtindex nt qi dt) with
         | Some a => match bump (qqt tb) (qqtindex nc nt curq qi dt) with Some b => Some (Tab a b) | None => None end
         | None => None end = Some tb' ∧ tbok tb' ∧
    (∀ q d, (q < nc)%nat → (d < nt)%nat → A tb' q d = (A tb q d + one (q = qi ∧ d = dt))%nat) ∧
    (∀ qj q d, (q < nc)%nat → (d < nt)%nat → BB tb' qj q d = (BB tb qj q d + one (qj = curq ∧ q = qi ∧ d = dt))%nat).
Proof.
  intros [Hl1 Hl2] Hqi Hcq Hdt. pose proof (qtindex_lt qi dt Hqi Hdt) as Hi. pose proof (qqtindex_lt curq qi dt Hcq Hqi Hdt) as Hi2. unfold bump.
  destruct (qt tb !! qtindex nt qi dt) as [x|] eqn:E1; [|apply lookup_ge_None in E1; lia].
  destruct (qqt tb !! qqtindex nc nt curq qi dt) as [y|] eqn:E2; [|apply lookup_ge_None in E2; lia].
  eexists. split; [done|]. split; [split; cbn [qt qqt]; by rewrite insert_length|]. split.
  - intros q d Hq Hd. unfold A. cbn [qt]. unfold one. destruct (decide (q = qi ∧ d = dt)) as [[-> ->]|Hne].
    + rewrite list_lookup_insert by lia. rewrite E1. cbn [default from_option]. unfold id. lia.
    + rewrite list_lookup_insert_ne; [lia|]. intros E. apply Hne. apply qtindex_inj in E as [-> ->]; done.
  - intros qj q d Hq Hd. unfold BB. cbn [qqt]. unfold one. destruct (decide (qj = curq ∧ q = qi ∧ d = dt)) as [(-> & -> & ->)|Hne].
    + rewrite list_lookup_insert by lia. rewrite E2. cbn [default from_option]. unfold id. lia.
    + rewrite list_lookup_insert_ne; [lia|]. intros E. apply Hne. apply qqtindex_inj in E as (-> & -> & ->); done.
Qed.
Lemma bumps_ok tb qi curq a n : tbok tb → (qi < nc)%nat → (curq < nc)%nat → (a + n ≤ nt)%nat →
  ∃ tb', bumps nc nt qi curq (seq a n) tb = Some tb' ∧ tbok tb' ∧
    (∀ q d, (q < nc)%nat → (d < nt)%nat → A tb' q d = (A tb q d + one (q = qi ∧ (a ≤ d < a + n)%nat))%nat) ∧
    (∀ qj q d, (q < nc)%nat → (d < nt)%nat → BB tb' qj q d = (BB tb qj q d + one (qj = curq ∧ q = qi ∧ (a ≤ d < a + n)%nat))%nat).
Proof.
  intros Htb Hqi Hcq Han. unfold bumps.
  pose (I := λ i tb', tbok tb' ∧
    (∀ q d, (q < nc)%nat → (d < nt)%nat → A tb' q d = (A tb q d + one (q = qi ∧ (a ≤ d < i)%nat))%nat) ∧
    (∀ qj q d, (q < nc)%nat → (d < nt)%nat → BB tb' qj q d = (BB tb qj q d + one (qj = curq ∧ q = qi ∧ (a ≤ d < i)%nat))%nat)).
  apply (foldm_seq _ I); unfold I; clear I.
  - split; [done|]. unfold one. split; intros; rewrite decide_False by lia; lia.
  - intros i tb1 Hi (Hok & H1 & H2). destruct (tick tb1 qi curq i Hok Hqi Hcq ltac:(lia)) as (tb2 & E & Hok2 & H3 & H4). exists tb2. split; [done|]. split; [done|]. split.
    + intros q d Hq Hd. rewrite H3, H1 by done. unfold one. repeat case_decide; lia.
    + intros qj q d Hq Hd. rewrite H4, H2 by done. unfold one. repeat case_decide; lia.
Qed.
End counts.

Section count.
Context (nc nt : nat) (Hnc : (1 ≤ nc)%nat) (Hnt : (1 ≤ nt)%nat) (e : extents).
Definition inext (s : solution) : Prop := mincost e <= scost s <= maxcost e ∧ mintime e <= stime s <= maxtime e.
Local Notation cb s := (costbin nc e (scost s)).

Lemma cb_some s : inext s → ∃ b, cb s = Some b ∧ (b < nc)%nat.
Proof using Hnc.
  intros [[H1 H2] _]. destruct (part_total nc _ _ _ Hnc H1 H2) as [b Hb]. exists b. split; [by apply (C70_bins _ 0)|apply Hb].
Qed.
Lemma tb_some s r : inext s → inext r → stime s < stime r → ∃ b, timebin nt e (stime r - stime s) = Some b ∧ (b < nt)%nat.
Proof using Hnt.
  intros [_ [H1 H2]] [_ [H3 H4]] H5. destruct (part_total nt 0 (maxtime e - mintime e) (stime r - stime s) Hnt) as [b Hb]; [lra..|]. exists b.
  split; [by apply (C70_bins 0)|apply Hb].
Qed.
Lemma tb_mono s r r' a b : timebin nt e (stime r - stime s) = Some a → timebin nt e (stime r' - stime s) = Some b → stime r <= stime r' → (a ≤ b)%nat.
Proof. intros Ha%(C70_bins 0) Hb%(C70_bins 0) Hle. eapply part_mono; [exact Ha|exact Hb|lra]. Qed.
Lemma cb_mono s r a b : cb s = Some a → cb r = Some b → scost s <= scost r → (a ≤ b)%nat.
Proof. intros Ha%(C70_bins _ 0) Hb%(C70_bins _ 0) Hle. eapply part_mono; [exact Ha|exact Hb|lra]. Qed.

Definition lastbin (s : solution) (curq : nat) (rest : stream) (d : nat) : nat :=
  match last (filter (λ r, within nt e d s r = true) rest) with Some r => default 0%nat (cb r) | None => curq end.
Lemma countfrom_ok s qi rest curq curdt tb : tbok nc nt tb → inext s → (qi < nc)%nat → (curq < nc)%nat → (curdt < nt)%nat → valid rest →
  Forall (λ r, inext r ∧ stime s < stime r ∧ scost r <= scost s ∧ ∀ b, timebin nt e (stime r - stime s) = Some b → (curdt ≤ b)%nat) rest →
  ∃ tb', countfrom nc nt e s qi rest curq curdt tb = Some tb' ∧ tbok nc nt tb' ∧
    (∀ q d, (q < nc)%nat → (d < nt)%nat → A nt tb' q d = (A nt tb q d + one (q = qi ∧ (curdt ≤ d)%nat))%nat) ∧
    (∀ qj q d, (q < nc)%nat → (d < nt)%nat → BB nc nt tb' qj q d = (BB nc nt tb qj q d + one (qj = lastbin s curq rest d ∧ q = qi ∧ (curdt ≤ d)%nat))%nat).
Proof using Hnc Hnt.
  intros Htb Hs Hqi. revert curq curdt tb Htb. induction rest as [|r rest IH]; intros curq curdt tb Htb Hcq Hcd Hv Hf; cbn [countfrom].
  - destruct (bumps_ok nc nt tb qi curq curdt (nt - curdt) Htb Hqi Hcq ltac:(lia)) as (tb' & E & Hok & H1 & H2). exists tb'. split; [done|]. split; [done|]. split.
    + intros q d Hq Hd. rewrite H1 by done. f_equal. apply one_iff. lia.
    + intros qj q d Hq Hd. rewrite H2 by done. f_equal. apply one_iff. unfold lastbin. cbn. lia.
  - apply Forall_cons in Hf as [(Hr & Ht & Hc & Hb) Hf]. apply StronglySorted_inv in Hv as [Hv Hlater].
    replace (ltb (stime s) (stime r)) with true by (symmetry; by apply ltb_true). replace (Qle_bool (scost r) (scost s)) with true by (symmetry; by apply Qle_bool_iff).
    cbn [negb orb]. destruct (cb_some r Hr) as (nextq & Enq & Hnq). destruct (tb_some s r Hs Hr Ht) as (nextdt & End & Hnd). rewrite Enq, End.
    specialize (Hb _ End). destruct (bumps_ok nc nt tb qi curq curdt (nextdt - curdt) Htb Hqi Hcq ltac:(lia)) as (tb1 & -> & Hok1 & H1 & H2).
    assert (∀ x, x ∈ rest → ∀ b, timebin nt e (stime x - stime s) = Some b → (nextdt ≤ b)%nat) as Hge.
    { intros x Hx b Hbx. rewrite Forall_forall in Hlater. destruct (Hlater x Hx) as [Hlt _]. eapply tb_mono; [exact End|exact Hbx|lra]. }
    destruct (IH nextq nextdt tb1 Hok1 Hnq Hnd Hv) as (tb2 & -> & Hok2 & H3 & H4).
    { rewrite Forall_forall in Hf |- *. intros x Hx. destruct (Hf x Hx) as (? & ? & ? & _). split_and!; [done..|]. intros b. by apply Hge. }
    exists tb2. split; [done|]. split; [done|]. split.
    + intros q d Hq Hd. rewrite H3, H1 by done. unfold one. repeat case_decide; lia.
    + intros qj q d Hq Hd. rewrite H4, H2 by done. rewrite <-Nat.add_assoc. f_equal.
      assert ((nextdt ≤ d)%nat → lastbin s curq (r :: rest) d = lastbin s nextq rest d) as HL1.
      { intros Hle. unfold lastbin. rewrite filter_cons_True by (unfold within; rewrite End; by apply bool_decide_eq_true).
        rewrite last_cons. destruct (last (filter _ rest)); [done|]. by rewrite Enq. }
      assert ((d < nextdt)%nat → lastbin s curq (r :: rest) d = curq) as HL2.
      { intros Hlt. unfold lastbin. rewrite filter_cons_False by (unfold within; rewrite End; rewrite bool_decide_eq_true; lia).
        replace (filter (λ r0, within nt e d s r0 = true) rest) with (@nil solution); [done|]. symmetry.
        destruct (filter (λ r0, within nt e d s r0 = true) rest) as [|x l] eqn:E; [done|]. exfalso.
        assert (x ∈ filter (λ r0, within nt e d s r0 = true) rest) as Hx by (rewrite E; left). apply elem_of_list_filter in Hx as [Hw Hx]. unfold within in Hw.
        destruct (timebin nt e (stime x - stime s)) as [b|] eqn:Eb; [|done]. apply bool_decide_eq_true in Hw. specialize (Hge x Hx b Eb). lia. }
      unfold one. destruct (decide (nextdt ≤ d)%nat) as [Hle|Hgt]; [rewrite (HL1 Hle)|rewrite HL2 by lia]; repeat case_decide; lia.
Qed.

Lemma filter_len_cons {X} (P : X → Prop) `{∀ x, Decision (P x)} x l : length (filter P (x :: l)) = (one (P x) + length (filter P l))%nat.
Proof. unfold one. rewrite filter_cons. destruct (decide (P x)); done. Qed.
Lemma filter_len_app {X} (P : X → Prop) `{∀ x, Decision (P x)} l l' : length (filter P (l ++ l')) = (length (filter P l) + length (filter P l'))%nat.
Proof. by rewrite filter_app, app_length. Qed.

Lemma countstream_ok st tb : tbok nc nt tb → valid st → Forall inext st →
  ∃ tb', countstream nc nt e st tb = Some tb' ∧ tbok nc nt tb' ∧
    (∀ q d, (q < nc)%nat → (d < nt)%nat → A nt tb' q d = (A nt tb q d + seen nc e (suffixes st) q)%nat) ∧
    (∀ qj q d, (q < nc)%nat → (d < nt)%nat → BB nc nt tb' qj q d = (BB nc nt tb qj q d + moved nc nt e (suffixes st) qj q d)%nat).
Proof using Hnc Hnt.
  revert tb. induction st as [|s rest IH]; intros tb Htb Hv Hin; cbn [countstream suffixes].
  - exists tb. split; [done|]. split; [done|]. unfold seen, moved. cbn. split; intros; lia.
  - apply Forall_cons in Hin as [Hs Hin]. apply StronglySorted_inv in Hv as [Hv Hlater]. destruct (cb_some s Hs) as (qi & Eq & Hqi). rewrite Eq.
    assert (Forall (λ r, inext r ∧ stime s < stime r ∧ scost r <= scost s) rest) as Hr.
    { rewrite Forall_forall in Hin, Hlater |- *. intros x Hx. split; [by apply Hin|]. by apply Hlater. }
    destruct (countfrom_ok s qi rest qi 0 tb Htb Hs Hqi Hqi ltac:(lia) Hv) as (tb1 & -> & Hok1 & H1 & H2).
    { eapply Forall_impl; [exact Hr|]. cbn beta. intros x (? & ? & ?). split_and!; [done..|]. intros; lia. }
    destruct (IH tb1 Hok1 Hv Hin) as (tb2 & -> & Hok2 & H3 & H4). exists tb2. split; [done|]. split; [done|]. split.
    + intros q d Hq Hd. rewrite H3, H1 by done. unfold seen. rewrite filter_len_cons. rewrite <-Nat.add_assoc. do 2 f_equal. apply one_iff. cbn [fst]. rewrite Eq. split; [by intros [-> _]|]. intros [= ->]. split; [done|lia].
    + intros qj q d Hq Hd. rewrite H4, H2 by done. unfold moved. rewrite filter_len_cons. rewrite <-Nat.add_assoc. do 2 f_equal. apply one_iff. cbn [fst snd]. rewrite Eq.
      assert (cb (later nt e s rest d) = Some (lastbin s qi rest d)) as ->.
      { unfold later, lastbin. destruct (last _) as [r|] eqn:El; cbn [default from_option]; [|done]. unfold id.
        apply last_Some_elem_of in El. apply elem_of_list_filter in El as [_ El]. rewrite Forall_forall in Hr. destruct (Hr r El) as [Hir _]. destruct (cb_some r Hir) as (b & -> & _). done. }
      split; [intros (-> & -> & _); done|]. intros [[= ->] [= ->]]. split_and!; [done..|lia].
Qed.

Lemma countsolutions_ok streams : Forall valid streams → Forall inext (concat streams) →
  ∃ tb, countsolutions nc nt e streams = Some tb ∧ tbok nc nt tb ∧
    (∀ q d, (q < nc)%nat → (d < nt)%nat → A nt tb q d = seen nc e (allsuffixes streams) q) ∧
    (∀ qj q d, (q < nc)%nat → (d < nt)%nat → BB nc nt tb qj q d = moved nc nt e (allsuffixes streams) qj q d).
Proof using Hnc Hnt.
  intros Hv Hin. unfold countsolutions.
  assert (∀ tb, tbok nc nt tb → ∃ tb', foldm (countstream nc nt e) streams tb = Some tb' ∧ tbok nc nt tb' ∧
    (∀ q d, (q < nc)%nat → (d < nt)%nat → A nt tb' q d = (A nt tb q d + seen nc e (allsuffixes streams) q)%nat) ∧
    (∀ qj q d, (q < nc)%nat → (d < nt)%nat → BB nc nt tb' qj q d = (BB nc nt tb qj q d + moved nc nt e (allsuffixes streams) qj q d)%nat)) as H.
  { induction streams as [|st streams IH]; intros tb Htb; cbn [foldm].
    - exists tb. split; [done|]. split; [done|]. unfold seen, moved. cbn. split; intros; lia.
    - apply Forall_cons in Hv as [Hv1 Hv]. cbn [concat] in Hin. apply Forall_app in Hin as [Hin1 Hin].
      destruct (countstream_ok st tb Htb Hv1 Hin1) as (tb1 & -> & Hok1 & H1 & H2). destruct (IH Hv Hin tb1 Hok1) as (tb2 & -> & Hok2 & H3 & H4).
      exists tb2. split; [done|]. split; [done|]. unfold allsuffixes in *. cbn [map concat]. split.
      + intros q d Hq Hd. rewrite H3, H1 by done. unfold seen. rewrite filter_len_app. lia.
      + intros qj q d Hq Hd. rewrite H4, H2 by done. unfold moved. rewrite filter_len_app. lia. }
  destruct (H (Tab (replicate (nc * nt) 0%nat) (replicate (nc * nc * nt) 0%nat))) as (tb & -> & Hok & H1 & H2).
  { split; cbn [qt qqt]; by rewrite replicate_length. }
  exists tb. split; [done|]. split; [done|]. split.
  - intros q d Hq Hd. rewrite H1 by done. unfold A at 1. cbn [qt]. rewrite lookup_replicate_2 by (by apply qtindex_lt). done.
  - intros qj q d Hq Hd. rewrite H2 by done. unfold BB at 1. cbn [qqt]. destruct (replicate _ _ !! _) eqn:E; [|done]. apply lookup_replicate in E as [-> _]. done.
Qed.

(** The incumbent never gets worse. *)
Lemma moved_down streams qj qi d : Forall valid streams → Forall inext (concat streams) → (qi < qj)%nat → moved nc nt e (allsuffixes streams) qj qi d = 0%nat.
Proof using Hnc Hnt.
  intros Hv Hin Hlt. unfold moved. destruct (filter _ _) as [|[s rest] l] eqn:E; [done|]. exfalso.
  match type of E with ?f = _ => assert ((s, rest) ∈ f) as Hx by (rewrite E; left) end. apply elem_of_list_filter in Hx as [[H1 H2] Hx]. cbn [fst snd] in *.
  unfold allsuffixes in Hx. rewrite elem_of_list_In, in_concat in Hx. destruct Hx as (l' & Hl' & Hx). apply in_map_iff in Hl' as (st & <- & Hst).
  apply elem_of_list_In in Hx. apply elem_of_list_In in Hst.
  assert (valid st) as Hvst. { rewrite Forall_forall in Hv. by apply Hv. }
  assert (∀ r, r ∈ rest → scost r <= scost s) as Hle.
  { clear -Hx Hvst. induction st as [|x st IH]; cbn [suffixes] in Hx; [by apply elem_of_nil in Hx|]. apply StronglySorted_inv in Hvst as [Hv Hl].
    apply elem_of_cons in Hx as [[= -> ->]|Hx]; [|by apply IH]. rewrite Forall_forall in Hl. intros r Hr. by apply Hl. }
  assert (scost (later nt e s rest d) <= scost s) as Hlat.
  { unfold later. destruct (last _) as [r|] eqn:El; cbn [default from_option]; unfold id; [|lra]. apply Hle. apply last_Some_elem_of in El. by apply elem_of_list_filter in El as [_ El]. }
  pose proof (cb_mono _ _ _ _ H2 H1 Hlat). lia.
Qed.
End count.

(** ** Probabilities *)
Section probs.
Context (nc nt : nat) (tb : tables) (N : nat → nat → nat) (M : nat → nat → nat → nat).
Definition incell (c a b : nat) : Prop := (c < nc ∧ a < nc ∧ b < nt)%nat.
Context (HN : ∀ a b, (a < nc)%nat → (b < nt)%nat → qt tb !! qtindex nt a b = Some (N a b)).
Context (HM : ∀ c a b, incell c a b → qqt tb !! qqtindex nc nt c a b = Some (M c a b)).
Context (Hdown : ∀ c a b, incell c a b → (a < c)%nat → M c a b = 0%nat).
Definition W (ps : list Q) (c a b : nat) : Q := default 0 (ps !! qqtindex nc nt c a b).
Definition size (ps : list Q) : Prop := length ps = (nc * nc * nt)%nat.
Definition raw (c a b : nat) : Q := if decide (N a b = 0%nat) then 0 else qn (M c a b) / qn (N a b).

Lemma W_some ps c a b : size ps → incell c a b → ps !! qqtindex nc nt c a b = Some (W ps c a b).
Proof.
  intros Hs (? & ? & ?). unfold W. destruct (ps !! _) eqn:E; [done|]. apply lookup_ge_None in E. rewrite Hs in E.
  pose proof (qqtindex_lt nc nt c a b). lia.
Qed.
Lemma set_ok ps c a b x : size ps → incell c a b → ∃ ps', set ps (qqtindex nc nt c a b) x = Some ps' ∧ size ps' ∧ W ps' c a b = x ∧
  ∀ c' a' b', incell c' a' b' → ¬ (c' = c ∧ a' = a ∧ b' = b) → W ps' c' a' b' = W ps c' a' b'.
Proof.
  intros Hs Hi. pose proof Hi as (? & ? & ?). pose proof (qqtindex_lt nc nt c a b). unfold set. rewrite decide_True by (rewrite Hs; auto). eexists. split; [done|].
  split; [unfold size; by rewrite insert_length|]. split.
  - unfold W. rewrite list_lookup_insert by (rewrite Hs; auto). done.
  - intros c' a' b' (? & ? & ?) Hne. unfold W. rewrite list_lookup_insert_ne; [done|]. intros E. apply Hne. apply qqtindex_inj in E as (-> & -> & ->); done.
Qed.
Lemma upd_ok f ps c a b : size ps → incell c a b → ∃ ps', upd f (qqtindex nc nt c a b) ps = Some ps' ∧ size ps' ∧ W ps' c a b = f (W ps c a b) ∧
  ∀ c' a' b', incell c' a' b' → ¬ (c' = c ∧ a' = a ∧ b' = b) → W ps' c' a' b' = W ps c' a' b'.
Proof.
  intros Hs Hi. destruct (set_ok ps c a b (f (W ps c a b)) Hs Hi) as (ps' & E & H). exists ps'. split; [|done].
  unfold upd. rewrite (W_some ps c a b Hs Hi). unfold set in E. by case_decide.
Qed.

(** Frequencies *)
Definition RI (D : nat → nat → nat → Prop) (st : list Q * option Q) : Prop :=
  size st.1 ∧ (∀ c a b, incell c a b → D c a b → W st.1 c a b = raw c a b) ∧ (∀ c a b, incell c a b → ¬ D c a b → W st.1 c a b = 0) ∧
  match st.2 with
  | None => ∀ c a b, incell c a b → D c a b → raw c a b <= 0
  | Some s => 0 < s ∧ (∃ c a b, incell c a b ∧ raw c a b = s) ∧ ∀ c a b, incell c a b → D c a b → 0 < raw c a b → s <= raw c a b
  end.
Lemma RI_weaken (D D' : nat → nat → nat → Prop) st : RI D st → (∀ c a b, incell c a b → (D c a b ↔ D' c a b)) → RI D' st.
Proof.
  intros (H1 & H2 & H3 & H4) E. split; [done|]. split; [|split].
  - intros c a b Hi HD. apply H2; [done|]. by apply E.
  - intros c a b Hi HD. apply H3; [done|]. by rewrite E.
  - destruct (st.2) as [s|].
    + destruct H4 as (? & ? & H4). split; [done|]. split; [done|]. intros c a b Hi HD. apply H4; [done|]. by apply E.
    + intros c a b Hi HD. apply H4; [done|]. by apply E.
Qed.
Lemma RI_step D st qj qi dt : RI D st → incell qj qi dt → N qi dt ≠ 0%nat → ¬ D qj qi dt →
  ∃ st', mkprob nc nt tb qi dt (N qi dt) qj st = Some st' ∧ RI (λ c a b, D c a b ∨ (c = qj ∧ a = qi ∧ b = dt)) st'.
Proof using HM Hdown.
  intros (H1 & H2 & H3 & H4) Hi Hn HnD. destruct st as [ps small]. cbn [fst snd] in *. unfold mkprob. rewrite (HM qj qi dt Hi).
  replace (bool_decide (qi < qj)%nat && negb (bool_decide (M qj qi dt = 0%nat))) with false.
  2:{ case_bool_decide as Hlt; [|done]. rewrite bool_decide_true; [done|]. by apply Hdown. }
  cbn zeta. destruct (set_ok ps qj qi dt (qn (M qj qi dt) / qn (N qi dt)) H1 Hi) as (ps' & -> & Hs' & HW & HW').
  assert (raw qj qi dt = qn (M qj qi dt) / qn (N qi dt)) as Hraw by (unfold raw; by rewrite decide_False).
  rewrite <-Hraw in *. eexists. split; [done|]. split; [done|]. cbn [fst snd]. split; [|split].
  - intros c a b Hc [HD|(-> & -> & ->)]; [|done]. rewrite HW'; [by apply H2|done|]. intros (-> & -> & ->). done.
  - intros c a b Hc HD. rewrite HW'; [|done|tauto]. apply H3; [done|tauto].
  - destruct (ltb 0 (raw qj qi dt)) eqn:E0; cbn [andb]; [apply ltb_true in E0|apply ltb_false in E0].
    + destruct small as [s|].
      * destruct H4 as (H4 & H5 & H6). destruct (ltb (raw qj qi dt) s) eqn:Es; [apply ltb_true in Es|apply ltb_false in Es].
        -- split; [done|]. split; [eauto 6|]. intros c a b Hc [HD|(-> & -> & ->)] Hp; [|lra]. specialize (H6 c a b Hc HD Hp). lra.
        -- split; [done|]. split; [done|]. intros c a b Hc [HD|(-> & -> & ->)] Hp; [by apply H6|done].
      * split; [done|]. split; [eauto 6|]. intros c a b Hc [HD|(-> & -> & ->)] Hp; [|lra]. specialize (H4 c a b Hc HD). lra.
    + destruct small as [s|].
      * destruct H4 as (H4 & H5 & H6). split; [done|]. split; [done|]. intros c a b Hc [HD|(-> & -> & ->)] Hp; [by apply H6|lra].
      * intros c a b Hc [HD|(-> & -> & ->)]; [by apply H4|done].
Qed.
Lemma RI_row D st qi dt : RI D st → (qi < nc)%nat → (dt < nt)%nat → N qi dt = 0%nat → (∀ c, ¬ D c qi dt) → RI (λ c a b, D c a b ∨ (a = qi ∧ b = dt)) st.
Proof.
  intros (H1 & H2 & H3 & H4) Hqi Hdt Hn HnD. destruct st as [ps small]. cbn [fst snd] in *.
  assert (∀ c, raw c qi dt = 0) as Hr by (intros c; unfold raw; by rewrite decide_True).
  split; [done|]. cbn [fst snd]. split; [|split].
  - intros c a b Hc [HD|[-> ->]]; [by apply H2|]. rewrite Hr. by apply H3.
  - intros c a b Hc HD. apply H3; [done|tauto].
  - destruct small as [s|].
    + destruct H4 as (H4 & H5 & H6). split; [done|]. split; [done|]. intros c a b Hc [HD|[-> ->]] Hp; [by apply H6|]. rewrite Hr in Hp. lra.
    + intros c a b Hc [HD|[-> ->]]; [by apply H4|]. rewrite Hr. lra.
Qed.
Lemma rawprobs_ok : ∃ st, rawprobs nc nt tb = Some st ∧ RI (λ _ _ _, True) st.
Proof using HN HM Hdown.
  unfold rawprobs.
  match goal with |- context [foldm ?f _ _] => destruct (foldm_seq f (λ qi st, RI (λ c a b, (a < qi)%nat) st) 0 nc (replicate (nc * nc * nt) 0, None)) as (st & E & H) end.
  - split; [unfold size; cbn [fst]; by rewrite replicate_length|]. cbn [fst snd]. split; [intros; lia|]. split; [|intros; lia].
    intros c a b Hc _. unfold W. destruct (replicate _ _ !! _) eqn:E; [|done]. apply lookup_replicate in E as [-> _]. done.
  - intros qi st Hqi HRI.
    match goal with |- context [foldm ?f _ _] => destruct (foldm_seq f (λ dt st, RI (λ c a b, a < qi ∨ (a = qi ∧ b < dt))%nat st) 0 nt st) as (st1 & E & H) end.
    + eapply RI_weaken; [exact HRI|]. intros; cbn beta; lia.
    + intros dt st1 Hdt HRI1. rewrite HN by lia. case_bool_decide as Hn.
      * exists st1. split; [done|]. eapply RI_weaken; [apply (RI_row _ _ qi dt HRI1); [lia..|done|intros; lia]|]. intros; cbn beta; lia.
      * destruct (foldm_seq (mkprob nc nt tb qi dt (N qi dt)) (λ qj st, RI (λ c a b, a < qi ∨ (a = qi ∧ (b < dt ∨ (b = dt ∧ c < qj))))%nat st) 0 nc st1) as (st2 & E2 & H2).
        -- eapply RI_weaken; [exact HRI1|]. intros; cbn beta; lia.
        -- intros qj st2 Hqj HRI2. destruct (RI_step _ _ qj qi dt HRI2) as (st3 & E3 & H3); [split_and!; lia|done|lia|]. exists st3. split; [done|].
           eapply RI_weaken; [exact H3|]. intros; cbn beta; lia.
        -- exists st2. split; [done|]. eapply RI_weaken; [exact H2|]. intros c a b (? & ? & ?); cbn beta; lia.
    + exists st1. split; [done|]. eapply RI_weaken; [exact H|]. intros c a b (? & ? & ?); cbn beta; lia.
  - exists st. split; [done|]. eapply RI_weaken; [exact H|]. intros c a b (? & ? & ?); cbn beta; lia.
Qed.

(** A pass over cells that changes each of them once *)
Definition PI (F : nat → nat → nat → Q) (W0 : nat → nat → nat → Q) (D : nat → nat → nat → Prop) (ps : list Q) : Prop :=
  size ps ∧ (∀ c a b, incell c a b → D c a b → W ps c a b = F c a b) ∧ (∀ c a b, incell c a b → ¬ D c a b → W ps c a b = W0 c a b).
Lemma PI_weaken F W0 (D D' : nat → nat → nat → Prop) ps : PI F W0 D ps → (∀ c a b, incell c a b → (D c a b ↔ D' c a b)) → PI F W0 D' ps.
Proof.
  intros (H1 & H2 & H3) E. split; [done|]. split.
  - intros c a b Hi HD. apply H2; [done|]. by apply E.
  - intros c a b Hi HD. apply H3; [done|]. by rewrite E.
Qed.
Lemma PI_step F W0 D ps f c a b : PI F W0 D ps → incell c a b → ¬ D c a b → f (W0 c a b) = F c a b →
  ∃ ps', upd f (qqtindex nc nt c a b) ps = Some ps' ∧ PI F W0 (λ c' a' b', D c' a' b' ∨ (c' = c ∧ a' = a ∧ b' = b)) ps'.
Proof.
  intros (H1 & H2 & H3) Hi HnD Hf. destruct (upd_ok f ps c a b H1 Hi) as (ps' & -> & Hs & HW & HW'). exists ps'. split; [done|]. split; [done|]. split.
  - intros c' a' b' Hi' [HD|(-> & -> & ->)].
    + rewrite HW'; [by apply H2|done|]. intros (-> & -> & ->). done.
    + rewrite HW, H3 by done. done.
  - intros c' a' b' Hi' HD. rewrite HW'; [|done|tauto]. apply H3; [done|tauto].
Qed.
Lemma smooth_ok small ps : size ps → ∃ ps', smooth nc nt small ps = Some ps' ∧ PI (λ c a b, W ps c a b + small / 2) (W ps) (λ c a b, (c ≤ a)%nat) ps'.
Proof.
  intros Hs. unfold smooth. set (F := λ c a b, W ps c a b + small / 2).
  match goal with |- context [foldm ?f _ _] => destruct (foldm_seq f (λ qi, PI F (W ps) (λ c a b, c ≤ a ∧ a < qi)%nat) 0 nc ps) as (ps1 & E & H) end.
  - split; [done|]. split; [intros; lia|done].
  - intros qi ps1 Hqi H1.
    match goal with |- context [foldm ?f _ _] => destruct (foldm_seq f (λ dt, PI F (W ps) (λ c a b, c ≤ a ∧ (a < qi ∨ (a = qi ∧ b < dt)))%nat) 0 nt ps1) as (ps2 & E2 & H2) end.
    + eapply PI_weaken; [exact H1|]. intros; cbn beta; lia.
    + intros dt ps2 Hdt H2.
      match goal with |- context [foldm ?f _ _] => destruct (foldm_seq f (λ qj, PI F (W ps) (λ c a b, c ≤ a ∧ (a < qi ∨ (a = qi ∧ (b < dt ∨ (b = dt ∧ c < qj)))))%nat) 0 (S qi) ps2) as (ps3 & E3 & H3) end.
      * eapply PI_weaken; [exact H2|]. intros; cbn beta; lia.
      * intros qj ps3 Hqj H3. destruct (PI_step _ _ _ _ (λ p, p + small / 2) qj qi dt H3) as (ps4 & E4 & H4); [split_and!; lia|lia|done|].
        exists ps4. split; [done|]. eapply PI_weaken; [exact H4|]. intros; cbn beta; lia.
      * exists ps3. split; [done|]. eapply PI_weaken; [exact H3|]. intros c a b (? & ? & ?); cbn beta; lia.
    + exists ps2. split; [done|]. eapply PI_weaken; [exact H2|]. intros c a b (? & ? & ?); cbn beta; lia.
  - exists ps1. split; [done|]. eapply PI_weaken; [exact H|]. intros c a b (? & ? & ?); cbn beta; lia.
Qed.

Lemma sumcells_ok ps qi dt l : size ps → (qi < nc)%nat → (dt < nt)%nat → (∀ x, x ∈ l → (x < nc)%nat) → sumcells nc nt ps qi dt l = Some (accsum (λ c, W ps c qi dt) l 0).
Proof.
  intros Hs Hqi Hdt. unfold sumcells. generalize 0. induction l as [|x l IH]; intros s Hl; [done|]. cbn [foldm].
  rewrite (W_some ps x qi dt Hs) by (split_and!; [apply Hl; left|done..]). rewrite IH; [done|]. intros y Hy. apply Hl. by right.
Qed.
Lemma normalize_ok ps : size ps → (∀ c a b, incell c a b → (c ≤ a)%nat → 0 < W ps c a b) → (∀ c a b, incell c a b → (a < c)%nat → W ps c a b == 0) →
  ∃ ps', normalize nc nt ps = Some ps' ∧ PI (λ c a b, W ps c a b / accsum (λ c, W ps c a b) (seq 0 nc) 0) (W ps) (λ c a b, (c ≤ a)%nat) ps'.
Proof.
  intros Hs Hpos Hzero. unfold normalize. set (F := λ c a b, W ps c a b / accsum (λ c, W ps c a b) (seq 0 nc) 0).
  match goal with |- context [foldm ?f _ _] => destruct (foldm_seq f (λ qi, PI F (W ps) (λ c a b, c ≤ a ∧ a < qi)%nat) 0 nc ps) as (ps1 & E & H) end.
  - split; [done|]. split; [intros; lia|done].
  - intros qi ps1 Hqi H1.
    match goal with |- context [foldm ?f _ _] => destruct (foldm_seq f (λ dt, PI F (W ps) (λ c a b, c ≤ a ∧ (a < qi ∨ (a = qi ∧ b < dt)))%nat) 0 nt ps1) as (ps2 & E2 & H2) end.
    + eapply PI_weaken; [exact H1|]. intros; cbn beta; lia.
    + intros dt ps2 Hdt H2. rewrite (sumcells_ok ps2) by (try apply H2; try lia; intros x Hx%elem_of_seq; lia).
      set (sum := accsum (λ c, W ps c qi dt) (seq 0 nc) 0).
      assert (accsum (λ c, W ps2 c qi dt) (seq 0 nc) 0 = sum) as ->.
      { unfold sum, accsum. assert (∀ l s, (∀ x, x ∈ l → (x < nc)%nat) → foldl (λ s x, s + W ps2 x qi dt) s l = foldl (λ s x, s + W ps x qi dt) s l) as Hl.
        { induction l as [|x l IH]; intros s Hl; [done|]. cbn [foldl]. destruct H2 as (_ & _ & H2). rewrite H2; [|split_and!; [apply Hl; left|lia..]|lia]. apply IH. intros y Hy. apply Hl. by right. }
        apply Hl. intros x Hx%elem_of_seq. lia. }
      assert (sum == Qsum (λ c, W ps c qi dt) (seq 0 (S qi))) as Hsum.
      { unfold sum. rewrite accsum_sum. replace nc with (S qi + (nc - S qi))%nat at 1 by lia. rewrite seq_app, Qsum_app.
        rewrite (Qsum_zero _ (seq (0 + S qi) (nc - S qi))); [lra|]. intros x Hx%elem_of_seq. rewrite Hzero; [lra|split_and!; lia|lia]. }
      assert (0 < sum) as Hp.
      { rewrite Hsum. cbn [seq]. cbn [Qsum]. assert (0 < W ps 0 qi dt) by (apply Hpos; [split_and!; lia|lia]).
        assert (0 <= Qsum (λ c, W ps c qi dt) (seq 1 qi)); [|lra]. rewrite <-(Qsum_zero (λ _, 0) (seq 1 qi)) by done. apply Qsum_le. intros x Hx%elem_of_seq.
        apply Qlt_le_weak, Hpos; [split_and!; lia|lia]. }
      replace (ltb 0 sum) with true by (symmetry; by apply ltb_true). cbn [negb].
      match goal with |- context [foldm ?f _ _] => destruct (foldm_seq f (λ qj, PI F (W ps) (λ c a b, c ≤ a ∧ (a < qi ∨ (a = qi ∧ (b < dt ∨ (b = dt ∧ c < qj)))))%nat) 0 (S qi) ps2) as (ps3 & E3 & H3) end.
      * eapply PI_weaken; [exact H2|]. intros; cbn beta; lia.
      * intros qj ps3 Hqj H3. destruct (PI_step _ _ _ _ (λ p, p / sum) qj qi dt H3) as (ps4 & E4 & H4); [split_and!; lia|lia|done|].
        exists ps4. split; [done|]. eapply PI_weaken; [exact H4|]. intros; cbn beta; lia.
      * rewrite E3. rewrite (sumcells_ok ps3) by (try apply H3; try lia; intros x Hx%elem_of_seq; lia).
        assert (accsum (λ c, W ps3 c qi dt) (seq 0 (S qi)) 0 == 1) as H1'.
        { rewrite accsum_sum. rewrite (Qsum_ext _ (λ c, / sum * W ps c qi dt)).
          - assert (∀ l (f : nat → Q) k, Qsum (λ c, k * f c) l == k * Qsum f l) as Hk.
            { induction l as [|x l IH]; intros f k; cbn [Qsum]; [lra|]. rewrite IH. lra. }
            rewrite Hk, <-Hsum. field. lra.
          - intros x Hx%elem_of_seq. destruct H3 as (_ & H3 & _). rewrite H3; [|split_and!; lia|lia]. unfold F. fold sum. field. lra. }
        replace (ltb (1 - (1 # 100000000)) _) with true by (symmetry; apply ltb_true; rewrite H1'; reflexivity).
        replace (ltb _ (1 + (1 # 100000000))) with true by (symmetry; apply ltb_true; rewrite H1'; reflexivity). cbn [andb].
        exists ps3. split; [done|]. eapply PI_weaken; [exact H3|]. intros c a b (? & ? & ?); cbn beta; lia.
    + exists ps2. split; [done|]. eapply PI_weaken; [exact H2|]. intros c a b (? & ? & ?); cbn beta; lia.
  - exists ps1. split; [done|]. eapply PI_weaken; [exact H|]. intros c a b (? & ? & ?); cbn beta; lia.
Qed.

Lemma mkprobs_ok : (∃ c a b, incell c a b ∧ 0 < raw c a b) → ∃ ps s, mkprobs nc nt tb = Some ps ∧ size ps ∧ 0 < s ∧
  (∃ c a b, incell c a b ∧ raw c a b == 2 * s) ∧ (∀ c a b, incell c a b → 0 < raw c a b → 2 * s <= raw c a b) ∧
  (∀ c a b, incell c a b → (c ≤ a)%nat → W ps c a b == (raw c a b + s) / Qsum (λ c, raw c a b + s) (seq 0 (S a))) ∧
  (∀ c a b, incell c a b → (a < c)%nat → W ps c a b == 0).
Proof using HN HM Hdown.
  intros (c0 & a0 & b0 & Hi0 & Hp0). unfold mkprobs. destruct rawprobs_ok as ([ps [small|]] & -> & (Hs & HW & _ & Hsm)); cbn [fst snd] in *.
  2:{ specialize (Hsm c0 a0 b0 Hi0 I). lra. }
  destruct Hsm as (Hsm0 & (c1 & a1 & b1 & Hi1 & Hr1) & Hmin).
  destruct (smooth_ok small ps Hs) as (ps1 & -> & (Hs1 & HW1 & HW1')).
  assert (∀ c a b, incell c a b → 0 <= raw c a b) as Hnn.
  { intros c a b _. unfold raw. case_decide as E; [lra|]. apply Qle_shift_div_l; [apply qn_pos; lia|]. pose proof (qn_nonneg (M c a b)). lra. }
  assert (∀ c a b, incell c a b → (c ≤ a)%nat → W ps1 c a b == raw c a b + small / 2) as Hc1.
  { intros c a b Hi Hle. rewrite HW1, HW by done. lra. }
  assert (∀ c a b, incell c a b → (a < c)%nat → W ps1 c a b == 0) as Hc2.
  { intros c a b Hi Hlt. rewrite HW1' by (try done; lia). rewrite HW by done. unfold raw. case_decide; [lra|]. rewrite Hdown by done. unfold qn. change (inject_Z (Z.of_nat 0)) with 0. unfold Qdiv. lra. }
  assert (0 < small / 2) as Hh by (apply Qlt_shift_div_l; lra).
  destruct (normalize_ok ps1 Hs1) as (ps2 & -> & (Hs2 & HW2 & HW2')).
  { intros c a b Hi Hle. rewrite Hc1 by done. specialize (Hnn c a b Hi). lra. }
  { exact Hc2. }
  exists ps2, (small / 2). split; [done|]. split; [done|]. split; [done|]. split; [|split; [|split]].
  - exists c1, a1, b1. split; [done|]. rewrite Hr1. field.
  - intros c a b Hi Hp. specialize (Hmin c a b Hi I Hp). assert (2 * (small / 2) == small) by field. lra.
  - intros c a b Hi Hle. pose proof Hi as (? & ? & ?). rewrite HW2 by done. cbn beta. rewrite accsum_sum.
    setoid_replace (0 + Qsum (λ c2, W ps1 c2 a b) (seq 0 nc)) with (Qsum (λ c, raw c a b + small / 2) (seq 0 (S a))); [by rewrite Hc1|].
    replace nc with (S a + (nc - S a))%nat at 1 by lia. rewrite seq_app, Qsum_app. rewrite (Qsum_zero _ (seq (0 + S a) (nc - S a))).
    2:{ intros x Hx%elem_of_seq. apply Hc2; [split_and!; lia|lia]. }
    rewrite (Qsum_ext _ (λ c, raw c a b + small / 2)); [lra|]. intros x Hx%elem_of_seq. apply Hc1; [split_and!; lia|lia].
  - intros c a b Hi Hlt. rewrite HW2' by (try done; lia). by apply Hc2.
Qed.
End probs.

(** ** C70: what training computes *)
Lemma allsuffixes_elem streams s rest : (s, rest) ∈ allsuffixes streams → s ∈ concat streams.
Proof.
  unfold allsuffixes. induction streams as [|st streams IH]; cbn [map concat]; [by intros ?%elem_of_nil|]. rewrite !elem_of_app. intros [H|H]; [left|right; by apply IH].
  clear IH. induction st as [|x st IH]; cbn [suffixes] in H; [by apply elem_of_nil in H|]. apply elem_of_cons in H as [[= -> ->]|H]; [left|right; by apply IH].
Qed.
Lemma allsuffixes_nonempty streams : concat streams ≠ [] → ∃ s rest, (s, rest) ∈ allsuffixes streams.
Proof.
  unfold allsuffixes. induction streams as [|st streams IH]; cbn [map concat]; [done|]. destruct st as [|x st]; cbn [suffixes app]; [apply IH|]. intros _. exists x, st. left.
Qed.

(** Every training set with a solution whose streams are valid is accepted.  The bins divide the range of the data.  The
    probability of going from bin [qi] to bin [qj] in [dt] time bins is the frequency in the data plus [s], divided by
    the sum for all the bins that are not worse; it is zero for worse bins.  Here [s] is half of the least frequency
    that is not zero. *)
Theorem C70_training nc nt streams : (1 ≤ nc)%nat → (1 ≤ nt)%nat → Forall valid streams → concat streams ≠ [] →
  ∃ p s, mkprofile nc nt streams = Some p ∧ ncost p = nc ∧ ntime p = nt ∧ is_extents (ext p) (concat streams) ∧ 0 < s ∧
    length (probs p) = (nc * nc * nt)%nat ∧
    let f := freq nc nt (ext p) (allsuffixes streams) in
    (∃ qj qi dt, (qj < nc ∧ qi < nc ∧ dt < nt)%nat ∧ f qj qi dt == 2 * s) ∧
    (∀ qj qi dt, (qj < nc ∧ qi < nc ∧ dt < nt)%nat → 0 < f qj qi dt → 2 * s <= f qj qi dt) ∧
    ∀ qj qi dt, (qj < nc ∧ qi < nc ∧ dt < nt)%nat → ∃ x, binprob p qj qi dt = Some x ∧
      x == if decide (qj ≤ qi)%nat then (f qj qi dt + s) / Qsum (λ q, f q qi dt + s) (seq 0 (S qi)) else 0.
Proof.
  intros Hnc Hnt Hv Hne. destruct (extents_ok (concat streams) Hne) as (e & Ee & He).
  assert (Forall (inext e) (concat streams)) as Hin. { apply Forall_forall. intros x Hx. by apply (proj1 He). }
  destruct (countsolutions_ok nc nt Hnc Hnt e streams Hv Hin) as (tb & Etb & [Hl1 Hl2] & HA & HB).
  destruct (mkprobs_ok nc nt tb (λ a _, seen nc e (allsuffixes streams) a) (moved nc nt e (allsuffixes streams))) as (ps & s & Eps & Hs & Hs0 & Hmin1 & Hmin2 & Hc1 & Hc2).
  { intros a b Ha Hb. rewrite <-(HA a b Ha Hb). unfold A. destruct (qt tb !! _) eqn:E; [done|]. apply lookup_ge_None in E. pose proof (qtindex_lt nc nt a b). lia. }
  { intros c a b (Hc & Ha & Hb). rewrite <-(HB c a b Ha Hb). unfold BB. destruct (qqt tb !! _) eqn:E; [done|]. apply lookup_ge_None in E. pose proof (qqtindex_lt nc nt c a b). lia. }
  { intros c a b _ Hlt. by apply moved_down. }
  { destruct (allsuffixes_nonempty streams Hne) as (x & rest & Hx). pose proof (allsuffixes_elem _ _ _ Hx) as Hx'. rewrite Forall_forall in Hin.
    destruct (cb_some nc Hnc e x (Hin x Hx')) as (a & Ea & Ha).
    assert (∃ c, costbin nc e (scost (later nt e x rest 0)) = Some c ∧ (c < nc)%nat) as (c & Ec & Hc).
    { apply cb_some; [done|]. apply Hin. unfold later. destruct (last _) as [r|] eqn:El; cbn [default from_option]; unfold id; [|done].
      apply last_Some_elem_of in El. apply elem_of_list_filter in El as [_ El]. clear -Hx El. unfold allsuffixes in Hx.
      induction streams as [|st streams IH]; cbn [map concat] in *; [by apply elem_of_nil in Hx|]. apply elem_of_app in Hx as [Hx|Hx]; apply elem_of_app; [left|right; by apply IH].
      clear IH. induction st as [|y st IH]; cbn [suffixes] in Hx; [by apply elem_of_nil in Hx|]. apply elem_of_cons in Hx as [[= -> ->]|Hx]; right; [done|by apply IH]. }
    exists c, a, 0%nat. split; [split_and!; [done..|lia]|].
    assert (0 < moved nc nt e (allsuffixes streams) c a 0)%nat as Hm.
    { unfold moved. destruct (filter _ _) eqn:E; [|cbn; lia]. exfalso. apply (not_elem_of_nil (x, rest)). rewrite <-E. apply elem_of_list_filter. done. }
    assert (0 < seen nc e (allsuffixes streams) a)%nat as Hn.
    { unfold seen. destruct (filter _ _) eqn:E; [|cbn; lia]. exfalso. apply (not_elem_of_nil (x, rest)). rewrite <-E. apply elem_of_list_filter. done. }
    unfold raw. rewrite decide_False by lia. apply Qlt_shift_div_l; [by apply qn_pos|]. apply qn_pos in Hm. lra. }
  exists (Prof nc nt e ps), s. split; [unfold mkprofile; rewrite getextents_concat, Ee, Etb, Eps; done|]. cbn [ncost ntime ext probs].
  split; [done|]. split; [done|]. split; [done|]. split; [done|]. split; [done|]. cbn zeta.
  assert (∀ c a b, raw (λ a0 _, seen nc e (allsuffixes streams) a0) (moved nc nt e (allsuffixes streams)) c a b = freq nc nt e (allsuffixes streams) c a b) as Hf by done.
  split; [exact Hmin1|]. split; [exact Hmin2|]. intros qj qi dt Hi. exists (W nc nt ps qj qi dt). split.
  - unfold binprob. cbn [ncost ntime probs]. rewrite bool_decide_true by done. by apply W_some.
  - case_decide as Hle; [apply (Hc1 qj qi dt Hi Hle)|]. apply Hc2; [done|lia].
Qed.

Lemma Qsum_scale l (f : nat → Q) k : Qsum (λ c, k * f c) l == k * Qsum f l.
Proof. induction l as [|x l IH]; cbn [Qsum]; [lra|]. rewrite IH. lra. Qed.

(** In particular the probabilities for each bin and time step add up to one, are zero for worse bins and positive for
    the others. *)
Theorem C70_normalised nc nt streams p : (1 ≤ nc)%nat → (1 ≤ nt)%nat → Forall valid streams → concat streams ≠ [] → mkprofile nc nt streams = Some p →
  ∀ qi dt, (qi < nc)%nat → (dt < nt)%nat →
    (∀ qj, (qj < nc)%nat → ∃ x, binprob p qj qi dt = Some x ∧ if decide (qj ≤ qi)%nat then 0 < x else x == 0) ∧
    Qsum (λ qj, default 0 (binprob p qj qi dt)) (seq 0 nc) == 1.
Proof.
  intros Hnc Hnt Hv Hne Ep qi dt Hqi Hdt. destruct (C70_training nc nt streams Hnc Hnt Hv Hne) as (p' & s & Ep' & _ & _ & _ & Hs & _ & _ & _ & H).
  rewrite Ep in Ep'. injection Ep' as <-.
  set (f := freq nc nt (ext p) (allsuffixes streams)) in *. assert (∀ c a b, 0 <= f c a b) as Hnn.
  { intros c a b. unfold f, freq. case_decide as E; [lra|]. apply Qle_shift_div_l; [apply qn_pos; lia|]. pose proof (qn_nonneg (moved nc nt (ext p) (allsuffixes streams) c a b)). lra. }
  set (sum := Qsum (λ q, f q qi dt + s) (seq 0 (S qi))) in *.
  assert (0 < sum) as Hsum.
  { unfold sum. cbn [seq Qsum]. specialize (Hnn 0%nat qi dt) as Hn0. assert (0 <= Qsum (λ q, f q qi dt + s) (seq 1 qi)); [|lra].
    rewrite <-(Qsum_zero (λ _, 0) (seq 1 qi)) by done. apply Qsum_le. intros x _. specialize (Hnn x qi dt). lra. }
  split.
  - intros qj Hqj. destruct (H qj qi dt) as (x & Ex & Hx); [done|]. exists x. split; [done|]. case_decide; [|done]. rewrite Hx. apply Qlt_shift_div_l; [done|].
    specialize (Hnn qj qi dt). lra.
  - replace nc with (S qi + (nc - S qi))%nat at 1 by lia. rewrite seq_app, Qsum_app. rewrite (Qsum_zero _ (seq (0 + S qi) (nc - S qi))).
    2:{ intros x Hx%elem_of_seq. destruct (H x qi dt) as (y & -> & Hy); [lia|]. rewrite decide_False in Hy by lia. done. }
    rewrite (Qsum_ext _ (λ q, / sum * (f q qi dt + s))).
    2:{ intros x Hx%elem_of_seq. destruct (H x qi dt) as (y & -> & Hy); [lia|]. rewrite decide_True in Hy by lia. cbn [default from_option]. unfold id. rewrite Hy. fold sum. field. lra. }
    rewrite Qsum_scale. fold sum. field. lra.
Qed.

(** Without a solution there is no profile: the program stops at an assertion. *)
Theorem C70_no_solution_refuted nc nt streams : concat streams = [] → mkprofile nc nt streams = None.
Proof. intros E. unfold mkprofile. rewrite getextents_concat, E. done. Qed.

Definition example_streams : list stream := [[Sol 10 1; Sol 6 2; Sol 4 4]; [Sol 9 1; Sol 5 3; Sol 2 5]; [Sol 8 2]].
Example example_valid : Forall valid example_streams ∧ concat example_streams ≠ [].
Proof. split; [|done]. unfold example_streams, valid. repeat constructor; cbn; lra. Qed.
Example example_profile : ∃ p, mkprofile 2 3 example_streams = Some p ∧ ext p = Ext 2 10 1 5 ∧
  default 0 (binprob p 0 0 1) == 1 ∧ default 0 (binprob p 1 0 1) == 0 ∧ default 0 (binprob p 0 1 2) == 7 # 10 ∧ default 0 (binprob p 1 1 2) == 3 # 10.
Proof. eexists. split; [vm_compute; reflexivity|]. repeat split; vm_compute; reflexivity. Qed.

(** ** C69: the monitor of a trained profile *)
Theorem C69_trained_policy_optimal nc nt streams wf wt : (1 ≤ nc)%nat → (2 ≤ nt)%nat → Forall valid streams → concat streams ≠ [] → 0 <= wt →
  ∃ p c, mkprofile nc nt streams = Some p ∧ mkmonitor p wf wt = Some c ∧ ∀ q t, (q < nc)%nat → (t < nt)%nat →
    ∃ v, c !! (q * nt + t)%nat = Some (Some (v, decision p c q t)) ∧ ∀ h,
      (∀ π, gain nc (onestep p) (utility p wf wt) π (nt - 1 - t) t h q <= v) ∧
      gain nc (onestep p) (utility p wf wt) (λ h t, match h with q :: _ => decision p c q t | [] => true end) (nt - 1 - t) t h q == v.
Proof.
  intros Hnc Hnt Hv Hne Hwt. destruct (C70_training nc nt streams Hnc ltac:(lia) Hv Hne) as (p & s & Ep & Enc & Ent & He & _ & Hl & _).
  pose proof (C70_normalised nc nt streams p Hnc ltac:(lia) Hv Hne Ep) as HN.
  destruct (C69_policy_optimal p wf wt) as (c & Ec & H).
  - split; [by rewrite Enc, Ent|]. rewrite Enc. intros q1 Hq1. destruct (HN q1 1%nat Hq1 ltac:(lia)) as [Hb Hsum]. split; [|split; [|exact Hsum]].
    + intros q2 Hq2. unfold onestep. destruct (Hb q2 Hq2) as (x & -> & Hx). cbn [default from_option]. unfold id. case_decide; lra.
    + intros q2 [Hlt Hq2]. unfold onestep. destruct (Hb q2 Hq2) as (x & -> & Hx). rewrite decide_False in Hx by lia. done.
  - lia.
  - lia.
  - done.
  - destruct He as (He & _). destruct (allsuffixes_nonempty streams Hne) as (x & r & Hx%allsuffixes_elem). destruct (He x Hx) as [_ [??]]. lra.
  - exists p, c. split; [done|]. split; [done|]. rewrite Enc, Ent in H. exact H.
Qed.

(** When asked about a cost and a time in the range of the data, [stop] answers with the decision of the bin they are in;
    below the range it never stops, at the upper end it always does. *)
Theorem C69_stop p wf wt c cost time : good_profile p → (1 ≤ ncost p)%nat → (2 ≤ ntime p)%nat → mkmonitor p wf wt = Some c →
  let e := ext p in
  (cost < mincost e ∨ time < mintime e → stop p c cost time = Some false) ∧
  (mincost e <= cost → mintime e <= time → maxcost e <= cost ∨ maxtime e <= time → stop p c cost time = Some true) ∧
  (mincost e <= cost → cost < maxcost e → mintime e <= time → time < maxtime e →
   ∃ q t, part (ncost p) (mincost e) (maxcost e) cost q ∧ part (ntime p) (mintime e) (maxtime e) time t ∧ stop p c cost time = Some (decision p c q t)).
Proof.
  intros Hp Hnc Hnt Hc e. destruct (monitor_filled p wf wt Hp Hnc Hnt) as (c' & Ec & _ & Hf). rewrite Hc in Ec. injection Ec as <-. unfold stop. fold e. split; [|split].
  - intros [H|H]; apply ltb_true in H; rewrite H; [done|]. by rewrite orb_true_r.
  - intros H1 H2 H3. apply ltb_false in H1, H2. rewrite H1, H2. cbn [orb]. destruct H3 as [H|H]; apply Qle_bool_iff in H; rewrite H; [done|]. by rewrite orb_true_r.
  - intros H1 H2 H3 H4. pose proof (proj2 (ltb_false _ _) H1) as L1. pose proof (proj2 (ltb_false _ _) H3) as L2. rewrite L1, L2. cbn [orb].
    pose proof (proj2 (ltb_true _ _) H2) as L3. pose proof (proj2 (ltb_true _ _) H4) as L4. unfold ltb in L3, L4. apply negb_true_iff in L3, L4. rewrite L3, L4. cbn [orb].
    set (q := trunc ((cost - mincost e) / qwidth p)). set (t := trunc ((time - mintime e) / twidth p)).
    destruct (part_bin (ncost p) _ _ cost q Hnc H1 H2) as [Hq1 [Hq2 _]]. destruct (part_bin (ntime p) _ _ time t ltac:(lia) H3 H4) as [Ht1 [Ht2 _]].
    change (q < ncost p)%nat in Hq1. change (t < ntime p)%nat in Ht1. exists q, t. split; [by apply Hq2|]. split; [by apply Ht2|].
    unfold index. rewrite bool_decide_true by done. unfold decision. rewrite (Hf q t Hq1 Ht1 I). by destruct (best _ _ _ _ _).
Qed.

(** With a single time bin and several cost bins the monitor is never made: the program stops at an assertion. *)
Theorem C69_single_time_bin_refuted p wf wt : ntime p = 1%nat → (1 < ncost p)%nat → mkmonitor p wf wt = None.
Proof.
  intros E Hnc. unfold mkmonitor. destruct (foldm _ _ _); [|done]. destruct (foldm _ _ _); [|done]. by rewrite bool_decide_true by lia.
Qed.
(** With a negative weight of time (time is a gain), the value of the best bin is too small: the monitor stops there at
    once though waiting is better. *)
Theorem C69_negative_weight_refuted : ∃ p c v, mkprofile 2 3 example_streams = Some p ∧ mkmonitor p 1 (-1) = Some c ∧
  c !! 0%nat = Some (Some (v, true)) ∧ v < gain 2 (onestep p) (utility p 1 (-1)) (λ _ _, false) 2 0 [] 0.
Proof. do 3 eexists. split; [vm_compute; reflexivity|]. split; [vm_compute; reflexivity|]. split; [vm_compute; reflexivity|]. vm_compute. reflexivity. Qed.
(** At the worst cost of the data [stop] says yes even if the policy of the last bin is to go on. *)
Theorem C69_worst_cost_refuted : ∃ p c, mkprofile 2 3 example_streams = Some p ∧ mkmonitor p 1 0 = Some c ∧
  part 2 (mincost (ext p)) (maxcost (ext p)) 10 1 ∧ part 3 (mintime (ext p)) (maxtime (ext p)) 1 0 ∧ decision p c 1 0 = false ∧ stop p c 10 1 = Some true ∧
  stop p c 9 1 = Some false.
Proof.
  do 2 eexists. split; [vm_compute; reflexivity|]. split; [vm_compute; reflexivity|]. split; [|split; [|split; [|split]]]; try (vm_compute; reflexivity).
  - unfold part. cbn [mincost maxcost ext]. split; [lia|]. split; [lra|]. split; [lra|]. left. split; [lra|done].
  - unfold part. cbn [mintime maxtime ext]. split; [lia|]. split; [lra|]. split; [lra|]. right. split; [lra|]. split; [vm_compute; discriminate|vm_compute; reflexivity].
Qed.

Print Assumptions C70_bins.
Print Assumptions C70_training.
Print Assumptions C70_normalised.
Print Assumptions C70_no_solution_refuted.
Print Assumptions C69_policy_optimal.
Print Assumptions C69_trained_policy_optimal.
Print Assumptions C69_stop.
Print Assumptions C69_single_time_bin_refuted.
Print Assumptions C69_negative_weight_refuted.
Print Assumptions C69_worst_cost_refuted.
