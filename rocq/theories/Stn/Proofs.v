(** Lemmas about simple temporal networks. *)
From stdpp Require Import prelude gmap.
From Coq Require Import ZArith Lia ZifyBool.
From Verif.Stn Require Import Model.
Open Scope Z_scope.

Lemma inf_val : inf = 9223372036854775807. Proof. done. Qed.
Lemma neginf_val : neginf = -9223372036854775808. Proof. done. Qed.

Definition rng (z : Z) : Prop := neginf ≤ z ≤ inf.
Definition clamp (z : Z) : Z := Z.max neginf (Z.min inf z).

Lemma madd_ok a b : rng (a + b) → madd a b = Some (a + b).
Proof. unfold rng, madd, inrange. rewrite inf_val, neginf_val. intros. by rewrite (proj2 (andb_true_iff _ _)) by lia. Qed.
Lemma msub_ok a b : rng (a - b) → msub a b = Some (a - b).
Proof. unfold rng, msub, inrange. rewrite inf_val, neginf_val. intros. by rewrite (proj2 (andb_true_iff _ _)) by lia. Qed.

Lemma subclamp_spec a b : rng a → rng b → subclamp a b = Some (clamp (a - b)).
Proof.
  unfold subclamp, clamp, rng. rewrite inf_val, neginf_val. intros Ha Hb.
  destruct (Z.leb_spec 0 b).
  - rewrite madd_ok by (unfold rng; rewrite inf_val, neginf_val; lia). simpl.
    destruct (Z.ltb_spec a (-9223372036854775808 + b)).
    + f_equal. lia.
    + rewrite msub_ok by (unfold rng; rewrite inf_val, neginf_val; lia). f_equal. lia.
  - rewrite madd_ok by (unfold rng; rewrite inf_val, neginf_val; lia). simpl.
    destruct (Z.ltb_spec (9223372036854775807 + b) a).
    + f_equal. lia.
    + rewrite msub_ok by (unfold rng; rewrite inf_val, neginf_val; lia). f_equal. lia.
Qed.

Lemma addclamp_spec a b : rng a → rng b → addclamp a b = Some (clamp (a + b)).
Proof.
  unfold addclamp, clamp, rng. rewrite inf_val, neginf_val. intros Ha Hb.
  destruct (Z.leb_spec 0 b).
  - rewrite msub_ok by (unfold rng; rewrite inf_val, neginf_val; lia). simpl.
    destruct (Z.ltb_spec (9223372036854775807 - b) a).
    + f_equal. lia.
    + rewrite madd_ok by (unfold rng; rewrite inf_val, neginf_val; lia). f_equal. lia.
  - rewrite msub_ok by (unfold rng; rewrite inf_val, neginf_val; lia). simpl.
    destruct (Z.ltb_spec a (-9223372036854775808 - b)).
    + f_equal. lia.
    + rewrite madd_ok by (unfold rng; rewrite inf_val, neginf_val; lia). f_equal. lia.
Qed.

(** ** Both directions at once: [sg] turns upper bounds into lower bounds. *)
Definition sg (d : dir) : Z := match d with Lower => 1 | Upper => -1 end.

Lemma sg_sq d : sg d * sg d = 1.
Proof. by destruct d. Qed.

Lemma move_spec d a b : rng a → rng b → move d a b = Some (clamp (a - sg d * b)).
Proof.
  intros Ha Hb. destruct d; unfold move.
  - rewrite subclamp_spec by done. do 2 f_equal. simpl. lia.
  - rewrite addclamp_spec by done. do 2 f_equal. simpl. lia.
Qed.
Lemma leq_spec d a b : leq d a b = true ↔ sg d * a ≤ sg d * b.
Proof. destruct d; simpl; lia. Qed.
Lemma lt_spec d a b : lt d a b = true ↔ sg d * a < sg d * b.
Proof. destruct d; simpl; lia. Qed.
Lemma clamp_rng z : rng (clamp z).
Proof. unfold rng, clamp. rewrite inf_val, neginf_val. lia. Qed.

(** A clamped move never overshoots, unless clamped at the far end. *)
Lemma clamp_le d t w z :
  rng z → sg d * t - w ≤ sg d * z → sg d * clamp (t - sg d * w) ≤ sg d * z.
Proof. unfold rng, clamp. rewrite inf_val, neginf_val. destruct d; simpl; lia. Qed.
Lemma clamp_improve d t w old :
  rng old → sg d * old < sg d * clamp (t - sg d * w) →
  sg d * clamp (t - sg d * w) ≤ sg d * t - w.
Proof. unfold rng, clamp. rewrite inf_val, neginf_val. destruct d; simpl; lia. Qed.
Lemma clamp_mono d t t' w :
  sg d * t ≤ sg d * t' → sg d * clamp (t - sg d * w) ≤ sg d * clamp (t' - sg d * w).
Proof. unfold clamp. rewrite inf_val, neginf_val. destruct d; simpl; lia. Qed.

(** ** Undoing changes of bounds *)
Definition undoable (T0 T : list Z) (sv : list (nat * Z)) (up : gset nat) : Prop :=
  length T = length T0 ∧ NoDup sv.*1 ∧ (∀ v, v ∈ up ↔ v ∈ sv.*1) ∧
  (∀ v z, (v, z) ∈ sv → T0 !! v = Some z) ∧ (∀ v, v ∉ up → T !! v = T0 !! v).

Lemma restore_length T sv : length (restore T sv) = length T.
Proof.
  revert T. induction sv as [|[v z] sv IH]; intros T; [done|]. simpl. rewrite IH. apply insert_length.
Qed.

Lemma restore_other T sv v : v ∉ sv.*1 → restore T sv !! v = T !! v.
Proof.
  revert T. induction sv as [|[v' z] sv IH]; intros T Hv; [done|]. csimpl in Hv.
  apply not_elem_of_cons in Hv as [Hne Hv]. simpl. rewrite IH by done.
  by rewrite list_lookup_insert_ne.
Qed.

Lemma restore_in T sv v z :
  NoDup sv.*1 → (v, z) ∈ sv → (v < length T)%nat → restore T sv !! v = Some z.
Proof.
  revert T. induction sv as [|[v' z'] sv IH]; intros T Hnd Hin Hlt; [by apply elem_of_nil in Hin|].
  csimpl in Hnd. apply NoDup_cons in Hnd as [Hni Hnd]. simpl.
  apply elem_of_cons in Hin as [Heq|Hin].
  - injection Heq as -> ->. rewrite restore_other by done. by apply list_lookup_insert.
  - apply IH; [done|done|]. by rewrite insert_length.
Qed.

Lemma restore_undoable T0 T sv up : undoable T0 T sv up → restore T sv = T0.
Proof.
  intros (Hlen & Hnd & Hup & Hsv & Hrest). apply list_eq. intros v.
  destruct (decide (v ∈ sv.*1)) as [Hin|Hni].
  - apply elem_of_list_fmap in Hin as ([v' z] & -> & Hin). simpl.
    rewrite (Hsv _ _ Hin). apply restore_in; [done|done|].
    rewrite Hlen. apply Hsv, lookup_lt_Some in Hin. done.
  - rewrite restore_other by done. apply Hrest. by rewrite Hup.
Qed.

Lemma undoable_set T0 st v old z :
  undoable T0 (val st) (saved st) (updt st) → val st !! v = Some old →
  undoable T0 (<[v := z]> (val st)) (save st v old).1 (save st v old).2.
Proof.
  intros (Hlen & Hnd & Hup & Hsv & Hrest) Hold. unfold save. case_decide as Hin; simpl.
  - split_and!; [by rewrite insert_length|done|done|done|].
    intros x Hx. rewrite list_lookup_insert_ne by set_solver. by apply Hrest.
  - split_and!.
    + by rewrite insert_length.
    + rewrite fmap_app. csimpl. apply NoDup_app. split_and!; [done| |apply NoDup_singleton].
      intros x Hx. rewrite elem_of_list_singleton. intros ->. apply Hin. by apply Hup.
    + intros x. rewrite fmap_app, elem_of_app. csimpl. rewrite elem_of_list_singleton.
      rewrite <-Hup. set_solver.
    + intros x y Hx. apply elem_of_app in Hx as [Hx|Hx]; [by apply Hsv|].
      apply elem_of_list_singleton in Hx. injection Hx as -> ->. rewrite <-Hrest; done.
    + intros x Hx. rewrite list_lookup_insert_ne by set_solver. apply Hrest. set_solver.
Qed.

(** ** Propagation in one direction *)
Section prop.
Context (d : dir) (n : nat) (adj : list (list arc)) (oth : list Z).
(** All solutions of the constraints considered. *)
Context (sol : (nat → Z) → Prop).

Hypothesis adj_len : length adj = n.
Hypothesis oth_len : length oth = n.
Hypothesis adj_ok : ∀ u arcs v w, adj !! u = Some arcs → (v, w) ∈ arcs → (v < n)%nat ∧ rng w.
Hypothesis sol_rng : ∀ x v, sol x → (v < n)%nat → rng (x v).
Hypothesis sol_arc : ∀ x u arcs v w, sol x → adj !! u = Some arcs → (v, w) ∈ arcs →
  sg d * x u - w ≤ sg d * x v.
Hypothesis sol_oth : ∀ x v, sol x → (v < n)%nat → sg d * x v ≤ sg d * (oth !!! v).

(** The bounds list is well formed, below every solution and below the opposite bounds. *)
Definition good (T : list Z) : Prop :=
  length T = n ∧ (∀ v, (v < n)%nat → rng (T !!! v)) ∧
  (∀ v, (v < n)%nat → sg d * (T !!! v) ≤ sg d * (oth !!! v)) ∧
  (∀ x v, sol x → (v < n)%nat → sg d * (T !!! v) ≤ sg d * x v).

(** All arcs at [u] are respected. *)
Definition arc_sat (T : list Z) (u : nat) (a : arc) : Prop :=
  sg d * clamp (T !!! u - sg d * a.2) ≤ sg d * (T !!! a.1).
Definition node_sat (T : list Z) (u : nat) : Prop :=
  ∀ arcs a, adj !! u = Some arcs → a ∈ arcs → arc_sat T u a.

Definition mono (T T' : list Z) : Prop := ∀ v, (v < n)%nat → sg d * (T !!! v) ≤ sg d * (T' !!! v).

(** Every seen node leads to [u] by a path along which the bounds were set. *)
Definition path (T : list Z) (S : gset nat) (u : nat) : Prop :=
  ∀ s, s ∈ S → (s < n)%nat ∧ ∃ W, sg d * (T !!! u) ≤ sg d * (T !!! s) - W ∧
    ∀ x, sol x → sg d * x s - W ≤ sg d * x u.

Record post (st st' : pstate) (u : nat) : Prop := {
  p_seen : seen st' = seen st;
  p_good : good (val st');
  p_mono : mono (val st) (val st');
  p_same : ∀ s, s ∈ seen st → (s < n)%nat → val st' !!! s = val st !!! s;
  p_sat : ∀ x, (x < n)%nat → val st' !!! x ≠ val st !!! x → node_sat (val st') x }.

Definition undo_ok (st st' : pstate) : Prop :=
  ∀ T0, undoable T0 (val st) (saved st) (updt st) → undoable T0 (val st') (saved st') (updt st').

Lemma arc_sat_mono T T' u a :
  (u < n)%nat → (a.1 < n)%nat → T' !!! u = T !!! u → mono T T' → arc_sat T u a → arc_sat T' u a.
Proof. intros Hu Ha He Hm Hs. unfold arc_sat in *. rewrite He. pose proof (Hm _ Ha). lia. Qed.

Lemma node_sat_mono T T' u :
  (u < n)%nat → T' !!! u = T !!! u → mono T T' → node_sat T u → node_sat T' u.
Proof.
  intros Hu He Hm Hs arcs a Harcs Ha. eapply arc_sat_mono; [done| |done|done|by eapply Hs].
  destruct a as [v w]. by eapply adj_ok.
Qed.

Lemma lookup_total_Some (T : list Z) v : (v < length T)%nat → T !! v = Some (T !!! v).
Proof. intros H. by apply list_lookup_lookup_total_lt. Qed.
Lemma insert_total_same (T : list Z) v z : (v < length T)%nat → <[v := z]> T !!! v = z.
Proof. intros H. by apply list_lookup_total_insert. Qed.
Lemma insert_total_other (T : list Z) v u z : u ≠ v → <[v := z]> T !!! u = T !!! u.
Proof. intros H. by apply list_lookup_total_insert_ne. Qed.

(** Specification of a call at [u]. *)
Definition call_spec (f : pstate → nat → option (pstate * bool)) (k : nat) : Prop :=
  ∀ st u, (u < n)%nat → good (val st) → path (val st) (seen st) u →
    u ∈ seen st ∨ seen st = ∅ → (n - size (seen st) < k)%nat →
    ∃ st' ok, f st u = Some (st', ok) ∧ undo_ok st st' ∧
      if (ok : bool) then post st st' u ∧ node_sat (val st') u else ∀ x, ¬ sol x.

Lemma seen_size (S : gset nat) : (∀ s, s ∈ S → (s < n)%nat) → (size S ≤ n)%nat.
Proof.
  intros H. rewrite <-(seq_length n 0). rewrite <-(size_list_to_set (C := gset nat)) by apply NoDup_seq.
  apply subseteq_size. intros s Hs. apply elem_of_list_to_set. apply elem_of_seq. specialize (H s Hs). lia.
Qed.

Lemma loop_spec f k u arcs_all :
  call_spec f k → adj !! u = Some arcs_all → (u < n)%nat → ∀ arcs st,
  (∀ a, a ∈ arcs → a ∈ arcs_all) → good (val st) → path (val st) (seen st) u →
  u ∈ seen st ∨ seen st = ∅ → (n - size (seen st) < S k)%nat →
  ∃ st' ok, loop f d oth st u arcs = Some (st', ok) ∧ undo_ok st st' ∧
    if (ok : bool) then
      post st st' u ∧ (val st' !!! u = val st !!! u → ∀ a, a ∈ arcs → arc_sat (val st') u a)
    else ∀ x, ¬ sol x.
Proof.
  intros Hf Hadj Hu. induction arcs as [|[v w] arcs IH]; intros st Hsub Hg Hp Hst Hk.
  - exists st, true. split; [done|]. split; [by intros T0 H|]. split.
    + split; try done. intros x Hx. lia.
    + intros _ a Ha. by apply elem_of_nil in Ha.
  - assert ((v, w) ∈ arcs_all) as Hvw by (apply Hsub; by left).
    destruct (adj_ok _ _ _ _ Hadj Hvw) as [Hv Hw].
    pose proof Hg as (Hlen & Hrng & Hoth & Hsound).
    cbn [loop].
    rewrite (lookup_total_Some (val st) u) by lia. cbn [mbind option_bind].
    rewrite (lookup_total_Some (val st) v) by lia. cbn [mbind option_bind].
    rewrite (lookup_total_Some oth v) by lia. cbn [mbind option_bind].
    rewrite move_spec by auto. cbn [mbind option_bind].
    set (dist := clamp (val st !!! u - sg d * w)).
    assert (rng dist) as Hdist by apply clamp_rng.
    assert (∀ x, sol x → sg d * dist ≤ sg d * x v) as Hdsound.
    { intros x Hx. apply clamp_le; [by auto|].
      pose proof (sol_arc x u arcs_all v w Hx Hadj Hvw). pose proof (Hsound x u Hx Hu). lia. }
    destruct (leq d dist (val st !!! v)) eqn:Eleq.
    + (* not better *)
      apply leq_spec in Eleq.
      destruct (IH st) as (st' & ok & -> & Hundo & Hpost); [set_solver|done|done|done|done|].
      exists st', ok. split; [done|]. split; [done|]. destruct ok; [|done].
      destruct Hpost as [Hpost Harcs]. split; [done|]. intros He a Ha.
      apply elem_of_cons in Ha as [->|Ha]; [|by apply Harcs].
      eapply (arc_sat_mono (val st)); [done|done|done|apply (p_mono _ _ _ Hpost)|].
      unfold arc_sat. simpl. done.
    + assert (sg d * (val st !!! v) < sg d * dist) as Hbetter.
      { apply not_true_iff_false in Eleq. rewrite leq_spec in Eleq. lia. }
      clear Eleq.
      destruct (lt d (oth !!! v) dist) eqn:Elt.
      { (* conflict with the opposite bound *)
        simpl. exists st, false. split; [done|]. split; [by intros T0 H|].
        intros x Hx. apply lt_spec in Elt. pose proof (sol_oth x v Hx Hv). pose proof (Hdsound x Hx). lia. }
      assert (sg d * dist ≤ sg d * (oth !!! v)) as Hdo.
      { apply not_true_iff_false in Elt. rewrite lt_spec in Elt. lia. }
      clear Elt. simpl.
      pose proof (clamp_improve d (val st !!! u) w (val st !!! v) (Hrng v Hv) Hbetter) as Himp.
      fold dist in Himp.
      case_bool_decide as Hseen.
      { (* a cycle *)
        exists st, false. split; [done|]. split; [by intros T0 H|].
        intros x Hx. destruct (Hp v Hseen) as (_ & W & HW & Hsol).
        pose proof (sol_arc x u arcs_all v w Hx Hadj Hvw). pose proof (Hsol x Hx). lia. }
      destruct (save st v (val st !!! v)) as [sv up] eqn:Esave.
      set (st1 := PS (<[v:=dist]> (val st)) sv up ({[v]} ∪ seen st)).
      assert (good (val st1)) as Hg1.
      { split_and!.
        - simpl. by rewrite insert_length.
        - intros x Hx. simpl. destruct (decide (x = v)) as [->|].
          + by rewrite insert_total_same by lia.
          + rewrite insert_total_other by done. auto.
        - intros x Hx. simpl. destruct (decide (x = v)) as [->|].
          + by rewrite insert_total_same by lia.
          + rewrite insert_total_other by done. auto.
        - intros x y Hx Hy. simpl. destruct (decide (y = v)) as [->|].
          + rewrite insert_total_same by lia. auto.
          + rewrite insert_total_other by done. auto. }
      assert (mono (val st) (val st1)) as Hmono1.
      { intros x Hx. simpl. destruct (decide (x = v)) as [->|].
        - rewrite insert_total_same by lia. lia.
        - rewrite insert_total_other by done. lia. }
      assert (undo_ok st st1) as Hundo1.
      { intros T0 H. simpl. pose proof (undoable_set T0 st v (val st !!! v) dist H) as Hs.
        rewrite Esave in Hs. apply Hs. by apply lookup_total_Some; lia. }
      assert (size (seen st1) = S (size (seen st))) as Hsize.
      { simpl. rewrite size_union by set_solver. rewrite size_singleton. done. }
      assert (∀ s, s ∈ seen st1 → (s < n)%nat) as Hseenlt.
      { intros s. simpl. rewrite elem_of_union, elem_of_singleton. intros [->|Hs]; [done|]. by apply Hp. }
      pose proof (seen_size _ Hseenlt) as Hsz1.
      assert (path (val st1) (seen st1) v) as Hp1.
      { intros s Hs. split; [by apply Hseenlt|]. simpl in *.
        apply elem_of_union in Hs as [->%elem_of_singleton|Hs].
        - exists 0. split; [lia|]. intros x Hx. lia.
        - assert (s ≠ v) by congruence.
          destruct (Hp s Hs) as (Hsn & W & HW & Hsol). exists (W + w).
          rewrite insert_total_same by lia. rewrite insert_total_other by done. split; [lia|].
          intros x Hx. pose proof (sol_arc x u arcs_all v w Hx Hadj Hvw). pose proof (Hsol x Hx). lia. }
      destruct (Hf st1 v) as (st2 & ok & -> & Hundo2 & Hpost2); [done|done|done|left; simpl; set_solver|lia|].
      cbn [mbind option_bind]. destruct ok.
      2:{ exists st2, false. split; [done|]. split; [|done]. intros T0 H. apply Hundo2, Hundo1, H. }
      destruct Hpost2 as [Hpost2 Hsatv].
      set (st3 := PS (val st2) (saved st2) (updt st2) (seen st2 ∖ {[v]})).
      assert (seen st3 = seen st) as Hseen3.
      { simpl. rewrite (p_seen _ _ _ Hpost2). simpl. set_solver. }
      assert (∀ s, s ∈ seen st → (s < n)%nat → val st3 !!! s = val st !!! s) as Hsame3.
      { intros s Hs Hsn. simpl. rewrite (p_same _ _ _ Hpost2) by (simpl; set_solver).
        simpl. apply insert_total_other. congruence. }
      assert (mono (val st) (val st3)) as Hmono3.
      { intros x Hx. pose proof (Hmono1 x Hx). pose proof (p_mono _ _ _ Hpost2 x Hx). simpl in *. lia. }
      assert (val st2 !!! v = dist) as Hv2.
      { rewrite (p_same _ _ _ Hpost2) by (simpl; set_solver). simpl. apply insert_total_same. lia. }
      assert (∀ x, (x < n)%nat → val st3 !!! x ≠ val st !!! x → node_sat (val st3) x) as Hsat3.
      { intros x Hx Hne. simpl in *. destruct (decide (x = v)) as [->|Hxv]; [done|].
        apply (p_sat _ _ _ Hpost2); [done|]. simpl. rewrite insert_total_other by done. done. }
      destruct (IH st3) as (st' & ok & Hloop & Hundo' & Hpost').
      * set_solver.
      * apply (p_good _ _ _ Hpost2).
      * rewrite Hseen3. intros s Hs. destruct (Hp s Hs) as (Hsn & W & HW & Hsol).
        split; [done|]. exists W. destruct Hst as [Hin|Hemp]; [|set_solver].
        rewrite !Hsame3 by done. done.
      * by rewrite Hseen3.
      * by rewrite Hseen3.
      * exists st', ok. split; [exact Hloop|].
        split. { intros T0 H. apply Hundo'. simpl. apply Hundo2, Hundo1, H. }
        destruct ok; [|done]. destruct Hpost' as [Hpost' Harcs'].
        assert (post st st' u) as Hpost.
        { split.
          - by rewrite (p_seen _ _ _ Hpost').
          - apply (p_good _ _ _ Hpost').
          - intros x Hx. pose proof (Hmono3 x Hx). pose proof (p_mono _ _ _ Hpost' x Hx). lia.
          - intros s Hs Hsn. rewrite (p_same _ _ _ Hpost') by (try done; by rewrite Hseen3). by apply Hsame3.
          - intros x Hx Hne. destruct (decide (val st' !!! x = val st3 !!! x)) as [He|Hne'].
            + eapply (node_sat_mono (val st3)); [done|done|apply (p_mono _ _ _ Hpost')|].
              apply Hsat3; [done|]. congruence.
            + by apply (p_sat _ _ _ Hpost'). }
        split; [done|].
        intros He a Ha.
        assert (val st3 !!! u = val st !!! u ∧ val st' !!! u = val st3 !!! u) as [He3 He'].
        { pose proof (Hmono3 u Hu). pose proof (p_mono _ _ _ Hpost' u Hu).
          rewrite He in *. split; destruct d; simpl in *; lia. }
        apply elem_of_cons in Ha as [->|Ha]; [|by apply Harcs'].
        eapply (arc_sat_mono (val st3)); [done|done|done|apply (p_mono _ _ _ Hpost')|].
        unfold arc_sat. cbn [fst snd]. rewrite He3. fold dist. simpl. rewrite Hv2. lia.
Qed.

Lemma prop_call_spec k : call_spec (prop k d adj oth) k.
Proof.
  induction k as [|k IH]; intros st u Hu Hg Hp Hst Hk; [lia|].
  destruct (lookup_lt_is_Some_2 adj u) as [arcs Harcs]; [lia|].
  simpl. rewrite Harcs. cbn [mbind option_bind].
  destruct (loop_spec (prop k d adj oth) k u arcs IH Harcs Hu arcs st) as (st' & ok & Hl & Hundo & Hpost);
    [done|done|done|done|done|].
  exists st', ok. split; [exact Hl|]. split; [done|]. destruct ok; [|done].
  destruct Hpost as [Hpost Hsat]. split; [done|].
  destruct (decide (val st' !!! u = val st !!! u)) as [He|Hne].
  - intros arcs' a Harcs' Ha. rewrite Harcs in Harcs'. injection Harcs' as <-. by apply Hsat.
  - by apply (p_sat _ _ _ Hpost).
Qed.

End prop.
