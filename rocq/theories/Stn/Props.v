(** C17-C20: simple temporal networks. *)
From stdpp Require Import prelude gmap.
From Coq Require Import ZArith Lia ZifyBool.
From Verif.Stn Require Import Model Proofs.
Open Scope Z_scope.

(** ** Specification *)

Definition MAX : Z := 9223372036854775807.
Definition MIN : Z := -9223372036854775808.

(** A long. *)
Definition long (z : Z) : Prop := MIN ≤ z ≤ MAX.

(** The assignment [x] of times meets constraint [c]: a ≤ x_j − x_i ≤ b, where b = MAX and a = MIN
    mean unbounded. *)
Definition holds (x : nat → Z) (c : constr) : Prop :=
  (cb c < MAX → x (cj c) - x (ci c) ≤ cb c) ∧ (MIN < ca c → ca c ≤ x (cj c) - x (ci c)).

(** Times for the time points 0 .. n−1, time point 0 being the origin. *)
Definition solution (n : nat) (cs : list constr) (x : nat → Z) : Prop :=
  x 0%nat = 0 ∧ (∀ v, (v < n)%nat → long (x v)) ∧ ∀ c, c ∈ cs → holds x c.

(** A constraint that can be written down for a network of n time points. *)
Definition wf_constr (n : nat) (c : constr) : Prop :=
  (ci c < n)%nat ∧ (cj c < n)%nat ∧ long (ca c) ∧ long (cb c).

(** The networks a program can build with the constructor, add and undo, together with the
    accepted and not undone constraints, latest first. *)
Inductive reach (num : nat) : stn → list constr → Prop :=
| r_new : reach num (new num) []
| r_accept s cs c s' :
    reach num s cs → wf_constr (num + 1) c → add s c = Some (s', true) → reach num s' (c :: cs)
| r_reject s cs c s' :
    reach num s cs → wf_constr (num + 1) c → add s c = Some (s', false) → reach num s' cs
| r_undo s c cs s' : reach num s (c :: cs) → undo s = Some s' → reach num s' cs.

(** ** Invariant *)

Lemma MAX_inf : MAX = inf. Proof. done. Qed.
Lemma MIN_neginf : MIN = neginf. Proof. done. Qed.
Lemma long_rng z : long z ↔ rng z. Proof. done. Qed.

(** Arc (u, v, w): x_v ≤ x_u + w. *)
Definition arcs_of (c : constr) : list (nat * nat * Z) :=
  (if cb c <? inf then [(ci c, cj c, cb c)] else []) ++
  (if neginf <? ca c then [(cj c, ci c, - ca c)] else []).

Lemma arcs_of_holds x c : holds x c ↔ ∀ u v w, (u, v, w) ∈ arcs_of c → x v ≤ x u + w.
Proof.
  unfold holds, arcs_of. rewrite MAX_inf, MIN_neginf. split.
  - intros [Hb Ha] u v w. rewrite elem_of_app.
    destruct (Z.ltb_spec (cb c) inf), (Z.ltb_spec neginf (ca c));
      rewrite ?elem_of_list_singleton, ?elem_of_nil; intros [H1|H1]; try done; simplify_eq; lia.
  - intros H. split; intros Hlt.
    + assert (x (cj c) ≤ x (ci c) + cb c); [|lia]. apply H. apply elem_of_app. left.
      rewrite (proj2 (Z.ltb_lt _ _)) by done. by left.
    + assert (x (ci c) ≤ x (cj c) + - ca c); [|lia]. apply H. apply elem_of_app. right.
      rewrite (proj2 (Z.ltb_lt _ _)) by done. by left.
Qed.

Lemma arcs_of_wf n c u v w :
  wf_constr n c → (u, v, w) ∈ arcs_of c → (u < n)%nat ∧ (v < n)%nat ∧ rng w.
Proof.
  unfold wf_constr, arcs_of, long, MIN, MAX, rng. rewrite inf_val, neginf_val. intros (Hi & Hj & Ha & Hb).
  rewrite elem_of_app.
  destruct (Z.ltb_spec (cb c) 9223372036854775807), (Z.ltb_spec (-9223372036854775808) (ca c));
    rewrite ?elem_of_list_singleton, ?elem_of_nil; intros [H1|H1]; try done; simplify_eq; repeat split; try done; lia.
Qed.

(** The arcs stored at the nodes. *)
Record arcs_ok (n : nat) (o i : list (list arc)) (cs : list constr) : Prop := {
  a_olen : length o = n;
  a_ilen : length i = n;
  a_out : ∀ u arcs, o !! u = Some arcs → ∀ v w, (v, w) ∈ arcs ↔ ∃ c, c ∈ cs ∧ (u, v, w) ∈ arcs_of c;
  a_inn : ∀ v arcs, i !! v = Some arcs → ∀ u w, (u, w) ∈ arcs ↔ ∃ c, c ∈ cs ∧ (u, v, w) ∈ arcs_of c }.

Record inv (n : nat) (s : stn) (cs : list constr) : Prop := {
  i_pos : (0 < n)%nat;
  i_wf : ∀ c, c ∈ cs → wf_constr n c;
  i_arcs : arcs_ok n (out s) (inn s) cs;
  i_lo : good Lower n (fromzero s) (solution n cs) (tozero s);
  i_hi : good Upper n (tozero s) (solution n cs) (fromzero s);
  i_zero : tozero s !!! 0%nat = 0 ∧ fromzero s !!! 0%nat = 0;
  i_lofix : ∀ u, (u < n)%nat → node_sat Lower (inn s) (tozero s) u;
  i_hifix : ∀ u, (u < n)%nat → node_sat Upper (out s) (fromzero s) u }.

Lemma inv_nnodes n s cs : inv n s cs → nnodes s = n.
Proof. intros H. apply (i_lo _ _ _ H). Qed.

Lemma rep_total {A} `{Inhabited A} (a : A) k v : (v < k)%nat → replicate k a !!! v = a.
Proof. intros Hv. apply list_lookup_total_correct. by apply lookup_replicate_2. Qed.

Lemma inv_new num : inv (num + 1) (new num) [].
Proof.
  assert (∀ v, (v < num + 1)%nat → rng ((0 :: replicate num neginf) !!! v)) as Hl.
  { intros [|v] Hv; [by vm_compute|]. change (rng (replicate num neginf !!! v)).
    rewrite rep_total by lia. by vm_compute. }
  assert (∀ v, (v < num + 1)%nat → rng ((0 :: replicate num inf) !!! v)) as Hh.
  { intros [|v] Hv; [by vm_compute|]. change (rng (replicate num inf !!! v)).
    rewrite rep_total by lia. by vm_compute. }
  assert (∀ v, (v < num + 1)%nat →
    ((0 :: replicate num neginf) !!! v) ≤ ((0 :: replicate num inf) !!! v)) as Hlh.
  { intros [|v] Hv; [by vm_compute|]. change ((replicate num neginf !!! v) ≤ (replicate num inf !!! v)).
    rewrite !rep_total by lia. by vm_compute. }
  split; simpl.
  - lia.
  - intros c Hc. by apply elem_of_nil in Hc.
  - split; simpl; try by rewrite replicate_length.
    + intros u arcs Hu v w. apply lookup_replicate in Hu as [-> _]. rewrite elem_of_nil.
      split; [done|]. intros (c & Hc & _). by apply elem_of_nil in Hc.
    + intros u arcs Hu v w. apply lookup_replicate in Hu as [-> _]. rewrite elem_of_nil.
      split; [done|]. intros (c & Hc & _). by apply elem_of_nil in Hc.
  - split_and!.
    + simpl. rewrite replicate_length. lia.
    + done.
    + intros v Hv. pose proof (Hlh v Hv). simpl sg. lia.
    + intros x [|v] (H0 & Hr & _) Hv.
      * change (sg Lower * 0 ≤ sg Lower * x 0%nat). rewrite H0. done.
      * change (sg Lower * (replicate num neginf !!! v) ≤ sg Lower * x (S v)).
        rewrite rep_total by lia. specialize (Hr (S v) Hv). unfold long in Hr. rewrite MIN_neginf in Hr.
        simpl sg. lia.
  - split_and!.
    + simpl. rewrite replicate_length. lia.
    + done.
    + intros v Hv. pose proof (Hlh v Hv). simpl sg. lia.
    + intros x [|v] (H0 & Hr & _) Hv.
      * change (sg Upper * 0 ≤ sg Upper * x 0%nat). rewrite H0. done.
      * change (sg Upper * (replicate num inf !!! v) ≤ sg Upper * x (S v)).
        rewrite rep_total by lia. specialize (Hr (S v) Hv). unfold long in Hr. rewrite MAX_inf in Hr.
        simpl sg. lia.
  - done.
  - intros u Hu arcs a Harcs Ha. apply lookup_replicate in Harcs as [-> _]. by apply elem_of_nil in Ha.
  - intros u Hu arcs a Harcs Ha. apply lookup_replicate in Harcs as [-> _]. by apply elem_of_nil in Ha.
Qed.

(** *** Adding arcs *)

Lemma pusharc_len l u a : length (pusharc l u a) = length l.
Proof. apply alter_length. Qed.
Lemma pusharc_lookup l u a v arcs :
  pusharc l u a !! v = Some arcs →
  ∃ arcs0, l !! v = Some arcs0 ∧ arcs = if decide (u = v) then arcs0 ++ [a] else arcs0.
Proof.
  unfold pusharc. destruct (decide (u = v)) as [->|Hne].
  - rewrite list_lookup_alter. destruct (l !! v) as [x|]; [|done]. simpl. intros [= <-]. by exists x.
  - rewrite list_lookup_alter_ne by done. intros ->. by exists arcs.
Qed.

Definition arc_in (o : list (list arc)) (u v : nat) (w : Z) : Prop :=
  ∃ arcs, o !! u = Some arcs ∧ (v, w) ∈ arcs.

Lemma pusharc_in l u a x v w :
  (u < length l)%nat →
  (arc_in (pusharc l u a) x v w ↔ arc_in l x v w ∨ (x = u ∧ (v, w) = a)).
Proof.
  intros Hu. unfold arc_in. split.
  - intros (arcs & Harcs & Hin). apply pusharc_lookup in Harcs as (arcs0 & H0 & ->).
    case_decide; [|by left; eauto]. subst x. apply elem_of_app in Hin as [Hin|Hin]; [by left; eauto|].
    apply elem_of_list_singleton in Hin. by right.
  - intros [(arcs & Harcs & Hin)|[-> Heq]].
    + destruct (decide (u = x)) as [->|Hne].
      * exists (arcs ++ [a]). unfold pusharc. rewrite list_lookup_alter, Harcs. split; [done|].
        apply elem_of_app. by left.
      * exists arcs. unfold pusharc. by rewrite list_lookup_alter_ne.
    + destruct (lookup_lt_is_Some_2 l u Hu) as [arcs Harcs]. exists (arcs ++ [a]).
      unfold pusharc. rewrite list_lookup_alter, Harcs. split; [done|].
      apply elem_of_app. right. apply elem_of_list_singleton. done.
Qed.

Definition arcs_ok' (n : nat) (o i : list (list arc)) (P : nat → nat → Z → Prop) : Prop :=
  length o = n ∧ length i = n ∧
  (∀ u v w, (u < n)%nat → (arc_in o u v w ↔ P u v w)) ∧
  (∀ u v w, (v < n)%nat → (arc_in i v u w ↔ P u v w)).

Lemma arcs_ok_alt n o i cs :
  arcs_ok n o i cs ↔ arcs_ok' n o i (λ u v w, ∃ c, c ∈ cs ∧ (u, v, w) ∈ arcs_of c).
Proof.
  split.
  - intros [Ho Hi Hout Hinn]. split_and!; [done|done| |].
    + intros u v w Hu. destruct (lookup_lt_is_Some_2 o u) as [arcs Harcs]; [lia|].
      rewrite <-(Hout u arcs Harcs). unfold arc_in. split; [intros (? & ? & ?); by simplify_eq|eauto].
    + intros u v w Hu. destruct (lookup_lt_is_Some_2 i v) as [arcs Harcs]; [lia|].
      rewrite <-(Hinn v arcs Harcs). unfold arc_in. split; [intros (? & ? & ?); by simplify_eq|eauto].
  - intros (Ho & Hi & Hout & Hinn). split; [done|done| |].
    + intros u arcs Harcs v w. rewrite <-Hout by (apply lookup_lt_Some in Harcs; lia).
      unfold arc_in. split; [eauto|intros (? & ? & ?); by simplify_eq].
    + intros v arcs Harcs u w. rewrite <-Hinn by (apply lookup_lt_Some in Harcs; lia).
      unfold arc_in. split; [eauto|intros (? & ? & ?); by simplify_eq].
Qed.

Lemma addarc_ok n o i P u v w :
  (u < n)%nat → (v < n)%nat → arcs_ok' n o i P →
  arcs_ok' n (pusharc o u (v, w)) (pusharc i v (u, w)) (λ x y z, P x y z ∨ (x, y, z) = (u, v, w)).
Proof.
  intros Hu Hv (Ho & Hi & Hout & Hinn). split_and!; [by rewrite pusharc_len|by rewrite pusharc_len| |].
  - intros x y z Hx. rewrite pusharc_in by lia. rewrite Hout by done. naive_solver.
  - intros x y z Hx. rewrite pusharc_in by lia. rewrite Hinn by done. naive_solver.
Qed.

Lemma arcs_ok'_ext n o i P Q :
  (∀ u v w, P u v w ↔ Q u v w) → arcs_ok' n o i P → arcs_ok' n o i Q.
Proof.
  intros HPQ (Ho & Hi & Hout & Hinn). split_and!; [done|done| |];
    intros; rewrite <-HPQ; auto.
Qed.

Lemma mneg_ok a : long a → neginf < a → mneg a = Some (- a).
Proof.
  unfold long, MIN, MAX, mneg, inrange. rewrite inf_val, neginf_val. intros.
  by rewrite (proj2 (andb_true_iff _ _)) by lia.
Qed.

Lemma addarcs_ok n o i cs c :
  wf_constr n c → arcs_ok n o i cs →
  ∃ o' i' p, addarcs o i c = Some ((o', i'), p) ∧ arcs_ok n o' i' (c :: cs) ∧
    poparcs (o', i') p = Some (o, i).
Proof.
  intros (Hi & Hj & Ha & Hb) Hok. rewrite arcs_ok_alt in Hok.
  pose proof Hok as (Hol & Hil & _).
  assert (∀ (o i : list (list arc)) u v w, (u < length o)%nat → (v < length i)%nat →
    poparc (addarc o i u v w) u = Some (o, i)) as Hpop.
  { clear. intros o i u v w Hu Hv. unfold poparc, addarc, pusharc.
    destruct (lookup_lt_is_Some_2 o u Hu) as [ou Hou]. destruct (lookup_lt_is_Some_2 i v Hv) as [iv Hiv].
    unfold arc in *.
    rewrite list_lookup_alter, Hou. csimpl. rewrite last_snoc. csimpl.
    rewrite list_lookup_alter, Hiv. csimpl. rewrite last_snoc. csimpl. rewrite decide_True by done.
    rewrite !removelast_last.
    f_equal. f_equal.
    - apply list_eq. intros x. destruct (decide (x = u)) as [->|].
      + rewrite list_lookup_insert by (by rewrite alter_length). done.
      + rewrite list_lookup_insert_ne by done. by rewrite list_lookup_alter_ne.
    - apply list_eq. intros x. destruct (decide (x = v)) as [->|].
      + rewrite list_lookup_insert by (by rewrite alter_length). done.
      + rewrite list_lookup_insert_ne by done. by rewrite list_lookup_alter_ne. }
  assert (∀ (l : list (list arc)) x y a b, x ≠ y →
    pusharc (pusharc l x a) y b = pusharc (pusharc l y b) x a) as Hcomm.
  { clear. intros l x y a b Hxy. unfold pusharc. apply list_eq. intros z.
    destruct (decide (z = y)) as [->|]; [|destruct (decide (z = x)) as [->|]].
    - rewrite list_lookup_alter. rewrite !list_lookup_alter_ne by done.
      by rewrite list_lookup_alter.
    - rewrite (list_lookup_alter_ne _ _ y) by done. rewrite !list_lookup_alter.
      by rewrite list_lookup_alter_ne by done.
    - by rewrite !list_lookup_alter_ne by done. }
  unfold addarcs.
  destruct (Z.ltb_spec (cb c) inf) as [Hbi|Hbi], (Z.ltb_spec neginf (ca c)) as [Han|Han].
  - rewrite mneg_ok by done. csimpl.
    eexists _, _, _. split; [reflexivity|]. split.
    + apply arcs_ok_alt. eapply arcs_ok'_ext; [|apply addarc_ok; [done|done|]; apply addarc_ok; [done|done|exact Hok]].
      intros u v w. cbv beta. setoid_rewrite elem_of_cons. unfold arcs_of.
      split.
      * intros [[(c' & Hc' & Hin)|Heq]|Heq].
        -- by exists c'; eauto.
        -- exists c. split; [by left|]. rewrite (proj2 (Z.ltb_lt _ _) Hbi). simplify_eq. by left.
        -- exists c. split; [by left|]. rewrite (proj2 (Z.ltb_lt _ _) Hbi), (proj2 (Z.ltb_lt _ _) Han).
           simplify_eq. by right; left.
      * intros (c' & [->|Hc'] & Hin); [|by left; left; eauto].
        rewrite (proj2 (Z.ltb_lt _ _) Hbi), (proj2 (Z.ltb_lt _ _) Han) in Hin. simpl in Hin.
        apply elem_of_cons in Hin as [Hin|Hin]; [by left; right|].
        apply elem_of_list_singleton in Hin. by right.
    + cbn [app]. destruct (decide (ci c = cj c)) as [He|Hne].
      * cbn [poparcs]. rewrite <-He.
        assert (poparc (pusharc (pusharc o (ci c) (ci c, cb c)) (ci c) (ci c, - ca c),
          pusharc (pusharc i (ci c) (ci c, cb c)) (ci c) (ci c, - ca c)) (ci c) =
          Some (addarc o i (ci c) (ci c) (cb c))) as ->.
        { apply (Hpop _ _ (ci c) (ci c) (- ca c)); rewrite pusharc_len; lia. }
        cbn [mbind option_bind]. rewrite Hpop by lia. done.
      * rewrite (Hcomm o) by done. rewrite (Hcomm i) by done. cbn [poparcs].
        assert (poparc (pusharc (pusharc o (cj c) (ci c, - ca c)) (ci c) (cj c, cb c),
          pusharc (pusharc i (ci c) (cj c, - ca c)) (cj c) (ci c, cb c)) (ci c) =
          Some (addarc o i (cj c) (ci c) (- ca c))) as ->.
        { apply (Hpop _ _ (ci c) (cj c) (cb c)); rewrite pusharc_len; lia. }
        cbn [mbind option_bind]. rewrite Hpop by lia. done.
  - eexists _, _, _. split; [reflexivity|]. split.
    + apply arcs_ok_alt. eapply arcs_ok'_ext; [|apply addarc_ok; [done|done|exact Hok]].
      intros u v w. cbv beta. setoid_rewrite elem_of_cons. unfold arcs_of.
      split.
      * intros [(c' & Hc' & Hin)|Heq].
        -- by exists c'; eauto.
        -- exists c. split; [by left|]. rewrite (proj2 (Z.ltb_lt _ _) Hbi). simplify_eq. by left.
      * intros (c' & [->|Hc'] & Hin); [|by left; eauto].
        rewrite (proj2 (Z.ltb_lt _ _) Hbi), (proj2 (Z.ltb_ge _ _) Han) in Hin. simpl in Hin.
        apply elem_of_list_singleton in Hin. by right.
    + cbn [poparcs]. change (pusharc o (ci c) (cj c, cb c), pusharc i (cj c) (ci c, cb c))
        with (addarc o i (ci c) (cj c) (cb c)).
      rewrite Hpop by lia. done.
  - rewrite mneg_ok by done. csimpl.
    eexists _, _, _. split; [reflexivity|]. split.
    + apply arcs_ok_alt. eapply arcs_ok'_ext; [|apply addarc_ok; [done|done|exact Hok]].
      intros u v w. cbv beta. setoid_rewrite elem_of_cons. unfold arcs_of.
      split.
      * intros [(c' & Hc' & Hin)|Heq].
        -- by exists c'; eauto.
        -- exists c. split; [by left|].
           rewrite (proj2 (Z.ltb_ge _ _) Hbi), (proj2 (Z.ltb_lt _ _) Han). simplify_eq. by left.
      * intros (c' & [->|Hc'] & Hin); [|by left; eauto].
        rewrite (proj2 (Z.ltb_ge _ _) Hbi), (proj2 (Z.ltb_lt _ _) Han) in Hin. simpl in Hin.
        apply elem_of_list_singleton in Hin. by right.
    + cbn [poparcs]. change (pusharc o (cj c) (ci c, - ca c), pusharc i (ci c) (cj c, - ca c))
        with (addarc o i (cj c) (ci c) (- ca c)).
      rewrite Hpop by lia. done.
  - eexists _, _, _. split; [reflexivity|]. split; [|done].
    apply arcs_ok_alt. eapply arcs_ok'_ext; [|exact Hok].
    intros u v w. cbv beta. setoid_rewrite elem_of_cons. unfold arcs_of.
    split.
    + intros (c' & Hc' & Hin). by exists c'; eauto.
    + intros (c' & [->|Hc'] & Hin); [|by eauto].
      rewrite (proj2 (Z.ltb_ge _ _) Hbi), (proj2 (Z.ltb_ge _ _) Han) in Hin. by apply elem_of_nil in Hin.
Qed.

(** *** Propagation *)

Section propagate.
Context (n : nat) (cs : list constr) (s : stn).
Hypothesis Hwf : ∀ c, c ∈ cs → wf_constr n c.
Hypothesis Harcs : arcs_ok n (out s) (inn s) cs.
Notation sol := (solution n cs).

Definition bgood (b : bounds) : Prop :=
  good Lower n (val (hi b)) sol (val (lo b)) ∧ good Upper n (val (lo b)) sol (val (hi b)) ∧
  seen (lo b) = ∅ ∧ seen (hi b) = ∅.

Definition bstep (b b' : bounds) : Prop :=
  (∀ u, (u < n)%nat → node_sat Lower (inn s) (val (lo b)) u → node_sat Lower (inn s) (val (lo b')) u) ∧
  (∀ u, (u < n)%nat → node_sat Upper (out s) (val (hi b)) u → node_sat Upper (out s) (val (hi b')) u) ∧
  mono Lower n (val (lo b)) (val (lo b')) ∧ mono Upper n (val (hi b)) (val (hi b')).

Definition bundo (b b' : bounds) : Prop :=
  undo_ok (lo b) (lo b') ∧ undo_ok (hi b) (hi b').

Lemma inn_ok u arcs v w : inn s !! u = Some arcs → (v, w) ∈ arcs → (v < n)%nat ∧ rng w.
Proof.
  intros Hu Hin. apply (a_inn _ _ _ _ Harcs u arcs Hu) in Hin as (c & Hc & Hin).
  destruct (arcs_of_wf n c v u w (Hwf c Hc) Hin) as (? & ? & ?). done.
Qed.
Lemma out_ok u arcs v w : out s !! u = Some arcs → (v, w) ∈ arcs → (v < n)%nat ∧ rng w.
Proof.
  intros Hu Hin. apply (a_out _ _ _ _ Harcs u arcs Hu) in Hin as (c & Hc & Hin).
  destruct (arcs_of_wf n c u v w (Hwf c Hc) Hin) as (? & ? & ?). done.
Qed.
Lemma inn_sol x u arcs v w : sol x → inn s !! u = Some arcs → (v, w) ∈ arcs →
  sg Lower * x u - w ≤ sg Lower * x v.
Proof.
  intros (_ & _ & Hx) Hu Hin. apply (a_inn _ _ _ _ Harcs u arcs Hu) in Hin as (c & Hc & Hin).
  pose proof (proj1 (arcs_of_holds x c) (Hx c Hc) v u w Hin). simpl sg. lia.
Qed.
Lemma out_sol x u arcs v w : sol x → out s !! u = Some arcs → (v, w) ∈ arcs →
  sg Upper * x u - w ≤ sg Upper * x v.
Proof.
  intros (_ & _ & Hx) Hu Hin. apply (a_out _ _ _ _ Harcs u arcs Hu) in Hin as (c & Hc & Hin).
  pose proof (proj1 (arcs_of_holds x c) (Hx c Hc) u v w Hin). simpl sg. lia.
Qed.
Lemma sol_rng x v : sol x → (v < n)%nat → rng (x v).
Proof. intros (_ & Hx & _) Hv. by apply Hx. Qed.

Lemma proplower_spec fuel b u :
  (u < n)%nat → (n < fuel)%nat → bgood b →
  ∃ b' ok, proplower fuel s b u = Some (b', ok) ∧ bundo b b' ∧
    if (ok : bool) then bgood b' ∧ bstep b b' ∧ node_sat Lower (inn s) (val (lo b')) u else ∀ x, ¬ sol x.
Proof.
  intros Hu Hfuel (Hlo & Hhi & Hsl & Hsh).
  assert (length (val (hi b)) = n) as Hlen by apply Hhi.
  assert (∀ x v, sol x → (v < n)%nat → sg Lower * x v ≤ sg Lower * (val (hi b) !!! v)) as Hoth.
  { intros x v Hx Hv. destruct Hhi as (_ & _ & _ & Hs). specialize (Hs x v Hx Hv). simpl sg in *. lia. }
  destruct (prop_call_spec Lower n (inn s) (val (hi b)) sol (a_ilen _ _ _ _ Harcs) Hlen inn_ok sol_rng inn_sol Hoth
    fuel (lo b) u) as (st' & ok & Hprop & Hundo & Hpost).
  { done. } { done. } { rewrite Hsl. intros y Hy. set_solver. } { by right. } { lia. }
  unfold proplower. rewrite Hprop. csimpl. eexists _, ok. split; [reflexivity|]. split.
  { split; [done|]. intros T0 H. exact H. }
  destruct ok; [|done]. destruct Hpost as [Hpost Hsat]. split; [|split].
  - unfold bgood. simpl. rewrite (p_seen _ _ _ _ _ _ _ _ Hpost). split_and!; try done.
    + apply (p_good _ _ _ _ _ _ _ _ Hpost).
    + destruct Hhi as (H1 & H2 & H3 & H4). split_and!; try done.
      intros v Hv. destruct (p_good _ _ _ _ _ _ _ _ Hpost) as (_ & _ & H & _). specialize (H v Hv).
      simpl sg in *. lia.
  - split_and!; try done.
    + intros y Hy Hys. simpl. destruct (decide (val st' !!! y = val (lo b) !!! y)).
      * eapply (node_sat_mono Lower n (inn s) (val (hi b)) (a_ilen _ _ _ _ Harcs) Hlen inn_ok (val (lo b))); [done|done|apply (p_mono _ _ _ _ _ _ _ _ Hpost)|done].
      * by apply (p_sat _ _ _ _ _ _ _ _ Hpost).
    + apply (p_mono _ _ _ _ _ _ _ _ Hpost).
    + intros v Hv. simpl. lia.
  - done.
Qed.

Lemma propupper_spec fuel b u :
  (u < n)%nat → (n < fuel)%nat → bgood b →
  ∃ b' ok, propupper fuel s b u = Some (b', ok) ∧ bundo b b' ∧
    if (ok : bool) then bgood b' ∧ bstep b b' ∧ node_sat Upper (out s) (val (hi b')) u else ∀ x, ¬ sol x.
Proof.
  intros Hu Hfuel (Hlo & Hhi & Hsl & Hsh).
  assert (length (val (lo b)) = n) as Hlen by apply Hlo.
  assert (∀ x v, sol x → (v < n)%nat → sg Upper * x v ≤ sg Upper * (val (lo b) !!! v)) as Hoth.
  { intros x v Hx Hv. destruct Hlo as (_ & _ & _ & Hs). specialize (Hs x v Hx Hv). simpl sg in *. lia. }
  destruct (prop_call_spec Upper n (out s) (val (lo b)) sol (a_olen _ _ _ _ Harcs) Hlen out_ok sol_rng out_sol Hoth
    fuel (hi b) u) as (st' & ok & Hprop & Hundo & Hpost).
  { done. } { done. } { rewrite Hsh. intros y Hy. set_solver. } { by right. } { lia. }
  unfold propupper. rewrite Hprop. csimpl. eexists _, ok. split; [reflexivity|]. split.
  { split; [|done]. intros T0 H. exact H. }
  destruct ok; [|done]. destruct Hpost as [Hpost Hsat]. split; [|split].
  - unfold bgood. simpl. rewrite (p_seen _ _ _ _ _ _ _ _ Hpost). split_and!; try done.
    + destruct Hlo as (H1 & H2 & H3 & H4). split_and!; try done.
      intros v Hv. destruct (p_good _ _ _ _ _ _ _ _ Hpost) as (_ & _ & H & _). specialize (H v Hv).
      simpl sg in *. lia.
    + apply (p_good _ _ _ _ _ _ _ _ Hpost).
  - split_and!; try done.
    + intros y Hy Hys. simpl. destruct (decide (val st' !!! y = val (hi b) !!! y)).
      * eapply (node_sat_mono Upper n (out s) (val (lo b)) (a_olen _ _ _ _ Harcs) Hlen out_ok (val (hi b))); [done|done|apply (p_mono _ _ _ _ _ _ _ _ Hpost)|done].
      * by apply (p_sat _ _ _ _ _ _ _ _ Hpost).
    + intros v Hv. simpl. lia.
    + apply (p_mono _ _ _ _ _ _ _ _ Hpost).
  - done.
Qed.

Lemma bundo_trans b1 b2 b3 : bundo b1 b2 → bundo b2 b3 → bundo b1 b3.
Proof. intros [H1 H2] [H3 H4]. split; intros T0 H; auto. Qed.
Lemma bstep_trans b1 b2 b3 : bstep b1 b2 → bstep b2 b3 → bstep b1 b3.
Proof.
  intros (H1 & H2 & H3 & H4) (H5 & H6 & H7 & H8). split_and!; auto.
  - intros v Hv. specialize (H3 v Hv). specialize (H7 v Hv). lia.
  - intros v Hv. specialize (H4 v Hv). specialize (H8 v Hv). lia.
Qed.

Lemma propagate_spec c :
  let b := Bnd (PS (tozero s) [] ∅ ∅) (PS (fromzero s) [] ∅ ∅) in
  (ci c < n)%nat → (cj c < n)%nat → bgood b →
  ∃ b' ok, propagate s c = Some (b', ok) ∧ bundo b b' ∧
    if (ok : bool) then bgood b' ∧ bstep b b' ∧
      (∀ u, u = ci c ∨ u = cj c → node_sat Lower (inn s) (val (lo b')) u) ∧
      (∀ u, u = ci c ∨ u = cj c → node_sat Upper (out s) (val (hi b')) u)
    else ∀ x, ¬ sol x.
Proof.
  intros b Hi Hj Hb. assert (nnodes s = n) as Hn by apply Hb.
  unfold propagate, andalso. fold b. rewrite Hn.
  destruct (proplower_spec (n + 2) b (ci c)) as (b1 & ok1 & E1 & U1 & P1); [done|lia|done|].
  rewrite E1. csimpl. destruct ok1; [|by exists b1, false].
  destruct P1 as (G1 & S1 & N1).
  destruct (propupper_spec (n + 2) b1 (ci c)) as (b2 & ok2 & E2 & U2 & P2); [done|lia|done|].
  rewrite E2. csimpl. destruct ok2; [|exists b2, false; split_and!; [done|by eapply bundo_trans|done]].
  destruct P2 as (G2 & S2 & N2).
  destruct (proplower_spec (n + 2) b2 (cj c)) as (b3 & ok3 & E3 & U3 & P3); [done|lia|done|].
  rewrite E3. csimpl.
  destruct ok3; [|exists b3, false; split_and!; [done|by eauto using bundo_trans|done]].
  destruct P3 as (G3 & S3 & N3).
  destruct (propupper_spec (n + 2) b3 (cj c)) as (b4 & ok4 & E4 & U4 & P4); [done|lia|done|].
  rewrite E4. csimpl.
  exists b4, ok4. split; [done|]. split; [by eauto using bundo_trans|]. destruct ok4; [|done].
  destruct P4 as (G4 & S4 & N4). split; [done|]. split; [by eauto using bstep_trans|].
  destruct S2 as (A2 & B2 & _), S3 as (A3 & B3 & _), S4 as (A4 & B4 & _).
  split; intros u [->| ->]; auto.
Qed.

End propagate.

(** *** The invariant is kept, and what the results of add mean *)

Lemma solution_mono n c cs x : solution n (c :: cs) x → solution n cs x.
Proof. intros (H0 & Hr & H). split_and!; [done|done|]. intros c' Hc'. apply H. by right. Qed.

Lemma good_mono n d oth c cs T :
  good d n oth (solution n cs) T → good d n oth (solution n (c :: cs)) T.
Proof.
  intros (? & ? & ? & Hs). split_and!; [done|done|done|]. intros x v Hx. apply Hs. by eapply solution_mono.
Qed.

Lemma arcs_of_ends c u v w : (u, v, w) ∈ arcs_of c → (u = ci c ∨ u = cj c) ∧ (v = ci c ∨ v = cj c).
Proof.
  unfold arcs_of. rewrite elem_of_app.
  destruct (cb c <? inf), (neginf <? ca c);
    rewrite ?elem_of_list_singleton, ?elem_of_nil; intros [H|H]; try done; simplify_eq; auto.
Qed.

Lemma undoable_refl (T : list Z) : undoable T T [] ∅.
Proof.
  split_and!; try done; [constructor|set_solver|].
  intros v z H. by apply elem_of_nil in H.
Qed.

Lemma add_spec n s cs c :
  inv n s cs → wf_constr n c →
  ∃ s' ok, add s c = Some (s', ok) ∧
    if (ok : bool) then inv n s' (c :: cs) ∧ undo s' = Some s
    else s' = s ∧ ∀ x, ¬ solution n (c :: cs) x.
Proof.
  intros Hinv Hc. pose proof (inv_nnodes _ _ _ Hinv) as Hn.
  destruct (addarcs_ok n (out s) (inn s) cs c Hc (i_arcs _ _ _ Hinv)) as (o & i & p & Hadd & Harcs & Hpop).
  unfold add. destruct Hc as (Hi & Hj & Ha & Hb).
  rewrite decide_True by lia. rewrite Hadd. csimpl.
  set (s1 := Stn o i (tozero s) (fromzero s) (undos s)).
  assert (∀ c', c' ∈ c :: cs → wf_constr n c') as Hwf.
  { intros c' [->|Hc']%elem_of_cons; [done|]. by apply (i_wf _ _ _ Hinv). }
  destruct (propagate_spec n (c :: cs) s1 Hwf Harcs c) as (b & ok & Hprop & [Hu1 Hu2] & Hpost); [done|done| |].
  { split_and!; try done; simpl; apply good_mono; apply Hinv. }
  rewrite Hprop. csimpl.
  specialize (Hu1 (tozero s) (undoable_refl _)). specialize (Hu2 (fromzero s) (undoable_refl _)).
  apply restore_undoable in Hu1, Hu2.
  set (s2 := Stn o i (val (lo b)) (val (hi b)) (Undo p (saved (lo b)) (saved (hi b)) :: undos s)).
  assert (undo s2 = Some s) as Hundo.
  { unfold undo. cbn [undos s2 popout prevto prevfrom out inn tozero fromzero].
    rewrite Hpop. csimpl. rewrite Hu1, Hu2. by destruct s. }
  destruct ok.
  - exists s2, true. split; [done|]. split; [|done].
    destruct Hpost as ((Hg1 & Hg2 & _ & _) & (S1 & S2 & S3 & S4) & N1 & N2).
    assert (0 < n)%nat as Hpos by apply Hinv.
    split; simpl; try done.
    + destruct (i_zero _ _ _ Hinv) as [Z1 Z2].
      specialize (S3 0%nat Hpos). specialize (S4 0%nat Hpos).
      destruct Hg1 as (_ & _ & Hle & _). specialize (Hle 0%nat Hpos).
      simpl in S3, S4, Hle. rewrite Z1 in S3. rewrite Z2 in S4. split; lia.
    + intros u Hu. destruct (decide (u = ci c ∨ u = cj c)) as [He|Hne]; [by apply N1|].
      apply S1; [done|]. simpl. intros arcs a Hl Hin. destruct a as [v w].
      apply (a_inn _ _ _ _ Harcs u arcs Hl) in Hin as (c' & Hc' & Hin).
      apply elem_of_cons in Hc' as [->|Hc'].
      { apply arcs_of_ends in Hin. tauto. }
      destruct (lookup_lt_is_Some_2 (inn s) u) as [arcs0 H0].
      { rewrite (a_ilen _ _ _ _ (i_arcs _ _ _ Hinv)). done. }
      eapply (i_lofix _ _ _ Hinv u Hu arcs0 (v, w) H0).
      apply (a_inn _ _ _ _ (i_arcs _ _ _ Hinv) u arcs0 H0). eauto.
    + intros u Hu. destruct (decide (u = ci c ∨ u = cj c)) as [He|Hne]; [by apply N2|].
      apply S2; [done|]. simpl. intros arcs a Hl Hin. destruct a as [v w].
      apply (a_out _ _ _ _ Harcs u arcs Hl) in Hin as (c' & Hc' & Hin).
      apply elem_of_cons in Hc' as [->|Hc'].
      { apply arcs_of_ends in Hin. tauto. }
      destruct (lookup_lt_is_Some_2 (out s) u) as [arcs0 H0].
      { rewrite (a_olen _ _ _ _ (i_arcs _ _ _ Hinv)). done. }
      eapply (i_hifix _ _ _ Hinv u Hu arcs0 (v, w) H0).
      apply (a_out _ _ _ _ (i_arcs _ _ _ Hinv) u arcs0 H0). eauto.
  - rewrite Hundo. csimpl. exists s, false. done.
Qed.

(** The bounds themselves are solutions. *)
Lemma inv_solutions n s cs :
  inv n s cs → solution n cs (λ v, tozero s !!! v) ∧ solution n cs (λ v, fromzero s !!! v).
Proof.
  intros Hinv.
  destruct (i_lo _ _ _ Hinv) as (L1 & L2 & L3 & _). destruct (i_hi _ _ _ Hinv) as (U1 & U2 & U3 & _).
  assert (∀ c, c ∈ cs → ∀ u v w, (u, v, w) ∈ arcs_of c →
    (tozero s !!! v) ≤ (tozero s !!! u) + w ∧ (fromzero s !!! v) ≤ (fromzero s !!! u) + w) as Harc.
  { intros c Hc u v w Hin.
    destruct (arcs_of_wf n c u v w (i_wf _ _ _ Hinv c Hc) Hin) as (Hu & Hv & Hw).
    pose proof (L2 u Hu). pose proof (L2 v Hv). pose proof (U2 u Hu). pose proof (U2 v Hv).
    pose proof (L3 u Hu). pose proof (L3 v Hv).
    destruct (i_arcs _ _ _ Hinv) as [Hol Hil Hout Hinn].
    destruct (lookup_lt_is_Some_2 (inn s) v) as [ai Hai]; [lia|].
    destruct (lookup_lt_is_Some_2 (out s) u) as [ao Hao]; [lia|].
    pose proof (i_lofix _ _ _ Hinv v Hv ai (u, w) Hai (proj2 (Hinn v ai Hai u w) (ex_intro _ c (conj Hc Hin)))) as F1.
    pose proof (i_hifix _ _ _ Hinv u Hu ao (v, w) Hao (proj2 (Hout u ao Hao v w) (ex_intro _ c (conj Hc Hin)))) as F2.
    unfold arc_sat, clamp, rng in *. rewrite inf_val, neginf_val in *. simpl fst in *. simpl snd in *. simpl sg in *. lia. }
  destruct (i_zero _ _ _ Hinv) as [Z1 Z2].
  split.
  - split; [exact Z1|]. split; [intros v Hv; apply long_rng; by apply L2|].
    intros c Hc. apply arcs_of_holds. intros u v w Hin. by apply (Harc c Hc).
  - split; [exact Z2|]. split; [intros v Hv; apply long_rng; by apply U2|].
    intros c Hc. apply arcs_of_holds. intros u v w Hin. by apply (Harc c Hc).
Qed.

(** Histories without undo and without rejected constraints. *)
Inductive hist (num : nat) : stn → list constr → Prop :=
| h_new : hist num (new num) []
| h_add s cs c s' : hist num s cs → wf_constr (num + 1) c → add s c = Some (s', true) →
    undo s' = Some s → hist num s' (c :: cs).

Lemma hist_inv num s cs : hist num s cs → inv (num + 1) s cs.
Proof.
  induction 1 as [|s cs c s' Hs IH Hc Hadd Hundo]; [apply inv_new|].
  destruct (add_spec _ _ _ _ IH Hc) as (s'' & ok & Heq & H). rewrite Hadd in Heq. simplify_eq. apply H.
Qed.

Lemma reach_hist num s cs : reach num s cs → hist num s cs.
Proof.
  induction 1 as [|s cs c s' Hs IH Hc Hadd|s cs c s' Hs IH Hc Hadd|s c cs s' Hs IH Hundo].
  - constructor.
  - econstructor; [done|done|done|].
    destruct (add_spec _ _ _ _ (hist_inv _ _ _ IH) Hc) as (s'' & ok & Heq & H).
    rewrite Hadd in Heq. simplify_eq. apply H.
  - destruct (add_spec _ _ _ _ (hist_inv _ _ _ IH) Hc) as (s'' & ok & Heq & H).
    rewrite Hadd in Heq. simplify_eq. by destruct H as [-> _].
  - inversion IH as [|s0 cs0 c0 s0' H1 H2 H3 H4]; subst. rewrite Hundo in H4. by simplify_eq.
Qed.

Lemma reach_inv num s cs : reach num s cs → inv (num + 1) s cs.
Proof. intros H. by apply hist_inv, reach_hist. Qed.

(** ** Theorems *)

(** add never fails for a well-formed constraint and answers true exactly if the accepted
    constraints and the new one together have a solution. *)
Theorem C17_add_decides_consistency num s cs c :
  reach num s cs → wf_constr (num + 1) c →
  ∃ s' ok, add s c = Some (s', ok) ∧ (ok = true ↔ ∃ x, solution (num + 1) (c :: cs) x).
Proof.
  intros Hr Hc. destruct (add_spec _ _ _ _ (reach_inv _ _ _ Hr) Hc) as (s' & ok & Hadd & Hok).
  exists s', ok. split; [done|]. destruct ok.
  - split; [|done]. intros _. destruct Hok as [Hinv _]. eexists. by apply inv_solutions.
  - split; [done|]. intros [x Hx]. destruct Hok as [_ Hno]. by destruct (Hno x).
Qed.

(** lower and upper are the least and the greatest time a time point has in any solution. *)
Theorem C17_bounds_are_tight num s cs v :
  reach num s cs → (v < num + 1)%nat →
  ∃ l u, lower s v = Some l ∧ upper s v = Some u ∧
    (∀ x, solution (num + 1) cs x → l ≤ x v ≤ u) ∧
    (∃ x, solution (num + 1) cs x ∧ x v = l) ∧ (∃ x, solution (num + 1) cs x ∧ x v = u).
Proof.
  intros Hr Hv. pose proof (reach_inv _ _ _ Hr) as Hinv.
  destruct (i_lo _ _ _ Hinv) as (L1 & _ & _ & L4). destruct (i_hi _ _ _ Hinv) as (U1 & _ & _ & U4).
  destruct (inv_solutions _ _ _ Hinv) as [Sl Su].
  exists (tozero s !!! v), (fromzero s !!! v). unfold lower, upper.
  rewrite !lookup_total_Some by lia. split; [done|]. split; [done|]. split; [|split].
  - intros x Hx. specialize (L4 x v Hx Hv). specialize (U4 x v Hx Hv). simpl sg in *. lia.
  - by exists (λ v, tozero s !!! v).
  - by exists (λ v, fromzero s !!! v).
Qed.

(** A rejected constraint leaves the whole network (bounds, arcs, undo history) as it was. *)
Theorem C18_rejected_add_changes_nothing num s cs c s' :
  reach num s cs → wf_constr (num + 1) c → add s c = Some (s', false) → s' = s.
Proof.
  intros Hr Hc Hadd. destruct (add_spec _ _ _ _ (reach_inv _ _ _ Hr) Hc) as (s'' & ok & Heq & H).
  rewrite Hadd in Heq. simplify_eq. apply H.
Qed.

Theorem C18_undo_restores num s cs c s' :
  reach num s cs → wf_constr (num + 1) c → add s c = Some (s', true) → undo s' = Some s.
Proof.
  intros Hr Hc Hadd. destruct (add_spec _ _ _ _ (reach_inv _ _ _ Hr) Hc) as (s'' & ok & Heq & H).
  rewrite Hadd in Heq. simplify_eq. apply H.
Qed.

(** Undoing never fails while an accepted constraint is left, after any history. *)
Theorem C18_undo_defined num s c cs : reach num s (c :: cs) → ∃ s', undo s = Some s' ∧ reach num s' cs.
Proof.
  intros Hr. pose proof (reach_hist _ _ _ Hr) as Hh.
  inversion Hh as [|s0 cs0 c0 s0' H1 H2 H3 H4]; subst. exists s0. split; [done|]. by eapply r_undo.
Qed.

Definition exact_clamp (z : Z) : Z := if MAX <? z then MAX else if z <? MIN then MIN else z.

Theorem C19_clamped_arithmetic_exact a b :
  long a → long b →
  addclamp a b = Some (exact_clamp (a + b)) ∧ subclamp a b = Some (exact_clamp (a - b)).
Proof.
  intros Ha Hb. rewrite addclamp_spec, subclamp_spec by done.
  assert (∀ z, clamp z = exact_clamp z) as H.
  { intros z. unfold clamp, exact_clamp, MAX, MIN. rewrite inf_val, neginf_val.
    destruct (Z.ltb_spec 9223372036854775807 z), (Z.ltb_spec z (-9223372036854775808)); lia. }
  by rewrite !H.
Qed.

(** *** Stn::eq *)

(** After any history, networks holding the same constraints answer alike.  eq, however, compares
    the arcs of a node only until the first match: for all b0, b1 < b2 with 0 ≤ b1, b2 ≤ b0 the
    two networks below, which differ in their second constraint, are "equal", although one rejects
    a constraint that the other accepts. *)
Definition net (b0 b1 : Z) : option stn :=
  '(s, _) ← add (new 2) (Constr 1 2 MIN b0);
  '(s, _) ← add s (Constr 1 2 MIN b1);
  Some s.

Definition raw (b0 b1 : Z) : stn :=
  Stn [[]; [(2%nat, b0); (2%nat, b1)]; []] [[]; []; [(1%nat, b0); (1%nat, b1)]]
      [0; neginf; neginf] [0; inf; inf]
      [Undo [1%nat] [] []; Undo [1%nat] [] []].

Lemma sub_neginf b : 0 ≤ b ≤ MAX → subclamp neginf b = Some neginf.
Proof.
  intros Hb. rewrite subclamp_spec by (unfold rng, MAX in *; rewrite inf_val, neginf_val; lia).
  unfold clamp, MAX in *. rewrite inf_val, neginf_val in *. f_equal. lia.
Qed.
Lemma add_inf b : 0 ≤ b ≤ MAX → addclamp inf b = Some inf.
Proof.
  intros Hb. rewrite addclamp_spec by (unfold rng, MAX in *; rewrite inf_val, neginf_val; lia).
  unfold clamp, MAX in *. rewrite inf_val, neginf_val in *. f_equal. lia.
Qed.

Lemma net_raw b0 b1 : 0 ≤ b0 < MAX → 0 ≤ b1 < MAX → net b0 b1 = Some (raw b0 b1).
Proof.
  intros H0 H1. unfold net.
  assert (add (new 2) (Constr 1 2 MIN b0) = Some (Stn [[]; [(2%nat, b0)]; []] [[]; []; [(1%nat, b0)]]
      [0; neginf; neginf] [0; inf; inf] [Undo [1%nat] [] []], true)) as ->.
  { unfold add, addarcs, propagate, proplower, propupper.
    cbn [ci cj ca cb nnodes new tozero fromzero length replicate Nat.add undos out inn].
    rewrite decide_True by lia. rewrite MIN_neginf.
    rewrite (proj2 (Z.ltb_lt b0 inf)) by (rewrite <-MAX_inf; lia).
    rewrite (proj2 (Z.ltb_ge neginf neginf)) by lia.
    cbn -[addclamp subclamp inf neginf Z.leb Z.ltb].
    repeat (first [rewrite add_inf by lia|rewrite sub_neginf by lia|rewrite !Z.leb_refl]; cbn -[addclamp subclamp inf neginf Z.leb Z.ltb]).
    done. }
  cbn [mbind option_bind].
  assert (add (Stn [[]; [(2%nat, b0)]; []] [[]; []; [(1%nat, b0)]]
      [0; neginf; neginf] [0; inf; inf] [Undo [1%nat] [] []]) (Constr 1 2 MIN b1) = Some (raw b0 b1, true)) as ->.
  { unfold add, addarcs, propagate, proplower, propupper.
    cbn [ci cj ca cb nnodes new tozero fromzero length replicate Nat.add undos out inn].
    rewrite decide_True by lia. rewrite MIN_neginf.
    rewrite (proj2 (Z.ltb_lt b1 inf)) by (rewrite <-MAX_inf; lia).
    rewrite (proj2 (Z.ltb_ge neginf neginf)) by lia.
    cbn -[addclamp subclamp inf neginf Z.leb Z.ltb].
    repeat (first [rewrite add_inf by lia|rewrite sub_neginf by lia|rewrite !Z.leb_refl]; cbn -[addclamp subclamp inf neginf Z.leb Z.ltb]).
    done. }
  done.
Qed.

Theorem C20_eq_refuted b0 b1 b2 :
  0 ≤ b1 → b1 < b2 → b2 ≤ b0 → b0 < MAX →
  ∃ s s' cs cs', net b0 b1 = Some s ∧ net b0 b2 = Some s' ∧
    reach 2 s cs ∧ reach 2 s' cs' ∧ eq s s' = true ∧
    (∃ t, add s (Constr 1 2 b2 b2) = Some (t, false)) ∧
    (∃ t, add s' (Constr 1 2 b2 b2) = Some (t, true)).
Proof.
  intros H1 H2 H3 H4.
  assert (∀ b, 0 ≤ b < MAX → ∃ s, net b0 b = Some s ∧ s = raw b0 b ∧
    reach 2 s [Constr 1 2 MIN b; Constr 1 2 MIN b0]) as Hnet.
  { intros b Hb. pose proof (net_raw b0 b ltac:(lia) Hb) as Hraw. exists (raw b0 b).
    split; [done|]. split; [done|].
    assert (∀ z, 0 ≤ z < MAX → wf_constr (2 + 1) (Constr 1 2 MIN z)) as Hwf.
    { intros z Hz. unfold wf_constr, long, MIN, MAX in *. simpl. split_and!; lia. }
    unfold net in Hraw.
    destruct (C17_add_decides_consistency 2 (new 2) [] (Constr 1 2 MIN b0)) as (t & ok & Ht & Hok);
      [constructor|by apply Hwf; lia|]. rewrite Ht in Hraw. csimpl in Hraw.
    assert (ok = true) as ->.
    { apply Hok. exists (λ _, 0). split_and!; [done| |].
      - intros v _. unfold long, MIN, MAX. lia.
      - intros c [->|Hc]%elem_of_cons; [|by apply elem_of_nil in Hc].
        unfold holds. simpl. unfold MIN. lia. }
    assert (reach 2 t [Constr 1 2 MIN b0]) as Hr by (eapply r_accept; [constructor|apply Hwf; lia|done]).
    destruct (C17_add_decides_consistency 2 t [Constr 1 2 MIN b0] (Constr 1 2 MIN b)) as (t' & ok & Ht' & Hok');
      [done|by apply Hwf; lia|]. rewrite Ht' in Hraw. csimpl in Hraw. injection Hraw as ->.
    assert (ok = true) as ->.
    { apply Hok'. exists (λ _, 0). split_and!; [done| |].
      - intros v _. unfold long, MIN, MAX. lia.
      - intros c [->|[->|Hc]%elem_of_cons]%elem_of_cons; [| |by apply elem_of_nil in Hc];
        unfold holds; simpl; unfold MIN; lia. }
    eapply r_accept; [exact Hr|apply Hwf; lia|done]. }
  destruct (Hnet b1) as (s & Hs & Es & Rs); [lia|].
  destruct (Hnet b2) as (s' & Hs' & Es' & Rs'); [lia|].
  eexists s, s', _, _. split; [done|]. split; [done|]. split; [exact Rs|]. split; [exact Rs'|].
  assert (wf_constr (2 + 1) (Constr 1 2 b2 b2)) as Hwf.
  { unfold wf_constr, long, MIN, MAX in *. simpl. split_and!; lia. }
  split; [|split].
  - subst s s'. unfold eq, nnodes, raw. cbn [tozero undos length seq forallb].
    unfold node_eq. cbn [tozero fromzero out inn lookup list_lookup].
    unfold arcs_eq. cbn [length existsb].
    rewrite !Z.eqb_refl.
    rewrite (bool_decide_eq_true_2 ((2%nat, b0) = (2%nat, b0))) by done.
    rewrite (bool_decide_eq_true_2 ((1%nat, b0) = (1%nat, b0))) by done.
    rewrite (bool_decide_eq_false_2 (2%nat = 0%nat)) by done. cbn [orb].
    rewrite !bool_decide_eq_true_2 by done. done.
  - destruct (C17_add_decides_consistency _ _ _ _ Rs Hwf) as (t & ok & Ht & Hok). exists t. rewrite Ht.
    destruct ok; [|done]. exfalso. destruct (proj1 Hok eq_refl) as (x & _ & _ & Hx).
    pose proof (Hx (Constr 1 2 b2 b2) ltac:(by left)) as [_ Ha].
    pose proof (Hx (Constr 1 2 MIN b1) ltac:(by right; left)) as [Hb _]. simpl in *. unfold MIN in *. lia.
  - destruct (C17_add_decides_consistency _ _ _ _ Rs' Hwf) as (t & ok & Ht & Hok). exists t. rewrite Ht.
    destruct ok; [done|]. exfalso. cut (false = true); [done|]. apply Hok.
    exists (λ v, if decide (v = 2%nat) then b2 else 0). split_and!; [done| |].
    + intros v _. unfold long, MIN, MAX in *. case_decide; lia.
    + intros c Hc. rewrite !elem_of_cons, elem_of_nil in Hc.
      destruct Hc as [->|[->|[->|[]]]]; unfold holds; simpl; unfold MIN, MAX in *; lia.
Qed.

(** ** Concrete cases *)

(** A schedule of three time points: 1 in [10,20], 2 at least 5 and at most 8 after 1, 2 at most 24. *)
Definition ex_constrs : list constr :=
  [NoLater 2 24; Constr 1 2 5 8; InWindow 1 10 20].
Definition st_of (r : option (stn * bool)) : stn := match r with Some (s, _) => s | None => new 0 end.
Definition ex1 : stn := Eval vm_compute in st_of (add (new 2) (InWindow 1 10 20)).
Definition ex2 : stn := Eval vm_compute in st_of (add ex1 (Constr 1 2 5 8)).
Definition ex3 : stn := Eval vm_compute in st_of (add ex2 (NoLater 2 24)).
Example ex_reach : reach 2 ex3 ex_constrs ∧
  lower ex3 1 = Some 10 ∧ upper ex3 1 = Some 19 ∧ lower ex3 2 = Some 15 ∧ upper ex3 2 = Some 24 ∧
  (* a constraint that contradicts the others, and one that does not *)
  add ex3 (After 2 1 0) = Some (ex3, false) ∧ snd <$> add ex3 (Constr 0 1 19 19) = Some true.
Proof.
  assert (∀ c, c ∈ ex_constrs → wf_constr (2 + 1) c) as Hwf.
  { intros c Hc. unfold ex_constrs in Hc. rewrite !elem_of_cons, elem_of_nil in Hc.
    destruct Hc as [->|[->|[->|[]]]]; vm_compute; repeat split; try lia; congruence. }
  split; [|split_and!; vm_compute; reflexivity].
  apply (r_accept 2 ex2 [Constr 1 2 5 8; InWindow 1 10 20]); [|apply Hwf; set_solver|vm_compute; reflexivity].
  apply (r_accept 2 ex1 [InWindow 1 10 20]); [|apply Hwf; set_solver|vm_compute; reflexivity].
  apply (r_accept 2 (new 2) []); [constructor|apply Hwf; set_solver|vm_compute; reflexivity].
Qed.

(** The premises of C20. *)
Example ex_eq : ∃ s s', net 10 3 = Some s ∧ net 10 5 = Some s' ∧ eq s s' = true.
Proof. eexists _, _. split; [|split]; vm_compute; reflexivity. Qed.

Print Assumptions C17_add_decides_consistency.
Print Assumptions C17_bounds_are_tight.
Print Assumptions C18_rejected_add_changes_nothing.
Print Assumptions C18_undo_restores.
Print Assumptions C18_undo_defined.
Print Assumptions C19_clamped_arithmetic_exact.
Print Assumptions C20_eq_refuted.
