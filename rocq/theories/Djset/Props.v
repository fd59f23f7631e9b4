(** Properties C07 and C08: disjoint sets. *)
From stdpp Require Import prelude.
From Coq Require Import Lia Relation_Operators.
From Verif.Djset Require Import Model Proofs.

(** ** Specification *)

(** Connected by the joins [js] performed so far (any number, either way). *)
Definition connected (js : list (nat * nat)) : nat → nat → Prop :=
  clos_refl_sym_trans nat (λ x y, (x, y) ∈ js).

(** States reached by finds and joins; [js] records the joins. *)
Inductive reach : dj → list (nat * nat) → Prop :=
  | reach_new : reach new []
  | reach_find s js n x s' r : reach s js → find n s x = Some (s', r) → reach s' js
  | reach_join s js n x y s' : reach s js → join n s x y = Some s' → reach s' ((x, y) :: js).

Lemma find_mono n m s x o : find n s x = Some o → n ≤ m → find m s x = Some o.
Proof.
  revert m s x o. induction n as [|n IH]; intros m s x o H Hm; [done|].
  destruct m as [|m]; [lia|]. simpl in *. case_decide; [done|].
  destruct (find n s (parent s x)) as [[s1 r1]|] eqn:E; [|done].
  rewrite (IH m _ _ _ E) by lia. done.
Qed.

Lemma join_mono n m s x y o : join n s x y = Some o → n ≤ m → join m s x y = Some o.
Proof.
  unfold join. intros H Hm.
  destruct (find n s x) as [[s1 r1]|] eqn:E1; [|done]. rewrite (find_mono _ _ _ _ _ E1 Hm).
  simpl in *. destruct (find n s1 y) as [[s2 r2]|] eqn:E2; [|done].
  rewrite (find_mono _ _ _ _ _ E2 Hm). done.
Qed.

Lemma connected_cons js x y a b :
  connected js a b → connected ((x, y) :: js) a b.
Proof.
  induction 1 as [a b H|a|a b H IH|a b c H1 IH1 H2 IH2].
  - apply rst_step. by right.
  - apply rst_refl.
  - by apply rst_sym.
  - by eapply rst_trans.
Qed.

Definition same_root (p : nat → nat) (a b : nat) : Prop := ∃ r, root p a r ∧ root p b r.

Lemma reach_inv s js :
  reach s js → total (parent s) ∧ ∀ a b, same_root (parent s) a b ↔ connected js a b.
Proof.
  induction 1 as [|s js n x s' r Hr [Ht IH] Hf|s js n x y s' Hr [Ht IH] Hj].
  - split.
    + intros x. exists x. by constructor.
    + intros a b. split.
      * intros (r & Ha & Hb). inversion Ha; inversion Hb; subst; try done. apply rst_refl.
      * intros H. assert (a = b) as ->.
        { induction H as [a b H|a|a b H IH|a b c H1 IH1 H2 IH2]; try congruence.
          by apply elem_of_nil in H. }
        exists b. split; by constructor.
  - destruct (Ht x) as [rx Hx]. destruct (find_spec s x rx Ht Hx) as (k & s1 & Hf1 & _ & Hroots).
    assert (s1 = s').
    { apply (find_mono _ (n + k)) in Hf; [|lia]. rewrite Hf1 in Hf by lia. congruence. }
    subst s1. split; [by eapply roots_total|].
    intros a b. rewrite <-IH. unfold same_root.
    setoid_rewrite (roots_iff _ _ Ht Hroots). done.
  - destruct (Ht x) as [rx Hx]. destruct (Ht y) as [ry Hy].
    destruct (join_spec s x y rx ry Ht Hx Hy) as (k & s1 & Hj1 & Ht1 & u & v & Huv & Hroots).
    assert (s1 = s').
    { apply (join_mono _ (n + k)) in Hj; [|lia]. rewrite Hj1 in Hj by lia. congruence. }
    subst s1. split; [done|].
    assert (∀ a b, same_root (parent s') a b ↔
      same_root (parent s) a b ∨ (same_root (parent s) a x ∧ same_root (parent s) b y) ∨
      (same_root (parent s) a y ∧ same_root (parent s) b x)) as Hiff.
    { intros a b. destruct (Ht a) as [ra Ha]. destruct (Ht b) as [rb Hb].
      assert (∀ a b ra rb, root (parent s) a ra → root (parent s) b rb →
                (same_root (parent s) a b ↔ ra = rb)) as Hsr.
      { intros a0 b0 ra0 rb0 Ha0 Hb0. split.
        - intros (r & H1 & H2). rewrite (root_det _ _ _ _ Ha0 H1). symmetry. by eapply root_det.
        - intros ->. by exists rb0. }
      rewrite (Hsr a b ra rb), (Hsr a x ra rx), (Hsr b y rb ry),
        (Hsr a y ra ry), (Hsr b x rb rx) by done.
      pose proof (Hroots _ _ Ha) as Ha'. pose proof (Hroots _ _ Hb) as Hb'.
      assert (same_root (parent s') a b ↔
              (if decide (ra = u) then v else ra) = (if decide (rb = u) then v else rb)) as ->.
      { split.
        - intros (r & H1 & H2). rewrite (root_det _ _ _ _ Ha' H1). symmetry. by eapply root_det.
        - intros He. exists (if decide (ra = u) then v else ra). split; [done|]. by rewrite He. }
      repeat case_decide; destruct Huv as [[-> ->]|[-> ->]]; subst; naive_solver. }
    intros a b. rewrite Hiff. split.
    + assert (connected ((x, y) :: js) x y) as Hxy by (apply rst_step; by left).
      intros [H|[[H1 H2]|[H1 H2]]]; rewrite IH in *.
      * by apply connected_cons.
      * eapply rst_trans; [by apply connected_cons|].
        eapply rst_trans; [done|]. apply rst_sym. by apply connected_cons.
      * eapply rst_trans; [by apply connected_cons|].
        eapply rst_trans; [by apply rst_sym|]. apply rst_sym. by apply connected_cons.
    + rewrite <-Hiff. induction 1 as [a b H|a|a b H IH'|a b c H1 IH1 H2 IH2].
      * apply elem_of_cons in H as [[= -> ->]|H].
        -- apply Hiff. right; left. split; [by exists rx|by exists ry].
        -- apply Hiff. left. apply IH. by apply rst_step.
      * destruct (Ht1 a) as [r H]. by exists r.
      * destruct IH' as (r & ? & ?). by exists r.
      * destruct IH1 as (r & Ha & Hb). destruct IH2 as (r' & Hb' & Hc).
        rewrite (root_det _ _ _ _ Hb' Hb) in Hc. by exists r.
Qed.

(** ** C07 *)

(** find and join terminate in every reachable state. *)
Theorem C07_find_and_join_terminate s js :
  reach s js →
  (∀ x, ∃ k, ∀ n, k ≤ n → is_Some (find n s x)) ∧
  (∀ x y, ∃ k, ∀ n, k ≤ n → is_Some (join n s x y)).
Proof.
  intros [Ht _]%reach_inv. split.
  - intros x. destruct (Ht x) as [r Hx].
    destruct (find_spec s x r Ht Hx) as (k & s' & Hf & _). exists k. intros n Hn.
    rewrite Hf by done. by eexists.
  - intros x y. destruct (Ht x) as [rx Hx]. destruct (Ht y) as [ry Hy].
    destruct (join_spec s x y rx ry Ht Hx Hy) as (k & s' & Hj & _). exists k. intros n Hn.
    rewrite Hj by done. by eexists.
Qed.

(** Two finds (performed one after the other) return the same representative
    exactly when the objects are connected by the joins so far. *)
Theorem C07_find_decides_connected s js x y n s1 rx m s2 ry :
  reach s js → find n s x = Some (s1, rx) → find m s1 y = Some (s2, ry) →
  (rx = ry ↔ connected js x y).
Proof.
  intros Hr Hx Hy.
  pose proof (reach_find _ _ _ _ _ _ Hr Hx) as Hr1.
  destruct (reach_inv _ _ Hr) as [Ht Hc]. destruct (reach_inv _ _ Hr1) as [Ht1 Hc1].
  assert (root (parent s1) x rx) as Hrx.
  { destruct (Ht x) as [r H]. destruct (find_spec s x r Ht H) as (k & s' & Hf & _ & Hroots).
    apply (find_mono _ (n + k)) in Hx; [|lia]. rewrite Hf in Hx by lia. simplify_eq. auto. }
  assert (root (parent s1) y ry) as Hry.
  { destruct (Ht1 y) as [r H]. destruct (find_spec s1 y r Ht1 H) as (k & s' & Hf & _ & Hroots).
    apply (find_mono _ (m + k)) in Hy; [|lia]. rewrite Hf in Hy by lia. by simplify_eq. }
  rewrite <-Hc1. split.
  - intros ->. by exists ry.
  - intros (r & H1 & H2). rewrite (root_det _ _ _ _ Hrx H1). symmetry. by eapply root_det.
Qed.

(** The representative is itself in the class it represents. *)
Theorem C07_representative_is_member s js x n s1 r :
  reach s js → find n s x = Some (s1, r) → connected js x r.
Proof.
  intros Hr Hx. destruct (reach_inv _ _ Hr) as [Ht Hc]. apply Hc.
  destruct (Ht x) as [q H]. destruct (find_spec s x q Ht H) as (k & s' & Hf & _ & Hroots).
  apply (find_mono _ (n + k)) in Hx; [|lia]. rewrite Hf in Hx by lia. simplify_eq.
  exists r. split; [done|]. constructor. by eapply root_root.
Qed.

(** ** C08: join bumps the rank of the receiver, not of its root. *)

(** [x] is [d] parent steps below a root. *)
Definition depth (s : dj) (x d : nat) : Prop :=
  parent s (Nat.iter d (parent s) x) = Nat.iter d (parent s) x ∧
  ∀ i, i < d → parent s (Nat.iter i (parent s) x) ≠ Nat.iter i (parent s) x.

(** Joins of pairs (2i, 2i+1), each new pair then joined, through its second
    member, with the root of the previous tree. *)
Fixpoint joins (k : nat) : list (nat * nat) :=
  match k with
  | 0 => [(0, 1)]
  | S k' => joins k' ++ [(2 * k, 2 * k + 1); (2 * k + 1, 2 * k')]
  end.

Fixpoint run (fuel : nat) (s : dj) (js : list (nat * nat)) : option dj :=
  match js with
  | [] => Some s
  | (x, y) :: js => s' ← join fuel s x y; run fuel s' js
  end.

Lemma run_app n s a b : run n s (a ++ b) = s' ← run n s a; run n s' b.
Proof.
  revert s. induction a as [|[x y] a IH]; intros s; [done|]. simpl.
  destruct (join n s x y); simpl; [apply IH|done].
Qed.

Lemma run_reach n s js s' js0 :
  reach s js0 → run n s js = Some s' → reach s' (rev_append js js0).
Proof.
  revert s js0. induction js as [|[x y] js IH]; intros s js0 Hr Hs; simpl in Hs.
  - by simplify_eq.
  - destruct (join n s x y) as [s1|] eqn:E; [|done]. simpl in Hs.
    eapply IH; [by eapply reach_join|done].
Qed.

(** The state after [joins k]. *)
Record chained (k : nat) (s : dj) : Prop := {
  ch_odd : ∀ i, i ≤ k → parent s (2 * i + 1) = 2 * i;
  ch_even : ∀ i, i < k → parent s (2 * i) = 2 * (i + 1);
  ch_top : parent s (2 * k) = 2 * k;
  ch_rest : ∀ x, 2 * k + 1 < x → parent s x = x ∧ rank s x = 0;
  ch_rank : rank s (2 * k) = 1 }.

Lemma join_roots n s x y :
  parent s y = y → parent s x ≠ x → parent s (parent s x) = parent s x →
  parent s x ≠ y → rank s (parent s x) = rank s y →
  join (S (S n)) s x y =
    Some (DJ (upd (upd (parent s) x (parent s x)) y (parent s x)) (upd (rank s) x (rank s x + 1))).
Proof.
  intros Hy Hx Hxx Hne Hrk. unfold join. simpl.
  rewrite decide_False by done. rewrite decide_True by done. simpl.
  rewrite upd_same.
  rewrite (decide_True (P := upd (parent s) x (parent s x) y = y)).
  2:{ rewrite upd_other; [done|]. intros ->. done. }
  simpl. rewrite decide_False by done. rewrite decide_False by lia.
  by rewrite decide_True by done.
Qed.

Lemma joins_state n k : ∃ s, run (S (S n)) new (joins k) = Some s ∧ chained k s.
Proof.
  induction k as [|k (s & Hs & Hch)].
  - simpl. eexists. split; [reflexivity|].
    split; cbn [parent rank].
    + intros i Hi. replace i with 0 by lia. simpl. by rewrite upd_same.
    + lia.
    + by rewrite upd_other by lia.
    + intros x Hx. rewrite !upd_other by lia. done.
    + by rewrite upd_same.
  - cbn [joins]. rewrite run_app, Hs. cbn [mbind option_bind run].
    destruct Hch as [Hodd Heven Htop Hrest Hrank].
    set (f := 2 * S k + 1). set (e := 2 * S k) in *. set (r := 2 * k) in *.
    destruct (Hrest e) as [Hpe Hre]; [lia|]. destruct (Hrest f) as [Hpf Hrf]; [lia|].
    assert (join (S (S n)) s e f = Some (DJ (upd (parent s) f e) (upd (rank s) e 1))) as ->.
    { unfold join. simpl. rewrite decide_True by done. simpl.
      rewrite decide_True by done. simpl. rewrite decide_False by lia.
      rewrite decide_False by lia. rewrite decide_True by lia. by rewrite Hre. }
    cbn [mbind option_bind].
    set (s1 := DJ (upd (parent s) f e) (upd (rank s) e 1)).
    assert (parent s1 f = e) as Hf by apply upd_same.
    rewrite (join_roots n s1 f r).
    + eexists. split; [reflexivity|]. rewrite Hf.
      split; cbn [parent rank s1].
      * intros i Hi. rewrite (upd_other _ r) by lia.
        destruct (decide (i = S k)) as [->|].
        -- by rewrite upd_same.
        -- rewrite !upd_other by lia. apply Hodd. lia.
      * intros i Hi. destruct (decide (i = k)) as [->|].
        -- fold r. rewrite upd_same. lia.
        -- rewrite !upd_other by lia. apply Heven. lia.
      * fold e. rewrite !upd_other by lia. done.
      * intros x Hx. rewrite !upd_other by lia. apply Hrest. lia.
      * fold e. rewrite upd_other by lia. by rewrite upd_same.
    + cbn [parent s1]. rewrite upd_other by lia. done.
    + rewrite Hf. lia.
    + rewrite Hf. cbn [parent s1]. rewrite upd_other by lia. done.
    + rewrite Hf. lia.
    + rewrite Hf. cbn [rank s1]. rewrite upd_same, upd_other by lia. done.
Qed.

(** For every k, a sequence of joins over the 2k+2 objects 0..2k+1 leaves
    object 1 at depth k+1, although every root has rank at most 1 (with correct
    union by rank the depth would be at most the rank of the root). *)
Theorem C08_depth_not_logarithmic k :
  (∀ x y, (x, y) ∈ joins k → x < 2 * k + 2 ∧ y < 2 * k + 2) ∧
  ∃ s n, run n new (joins k) = Some s ∧ depth s 1 (k + 1) ∧
    ∀ x, parent s x = x → rank s x ≤ 1.
Proof.
  split.
  - induction k as [|k IH]; intros x y H.
    + apply elem_of_list_singleton in H. simplify_eq. lia.
    + simpl in H. apply elem_of_app in H as [H|H].
      * destruct (IH _ _ H). lia.
      * repeat (apply elem_of_cons in H as [H|H]; [simplify_eq; lia|]).
        by apply elem_of_nil in H.
  - destruct (joins_state 0 k) as (s & Hs & Hch). exists s, 2. split; [done|].
    destruct Hch as [Hodd Heven Htop Hrest Hrank].
    assert (∀ i, i ≤ k → Nat.iter (S i) (parent s) 1 = 2 * i) as Hit.
    { induction i as [|i IHi]; intros Hi.
      - simpl. apply (Hodd 0). lia.
      - change (Nat.iter (S (S i)) (parent s) 1) with (parent s (Nat.iter (S i) (parent s) 1)).
        rewrite IHi by lia. rewrite Heven by lia. lia. }
    split.
    + split.
      * replace (k + 1) with (S k) by lia. rewrite Hit by lia. done.
      * intros [|i] Hi.
        -- simpl. pose proof (Hodd 0 ltac:(lia)) as H0. simpl in H0. lia.
        -- rewrite Hit by lia. rewrite Heven by lia. lia.
    + intros x Hx. destruct (decide (2 * k + 1 < x)) as [Hgt|Hle].
      * destruct (Hrest x Hgt). lia.
      * destruct (Nat.Even_or_Odd x) as [[i ->]|[i ->]].
        -- destruct (decide (i = k)) as [->|]; [lia|].
           rewrite Heven in Hx by lia. lia.
        -- rewrite Hodd in Hx by lia. lia.
Qed.

(** ** Non-vacuity: a reachable state with two classes. *)
Example ex_reach : ∃ s js, reach s js ∧ connected js 0 5 ∧ ¬ connected js 0 7.
Proof.
  assert (∃ s, run 10 new [(0, 1); (4, 5); (1, 4); (7, 8)] = Some s) as [s Hs].
  { destruct (run 10 new _) as [s|] eqn:E; [by exists s|]. exfalso.
    assert (match run 10 new [(0, 1); (4, 5); (1, 4); (7, 8)] with Some _ => true | None => false end = true) as Hb
      by (vm_compute; reflexivity).
    rewrite E in Hb. discriminate. }
  assert (reach s [(7, 8); (1, 4); (4, 5); (0, 1)]) as Hr.
  { apply (run_reach _ _ _ _ _ reach_new Hs). }
  exists s, [(7, 8); (1, 4); (4, 5); (0, 1)]. split; [done|]. split.
  - eapply rst_trans; [apply (rst_step _ _ 0 1); (repeat constructor)|].
    eapply rst_trans; [apply (rst_step _ _ 1 4); (repeat constructor)|].
    apply rst_step. (repeat constructor).
  - intros Hc. assert (∀ a b, connected [(7, 8); (1, 4); (4, 5); (0, 1)] a b → (a < 7 ↔ b < 7)) as Hlt.
    { induction 1 as [a b H|a|a b H IH|a b c H1 IH1 H2 IH2]; try tauto.
      repeat (apply elem_of_cons in H as [H|H]; [injection H as -> ->; lia|]).
      by apply elem_of_nil in H. }
    apply Hlt in Hc. lia.
Qed.

Print Assumptions C07_find_and_join_terminate.
Print Assumptions C07_find_decides_connected.
Print Assumptions C07_representative_is_member.
Print Assumptions C08_depth_not_logarithmic.
