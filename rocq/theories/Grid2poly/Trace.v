(** The boundary walk of visnav/grid2poly.cc. *)
From stdpp Require Import prelude.
From Coq Require Import ZArith Lia ZifyBool ZifyNat.
From Verif.Grid2poly Require Import Model.
Local Open Scope Z_scope.

Lemma not_NoDup {A} `{EqDecision A} (l : list A) : ¬ NoDup l → ∃ i j x, (i < j)%nat ∧ l !! i = Some x ∧ l !! j = Some x.
Proof.
  induction l as [|a l IH]; intros H; [destruct H; constructor|].
  destruct (decide (a ∈ l)) as [Hin|Hnin].
  - apply elem_of_list_lookup in Hin as [j Hj]. exists 0%nat, (S j), a. split; [lia|done].
  - destruct IH as (i & j & x & Hij & Hi & Hj); [intros Hnd; apply H; by constructor|].
    exists (S i), (S j), x. split; [lia|done].
Qed.

(** ** Specification of an outline *)

(** The point [n] units away in a direction. *)
Definition move (d : dir) (p : pt) (n : nat) : pt :=
  match d with
  | Up => (p.1, p.2 + Z.of_nat n)
  | Down => (p.1, p.2 - Z.of_nat n)
  | Left => (p.1 - Z.of_nat n, p.2)
  | Right => (p.1 + Z.of_nat n, p.2)
  end.

(** The edge of unit length from [p] in direction [d] has a blocked cell on its
    right and a free one on its left.  (The cell (x, y) has the corners (x, y) and
    (x+1, y+1).) *)
Definition boundary (B : Z → Z → bool) (d : dir) (p : pt) : Prop :=
  let '(x, y) := p in
  match d with
  | Up => B x y = true ∧ B (x - 1) y = false
  | Down => B (x - 1) (y - 1) = true ∧ B x (y - 1) = false
  | Left => B (x - 1) y = true ∧ B (x - 1) (y - 1) = false
  | Right => B x (y - 1) = true ∧ B x y = false
  end.

Definition right_angle (d d' : dir) : Prop :=
  match d with
  | Up | Down => d' = Left ∨ d' = Right
  | Left | Right => d' = Up ∨ d' = Down
  end.

(** The edges of unit length of the side from [p] of length [n]. *)
Definition units (d : dir) (p : pt) (n : nat) : list (dir * pt) := (λ i, (d, move d p i)) <$> seq 0 n.

(** [tour B d p l q d' E]: from [p] in direction [d], along the vertices [l], to [q],
    arriving in direction [d'], with a right angle at each vertex and the boundary
    under every unit of the way; [E] lists the units. *)
Inductive tour (B : Z → Z → bool) : dir → pt → list pt → pt → dir → list (dir * pt) → Prop :=
  | tour_last d p n :
      (0 < n)%nat → (∀ i, (i < n)%nat → boundary B d (move d p i)) →
      tour B d p [] (move d p n) d (units d p n)
  | tour_turn d d' p n l q dl E :
      (0 < n)%nat → (∀ i, (i < n)%nat → boundary B d (move d p i)) → right_angle d d' →
      tour B d' (move d p n) l q dl E →
      tour B d p (move d p n :: l) q dl (units d p n ++ E).

(** A closed rectilinear polygon that passes over no unit of length twice. *)
Definition outline (B : Z → Z → bool) (pts : list pt) : Prop :=
  ∃ p l d d' E, pts = p :: l ∧ tour B d p l p d' E ∧ right_angle d' d ∧ NoDup E.

(** It has at least four vertices. *)
Lemma outline_four B pts : outline B pts → (4 ≤ length pts)%nat.
Proof.
  intros (p & l & d & d' & E & -> & Ht & Ha & _). destruct p as [x y].
  destruct l as [|a [|b [|c l]]]; [| | |cbn [length]; lia]; exfalso.
  - inversion Ht as [? ? n Hn Hb E1 E2 E3 E4|]; subst. destruct d'; cbn in *; destruct Ha; congruence.
  - inversion Ht as [|? d1 ? n ? ? ? ? Hn Hb Hr Ht']; subst.
    inversion Ht' as [? ? n' Hn' Hb'|]; subst.
    match goal with H : move _ _ _ = (x, y) |- _ => clear -Ha Hn H; rename H into E2 end.
    destruct d, d'; cbn in *; destruct Ha; try congruence; injection E2; lia.
  - inversion Ht as [|? d1 ? n ? ? ? ? Hn Hb Hr Ht']; subst.
    inversion Ht' as [|? d2 ? n' ? ? ? ? Hn' Hb' Hr' Ht'']; subst.
    inversion Ht'' as [? ? n'' Hn'' Hb'' E1 E2 E3|]; subst.
    destruct d, d1; cbn in Hr; destruct Hr; try congruence; destruct d'; cbn in *; intuition congruence.
Qed.

Section tracing.
Context (B : Z → Z → bool).

(** The cell on the other side of the edge a pose stands for. *)
Definition outside (c : pose) : Z * Z :=
  match pdir c with
  | Up => (px c - 1, py c)
  | Down => (px c + 1, py c)
  | Left => (px c, py c - 1)
  | Right => (px c, py c + 1)
  end.

Definition valid (c : pose) : Prop :=
  B (px c) (py c) = true ∧ B (outside c).1 (outside c).2 = false.

(** The ends of that edge. *)
Definition tail (c : pose) : pt :=
  match pdir c with
  | Up => (px c, py c)
  | Down => (px c + 1, py c + 1)
  | Right => (px c, py c + 1)
  | Left => (px c + 1, py c)
  end.

Lemma clockwise_valid c : valid c → valid (clockwise B c).
Proof.
  destruct c as [x y d]. unfold valid, outside. intros [H1 H2].
  destruct d; cbn [clockwise px py pdir fst snd] in *;
    repeat match goal with |- context [if ?b then _ else _] => destruct b eqn:? end;
    cbn [px py pdir fst snd]; split; try done;
    rewrite ?Z.add_simpl_r, ?Z.sub_add; done.
Qed.

Lemma clockwise_joins c : tail (clockwise B c) = corner c.
Proof.
  destruct c as [x y d]. unfold tail, corner.
  destruct d; cbn [clockwise px py pdir];
    repeat match goal with |- context [if ?b then _ else _] => destruct b eqn:? end;
    cbn [px py pdir]; f_equal; lia.
Qed.

Definition opposite (d : dir) : dir :=
  match d with Up => Down | Down => Up | Left => Right | Right => Left end.

Lemma clockwise_turn c : pdir (clockwise B c) ≠ opposite (pdir c).
Proof.
  destruct c as [x y d]. destruct d; cbn [clockwise pdir opposite];
    repeat match goal with |- context [if ?b then _ else _] => destruct b eqn:? end; done.
Qed.

(** The pose before. *)
Definition back (c : pose) : pose :=
  let '(Pose x y d) := c in
  match d with
  | Up => if B (x - 1) (y - 1) then Pose (x - 1) (y - 1) Right
          else if B x (y - 1) then Pose x (y - 1) Up else Pose x y Left
  | Right => if B (x - 1) (y + 1) then Pose (x - 1) (y + 1) Down
             else if B (x - 1) y then Pose (x - 1) y Right else Pose x y Up
  | Down => if B (x + 1) (y + 1) then Pose (x + 1) (y + 1) Left
            else if B x (y + 1) then Pose x (y + 1) Down else Pose x y Right
  | Left => if B (x + 1) (y - 1) then Pose (x + 1) (y - 1) Up
            else if B (x + 1) y then Pose (x + 1) y Left else Pose x y Down
  end.

Lemma back_clockwise c : valid c → back (clockwise B c) = c.
Proof.
  destruct c as [x y d]. unfold valid, outside. intros [H1 H2].
  destruct d; cbn [clockwise px py pdir fst snd] in *;
    repeat match goal with |- context [back (if ?b then _ else _)] => destruct b eqn:? end;
    cbn [back]; rewrite ?Z.add_simpl_r, ?Z.sub_add;
    repeat match goal with H : B _ _ = _ |- _ => rewrite H; clear H end; try done;
    repeat match goal with H : B _ _ = _ |- _ => rewrite H end; try done.
Qed.

Lemma clockwise_inj c d : valid c → valid d → clockwise B c = clockwise B d → c = d.
Proof. intros Hc Hd E. by rewrite <-(back_clockwise c Hc), <-(back_clockwise d Hd), E. Qed.

Definition orbit (s : pose) (k : nat) : pose := Nat.iter k (clockwise B) s.

Lemma orbit_S s k : orbit s (S k) = clockwise B (orbit s k).
Proof. done. Qed.
Lemma orbit_valid s k : valid s → valid (orbit s k).
Proof. intros H. induction k as [|k IH]; [done|]. rewrite orbit_S. by apply clockwise_valid. Qed.

Lemma orbit_cancel s i k : valid s → orbit s i = orbit s (i + k) → s = orbit s k.
Proof.
  intros Hs. induction i as [|i IH]; [done|]. cbn [Nat.add]. rewrite !orbit_S. intros E.
  apply clockwise_inj in E; [by apply IH|by apply orbit_valid|by apply orbit_valid].
Qed.

(** ** The loop follows the orbit until the first return *)
Fixpoint turns (s : pose) (i n : nat) : list pt :=
  match n with
  | O => []
  | S n => (if decide (pdir (orbit s i) = pdir (orbit s (S i))) then [] else [corner (orbit s i)]) ++ turns s (S i) n
  end.

Lemma trace_run mx my k f : let s := Pose mx my Up in
  orbit s k = s → (∀ j, (0 < j < k)%nat → orbit s j ≠ s) → pdir (orbit s (k - 1)) ≠ Up →
  ∀ n i pts, (i + S n = k)%nat → trace B (n + S f) mx my (orbit s i) pts = Some (pts ++ turns s i n).
Proof.
  intros s Ek Hmin Hd. induction n as [|n IH]; intros i pts Hi; cbn [Nat.add trace turns]; rewrite <-!orbit_S.
  - replace (S i) with k by lia. rewrite Ek. replace i with (k - 1)%nat by lia.
    rewrite decide_False by done. rewrite decide_True by done. by rewrite app_nil_r.
  - destruct (decide (pdir (orbit s i) = pdir (orbit s (S i)))) as [E|Hne].
    + rewrite IH by lia. done.
    + rewrite decide_False by (apply Hmin; lia). rewrite IH by lia. by rewrite <-app_assoc.
Qed.

Definition edge (c : pose) : dir * pt := (pdir c, tail c).

Lemma edge_inj c c' : edge c = edge c' → c = c'.
Proof using. clear B.
  destruct c as [x y d], c' as [x' y' d']. unfold edge. intros E. injection E as E1 E2. cbn [pdir] in E1. subst d'.
  unfold tail in E2. destruct d; cbn [px py pdir] in E2; injection E2 as E2 E3; f_equal; lia.
Qed.

Lemma valid_boundary c : valid c → boundary B (pdir c) (tail c).
Proof.
  destruct c as [x y d]. unfold valid, outside, boundary, tail. intros [H1 H2].
  destruct d; cbn [px py pdir fst snd] in *; rewrite ?Z.add_simpl_r; done.
Qed.

Lemma corner_move c : corner c = move (pdir c) (tail c) 1.
Proof using. clear B. destruct c as [x y d]. unfold corner, tail, move. destruct d; cbn; f_equal; lia. Qed.

Lemma move_move d p m n : move d (move d p m) n = move d p (m + n).
Proof using. clear B. destruct p as [x y], d; cbn; f_equal; lia. Qed.
Lemma move_0 d p : move d p 0 = p.
Proof using. clear B. destruct p as [x y], d; cbn; f_equal; lia. Qed.

Lemma turn_right_angle c : pdir c ≠ pdir (clockwise B c) → right_angle (pdir c) (pdir (clockwise B c)).
Proof.
  pose proof (clockwise_turn c) as H. destruct (pdir c), (pdir (clockwise B c)); cbn in *; intros Hne; try done; auto.
Qed.

Lemma units_S d p m : units d p (S m) = units d p m ++ [(d, move d p m)].
Proof using. clear B. unfold units. rewrite seq_S, fmap_app. done. Qed.

Lemma tour_run s k : valid s → orbit s k = s → ∀ n i p m, (i + S n = k)%nat →
  let d := pdir (orbit s i) in
  tail (orbit s i) = move d p m → (∀ j, (j < m)%nat → boundary B d (move d p j)) →
  tour B d p (turns s i n) (tail s) (pdir (orbit s (k - 1))) (units d p m ++ (edge <$> (orbit s <$> seq i (S n)))).
Proof.
  intros Hs Ek. induction n as [|n IH]; intros i p m Hi d Ht Hb; cbn [turns].
  - assert (tail s = move d p (S m)) as ->.
    { rewrite <-Ek. replace k with (S i) by lia. rewrite orbit_S, clockwise_joins, corner_move, Ht. fold d.
      rewrite move_move. f_equal. lia. }
    replace (k - 1)%nat with i by lia. fold d. cbn [seq fmap list_fmap]. unfold edge. fold d. rewrite Ht, <-units_S.
    apply tour_last; [lia|]. intros j Hj. destruct (decide (j = m)) as [->|]; [|apply Hb; lia].
    rewrite <-Ht. apply valid_boundary. by apply orbit_valid.
  - assert (∀ j, (j < S m)%nat → boundary B d (move d p j)) as Hb'.
    { intros j Hj. destruct (decide (j = m)) as [->|]; [|apply Hb; lia].
      rewrite <-Ht. apply valid_boundary. by apply orbit_valid. }
    assert (tail (orbit s (S i)) = move d p (S m)) as Ht'.
    { rewrite orbit_S, clockwise_joins, corner_move, Ht. fold d. rewrite move_move. f_equal. lia. }
    change (seq i (S (S n))) with (i :: seq (S i) (S n)). rewrite !fmap_cons.
    unfold edge at 1. fold d. rewrite Ht, cons_middle, app_assoc, <-units_S.
    destruct (decide (d = pdir (orbit s (S i)))) as [E|Hne].
    + specialize (IH (S i) p (S m) ltac:(lia)). cbn zeta in IH. rewrite <-E in IH. cbn [app].
      apply IH; done.
    + replace (corner (orbit s i)) with (move d p (S m)) by (by rewrite <-Ht', orbit_S, clockwise_joins).
      apply (tour_turn B d (pdir (orbit s (S i)))); [lia|done|apply turn_right_angle; exact Hne|].
      specialize (IH (S i) (move d p (S m)) 0%nat ltac:(lia)). cbn zeta in IH.
      apply IH; [by rewrite move_0|]. intros j Hj. lia.
Qed.

(** Finitely many blocked cells. *)
Context (w h : nat).
Context (B_in : ∀ x y, B x y = true → 0 ≤ x < Z.of_nat w ∧ 0 ≤ y < Z.of_nat h).

Definition allposes : list pose :=
  x ← seq 0 w; y ← seq 0 h; d ← [Up; Down; Left; Right]; [Pose (Z.of_nat x) (Z.of_nat y) d].

Lemma valid_all c : valid c → c ∈ allposes.
Proof.
  intros [H _]. apply B_in in H. destruct c as [x y d]. cbn [px py] in H. unfold allposes.
  apply elem_of_list_bind. exists (Z.to_nat x). split; [|apply elem_of_seq; lia].
  apply elem_of_list_bind. exists (Z.to_nat y). split; [|apply elem_of_seq; lia].
  apply elem_of_list_bind. exists d. split; [|destruct d; set_solver].
  apply elem_of_list_singleton. rewrite !Z2Nat.id by lia. done.
Qed.

Lemma orbit_returns s : valid s → ∃ k, (0 < k ≤ length allposes)%nat ∧ orbit s k = s.
Proof.
  intros Hs. set (n := length allposes).
  destruct (decide (NoDup (orbit s <$> seq 0 (S n)))) as [Hnd|Hd].
  - exfalso. assert (length (orbit s <$> seq 0 (S n)) ≤ n)%nat as Hle.
    { apply submseteq_length. apply NoDup_submseteq; [done|].
      intros c Hc. apply elem_of_list_fmap in Hc as (i & -> & _). apply valid_all. by apply orbit_valid. }
    rewrite fmap_length, seq_length in Hle. lia.
  - assert (∃ i j, (i < j ≤ n)%nat ∧ orbit s i = orbit s j) as (i & j & Hij & E).
    { apply not_NoDup in Hd as (i & j & c & Hij & Hi & Hj). rewrite list_lookup_fmap in Hi, Hj.
      destruct (seq 0 (S n) !! i) as [a|] eqn:Ea; [|done]. destruct (seq 0 (S n) !! j) as [b|] eqn:Eb; [|done].
      apply lookup_seq in Ea as [-> Ha]. apply lookup_seq in Eb as [-> Hb]. change (Some (orbit s i) = Some c) in Hi. change (Some (orbit s j) = Some c) in Hj.
      exists i, j. split; [lia|congruence]. }
    exists (j - i)%nat. split; [lia|]. symmetry. apply (orbit_cancel s i); [done|].
    replace (i + (j - i))%nat with j by lia. done.
Qed.

(** The first return. *)
Lemma first_return s : valid s → ∃ k, (0 < k)%nat ∧ orbit s k = s ∧
  (∀ j, (0 < j < k)%nat → orbit s j ≠ s) ∧ NoDup (orbit s <$> seq 0 k).
Proof.
  intros Hs. destruct (orbit_returns s Hs) as (k0 & Hk0 & E0).
  assert (∃ k, (0 < k)%nat ∧ orbit s k = s ∧ ∀ j, (0 < j < k)%nat → orbit s j ≠ s) as (k & Hk & E & Hmin).
  { generalize (length allposes) Hk0. clear Hk0. intros m Hk0. induction (lt_wf k0) as [k0 _ IH].
    destruct (decide (Exists (λ j, (0 < j)%nat ∧ orbit s j = s) (seq 0 k0))) as [He|Hno].
    - apply Exists_exists in He as (j & Hj%elem_of_seq & Hj0 & Ej). apply (IH j); [lia|done|lia].
    - exists k0. split; [lia|]. split; [done|]. intros j Hj Ej. apply Hno. apply Exists_exists. exists j.
      split; [apply elem_of_seq; lia|]. split; [lia|done]. }
  exists k. split; [done|]. split; [done|]. split; [done|].
  apply NoDup_alt. intros i j c Hi Hj. rewrite list_lookup_fmap in Hi, Hj.
  destruct (seq 0 k !! i) as [a|] eqn:Ea; [|done]. destruct (seq 0 k !! j) as [b|] eqn:Eb; [|done].
  apply lookup_seq in Ea as [-> Ha]. apply lookup_seq in Eb as [-> Hb]. change (Some (orbit s i) = Some c) in Hi. change (Some (orbit s j) = Some c) in Hj.
  destruct (Nat.lt_trichotomy i j) as [Hlt|[->|Hlt]]; [|done|]; exfalso.
  - apply (Hmin (j - i)%nat); [lia|]. symmetry. apply (orbit_cancel s i); [done|].
    replace (i + (j - i))%nat with j by lia. congruence.
  - apply (Hmin (i - j)%nat); [lia|]. symmetry. apply (orbit_cancel s j); [done|].
    replace (j + (i - j))%nat with i by lia. congruence.
Qed.

(** ** Tracing terminates if the start is entered by a turn *)
Lemma poly_tour mx my : let s := Pose mx my Up in valid s → pdir (back s) ≠ Up →
  ∃ k l d', (0 < k)%nat ∧ orbit s k = s ∧ NoDup (orbit s <$> seq 0 k) ∧
    tour B Up (mx, my) l (mx, my) d' (edge <$> (orbit s <$> seq 0 k)) ∧ right_angle d' Up ∧
    ∀ fuel, (k ≤ fuel)%nat → poly B fuel mx my = Some ((mx, my) :: l).
Proof.
  intros s Hs Hd. destruct (first_return s Hs) as (k & Hk & Ek & Hmin & Hnd).
  assert (pdir (orbit s (k - 1)) ≠ Up) as Hl.
  { rewrite <-(back_clockwise (orbit s (k - 1))) by (by apply orbit_valid). rewrite <-orbit_S.
    replace (S (k - 1)) with k by lia. by rewrite Ek. }
  exists k, (turns s 0 (k - 1)), (pdir (orbit s (k - 1))). split; [done|]. split; [done|]. split; [done|]. split; [|split].
  - pose proof (tour_run s k Hs Ek (k - 1) 0 (mx, my) 0 ltac:(lia)) as H. cbn zeta in H.
    change (pdir (orbit s 0)) with Up in H. change (tail (orbit s 0)) with (mx, my) in H.
    change (tail s) with (mx, my) in H. change (units Up (mx, my) 0) with (@nil (dir * pt)) in H. rewrite app_nil_l in H.
    replace (S (k - 1)) with k in H by lia. apply H; [by rewrite move_0|]. intros j Hj. lia.
  - pose proof (turn_right_angle (orbit s (k - 1))) as H. rewrite <-orbit_S in H.
    replace (S (k - 1)) with k in H by lia. rewrite Ek in H. by apply H.
  - intros fuel Hf. unfold poly. pose proof (trace_run mx my k (fuel - k)) as H. cbn zeta in H. fold s in H.
    specialize (H Ek Hmin Hl (k - 1)%nat 0%nat [(mx, my)] ltac:(lia)).
    replace (k - 1 + S (fuel - k))%nat with fuel in H by lia. exact H.
Qed.
End tracing.
