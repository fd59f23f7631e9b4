(** What the outlines traced by visnav/grid2poly.cc enclose. *)
From stdpp Require Import prelude.
From Coq Require Import ZArith Lia ZifyBool ZifyNat.
From Verif.Grid2poly Require Import Model Trace.
Local Open Scope Z_scope.

(** ** Specification: the even-odd rule for a rectilinear polygon *)

Definition sumof {A} (f : A → Z) (l : list A) : Z := foldr (λ a n, f a + n) 0 l.

(** The sides of the path along [l] from [p]. *)
Fixpoint sides (p : pt) (l : list pt) : list (pt * pt) :=
  match l with
  | [] => []
  | q :: l => (p, q) :: sides q l
  end.
(** All sides of the polygon, the closing one too. *)
Definition polysides (pts : list pt) : list (pt * pt) :=
  match pts with
  | [] => []
  | p :: l => sides p (l ++ [p])
  end.

(** A ray leftwards from the middle of the cell (x, y) crosses a vertical side. *)
Definition crosses (c : Z * Z) (e : pt * pt) : bool :=
  bool_decide (e.1.1 = e.2.1) && bool_decide (e.1.1 ≤ c.1) &&
  (bool_decide (e.1.2 ≤ c.2 < e.2.2) || bool_decide (e.2.2 ≤ c.2 < e.1.2)).
Definition inside (pts : list pt) (c : Z * Z) : Prop :=
  Z.odd (sumof (λ e, if crosses c e then 1 else 0) (polysides pts)) = true.

(** The cells that can be reached from [a] by steps up, down, left and right
    over free cells. *)
Definition step4 (B : Z → Z → bool) (a b : Z * Z) : Prop :=
  B a.1 a.2 = false ∧ B b.1 b.2 = false ∧ Z.abs (a.1 - b.1) + Z.abs (a.2 - b.2) = 1.
Definition region (B : Z → Z → bool) : Z * Z → Z * Z → Prop := rtc (step4 B).

(** ** Sums *)
Lemma sumof_app {A} (f : A → Z) l l' : sumof f (l ++ l') = sumof f l + sumof f l'.
Proof. induction l as [|a l IH]; cbn; [done|]. fold (sumof f (l ++ l')) (sumof f l). lia. Qed.
Lemma sumof_minus {A} (f g : A → Z) l : sumof f l - sumof g l = sumof (λ a, f a - g a) l.
Proof. induction l as [|a l IH]; [done|]. cbn. fold (sumof f l) (sumof g l) (sumof (λ a, f a - g a) l). lia. Qed.
Lemma sumof_ext {A} (f g : A → Z) l : (∀ a, a ∈ l → f a = g a) → sumof f l = sumof g l.
Proof.
  induction l as [|a l IH]; intros H; [done|]. cbn. fold (sumof f l) (sumof g l).
  rewrite (H a) by apply elem_of_list_here. rewrite IH; [done|]. intros b Hb. by apply H, elem_of_list_further.
Qed.

Definition ind {A} `{EqDecision A} (x : A) (l : list A) : Z := if decide (x ∈ l) then 1 else 0.
Lemma sumof_ind {A} `{EqDecision A} (x : A) l : NoDup l → sumof (λ a, if decide (a = x) then 1 else 0) l = ind x l.
Proof.
  unfold ind. induction 1 as [|a l Ha Hnd IH]; [done|]. cbn. fold (sumof (λ a, if decide (a = x) then 1 else 0) l). rewrite IH.
  destruct (decide (a = x)) as [->|Hne].
  - rewrite (decide_True (P := x ∈ x :: l)) by apply elem_of_list_here. by rewrite decide_False.
  - destruct (decide (x ∈ l)) as [Hin|Hnin].
    + rewrite decide_True; [done|by apply elem_of_list_further].
    + rewrite decide_False; [done|]. rewrite elem_of_cons. naive_solver.
Qed.

(** ** Signed crossings *)
Definition wside (c : Z * Z) (e : pt * pt) : Z :=
  if decide (e.1.1 = e.2.1 ∧ e.1.1 ≤ c.1) then
    if decide (e.1.2 ≤ c.2 < e.2.2) then 1 else if decide (e.2.2 ≤ c.2 < e.1.2) then -1 else 0
  else 0.

Lemma wside_odd c l : Z.odd (sumof (wside c) l) = Z.odd (sumof (λ e, if crosses c e then 1 else 0) l).
Proof.
  induction l as [|e l IH]; [done|]. cbn. fold (sumof (wside c) l) (sumof (λ e, if crosses c e then 1 else 0) l).
  rewrite !Z.odd_add, IH. f_equal. unfold wside, crosses.
  destruct (decide (e.1.1 = e.2.1 ∧ e.1.1 ≤ c.1)) as [[H1 H2]|Hn].
  - rewrite !(bool_decide_eq_true_2 _ H1), !(bool_decide_eq_true_2 _ H2). cbn [andb].
    destruct (decide (e.1.2 ≤ c.2 < e.2.2)) as [H3|H3].
    + by rewrite (bool_decide_eq_true_2 _ H3).
    + rewrite (bool_decide_eq_false_2 _ H3). cbn [orb]. destruct (decide (e.2.2 ≤ c.2 < e.1.2)) as [H4|H4].
      * by rewrite (bool_decide_eq_true_2 _ H4).
      * by rewrite (bool_decide_eq_false_2 _ H4).
  - destruct (bool_decide (e.1.1 = e.2.1)) eqn:E1; [|done]. destruct (bool_decide (e.1.1 ≤ c.1)) eqn:E2; [|done].
    apply bool_decide_eq_true in E1, E2. destruct Hn. done.
Qed.

(** The crossings of one unit of length. *)
Definition wunit (c : Z * Z) (e : dir * pt) : Z :=
  let '(d, p) := e in
  match d with
  | Up => if decide (p.1 ≤ c.1 ∧ p.2 = c.2) then 1 else 0
  | Down => if decide (p.1 ≤ c.1 ∧ p.2 - 1 = c.2) then -1 else 0
  | _ => 0
  end.
(** The crossings of a ray upwards. *)
Definition hunit (c : Z * Z) (e : dir * pt) : Z :=
  let '(d, p) := e in
  match d with
  | Right => if decide (p.1 = c.1 ∧ c.2 < p.2) then 1 else 0
  | Left => if decide (p.1 - 1 = c.1 ∧ c.2 < p.2) then -1 else 0
  | _ => 0
  end.

Lemma wside_units c d p n : (0 < n)%nat → wside c (p, move d p n) = sumof (wunit c) (units d p n).
Proof.
  intros Hn. destruct p as [x y], c as [a b].
  assert (∀ m, wside (a, b) ((x, y), move d (x, y) m) = sumof (wunit (a, b)) (units d (x, y) m)) as Hm; [|apply Hm].
  clear n Hn. induction m as [|m IH].
  - unfold wside, units. cbn [seq fmap list_fmap sumof foldr].
    destruct d; cbn [move fst snd]; destruct (decide _); try done; destruct (decide _); try lia; destruct (decide _); lia.
  - rewrite units_S, sumof_app, <-IH. cbn [sumof foldr]. unfold wside, wunit.
    destruct d; cbn [move fst snd] in *.
    + destruct (decide (x = x ∧ x ≤ a)) as [[_ H]|H].
      * destruct (decide (y ≤ b < y + Z.of_nat m)), (decide (y ≤ b < y + Z.of_nat (S m))),
          (decide (y + Z.of_nat m ≤ b < y)), (decide (y + Z.of_nat (S m) ≤ b < y)), (decide (x ≤ a ∧ y + Z.of_nat m = b)); lia.
      * rewrite (decide_False (P := x ≤ a ∧ _)) by naive_solver. done.
    + destruct (decide (x = x ∧ x ≤ a)) as [[_ H]|H].
      * destruct (decide (y ≤ b < y - Z.of_nat m)), (decide (y ≤ b < y - Z.of_nat (S m))),
          (decide (y - Z.of_nat m ≤ b < y)), (decide (y - Z.of_nat (S m) ≤ b < y)), (decide (x ≤ a ∧ y - Z.of_nat m - 1 = b)); lia.
      * rewrite (decide_False (P := x ≤ a ∧ _)) by naive_solver. done.
    + rewrite !(decide_False (P := x = _ ∧ _)) by lia. 
      destruct (decide (x = x - Z.of_nat m ∧ x ≤ a)); [|done].
      destruct (decide (y ≤ b < y)); [lia|]. done.
    + rewrite (decide_False (P := x = x + Z.of_nat (S m) ∧ _)) by lia.
      destruct (decide (x = x + Z.of_nat m ∧ x ≤ a)); [|done].
      destruct (decide (y ≤ b < y)); [lia|]. done.
Qed.

Lemma tour_wside B c d p l q d' E : tour B d p l q d' E → sumof (wside c) (sides p (l ++ [q])) = sumof (wunit c) E.
Proof.
  induction 1 as [d p n Hn _|d d' p n l q dl E Hn _ _ _ IH]; cbn [app sides sumof foldr].
  - rewrite wside_units by done. lia.
  - rewrite sumof_app, <-IH, wside_units by done. done.
Qed.

(** The potential whose differences along the edges are the differences of the rays. *)
Definition pot (c : Z * Z) (p : pt) : Z := if decide (p.1 ≤ c.1 ∧ c.2 < p.2) then 1 else 0.

Lemma pot_unit c d p : wunit c (d, p) - hunit c (d, p) = pot c (move d p 1) - pot c p.
Proof.
  destruct c as [a b], p as [x y]. unfold wunit, hunit, pot. destruct d; cbn [move fst snd].
  - destruct (decide (x ≤ a ∧ y = b)), (decide (x ≤ a ∧ b < y + Z.of_nat 1)), (decide (x ≤ a ∧ b < y)); lia.
  - destruct (decide (x ≤ a ∧ y - 1 = b)), (decide (x ≤ a ∧ b < y - Z.of_nat 1)), (decide (x ≤ a ∧ b < y)); lia.
  - destruct (decide (x - 1 = a ∧ b < y)), (decide (x - Z.of_nat 1 ≤ a ∧ b < y)), (decide (x ≤ a ∧ b < y)); lia.
  - destruct (decide (x = a ∧ b < y)), (decide (x + Z.of_nat 1 ≤ a ∧ b < y)), (decide (x ≤ a ∧ b < y)); lia.
Qed.

Lemma pot_units c d p n : sumof (λ e, wunit c e - hunit c e) (units d p n) = pot c (move d p n) - pot c p.
Proof.
  induction n as [|n IH].
  { rewrite move_0. unfold units. cbn [seq fmap list_fmap sumof foldr]. lia. }
  rewrite units_S, sumof_app, IH. cbn [sumof foldr].
  rewrite pot_unit, move_move. replace (n + 1)%nat with (S n) by lia. lia.
Qed.

Lemma pot_tour B c d p l q d' E : tour B d p l q d' E → sumof (wunit c) E - sumof (hunit c) E = pot c q - pot c p.
Proof.
  intros Ht. rewrite sumof_minus. induction Ht as [d p n Hn _|d d' p n l q dl E Hn _ _ _ IH].
  - apply pot_units.
  - rewrite sumof_app, IH, pot_units. lia.
Qed.

Ltac cases :=
  repeat match goal with |- context [@decide ?P ?D] => destruct (@decide P D) end;
  try lia; simplify_eq; try lia;
  match goal with Hne : (_, (_, _)) ≠ (_, (_, _)) |- _ => exfalso; apply Hne; f_equal; f_equal; lia end.

(** ** The winding number of a closed tour *)
Section wind.
Context (B : Z → Z → bool) (p : pt) (l : list pt) (d d' : dir) (E : list (dir * pt)).
Context (Ht : tour B d p l p d' E) (Hnd : NoDup E).

Definition wn (c : Z * Z) : Z := sumof (wunit c) E.

Lemma wn_h c : wn c = sumof (hunit c) E.
Proof using Ht. pose proof (pot_tour B c _ _ _ _ _ _ Ht). unfold wn. lia. Qed.

Lemma wn_right x y : wn (x + 1, y) - wn (x, y) = ind (Up, (x + 1, y)) E - ind (Down, (x + 1, y + 1)) E.
Proof using Hnd.
  unfold wn. rewrite sumof_minus. rewrite <-!sumof_ind, sumof_minus by done. apply sumof_ext. intros [d0 [a b]] _.
  destruct d0; unfold wunit; cbn [fst snd].
  - rewrite (decide_False (P := (Up, (a, b)) = (Down, _))) by done.
    cases.
  - rewrite (decide_False (P := (Down, (a, b)) = (Up, _))) by done.
    cases.
  - by rewrite !decide_False.
  - by rewrite !decide_False.
Qed.

Lemma wn_up x y : wn (x, y) - wn (x, y + 1) = ind (Right, (x, y + 1)) E - ind (Left, (x + 1, y + 1)) E.
Proof using Ht Hnd.
  rewrite !wn_h. rewrite sumof_minus. rewrite <-!sumof_ind, sumof_minus by done. apply sumof_ext. intros [d0 [a b]] _.
  destruct d0; unfold hunit; cbn [fst snd].
  - by rewrite !decide_False.
  - by rewrite !decide_False.
  - rewrite (decide_False (P := (Left, (a, b)) = (Right, _))) by done.
    cases.
  - rewrite (decide_False (P := (Right, (a, b)) = (Left, _))) by done.
    cases.
Qed.

Lemma inside_wn c : inside (p :: l) c ↔ Z.odd (wn c) = true.
Proof using Ht. unfold inside, polysides, wn. rewrite <-wside_odd. by rewrite (tour_wside _ _ _ _ _ _ _ _ Ht). Qed.
End wind.

(** ** The outline of a connected set *)
Definition adj8 (B : Z → Z → bool) (a b : Z * Z) : Prop :=
  B a.1 a.2 = true ∧ B b.1 b.2 = true ∧ Z.abs (a.1 - b.1) ≤ 1 ∧ Z.abs (a.2 - b.2) ≤ 1.

Lemma region_sym B a b : region B a b → region B b a.
Proof.
  unfold region. induction 1 as [|a b c (H1 & H2 & H3) _ IH]; [done|]. transitivity b; [done|]. apply rtc_once.
  split_and!; try done. lia.
Qed.

Section enclose.
Context (B : Z → Z → bool) (w h : nat).
Context (B_in : ∀ x y, B x y = true → 0 ≤ x < Z.of_nat w ∧ 0 ≤ y < Z.of_nat h).
Context (B_conn : ∀ a b, B a.1 a.2 = true → B b.1 b.2 = true → rtc (adj8 B) a b).
Context (s : pose) (k : nat) (p : pt) (l : list pt) (d d' : dir).
Notation O := (orbit B s <$> seq 0 k).
Notation E := (edge <$> O).
Context (Hs : valid B s) (Hk : (0 < k)%nat) (Ek : orbit B s k = s) (Hnd : NoDup O).
Context (Ht : tour B d p l p d' E).

Notation wn := (wn E).
Definition on (c : pose) : Z := if decide (c ∈ O) then 1 else 0.

Lemma E_nodup : NoDup E.
Proof. apply NoDup_fmap_2; [|done]. intros c c' H. by apply edge_inj. Qed.
Lemma ind_on c : ind (edge c) E = on c.
Proof.
  unfold ind, on. destruct (decide (c ∈ O)) as [H|H].
  - rewrite decide_True; [done|]. by apply elem_of_list_fmap_1.
  - rewrite decide_False; [done|]. intros (c' & E' & Hc')%elem_of_list_fmap. apply edge_inj in E' as <-. done.
Qed.

Lemma O_valid c : c ∈ O → valid B c.
Proof. intros (i & -> & _)%elem_of_list_fmap. by apply orbit_valid. Qed.
Lemma on_invalid c : ¬ valid B c → on c = 0.
Proof. intros H. unfold on. rewrite decide_False; [done|]. intros Hc. by apply H, O_valid. Qed.

Lemma O_clockwise c : valid B c → clockwise B c ∈ O ↔ c ∈ O.
Proof.
  intros Hc. split.
  - intros (i & Ei & Hi%elem_of_seq)%elem_of_list_fmap.
    assert (∃ j, (j < k)%nat ∧ clockwise B c = orbit B s (S j)) as (j & Hj & Ej).
    { destruct i as [|i]; [exists (k - 1)%nat; split; [lia|]; replace (S (k - 1)) with k by lia; by rewrite Ek|].
      exists i. split; [lia|done]. }
    rewrite orbit_S in Ej. apply clockwise_inj in Ej; [|done|by apply orbit_valid]. subst c.
    apply elem_of_list_fmap. exists j. split; [done|]. apply elem_of_seq. lia.
  - intros (i & -> & Hi%elem_of_seq)%elem_of_list_fmap. rewrite <-orbit_S. destruct (decide (S i = k)) as [->|Hne].
    + rewrite Ek. apply elem_of_list_fmap. exists 0%nat. split; [done|]. apply elem_of_seq. lia.
    + apply elem_of_list_fmap. exists (S i). split; [done|]. apply elem_of_seq. lia.
Qed.
Lemma on_clockwise c : valid B c → on (clockwise B c) = on c.
Proof.
  intros Hc. unfold on. pose proof (O_clockwise c Hc) as H.
  destruct (decide (clockwise B c ∈ O)), (decide (c ∈ O)); tauto.
Qed.
Lemma s_on : on s = 1.
Proof.
  unfold on. rewrite decide_True; [done|]. apply elem_of_list_fmap. exists 0%nat. split; [done|]. apply elem_of_seq. lia.
Qed.

(** The winding numbers of neighbouring cells. *)
Lemma wn_hor x y : wn (x + 1, y) - wn (x, y) = on (Pose (x + 1) y Up) - on (Pose x y Down).
Proof. rewrite (wn_right _ E_nodup), <-!ind_on. done. Qed.
Lemma wn_ver x y : wn (x, y) - wn (x, y + 1) = on (Pose x y Right) - on (Pose x (y + 1) Left).
Proof. rewrite (wn_up B p l d d' _ Ht E_nodup), <-!ind_on. done. Qed.

Lemma wn_edge c : valid B c → wn (px c, py c) - wn (outside c) = on c.
Proof.
  destruct c as [x y [| | |]]; intros [H1 H2]; unfold outside in *; cbn [px py pdir fst snd] in *.
  - pose proof (wn_hor (x - 1) y) as H. rewrite Z.sub_add in H. rewrite H.
    rewrite (on_invalid (Pose (x - 1) y Down)); [lia|]. intros [H3 _]. cbn in H3. congruence.
  - pose proof (wn_hor x y) as H. 
    rewrite (on_invalid (Pose (x + 1) y Up)) in H; [lia|]. intros [H3 _]. cbn in H3. congruence.
  - pose proof (wn_ver x (y - 1)) as H. rewrite Z.sub_add in H.
    rewrite (on_invalid (Pose x (y - 1) Right)) in H; [lia|]. intros [H3 _]. cbn in H3. congruence.
  - pose proof (wn_ver x y) as H.
    rewrite (on_invalid (Pose x (y + 1) Left)) in H; [lia|]. intros [H3 _]. cbn in H3. congruence.
Qed.

Lemma wn_same_hor x y : B (x + 1) y = B x y → wn (x + 1, y) = wn (x, y).
Proof.
  intros H. pose proof (wn_hor x y) as H'. rewrite !on_invalid in H'; [lia| |].
  - intros [H1 H2]. cbn in H1, H2. congruence.
  - intros [H1 H2]. cbn in H1, H2. rewrite Z.add_simpl_r in H2. congruence.
Qed.
Lemma wn_same_ver x y : B x (y + 1) = B x y → wn (x, y + 1) = wn (x, y).
Proof.
  intros H. pose proof (wn_ver x y) as H'. rewrite !on_invalid in H'; [lia| |].
  - intros [H1 H2]. cbn in H1, H2. rewrite Z.add_simpl_r in H2. congruence.
  - intros [H1 H2]. cbn in H1, H2. congruence.
Qed.

Lemma wn_step4 a b : Z.abs (a.1 - b.1) + Z.abs (a.2 - b.2) = 1 → B a.1 a.2 = B b.1 b.2 → wn a = wn b.
Proof.
  destruct a as [x y], b as [x' y']. cbn [fst snd]. intros H HB.
  assert (x' = x + 1 ∧ y' = y ∨ x = x' + 1 ∧ y' = y ∨ x' = x ∧ y' = y + 1 ∨ x' = x ∧ y = y' + 1) as Hc by lia.
  destruct Hc as [[-> ->]|[[-> ->]|[[-> ->]|[-> ->]]]].
  - symmetry. by apply wn_same_hor.
  - by apply wn_same_hor.
  - symmetry. by apply wn_same_ver.
  - by apply wn_same_ver.
Qed.

Lemma wn_region a b : region B a b → wn a = wn b.
Proof.
  induction 1 as [|a b c (H1 & H2 & H3) _ IH]; [done|]. rewrite <-IH. apply wn_step4; [done|congruence].
Qed.

(** Diagonal neighbours: the walk passes from one to the other. *)
Lemma wn_diag1 x y : B x y = true → B (x + 1) (y + 1) = true → wn (x, y) = wn (x + 1, y + 1).
Proof.
  intros H1 H2. destruct (B x (y + 1)) eqn:H3.
  - transitivity (wn (x, y + 1)); apply wn_step4; cbn; try lia; congruence.
  - assert (valid B (Pose x y Right)) as Hv by done.
    pose proof (wn_edge _ Hv) as E1. pose proof (on_clockwise _ Hv) as E2. cbn [clockwise pdir px py] in E2. rewrite H2 in E2.
    assert (valid B (Pose (x + 1) (y + 1) Up)) as Hv'. { split; [done|]. cbn. by rewrite Z.add_simpl_r. }
    pose proof (wn_edge _ Hv') as E3. unfold outside in E1, E3. cbn [px py pdir] in E1, E3. rewrite Z.add_simpl_r in E3. lia.
Qed.
Lemma wn_diag2 x y : B x (y + 1) = true → B (x + 1) y = true → wn (x, y + 1) = wn (x + 1, y).
Proof.
  intros H1 H2. destruct (B x y) eqn:H3.
  - transitivity (wn (x, y)); apply wn_step4; cbn; try lia; congruence.
  - assert (valid B (Pose (x + 1) y Up)) as Hv. { split; [done|]. cbn. by rewrite Z.add_simpl_r. }
    pose proof (wn_edge _ Hv) as E1. pose proof (on_clockwise _ Hv) as E2. cbn [clockwise pdir px py] in E2.
    rewrite Z.add_simpl_r, H1 in E2.
    assert (valid B (Pose x (y + 1) Left)) as Hv'. { split; [done|]. cbn. by rewrite Z.add_simpl_r. }
    pose proof (wn_edge _ Hv') as E3. unfold outside in E1, E3. cbn [px py pdir] in E1, E3. rewrite Z.add_simpl_r in E1, E3. lia.
Qed.

Lemma wn_adj8 a b : adj8 B a b → wn a = wn b.
Proof.
  destruct a as [x y], b as [x' y']. intros (H1 & H2 & H3 & H4). cbn [fst snd] in *.
  destruct (decide (x = x')) as [<-|Hx]; [destruct (decide (y = y')) as [<-|Hy]; [done|]|destruct (decide (y = y')) as [<-|Hy]].
  - apply wn_step4; cbn; [lia|congruence].
  - apply wn_step4; cbn; [lia|congruence].
  - assert (x' = x + 1 ∧ y' = y + 1 ∨ x = x' + 1 ∧ y = y' + 1 ∨ x' = x + 1 ∧ y = y' + 1 ∨ x = x' + 1 ∧ y' = y + 1) as Hc by lia.
    destruct Hc as [[-> ->]|[[-> ->]|[[-> ->]|[-> ->]]]].
    + by apply wn_diag1.
    + symmetry. by apply wn_diag1.
    + by apply wn_diag2.
    + symmetry. by apply wn_diag2.
Qed.

Notation P := (wn (px s, py s)).
Lemma wn_blocked a : B a.1 a.2 = true → wn a = P.
Proof.
  intros Ha. assert (rtc (adj8 B) a (px s, py s)) as Hr by (apply B_conn; [done|apply Hs]).
  clear Ha. remember (px s, py s) as b. induction Hr as [|a b' c Hab _ IH]; [done|]. rewrite <-IH by done. by apply wn_adj8.
Qed.

(** The free cells beside the walk are in one region. *)
Lemma region_clockwise c : valid B c → region B (outside c) (outside (clockwise B c)).
Proof.
  intros Hc. pose proof (clockwise_valid B c Hc) as Hc'. destruct Hc as [_ H2], Hc' as [_ H4]. unfold region.
  destruct c as [x y dc]. unfold outside in *. destruct dc; cbn [clockwise px py pdir fst snd] in *.
  - destruct (B (x - 1) (y + 1)) eqn:D; cbn [px py pdir fst snd] in *; [replace (y + 1 - 1) with y by lia; done|].
    destruct (B x (y + 1)); cbn [px py pdir fst snd] in *.
    + apply rtc_once. split_and!; cbn; try done. lia.
    + apply rtc_l with (x - 1, y + 1); [split_and!; cbn; try done; lia|]. apply rtc_once. split_and!; cbn; try done; lia.
  - destruct (B (x + 1) (y - 1)) eqn:D; cbn [px py pdir fst snd] in *; [replace (y - 1 + 1) with y by lia; done|].
    destruct (B x (y - 1)); cbn [px py pdir fst snd] in *.
    + apply rtc_once. split_and!; cbn; try done. lia.
    + apply rtc_l with (x + 1, y - 1); [split_and!; cbn; try done; lia|]. apply rtc_once. split_and!; cbn; try done; lia.
  - destruct (B (x - 1) (y - 1)) eqn:D; cbn [px py pdir fst snd] in *; [replace (x - 1 + 1) with x by lia; done|].
    destruct (B (x - 1) y); cbn [px py pdir fst snd] in *.
    + apply rtc_once. split_and!; cbn; try done. lia.
    + apply rtc_l with (x - 1, y - 1); [split_and!; cbn; try done; lia|]. apply rtc_once. split_and!; cbn; try done; lia.
  - destruct (B (x + 1) (y + 1)) eqn:D; cbn [px py pdir fst snd] in *; [replace (x + 1 - 1) with x by lia; done|].
    destruct (B (x + 1) y); cbn [px py pdir fst snd] in *.
    + apply rtc_once. split_and!; cbn; try done. lia.
    + apply rtc_l with (x + 1, y + 1); [split_and!; cbn; try done; lia|]. apply rtc_once. split_and!; cbn; try done; lia.
Qed.
Notation F := (region B (outside s)).
Lemma O_region c : c ∈ O → F (outside c).
Proof.
  intros (i & -> & _)%elem_of_list_fmap. induction i as [|i IH]; [done|]. rewrite orbit_S.
  unfold region. transitivity (outside (orbit B s i)); [done|]. apply region_clockwise. by apply orbit_valid.
Qed.

Lemma wn_in a : F a → wn a = P - 1.
Proof. intros Ha. rewrite <-(wn_region _ _ Ha). pose proof (wn_edge s Hs). rewrite s_on in *. lia. Qed.

Lemma wn_beside a b : Z.abs (a.1 - b.1) + Z.abs (a.2 - b.2) = 1 → B a.1 a.2 = true → B b.1 b.2 = false → F b ∨ wn b = wn a.
Proof.
  intros Hab Ha Hb.
  assert (∃ c, valid B c ∧ (px c, py c) = a ∧ outside c = b) as (c & Hv & <- & <-).
  { destruct a as [x y], b as [x' y']. unfold valid, outside. cbn [fst snd] in *.
    assert (x' = x + 1 ∧ y' = y ∨ x' = x - 1 ∧ y' = y ∨ x' = x ∧ y' = y + 1 ∨ x' = x ∧ y' = y - 1) as Hc by lia.
    destruct Hc as [[-> ->]|[[-> ->]|[[-> ->]|[-> ->]]]].
    - by exists (Pose x y Down).
    - by exists (Pose x y Up).
    - by exists (Pose x y Right).
    - by exists (Pose x y Left). }
  pose proof (wn_edge c Hv) as H. unfold on in H. destruct (decide (c ∈ O)) as [Hc|Hc]; [|right; lia].
  left. by apply O_region.
Qed.

Lemma wn_dec a : F a ∨ wn a = P.
Proof.
  destruct (B a.1 a.2) eqn:HB; [right; by apply wn_blocked|].
  remember (Z.to_nat (Z.abs (a.1 - px s) + Z.abs (a.2 - py s))) as n eqn:En.
  revert a HB En. induction n as [|n IH]; intros a HB En.
  - assert (a = (px s, py s)) as ->. { destruct a; cbn in *. f_equal; lia. } destruct Hs as [Hs1 _]. cbn in HB. congruence.
  - assert (∃ b : Z * Z, Z.abs (a.1 - b.1) + Z.abs (a.2 - b.2) = 1 ∧ n = Z.to_nat (Z.abs (b.1 - px s) + Z.abs (b.2 - py s))) as (b & Hab & Hn).
    { destruct a as [x y]. cbn [fst snd] in *.
      destruct (decide (x < px s)); [exists (x + 1, y); cbn; lia|]. destruct (decide (px s < x)); [exists (x - 1, y); cbn; lia|].
      destruct (decide (y < py s)); [exists (x, y + 1); cbn; lia|]. exists (x, y - 1); cbn; lia. }
    destruct (B b.1 b.2) eqn:HBb.
    + destruct (wn_beside b a) as [?| ->]; [lia|done|done|by left|right; by apply wn_blocked].
    + destruct (IH b HBb Hn) as [Hb|Hb].
      * left. unfold region. transitivity b; [done|]. apply rtc_once. split_and!; [done|done|lia].
      * right. rewrite <-Hb. apply wn_step4; [done|congruence].
Qed.

Lemma wn_corner : wn (-1, -1) = 0.
Proof.
  transitivity (sumof (λ _, 0) E); [|clear; induction E as [|e E0 IH]; [done|exact IH]].
  apply sumof_ext. intros [d0 [x y]] (c & He & Hc%O_valid)%elem_of_list_fmap.
  destruct c as [cx cy dc]. destruct Hc as [Hc _]. apply B_in in Hc. cbn [px py] in Hc.
  unfold edge, tail in He. cbn [px py pdir] in He. destruct dc; simplify_eq; unfold wunit; cbn [fst snd];
    try done; rewrite decide_False by lia; done.
Qed.

(** The polygon encloses the cells that are not in the region of the free cells
    beside it, if that is the outer one; and that region, if it is not. *)
Lemma enclosed a :
  (F (-1, -1) → ¬ inside (p :: l) a ↔ F a) ∧ (¬ F (-1, -1) → inside (p :: l) a ↔ F a).
Proof.
  rewrite (inside_wn B p l d d' _ Ht). pose proof wn_corner as H0. split.
  - intros Ho. rewrite (wn_in _ Ho) in H0. split.
    + intros Hodd. destruct (wn_dec a) as [?|Ha]; [done|]. destruct Hodd. rewrite Ha. replace P with 1 by lia. done.
    + intros Ha. rewrite (wn_in _ Ha), H0. done.
  - intros Ho. destruct (wn_dec (-1, -1)) as [?|Hc]; [done|]. rewrite Hc in H0. split.
    + intros Hodd. destruct (wn_dec a) as [?|Ha]; [done|]. rewrite Ha, H0 in Hodd. done.
    + intros Ha. rewrite (wn_in _ Ha), H0. done.
Qed.
End enclose.
