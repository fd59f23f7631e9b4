(** Grid navigation with A*: C74. *)
From stdpp Require Import prelude list_numbers.
From Coq Require Import ZArith Lia ZifyBool.
From Verif Require Import Common.Fuel Gridnav.Model Gridnav.Props Gridnav.Heur.
From Verif Require Import Search.Open Search.Model Search.Props Search.Solve.
Local Open Scope Z_scope.

Global Instance inside_dec g l : Decision (inside g l).
Proof.
  refine (cast_if (decide (0 < xcoord g l < mw g - 1 ∧ 0 < ycoord g l < mh g - 1))); [|].
  - destruct a as [Hx Hy]. exists (xcoord g l), (ycoord g l). split; [|done].
    unfold xcoord, ycoord. pose proof (Z.div_mod l (mw g)). lia.
  - intros H. apply n. pose proof (inside_coords g l H). lia.
Defined.

Section domain.
Set Default Proof Using "All".
Context (g : gridmap) (goal : Z) (p q : Z).
Context (Hg : good_map g) (Hgo : inside g goal) (Hq : 0 < q) (Hpq : q ≤ p ≤ 2 * q).

Definition cell : Type := dsig (λ l, inside g l).

Definition store (l : Z) (dflt : cell) : cell :=
  match decide (inside g l) with left H => dexist l H | right _ => dflt end.

(** Costs are [q] times the costs of the code, with a diagonal step of weight [p / q]. *)
Definition grid_domain : domain := {|
  St := cell; Op := Z; St_eq := _; Op_eq := _;
  nop := Nop;
  ops l := default [] (operators g (proj1_sig l));
  edge l op :=
    match mkedge g (proj1_sig l) op with
    | Some e => (store (e_loc e) l, value p q (e_cost e), e_revop e)
    | None => (l, 0, Nop)
    end;
  isgoal l := bool_decide (proj1_sig l = goal);
|}.
Definition grid_h (l : St grid_domain) : Z := value p q (computeh g (proj1_sig l) goal).1.

Lemma cell_inside (l : cell) : inside g (proj1_sig l).
Proof. apply (proj2_dsig l). Qed.

Lemma mul_nonneg l : inside g l → 0 ≤ mul g l.
Proof. intros Hl. unfold mul. destruct (mlife g); [|lia]. pose proof (inside_coords g l Hl). lia. Qed.

Lemma grid_step (l : St grid_domain) op : op ∈ ops l →
  ∃ os e, operators g (proj1_sig l) = Some os ∧ op ∈ os ∧ mkedge g (proj1_sig l) op = Some e ∧
    proj1_sig (dest l op) = e_loc e ∧ cost l op = value p q (e_cost e) ∧ revop l op = e_revop e ∧
    0 ≤ value p q (e_cost e).
Proof.
  intros Hop. destruct (C54_no_access_out_of_range g (proj1_sig l) Hg (cell_inside l)) as (os & Hos & He).
  simpl in Hop. rewrite Hos in Hop. simpl in Hop. destruct (He op Hop) as [e Hedge].
  exists os, e. pose proof (edge_step g _ _ _ _ Hg (cell_inside l) Hos Hop Hedge) as [_ Hi _ _ Hc _].
  split_and!; try done.
  - unfold dest. simpl. rewrite Hedge. simpl. unfold store. by destruct (decide (inside g (e_loc e))).
  - unfold cost. simpl. by rewrite Hedge.
  - unfold revop. simpl. by rewrite Hedge.
  - rewrite Hc. pose proof (mul_nonneg _ (cell_inside l)). unfold value. case_decide; simpl; nia.
Qed.

Lemma grid_domain_ok : domain_ok grid_domain.
Proof.
  split.
  - intros l op Hop. destruct (grid_step l op Hop) as (os & e & _ & _ & _ & _ & -> & _ & ?). done.
  - intros l op Hop Hrev. destruct (grid_step l op Hop) as (os & e & Hos & Hin & He & Hd & _ & Hr & _).
    destruct (grid_step _ _ Hrev) as (os' & e' & _ & _ & He' & Hd' & _).
    destruct (C55_reverse_undoes g _ _ _ _ Hg (cell_inside l) Hos Hin He) as (e2 & He2 & Hback & _).
    rewrite Hr, Hd in He'. assert (e2 = e') as -> by congruence.
    apply dsig_eq. by rewrite Hd'.
  - intros l Hin. simpl in Hin. destruct (operators_spec g (proj1_sig l) Hg (cell_inside l)) as (os & Hos & Hiff).
    rewrite Hos in Hin. simpl in Hin. apply Hiff in Hin as [H _]. unfold Nop in H. lia.
Qed.

(** Walks in the domain are the paths of the map, with the same cost. *)
Lemma walk_path (ss : list (St grid_domain)) os k (s t : St grid_domain) :
  walk ss os k → head ss = Some s → last ss = Some t →
  ∃ c, path g (proj1_sig s) os (proj1_sig t) c ∧ k = value p q c.
Proof.
  intros Hw. revert s. induction Hw as [s1|s1 op ss os k Hop Hw IH]; intros s Hh Hl; simpl in Hh; injection Hh as <-.
  - injection Hl as <-. exists (0, 0). split; [constructor|]. unfold value. simpl. lia.
  - destruct (IH (dest s1 op) eq_refl Hl) as (c & Hp & ->).
    destruct (grid_step s1 op Hop) as (os1 & e & Hos & Hin & He & Hd & Hc & _).
    rewrite Hd in Hp. eexists. split; [by eapply path_cons|]. rewrite Hc. unfold value. simpl. lia.
Qed.
(** And every path is a walk. *)
Lemma path_walk l os l' c : path g l os l' c → ∀ s : St grid_domain, proj1_sig s = l →
  ∃ ss (t : St grid_domain), walk (D:=grid_domain) ss os (value p q c) ∧ head ss = Some s ∧ last ss = Some t ∧ proj1_sig t = l'.
Proof.
  induction 1 as [l|l os op e rest l' c Hos Hop He Hp IH]; intros s Hs.
  - exists [s], s. replace (value p q (0, 0)) with 0 by (unfold value; simpl; lia). split_and!; try done. constructor.
  - assert (Hin : op ∈ ops s) by (simpl; by rewrite Hs, Hos).
    destruct (grid_step s op Hin) as (os1 & e1 & Hos1 & _ & He1 & Hd & Hc & _).
    assert (e1 = e) as -> by congruence.
    destruct (IH (dest s op) Hd) as (ss & t & Hw & Hh & Hl & Ht).
    destruct ss as [|s1 ss]; [done|]. simpl in Hh. injection Hh as ->.
    exists (s :: dest s op :: ss), t. split_and!; try done.
    replace (value p q ((e_cost e).1 + c.1, (e_cost e).2 + c.2)) with (cost s op + value p q c)
      by (rewrite Hc; unfold value; simpl; lia).
    by constructor.
Qed.

Lemma grid_h_admissible : admissible grid_h.
Proof.
  intros s ss os k (Hw & Hh & t & Hl & Ht).
  destruct (walk_path _ _ _ _ _ Hw Hh Hl) as (c & Hp & ->).
  simpl in Ht. apply bool_decide_eq_true in Ht. rewrite Ht in Hp.
  unfold grid_h. apply (C56_heuristics_admissible g _ goal os c p q); try done. apply cell_inside.
Qed.

Lemma grid_h_nonneg : mlife g = false ∨ mmoves g ≠ fourway → ∀ s, 0 ≤ grid_h s.
Proof.
  intros Hc s. destruct (C57_nonnegative_elsewhere g (proj1_sig s) goal Hg (cell_inside s) Hgo Hc).
  unfold grid_h, value. nia.
Qed.

Lemma grid_finite (s0 : St grid_domain) : finite_space s0.
Proof.
  exists ((λ l, store l s0) <$> seqZ 0 (size g)). intros s _. apply elem_of_list_fmap.
  exists (proj1_sig s). pose proof (cell_inside s) as Hs. split.
  - apply dsig_eq. unfold store. by destruct (decide (inside g (proj1_sig s))).
  - apply elem_of_seqZ. pose proof (inside_inrange g _ Hs). lia.
Qed.
End domain.

Lemma pathcost_from_path g goal l ops c k acc : path g l ops goal k → ops = reverse c →
  pathcost_from g goal (length c) l c acc = Some (acc.1 + k.1, acc.2 + k.2).
Proof.
  intros Hp. revert c acc. induction Hp as [l|l os op e rest l' k Hos Hop He Hp IH]; intros c acc Hc.
  - apply (f_equal reverse) in Hc. rewrite reverse_involutive in Hc. subst c. simpl.
    rewrite decide_True by done. f_equal. destruct acc as [a b]. simpl. f_equal; lia.
  - assert (Hc' : c = reverse rest ++ [op]).
    { apply (f_equal reverse) in Hc. by rewrite reverse_involutive, reverse_cons in Hc. }
    subst c. rewrite app_length, Nat.add_1_r. cbn [pathcost_from].
    rewrite lookup_app_r by done. rewrite Nat.sub_diag. cbn [lookup list_lookup mbind option_bind].
    rewrite He. cbn [mbind option_bind].
    assert (Hext : ∀ i acc l1, (i ≤ length (reverse rest))%nat →
      pathcost_from g l' i l1 (reverse rest ++ [op]) acc = pathcost_from g l' i l1 (reverse rest) acc).
    { clear. induction i as [|i IH]; intros acc l1 Hi; [done|]. cbn [pathcost_from].
      rewrite lookup_app_l by lia. destruct (reverse rest !! i); cbn [mbind option_bind]; [|done].
      destruct (mkedge g l1 z); cbn [mbind option_bind]; [|done]. apply IH. lia. }
    rewrite Hext by done. rewrite (IH (reverse rest)) by by rewrite reverse_involutive.
    simpl. f_equal. f_equal; lia.
Qed.

(** On every map, with every move set, with unit costs and (on eight-way maps) with life costs,
    for any start and goal cell: A* ends; it reports a cheapest path, and the cost computed for the
    reported operators is the exact cost of that path; or it reports that there is none, and then
    there is none.  The weight of a diagonal step can be any [p / q] between one and two. *)
Theorem C74_astar_navigates g (goal : Z) p q o (s : cell g) :
  good_map g → inside g goal → 0 < q → q ≤ p ≤ 2 * q → mlife g = false ∨ mmoves g ≠ fourway →
  ol_ok astar_lt nonneg_key o →
  (∃ path os s' c, ends (astar (grid_domain g goal p q) (grid_h g goal p q) o no_limits s) (Some (path, os), s') ∧
     Props.path g (proj1_sig s) (reverse os) goal c ∧
     pathcost g (proj1_sig s) goal os = Some c ∧
     ∀ os' c', Props.path g (proj1_sig s) os' goal c' → value p q c ≤ value p q c') ∨
  (∃ s', ends (astar (grid_domain g goal p q) (grid_h g goal p q) o no_limits s) (None, s') ∧
     ∀ os' c', ¬ Props.path g (proj1_sig s) os' goal c').
Proof.
  intros Hg Hgo Hq Hpq Hc OL.
  assert (Hsol : ∀ os' c', Props.path g (proj1_sig s) os' goal c' →
    ∃ ss, solution (D:=grid_domain g goal p q) s ss os' (value p q c')).
  { intros os' c' Hp. destruct (path_walk g goal p q Hg Hgo Hq Hpq _ _ _ _ Hp s eq_refl) as (ss & t & Hw & Hh & Hl & Ht).
    exists ss. split; [done|]. split; [done|]. exists t. split; [done|]. simpl. by apply bool_decide_eq_true. }
  destruct (astar_solves (grid_domain g goal p q) (grid_h g goal p q) o
    (grid_domain_ok g goal p q Hg Hgo Hq Hpq) OL (grid_h_nonneg g goal p q Hg Hgo Hq Hpq Hc)
    (grid_h_admissible g goal p q Hg Hgo Hq Hpq) s (grid_finite g goal p q Hg Hgo Hq Hpq s))
    as [(path & os & s' & k & He & (Hw & Hh & t & Hl & Ht) & Hmin)|(s' & He & Hno)].
  - left. destruct (walk_path g goal p q Hg Hgo Hq Hpq _ _ _ _ _ Hw Hh Hl) as (c & Hp & ->).
    simpl in Ht. apply bool_decide_eq_true in Ht. rewrite Ht in Hp.
    exists path, os, s', c. split_and!; [done|done| |].
    + unfold pathcost. rewrite (pathcost_from_path g goal (proj1_sig s) (reverse os) os c (0, 0) Hp eq_refl).
      destruct c. simpl. f_equal.
    + intros os' c' Hp'. destruct (Hsol _ _ Hp') as [ss Hs]. by eapply Hmin.
  - right. exists s'. split; [done|]. intros os' c' Hp. destruct (Hsol _ _ Hp) as [ss Hs]. by eapply Hno.
Qed.

(** ** Example: around the tree of [ex_map], with 1.414 for the square root of two. *)
Definition ex_cell : cell ex_map := dexist (P:=λ l, inside ex_map l) (locof ex_map 0 0) ex_inside.
Lemma ex_far_inside : inside ex_map (locof ex_map 2 2).
Proof. exists 3, 3. simpl. done. Qed.
Example ex_astar_grid :
  match astar (grid_domain ex_map (locof ex_map 2 2) 1414 1000) (grid_h ex_map (locof ex_map 2 2) 1414 1000)
    (heap_ol astar_lt (0, 0)) no_limits ex_cell 100 with
  | Some (Some (path, os), _) => Some (map (λ s : cell ex_map, proj1_sig s) path, os,
      pathcost ex_map (locof ex_map 0 0) (locof ex_map 2 2) os)
  | _ => None
  end = Some ([21; 15; 9; 8; 7], [5; 5; 1; 1], Some (4, 0)).
Proof. vm_compute. done. Qed.

Print Assumptions C74_astar_navigates.
