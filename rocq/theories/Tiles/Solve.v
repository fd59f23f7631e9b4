(** Solving sliding tile puzzles: C72. *)
From stdpp Require Import prelude.
From Coq Require Import ZArith Lia.
From Verif Require Import Common.Fuel Tiles.Model Tiles.Props.
From Verif Require Import Search.Model Search.Props Search.Solve.
From Verif Require Ida.Model.

Section domain.
Set Default Proof Using "All".
Context (W H : nat) (goalpos : nat → nat) (HW : 0 < W) (HH : 0 < H).
Notation n := (ntiles W H).

(** The packed states: arrangements of the tiles, 0 is the blank. *)
Definition board : Type := dsig (λ l : list nat, l ≡ₚ seq 0 n).

(** unpack: what the search works on (equal to the unpacking of the 64-bit word by C49). *)
Definition load (l : board) : state :=
  State (proj1_sig l) (default 0 (fst <$> list_find (λ t, t = 0) (proj1_sig l))) (manhattan W goalpos (proj1_sig l)).

(** pack of the state of an edge. *)
Definition store (s : state) (dflt : board) : board :=
  match decide (canon s ≡ₚ seq 0 n) with left p => dexist (canon s) p | right _ => dflt end.

(** The domain as the searches of search/ use it. *)
Definition tiles_domain : domain := {|
  St := board; Op := Z; St_eq := _; Op_eq := _;
  nop := Nop;
  ops l := operators W H (load l);
  edge l op :=
    match mkedge W H goalpos (load l) op with
    | Some e => (store (e_state e) l, e_cost e, e_revop e)
    | None => (l, 1%Z, Nop)
    end;
  isgoal l := Tiles.Model.isgoal (load l);
|}.
Definition tiles_h (l : St tiles_domain) : Z := hval (load l).

Lemma board_perm (l : board) : proj1_sig l ≡ₚ seq 0 n.
Proof. apply (proj2_dsig l). Qed.

Lemma blank_pos (l : board) : proj1_sig l !! b (load l) = Some 0.
Proof.
  assert (0 ∈ proj1_sig l) as H0.
  { rewrite (board_perm l). apply elem_of_seq. unfold ntiles. lia. }
  unfold load. simpl. destruct (list_find _ (proj1_sig l)) as [[i t]|] eqn:E.
  - apply list_find_Some in E as (Hi & -> & _). done.
  - apply list_find_None in E. rewrite Forall_forall in E. by destruct (E 0 H0).
Qed.

Lemma canon_load l : canon (load l) = proj1_sig l.
Proof. unfold canon. rewrite list_insert_id; [done|]. apply blank_pos. Qed.

Lemma load_wf l : wf W H goalpos (load l).
Proof.
  split; [by eapply lookup_lt_Some, blank_pos|]. rewrite canon_load. split; [apply board_perm|done].
Qed.

Lemma store_eq s l : canon s ≡ₚ seq 0 n → proj1_sig (store s l) = canon s.
Proof. intros Hp. unfold store. case_decide; [done|]. done. Qed.

Lemma load_same s l : wf W H goalpos s → proj1_sig l = canon s → same (load l) s.
Proof.
  intros Hwf Hl. apply (same_canon W H goalpos HW); [apply load_wf|done|]. by rewrite canon_load.
Qed.

Lemma tiles_step (l : St tiles_domain) op : op ∈ ops l →
  ∃ e, mkedge W H goalpos (load l) op = Some e ∧ wf W H goalpos (e_state e) ∧
    proj1_sig (dest l op) = canon (e_state e) ∧ cost l op = 1%Z ∧ revop l op = e_revop e.
Proof.
  intros Hop. simpl in Hop. pose proof (load_wf l) as Hwf.
  apply (operators_elem W H goalpos HW) in Hop as (p & -> & Hp & Hadj); [|done].
  destruct (move W H goalpos HW (load l) p Hwf Hp Hadj) as
    (t & e & Hct & Ht & He & Hc & Hrev & Hoh & Hts & Hb & Hcan & Hh & Hwf').
  exists e. unfold dest, cost, revop. simpl. rewrite He. simpl.
  split_and!; try done. apply store_eq. apply Hwf'.
Qed.

Lemma same_operators s s' : same s s' → operators W H s = operators W H s'.
Proof. intros (Hb & _). unfold operators. by rewrite Hb. Qed.

Lemma tiles_domain_ok : domain_ok tiles_domain.
Proof.
  split.
  - intros l op Hop. destruct (tiles_step l op Hop) as (e & _ & _ & _ & -> & _). done.
  - intros l op Hop Hrev. pose proof Hop as Hop1. simpl in Hop1.
    destruct (tiles_step l op Hop) as (e & He & Hwf & Hd & Hc & Hr).
    destruct (tiles_step (dest l op) (revop l op) Hrev) as (e2 & He2 & Hwf2 & Hd2 & _ & _).
    apply dsig_eq. rewrite Hd2. pose proof (load_wf l) as Hwf0.
    apply (operators_elem W H goalpos HW) in Hop1 as (p & -> & Hp & Hadj); [|done].
    destruct (move W H goalpos HW (load l) p Hwf0 Hp Hadj) as
      (t & e' & Hct & Ht & He' & Hc' & Hrev' & Hoh & Hts & Hb & Hcan & Hh & _).
    rewrite He in He'. injection He' as <-. rewrite Hr, Hrev' in He2.
    assert (Hls : same (load (dest l (Z.of_nat p))) (e_state e)) by by apply load_same.
    pose proof (blank_pos l) as Hb0. rewrite canon_load in Hct, Hcan.
    assert (Hbn : b (load l) < n).
    { apply lookup_lt_Some in Hb0. by rewrite (board_perm l), seq_length in Hb0. }
    assert (Hlen : length (proj1_sig l) = n) by (by rewrite (board_perm l), seq_length).
    pose proof (adjacent_ne W H goalpos HW _ _ Hadj) as Hne.
    destruct (move W H goalpos HW (load (dest l (Z.of_nat p))) (b (load l))) as
      (t2 & e3 & Hct2 & Ht2 & He3 & _ & _ & _ & _ & _ & Hcan2 & _).
    + apply load_wf.
    + done.
    + destruct Hls as [-> _]. rewrite Hb. by apply (adjacent_sym W H goalpos HW).
    + rewrite He2 in He3. injection He3 as <-. rewrite canon_load, Hd in Hct2, Hcan2.
      assert (t2 = t) as ->.
      { rewrite Hcan, list_lookup_insert_ne, list_lookup_insert in Hct2; [congruence| |done]. lia. }
      rewrite Hcan2, Hcan. destruct Hls as [-> _]. rewrite Hb. apply list_eq. intros i.
      destruct (decide (i = b (load l))) as [->|Hib].
      * rewrite list_lookup_insert by (rewrite !insert_length; lia). done.
      * rewrite list_lookup_insert_ne by done. destruct (decide (i = p)) as [->|Hip].
        -- rewrite list_lookup_insert by (rewrite !insert_length; lia). done.
        -- by rewrite !list_lookup_insert_ne by done.
  - intros l Hin. simpl in Hin. apply elem_of_list_fmap in Hin as (p & Hp & _). unfold Nop in Hp. lia.
Qed.

Lemma tiles_h_nonneg l : (0 ≤ tiles_h l)%Z.
Proof.
  unfold tiles_h, load. simpl. apply sumZ_imap_nonneg. intros i t. case_decide; [done|]. unfold tdist. lia.
Qed.

Lemma tiles_h_consistent : consistent tiles_h.
Proof.
  split.
  - intros l Hg. simpl in Hg. apply bool_decide_eq_true in Hg. unfold tiles_h. lia.
  - intros l op Hop. pose proof Hop as Hop1. simpl in Hop1. pose proof (load_wf l) as Hwf.
    destruct (tiles_step l op Hop) as (e & He & Hwf' & Hd & -> & _).
    apply (operators_elem W H goalpos HW) in Hop1 as (p & -> & Hp & Hadj); [|done].
    destruct (move W H goalpos HW (load l) p Hwf Hp Hadj) as
      (t & e' & Hct & Ht & He' & Hc' & Hrev' & Hoh & Hts & Hb & Hcan & Hh & _).
    rewrite He in He'. injection He' as <-. pose proof (tdist_step W H goalpos HW t _ _ Hadj).
    assert (Hls : same (load (dest l (Z.of_nat p))) (e_state e)) by by apply load_same.
    unfold tiles_h. destruct Hls as (_ & -> & _). lia.
Qed.

Lemma tiles_h_admissible : admissible tiles_h.
Proof. eapply consistent_admissible; [apply tiles_h_consistent|]. done. Qed.

Definition mkboard (x : list nat) : option board :=
  match decide (x ≡ₚ seq 0 n) with
  | left p => Some (dexist (P:=λ l : list nat, l ≡ₚ seq 0 n) x p) | right _ => None
  end.

Lemma mkboard_proj (s : board) : mkboard (proj1_sig s) = Some s.
Proof.
  unfold mkboard. case_decide as Hd; [|by destruct Hd; apply board_perm]. f_equal. by apply dsig_eq.
Qed.

Lemma tiles_finite l : finite_space (D:=tiles_domain) l.
Proof.
  exists (omap mkboard (permutations (seq 0 n))).
  intros s _. apply elem_of_list_omap. exists (proj1_sig s). split; [|apply mkboard_proj].
  apply permutations_Permutation. symmetry. apply board_perm.
Qed.

Lemma tiles_walk_cost (ss : list (St tiles_domain)) os k : walk ss os k → k = Z.of_nat (length os).
Proof.
  induction 1 as [s|s op ss os k Hop Hw IH]; [done|].
  destruct (tiles_step s op Hop) as (_ & _ & _ & _ & -> & _). cbn [length]. rewrite Nat2Z.inj_succ, <-IH. lia.
Qed.

Lemma mkedge_same s s' op e :
  wf W H goalpos s → wf W H goalpos s' → same s s' → op ∈ operators W H s →
  mkedge W H goalpos s op = Some e →
  ∃ e', mkedge W H goalpos s' op = Some e' ∧ wf W H goalpos (e_state e') ∧
    same (e_state e) (e_state e') ∧ e_cost e' = 1%Z.
Proof.
  intros Hwf Hwf' Hs Hop He. pose proof Hop as Hop'. rewrite (same_operators _ _ Hs) in Hop'.
  apply (operators_elem W H goalpos HW) in Hop as (p & -> & Hp & Hadj); [|done].
  apply (operators_elem W H goalpos HW) in Hop' as (p' & Hpp & _ & Hadj'); [|done].
  assert (p' = p) as -> by lia.
  destruct (move W H goalpos HW s p Hwf Hp Hadj) as
    (t & e1 & Hct & Ht & He1 & _ & _ & _ & _ & _ & Hcan & _ & Hwf1).
  destruct (move W H goalpos HW s' p Hwf' Hp Hadj') as
    (t' & e2 & Hct' & Ht' & He2 & Hc2 & _ & _ & _ & _ & Hcan' & _ & Hwf2).
  rewrite He in He1. injection He1 as <-. exists e2. split_and!; [done|done| |done].
  apply (same_canon W H goalpos HW); [done..|]. rewrite Hcan, Hcan'.
  assert (Hcc : canon s = canon s').
  { destruct Hs as (Hb & _ & _ & Ho). apply list_eq. intros i. rewrite !canon_lookup by (apply Hwf || apply Hwf').
    rewrite <-Hb. case_decide; [done|]. by apply Ho. }
  destruct Hs as (<- & _). rewrite Hcc in *. congruence.
Qed.

(** pathcost, applied to what a search reports: no assertion fails and it is the number of moves. *)
Lemma pathcost_solution (l : St tiles_domain) path os k :
  solution l (reverse path) (reverse os) k →
  pathcost W H goalpos (proj1_sig l) (load <$> path) os = Some (Z.of_nat (length os)).
Proof.
  intros (Hw & Hh & g & Hl & Hg).
  destruct (initial_wf W H goalpos HW (proj1_sig l) (board_perm l)) as (s & Hi & Hc & Hwf).
  { unfold ntiles. lia. }
  unfold pathcost. rewrite Hi. cbn [mbind option_bind].
  assert (Hs : same s (load l)) by (apply (same_canon W H goalpos HW); [done|apply load_wf|by rewrite canon_load]).
  pose proof (walk_rev_first _ _ _ _ _ Hw Hh) as H0. rewrite rev_last in Hl.
  cut (∀ i s (p : St tiles_domain) c, i ≤ length os → path !! i = Some p → wf W H goalpos s → same s (load p) →
    pathcost_from W H goalpos i s (load <$> path) os c = Some (c + Z.of_nat i)%Z).
  { intros Hgo. etrans; [by apply (Hgo (length os) s l 0%Z)|]. f_equal. }
  clear s Hi Hc Hwf Hs. induction i as [|i IH]; intros s p c Hle Hp Hwf Hs.
  - assert (p = g) as -> by congruence. cbn [pathcost_from]. simpl in Hg. unfold Tiles.Model.isgoal in *.
    apply bool_decide_eq_true in Hg. destruct Hs as (_ & Hh' & _). rewrite bool_decide_eq_true_2 by congruence.
    f_equal. lia.
  - destruct (lookup_lt_is_Some_2 os i) as [op Hop]; [lia|].
    destruct (walk_rev_lookup _ _ _ _ _ _ Hw Hop) as (p' & Hp' & Hops & Hpd).
    assert (p' = p) as -> by congruence. cbn [pathcost_from].
    assert (Hop' : @lookup nat Z (list Z) (@list_lookup Z) i os = Some op) by exact Hop. rewrite Hop'. cbn [mbind option_bind].
    destruct (tiles_step p op Hops) as (e & He & Hwfe & Hd & _ & _). simpl in Hops.
    destruct (mkedge_same (load p) s op e) as (e' & He' & Hwfe' & Hse & Hce); [apply load_wf|done| |done..|].
    { destruct Hs as (A1 & A2 & A3 & A4). split_and!; [congruence..|].
      intros j Hj. symmetry. apply A4. congruence. }
    rewrite He'. cbn [mbind option_bind]. 
    assert (Hpd' : @lookup nat board (list board) (@list_lookup board) i path = Some (dest p op)) by exact Hpd.
    rewrite list_lookup_fmap, Hpd'.
    cbn [fmap option_fmap option_map mbind option_bind].
    assert (Hsd : same (e_state e') (load (dest p op))).
    { apply (same_canon W H goalpos HW); [done|apply load_wf|]. rewrite canon_load, Hd.
      destruct Hse as (Hb & _ & _ & Ho). apply list_eq. intros j.
      rewrite !canon_lookup by (apply Hwfe || apply Hwfe'). rewrite <-Hb. case_decide; [done|].
      symmetry. by apply Ho. }
    rewrite (proj2 (state_eqb_wf W H goalpos _ _ HW Hwfe' (load_wf _)) Hsd).
    etrans; [apply (IH _ (dest p op)); [lia|done..]|]. f_equal. rewrite Hce. lia.
Qed.
End domain.

(** A-star with the Manhattan heuristic, on a board of any size, from any arrangement: it ends;
    what it reports is a sequence of legal moves to the goal with as few moves as possible; and
    it reports nothing only if the goal cannot be reached. *)
Theorem C72_astar_solves_tiles W H goalpos o (l : board W H) :
  0 < W → 0 < H → ol_ok astar_lt nonneg_key o →
  (∃ path os s', ends (astar (tiles_domain W H goalpos) (tiles_h W H goalpos) o no_limits l) (Some (path, os), s') ∧
     solution (D:=tiles_domain W H goalpos) l (reverse path) (reverse os) (Z.of_nat (length os)) ∧
     ∀ ss' os' k', solution (D:=tiles_domain W H goalpos) l ss' os' k' → length os ≤ length os') ∨
  (∃ s', ends (astar (tiles_domain W H goalpos) (tiles_h W H goalpos) o no_limits l) (None, s') ∧
     ∀ ss os k, ¬ solution (D:=tiles_domain W H goalpos) l ss os k).
Proof.
  intros HW HH OL.
  destruct (astar_solves (tiles_domain W H goalpos) (tiles_h W H goalpos) o
    (tiles_domain_ok W H goalpos HW HH) OL (tiles_h_nonneg W H goalpos HW HH)
    (tiles_h_admissible W H goalpos HW HH) l (tiles_finite W H goalpos HW HH l))
    as [(path & os & s' & k & He & Hs & Hmin)|Hnone]; [left|by right].
  pose proof (tiles_walk_cost W H goalpos HW HH _ _ _ (proj1 Hs)) as Hk.
  rewrite reverse_length in Hk. exists path, os, s'. rewrite <-Hk. split_and!; [done..|].
  intros ss' os' k' Hs'. pose proof (Hmin _ _ _ Hs') as Hle.
  pose proof (tiles_walk_cost W H goalpos HW HH _ _ _ (proj1 Hs')). lia.
Qed.

Theorem C72_idastar_solves_tiles W H goalpos (l : board W H) ss os k :
  0 < W → 0 < H → solution (D:=tiles_domain W H goalpos) l ss os k →
  ∃ path os st, ends (Ida.Model.idastar (tiles_domain W H goalpos) (tiles_h W H goalpos) no_limits l) (st, Some (path, os)) ∧
     solution (D:=tiles_domain W H goalpos) l (reverse path) (reverse os) (Z.of_nat (length os)) ∧
     ∀ ss' os' k', solution (D:=tiles_domain W H goalpos) l ss' os' k' → length os ≤ length os'.
Proof.
  intros HW HH Hsol.
  destruct (idastar_solves (tiles_domain W H goalpos) (tiles_h W H goalpos)
    (tiles_domain_ok W H goalpos HW HH) (tiles_h_nonneg W H goalpos HW HH)
    (tiles_h_admissible W H goalpos HW HH)) with (s0 := l) (ss := ss) (os := os) (k := k)
    as (path & os1 & st & k1 & He & Hs & Hmin).
  - intros s op Hop. destruct (tiles_step W H goalpos HW HH s op Hop) as (_ & _ & _ & _ & -> & _). done.
  - done.
  - pose proof (tiles_walk_cost W H goalpos HW HH _ _ _ (proj1 Hs)) as Hk.
    rewrite reverse_length in Hk. exists path, os1, st. rewrite <-Hk. split_and!; [done..|].
    intros ss' os' k' Hs'. pose proof (Hmin _ _ _ Hs') as Hle.
    pose proof (tiles_walk_cost W H goalpos HW HH _ _ _ (proj1 Hs')). lia.
Qed.

(** The cost printed for what a search reports is its number of moves, and none of the
    assertions made while computing it fails. *)
Theorem C72_pathcost_counts_moves W H goalpos (l : board W H) path os k :
  0 < W → 0 < H → solution (D:=tiles_domain W H goalpos) l (reverse path) (reverse os) k →
  pathcost W H goalpos (proj1_sig l) (load W H goalpos <$> path) os = Some (Z.of_nat (length os)).
Proof. intros HW HH. by apply pathcost_solution. Qed.

(** ** Example: the 2x2 puzzle. *)
Lemma ex_board_perm : [0; 2; 3; 1] ≡ₚ seq 0 (ntiles 2 2).
Proof. refine (bool_decide_unpack _ _). by vm_compute. Qed.
Definition ex_board : board 2 2 := dexist (P:=λ l, l ≡ₚ seq 0 (ntiles 2 2)) [0; 2; 3; 1] ex_board_perm.
Example ex_astar_tiles :
  match astar (tiles_domain 2 2 id) (tiles_h 2 2 id) int_ol no_limits ex_board 100 with
  | Some (Some (path, os), _) => Some (map (λ s : board 2 2, proj1_sig s) path, os)
  | _ => None
  end = Some ([[0; 1; 2; 3]; [2; 1; 0; 3]; [2; 1; 3; 0]; [2; 0; 3; 1]; [0; 2; 3; 1]], [0; 2; 3; 1]%Z).
Proof. vm_compute. done. Qed.
Example ex_pathcost :
  match astar (tiles_domain 2 2 id) (tiles_h 2 2 id) int_ol no_limits ex_board 100 with
  | Some (Some (path, os), _) => pathcost 2 2 id (proj1_sig ex_board) (map (load 2 2 id) path) os
  | _ => None
  end = Some 4%Z.
Proof. vm_compute. done. Qed.

Print Assumptions C72_astar_solves_tiles.
Print Assumptions C72_idastar_solves_tiles.
Print Assumptions C72_pathcost_counts_moves.
