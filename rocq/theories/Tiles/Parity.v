(** The solvability test of the instance generator: C50. *)
From stdpp Require Import prelude.
From Coq Require Import ZArith Lia ZifyBool ZifyNat.
From Verif Require Import Tiles.Model Tiles.Props.
Local Open Scope nat_scope.

(** ** The sum of inversions *)

Fixpoint par (pre l : list nat) : nat :=
  match l with
  | [] => 0
  | t :: l => count_before pre t + par (pre ++ [t]) l
  end.

Lemma count_perm p q t : p ≡ₚ q → count_before p t = count_before q t.
Proof. intros Hp. unfold count_before. case_decide; [done|]. by rewrite Hp. Qed.

Lemma count_cons p u t : t ≠ 0 →
  count_before (u :: p) t = (if decide (t < u) then 1 else 0) + count_before p t.
Proof.
  intros Ht. unfold count_before. rewrite !decide_False by done. rewrite filter_cons.
  repeat case_decide; done.
Qed.

Lemma count_zero p t : count_before (0 :: p) t = count_before p t.
Proof.
  destruct (decide (t = 0)) as [->|Ht]; [done|]. rewrite count_cons by done.
  rewrite decide_False by lia. done.
Qed.

Lemma par_perm p q l : p ≡ₚ q → par p l = par q l.
Proof.
  revert p q. induction l as [|t l IH]; intros p q Hp; [done|]. simpl.
  rewrite (count_perm p q t Hp). f_equal. apply IH. by rewrite Hp.
Qed.

Lemma par_app p l1 l2 : par p (l1 ++ l2) = par p l1 + par (p ++ l1) l2.
Proof.
  revert p. induction l1 as [|t l1 IH]; intros p; simpl; [by rewrite app_nil_r|].
  rewrite IH, <-app_assoc. simpl. lia.
Qed.

Lemma par_zero_pre p l : par (0 :: p) l = par p l.
Proof.
  revert p. induction l as [|t l IH]; intros p; simpl; [done|].
  by rewrite count_zero, IH.
Qed.

Lemma par_zero_head p l : par p (0 :: l) = par p l.
Proof.
  simpl. unfold count_before. simpl. rewrite <-(par_zero_pre p l). apply par_perm.
  symmetry. apply Permutation_cons_append.
Qed.

(** Exchanging two neighbours changes the parity. *)
Lemma par_swap p x y l : x ≠ 0 → y ≠ 0 → x ≠ y →
  par p (x :: y :: l) = S (par p (y :: x :: l)) ∨ par p (y :: x :: l) = S (par p (x :: y :: l)).
Proof.
  intros Hx Hy Hxy. simpl.
  rewrite (count_perm (p ++ [x]) (x :: p)), (count_perm (p ++ [y]) (y :: p))
    by (symmetry; apply Permutation_cons_append).
  rewrite !count_cons by done.
  rewrite (par_perm ((p ++ [x]) ++ [y]) ((p ++ [y]) ++ [x])).
  2:{ rewrite <-!app_assoc. apply Permutation_app_head, perm_swap. }
  destruct (decide (x < y)), (decide (y < x)); lia.
Qed.

(** Moving a tile past [m] changes the parity once for every tile passed. *)
Lemma par_pass p x m l : x ≠ 0 → 0 ∉ m → x ∉ m →
  (par p (x :: m ++ l) + length m + par p (m ++ x :: l)) mod 2 = 0.
Proof.
  intros Hx. revert p. induction m as [|y m IH]; intros p H0 Hm.
  - cbn [app length]. replace (_ + 0 + _) with (par p (x :: l) * 2) by lia. apply Nat.mod_mul. lia.
  - apply not_elem_of_cons in H0 as [Hy H0]. apply not_elem_of_cons in Hm as [Hxy Hm].
    specialize (IH (p ++ [y]) H0 Hm).
    assert (Hc : par p (y :: x :: m ++ l) = count_before p y + par (p ++ [y]) (x :: m ++ l)) by done.
    assert (Hc' : par p ((y :: m) ++ x :: l) = count_before p y + par (p ++ [y]) (m ++ x :: l)) by done.
    rewrite Hc'. cbn [app length].
    destruct (par_swap p x y (m ++ l)) as [Hs|Hs]; [done..| |]; lia.
Qed.

(** ** What the test computes *)

Lemma parity_from_spec h pre l p br :
  parity_from h pre l p br = (p + par pre l, snd (parity_from h pre l p br)).
Proof.
  revert pre p br. induction l as [|t l IH]; intros pre p br; simpl; [f_equal; lia|].
  rewrite IH. simpl. f_equal. lia.
Qed.

Lemma parity_from_row h pre l p br i :
  l !! i = Some 0 → (∀ j, l !! j = Some 0 → j = i) →
  snd (parity_from h pre l p br) = (length pre + i) / h + 1.
Proof.
  revert pre p br i. induction l as [|t l IH]; intros pre p br i Hi Hu; [done|]. simpl.
  destruct i as [|i].
  - simpl in Hi. injection Hi as ->. rewrite decide_True by done. rewrite (Nat.add_0_r (length pre)).
    assert (Hno : ∀ l pre p br, 0 ∉ l → snd (parity_from h pre l p br) = br).
    { clear. induction l as [|t l IH]; intros pre p br Hl; [done|]. simpl.
      apply not_elem_of_cons in Hl as [Ht Hl]. rewrite decide_False by done. by apply IH. }
    apply Hno. intros Hin. apply elem_of_list_lookup_1 in Hin as [j Hj]. by specialize (Hu (S j) Hj).
  - rewrite decide_False. 2:{ intros ->. by specialize (Hu 0 eq_refl). }
    rewrite (IH _ _ _ i Hi). 2:{ intros j Hj. specialize (Hu (S j) Hj). lia. }
    rewrite app_length. simpl. do 2 f_equal. lia.
Qed.

Lemma solvable_spec l w h i : NoDup l → l !! i = Some 0 →
  solvable l w h =
    (par [] l + (if decide (w mod 2 = 0 ∧ (h + (i / h + 1)) mod 2 = 0) then 1 else 0)) mod 2.
Proof.
  intros Hnd Hi. unfold solvable. rewrite parity_from_spec.
  rewrite (parity_from_row h [] l 0 0 i Hi).
  2:{ intros j Hj. by eapply NoDup_lookup. }
  cbn [length Nat.add]. case_decide; f_equal; lia.
Qed.

(** ** Moves *)

(** The cells of a board around two positions. *)
Lemma split_two {A} (l : list A) i k x y : l !! i = Some x → l !! (i + S k) = Some y →
  ∃ l1 m l2, l = l1 ++ x :: m ++ y :: l2 ∧ length l1 = i ∧ length m = k.
Proof.
  intros Hi Hj. apply elem_of_list_split_length in Hi as (l1 & l' & -> & ->).
  rewrite lookup_app_r in Hj by lia. replace (length l1 + S k - length l1) with (S k) in Hj by lia.
  simpl in Hj. apply elem_of_list_split_length in Hj as (m & l2 & -> & ->). by exists l1, m, l2.
Qed.

Lemma insert_two {A} (l1 m l2 : list A) x y x' y' :
  <[length l1 := x']> (<[length l1 + S (length m) := y']> (l1 ++ x :: m ++ y :: l2)) =
    l1 ++ x' :: m ++ y' :: l2.
Proof.
  rewrite insert_app_r. cbn [insert list_insert]. rewrite insert_app_r_alt by done.
  rewrite Nat.sub_diag. simpl. do 2 f_equal.
  assert (He : <[length m:=y']> (m ++ y :: l2) = m ++ y' :: l2); [|exact He].
  rewrite insert_app_r_alt by done. by rewrite Nat.sub_diag.
Qed.

Lemma exchange l1 m l2 t : t ≠ 0 → 0 ∉ m → t ∉ m →
  (par [] (l1 ++ 0 :: m ++ t :: l2) + length m + par [] (l1 ++ t :: m ++ 0 :: l2)) mod 2 = 0.
Proof.
  intros Ht H0 Hm. rewrite !(par_app [] l1). cbn [app]. rewrite par_zero_head.
  pose proof (par_pass l1 t m l2 Ht H0 Hm) as Hp.
  assert (Hz : par l1 (t :: m ++ 0 :: l2) = par l1 (t :: m ++ l2)).
  { rewrite !(app_comm_cons m), !(par_app l1 (t :: m)), par_zero_head. done. }
  rewrite Hz.
  replace (par [] l1 + par l1 (m ++ t :: l2) + length m + (par [] l1 + par l1 (t :: m ++ l2)))
    with (par l1 (t :: m ++ l2) + length m + par l1 (m ++ t :: l2) + par [] l1 * 2) by lia.
  by rewrite Nat.mod_add.
Qed.

(** The blank and tile [t] trade places, [k] cells lie between them. *)
Lemma trade (l : list nat) i j k t : NoDup l → l !! i = Some 0 → l !! j = Some t → t ≠ 0 →
  j = i + S k ∨ i = j + S k →
  (par [] l + k + par [] (<[j := 0]> (<[i := t]> l))) mod 2 = 0.
Proof.
  intros Hnd Hi Hj Ht [->| ->].
  - destruct (split_two l i k 0 t Hi Hj) as (l1 & m & l2 & -> & <- & <-).
    rewrite list_insert_commute, insert_two by lia.
    apply NoDup_app in Hnd as (_ & _ & Hnd). apply NoDup_cons in Hnd as [H0 Hnd].
    apply NoDup_app in Hnd as (_ & Hm & _). apply exchange; [done|set_solver|].
    intros Hin. apply (Hm t Hin). set_solver.
  - destruct (split_two l j k t 0 Hj Hi) as (l1 & m & l2 & -> & <- & <-).
    rewrite insert_two.
    apply NoDup_app in Hnd as (_ & _ & Hnd). apply NoDup_cons in Hnd as [H0 Hnd].
    apply NoDup_app in Hnd as (_ & Hm & _).
    replace (par [] (l1 ++ t :: m ++ 0 :: l2) + length m + par [] (l1 ++ 0 :: m ++ t :: l2))
      with (par [] (l1 ++ 0 :: m ++ t :: l2) + length m + par [] (l1 ++ t :: m ++ 0 :: l2)) by lia.
    apply exchange; [done| |set_solver]. intros Hin. apply (Hm 0 Hin). set_solver.
Qed.

(** ** C50 *)

(** Legal moves preserve the result of the test when the width is odd or the board is square;
    so every board that can be brought to the goal passes it. *)
Theorem C50_moves_preserve_test W H goalpos init s :
  0 < W → 0 < H → W mod 2 = 1 ∨ W = H →
  init ≡ₚ seq 0 (ntiles W H) → reached W H goalpos init s →
  solvable (canon s) W H = solvable init W H.
Proof.
  intros HW HH Hdim Hp Hr. assert (Hn : 0 < ntiles W H) by (unfold ntiles; lia).
  induction Hr as [s Hi|s op e Hr IH Hop He|s op e s' Hr IH Hop He Hu|s s' Hn16 Hr IH Hu].
  - destruct (initial_wf W H goalpos HW init Hp Hn) as (s' & Hi' & Hc & _). congruence.
  - rewrite <-IH. clear IH. pose proof (reached_wf W H goalpos HW init s Hp Hn Hr) as Hwf.
    apply elem_of_cons in Hop as [->|Hop].
    { rewrite mkedge_ident in He by done. by injection He as <-. }
    apply (operators_elem W H goalpos HW) in Hop as (p & -> & Hpn & Hadj); [|done].
    destruct (move W H goalpos HW s p Hwf Hpn Hadj) as
      (t & e' & Hct & Ht & He' & _ & _ & _ & _ & Hb & Hcan & _ & Hwf').
    rewrite He in He'. injection He' as <-.
    pose proof Hwf as (Hbl & Hperm & _). pose proof Hwf' as (Hbl' & Hperm' & _).
    assert (Hnd : NoDup (canon s)) by (rewrite Hperm; apply NoDup_seq).
    assert (Hnd' : NoDup (canon (e_state e))) by (rewrite Hperm'; apply NoDup_seq).
    assert (H0 : canon s !! b s = Some 0) by (rewrite canon_lookup by done; by rewrite decide_True).
    assert (H0' : canon (e_state e) !! p = Some 0).
    { rewrite canon_lookup by done. by rewrite Hb, decide_True. }
    rewrite (solvable_spec _ W H p Hnd' H0'), (solvable_spec _ W H (b s) Hnd H0).
    destruct (div_split W H goalpos HW (b s)) as [E1 L1]. destruct (div_split W H goalpos HW p) as [E2 L2].
    rewrite Hcan. destruct Hadj as [[Hrow Hcol]|[Hcol Hrow]].
    + (* the same row *)
      pose proof (trade (canon s) (b s) p 0 t Hnd H0 Hct) as Htr. rewrite Hrow in E1.
      feed specialize Htr; [lia|lia|].
      destruct Hdim as [Hodd| ->]; [repeat case_decide; lia|]. rewrite Hrow.
      case_decide; lia.
    + pose proof (trade (canon s) (b s) p (W - 1) t Hnd H0 Hct) as Htr.
      assert (Hup : ∀ k, W * S k = W * k + W) by (intros; lia).
      feed specialize Htr; [lia| |].
      { destruct Hrow as [Hrow|Hrow]; rewrite Hrow, Hup in *; lia. }
      destruct Hdim as [Hodd|Hsq].
      * rewrite !decide_False by lia. lia.
      * rewrite <-Hsq. set (r := b s / W) in *. set (r' := p / W) in *. clear - Htr Hrow HW.
        destruct (decide (W mod 2 = 0 ∧ (W + (r' + 1)) mod 2 = 0)),
          (decide (W mod 2 = 0 ∧ (W + (r + 1)) mod 2 = 0)); lia.
  - rewrite <-IH. clear IH. pose proof (reached_wf W H goalpos HW init s Hp Hn Hr) as Hwf.
    apply elem_of_cons in Hop as [->|Hop].
    { rewrite mkedge_ident in He by done. injection He as <-. unfold rmedge in Hu. simpl in Hu. congruence. }
    apply (operators_elem W H goalpos HW) in Hop as (p & -> & Hpn & Hadj); [|done].
    destruct (undo W H goalpos HW s p e Hwf Hpn Hadj He) as (s'' & Hu' & (Hb & _ & Hl & Ho) & Hwf').
    rewrite Hu in Hu'. injection Hu' as <-. f_equal.
    apply list_eq. intros i. rewrite !canon_lookup by (apply Hwf || apply Hwf'). rewrite Hb.
    case_decide; [done|]. symmetry. apply Ho. congruence.
  - rewrite <-IH. clear IH. pose proof (reached_wf W H goalpos HW init s Hp Hn Hr) as Hwf.
    destruct (unpack_pack W H goalpos HW s Hn16 Hwf) as (s'' & Hu' & (Hb & _ & Hl & Ho) & Hwf').
    rewrite Hu in Hu'. injection Hu' as <-. f_equal.
    apply list_eq. intros i. rewrite !canon_lookup by (apply Hwf || apply Hwf'). rewrite Hb.
    case_decide; [done|]. symmetry. apply Ho. congruence.
Qed.

(** The goal of the generated instances: tiles in order, the blank first. *)
Lemma goal_par k l p : Forall (λ u, u ≤ k) p → par p (seq k l) = 0.
Proof.
  revert k p. induction l as [|l IH]; intros k p Hp; [done|]. simpl. rewrite IH.
  - unfold count_before. case_decide; [done|].
    destruct (filter _ p) as [|u f] eqn:E; [done|]. exfalso.
    assert (Hu : u ∈ filter (λ u, k < u) p) by (rewrite E; set_solver).
    apply elem_of_list_filter in Hu as [Hu Hin]. rewrite Forall_forall in Hp. specialize (Hp u Hin). lia.
  - apply Forall_app. split; [|apply Forall_singleton; lia]. eapply Forall_impl; [done|]. simpl. lia.
Qed.

Lemma goal_head W H : 0 < W → 0 < H → seq 0 (ntiles W H) !! 0 = Some 0.
Proof. intros HW HH. apply lookup_seq. unfold ntiles. lia. Qed.

Theorem C50_solvable_boards_pass W H goalpos init s :
  0 < W → 0 < H → W mod 2 = 1 ∨ W = H →
  init ≡ₚ seq 0 (ntiles W H) → reached W H goalpos init s →
  canon s = seq 0 (ntiles W H) → solvable init W H = 0.
Proof.
  intros HW HH Hdim Hp Hr Hg. rewrite <-(C50_moves_preserve_test W H goalpos init s HW HH Hdim Hp Hr).
  rewrite Hg, (solvable_spec _ W H 0); [|apply NoDup_seq|by apply goal_head].
  rewrite goal_par by done. rewrite Nat.div_0_l by lia. destruct Hdim as [Ho| ->]; case_decide; lia.
Qed.

(** And so does every board reached from the goal. *)
Theorem C50_reachable_boards_pass W H goalpos s :
  0 < W → 0 < H → W mod 2 = 1 ∨ W = H →
  reached W H goalpos (seq 0 (ntiles W H)) s → solvable (canon s) W H = 0.
Proof.
  intros HW HH Hdim Hr. rewrite (C50_moves_preserve_test W H goalpos _ s HW HH Hdim (reflexivity _) Hr).
  destruct (initial_wf W H goalpos HW (seq 0 (ntiles W H)) (reflexivity _)) as (s0 & Hi & Hc & _).
  { unfold ntiles. lia. }
  apply (C50_solvable_boards_pass W H goalpos _ s0); [done..|by constructor|done].
Qed.

(** [k] moves to the right in the first row. *)
Lemma go_right W H goalpos k : 0 < W → 0 < H → k < W →
  ∃ s, reached W H goalpos (seq 0 (ntiles W H)) s ∧ b s = k ∧ par [] (canon s) = 0.
Proof.
  intros HW HH. assert (Hn : 0 < ntiles W H) by (unfold ntiles; lia).
  assert (HWn : W ≤ ntiles W H) by (unfold ntiles; nia).
  induction k as [|k IH]; intros Hk.
  - destruct (initial_wf W H goalpos HW (seq 0 (ntiles W H)) (reflexivity _) Hn) as (s0 & Hi & Hc & Hwf).
    exists s0. split; [by constructor|]. rewrite Hc, goal_par by done. split; [|done].
    pose proof Hwf as (Hb & Hp & _).
    apply (perm_inj W H goalpos HW (canon s0) _ _ 0 Hp).
    + rewrite canon_lookup by done. by rewrite decide_True.
    + rewrite Hc. by apply goal_head.
  - destruct IH as (s & Hr & Hb & Hpar); [lia|].
    pose proof (reached_wf W H goalpos HW _ s (reflexivity _) Hn Hr) as Hwf.
    assert (Hadj : adjacent W (b s) (S k)).
    { left. rewrite Hb, !Nat.div_small, !Nat.mod_small by lia. lia. }
    destruct (move W H goalpos HW s (S k) Hwf) as
      (t & e & Hct & Ht & He & _ & _ & _ & _ & Hb' & Hcan & _ & Hwf'); [lia|done|].
    exists (e_state e). split; [|split; [done|]].
    + eapply reached_edge; [done| |done]. apply elem_of_cons. right.
      apply (operators_elem W H goalpos HW); [done|]. exists (S k). split; [done|]. split; [lia|done].
    + rewrite Hcan. etrans; [|exact Hpar]. pose proof Hwf as (Hbl & Hperm & _).
      assert (H0 : canon s !! b s = Some 0) by (rewrite canon_lookup by done; by rewrite decide_True).
      destruct (split_two (canon s) (b s) 0 0 t H0) as (l1 & m & l2 & Hl & Hl1 & Hm).
      { rewrite Hb. replace (k + 1) with (S k) by lia. done. }
      apply nil_length_inv in Hm as ->. rewrite Hl. rewrite list_insert_commute by lia.
      replace (S k) with (length l1 + S (length (@nil nat))) by (simpl; lia). rewrite <-Hl1.
      rewrite insert_two. rewrite !(par_app [] l1). cbn [app].
      rewrite par_zero_head. change (t :: 0 :: l2) with ([t] ++ 0 :: l2). change (t :: l2) with ([t] ++ l2).
      by rewrite !(par_app l1 [t]), par_zero_head.
Qed.

(** On every other board of even width some boards that can be reached from the goal, and from
    which the goal can be reached, are rejected. *)
Theorem C50_even_width_refuted W H goalpos :
  0 < W → 0 < H → W mod 2 = 0 → W ≠ H →
  ∃ s, reached W H goalpos (seq 0 (ntiles W H)) s ∧ solvable (canon s) W H = 1.
Proof.
  intros HW HH He Hne. assert (Hn : 0 < ntiles W H) by (unfold ntiles; lia).
  assert (Hnd : ∀ s, reached W H goalpos (seq 0 (ntiles W H)) s → NoDup (canon s) ∧ canon s !! b s = Some 0).
  { intros s Hr. pose proof (reached_wf W H goalpos HW _ s (reflexivity _) Hn Hr) as (Hb & Hp & _).
    split; [rewrite Hp; apply NoDup_seq|]. rewrite canon_lookup by done. by rewrite decide_True. }
  destruct (decide (H mod 2 = 1)) as [Ho|Ho].
  - destruct (go_right W H goalpos 0 HW HH HW) as (s & Hr & Hb & Hpar). exists s. split; [done|].
    destruct (Hnd s Hr). rewrite (solvable_spec _ W H (b s)) by done. rewrite Hpar, Hb, Nat.div_0_l by lia.
    rewrite decide_True by lia. done.
  - destruct (decide (H < W)) as [Hlt|Hge].
    + destruct (go_right W H goalpos H HW HH Hlt) as (s & Hr & Hb & Hpar). exists s. split; [done|].
      destruct (Hnd s Hr). rewrite (solvable_spec _ W H (b s)) by done.
      rewrite Hpar, Hb, Nat.div_same by lia. rewrite decide_True by lia. done.
    + destruct (go_right W H goalpos 0 HW HH HW) as (s & Hr & Hb & Hpar).
      pose proof (reached_wf W H goalpos HW _ s (reflexivity _) Hn Hr) as Hwf.
      assert (HWn : W < ntiles W H) by (unfold ntiles; nia).
      assert (Hadj : adjacent W (b s) W).
      { right. rewrite Hb, Nat.div_same, Nat.mod_same, Nat.div_0_l, Nat.mod_0_l by lia. lia. }
      destruct (move W H goalpos HW s W Hwf HWn Hadj) as
        (t & e & Hct & Ht & Hed & _ & _ & _ & _ & Hb' & Hcan & _ & Hwf').
      assert (Hr' : reached W H goalpos (seq 0 (ntiles W H)) (e_state e)).
      { eapply reached_edge; [done| |done]. apply elem_of_cons. right.
        apply (operators_elem W H goalpos HW); [done|]. by exists W. }
      exists (e_state e). split; [done|]. destruct (Hnd s Hr) as [Hnd1 H0]. destruct (Hnd _ Hr') as [Hnd2 H0'].
      rewrite (solvable_spec _ W H (b (e_state e))) by done. rewrite Hb'.
      rewrite (Nat.div_small W H) by lia. rewrite decide_False by lia.
      pose proof (trade (canon s) (b s) W (W - 1) t Hnd1 H0 Hct) as Htr.
      rewrite <-Hcan, Hpar in Htr. feed specialize Htr; lia.
Qed.

(** ** Examples *)

Example ex_solvable_15 : solvable [1; 2; 3; 7; 4; 5; 6; 0; 8; 9; 10; 11; 12; 13; 14; 15] 4 4 = 0.
Proof. done. Qed.
Example ex_unsolvable_15 : solvable [0; 2; 1; 3; 4; 5; 6; 7; 8; 9; 10; 11; 12; 13; 14; 15] 4 4 = 1.
Proof. done. Qed.
(** The goal of the 2x3 board is rejected. *)
Example ex_goal_rejected : solvable (seq 0 6) 2 3 = 1.
Proof. done. Qed.

Print Assumptions C50_moves_preserve_test.
Print Assumptions C50_solvable_boards_pass.
Print Assumptions C50_reachable_boards_pass.
Print Assumptions C50_even_width_refuted.
