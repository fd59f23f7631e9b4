(** Vacuum cleaning with A*: C76. *)
From stdpp Require Import prelude list_numbers.
From Coq Require Import ZArith Lia ZifyBool.
From Verif Require Import Common.Fuel Gridnav.Model Gridnav.Props Gridnav.Heur Gridnav.Solve.
From Verif Require Import Vacuum.Model Vacuum.Props.
From Verif Require Import Search.Open Search.Model Search.Props Search.Solve.
Local Open Scope Z_scope.

Global Instance vstate_eq_dec : EqDecision vstate.
Proof. solve_decision. Defined.
Global Instance good_state_dec v s : Decision (good_state v s).
Proof.
  refine (cast_if (decide (inside (vmap v) (vloc s) ∧ venergy s = -1 ∧ length (vbits s) = length (vlocs v) ∧
    vndirt s = left_over (vbits s)))); [|].
  - destruct a as (? & ? & ? & ?). by split.
  - intros []. by apply n.
Defined.

(** State::eq is equality. *)
Lemma eqbits_spec l l' : length l = length l' → eqbits l l' = Some (bool_decide (l = l')).
Proof.
  revert l'. induction l as [|b l IH]; intros [|b' l'] Hlen; simpl in Hlen; try lia; [done|]. cbn [eqbits].
  destruct (eqb b b') eqn:E.
  - apply eqb_prop in E as ->. rewrite IH by lia. f_equal. apply bool_decide_ext. split; congruence.
  - apply eqb_false_iff in E. by rewrite bool_decide_false by congruence.
Qed.
Lemma veq_spec v s s' : good_state v s → good_state v s' → veq s s' = Some (bool_decide (s = s')).
Proof.
  intros [_ He Hl Hn] [_ He' Hl' Hn']. unfold veq.
  destruct (Z.eqb_spec (vloc s) (vloc s')); simpl; [|by rewrite bool_decide_false by congruence].
  destruct (Z.eqb_spec (vndirt s) (vndirt s')); simpl; [|by rewrite bool_decide_false by congruence].
  rewrite eqbits_spec by congruence. f_equal. apply bool_decide_ext. split; [|congruence].
  intros Hb. destruct s, s'; simpl in *. congruence.
Qed.

Fixpoint allbits (n : nat) : list (list bool) :=
  match n with
  | 0%nat => [[]]
  | S n => (cons true <$> allbits n) ++ (cons false <$> allbits n)
  end.
Lemma allbits_all l : l ∈ allbits (length l).
Proof.
  induction l as [|b l IH]; simpl; [left|]. apply elem_of_app. destruct b; [left|right]; apply elem_of_list_fmap; by exists l.
Qed.

Section domain.
Set Default Proof Using "All".
Context (v : vacuum).
Context (Hv : good_vacuum v) (Hnc : ∀ l c, rd (vchg v) l = Some c → c = 0).

Definition vcell : Type := dsig (λ s, good_state v s).
Definition vstore (s : vstate) (dflt : vcell) : vcell :=
  match decide (good_state v s) with left H => dexist s H | right _ => dflt end.

Definition vac_domain : domain := {|
  St := vcell; Op := Z; St_eq := _; Op_eq := _;
  nop := VNop;
  ops s := default [] (operators v (proj1_sig s));
  edge s op :=
    match mkedge v (proj1_sig s) op with
    | Some e => (vstore (e_state e) s, e_cost e, e_revop e)
    | None => (s, 0, VNop)
    end;
  isgoal s := Vacuum.Model.isgoal (proj1_sig s);
|}.

Lemma vcell_good (s : vcell) : good_state v (proj1_sig s).
Proof. apply (proj2_dsig s). Qed.

Lemma vac_step (s : St vac_domain) op : op ∈ ops s →
  ∃ os e, operators v (proj1_sig s) = Some os ∧ op ∈ os ∧ op ≠ Charge ∧ mkedge v (proj1_sig s) op = Some e ∧
    proj1_sig (dest s op) = e_state e ∧ cost s op = 1 ∧ revop s op = e_revop e.
Proof.
  intros Hop. destruct (operators_spec v (proj1_sig s) Hv (vcell_good s)) as (os & Hos & Hiff).
  simpl in Hop. rewrite Hos in Hop. simpl in Hop.
  assert (Hc : op ≠ Charge).
  { intros ->. apply Hiff in Hop as [[? _]|[[? _]|(_ & c & Hc & Hne)]]; [unfold Charge, Suck in *; lia..|].
    apply Hne. by eapply Hnc. }
  destruct (edge_spec v _ _ _ Hv (vcell_good s) Hos Hop Hc) as (e & He & Hg & Hcost & _).
  exists os, e. split_and!; try done.
  - unfold dest. simpl. rewrite He. simpl. unfold vstore. by destruct (decide (good_state v (e_state e))).
  - unfold cost. simpl. by rewrite He.
  - unfold revop. simpl. by rewrite He.
Qed.

Lemma vac_domain_ok : domain_ok vac_domain.
Proof.
  split.
  - intros s op Hop. destruct (vac_step s op Hop) as (os & e & _ & _ & _ & _ & _ & -> & _). lia.
  - intros s op Hop Hrev. destruct (vac_step s op Hop) as (os & e & Hos & Hin & Hc & He & Hd & _ & Hr).
    destruct (vac_step _ _ Hrev) as (os' & e' & Hos' & Hin' & Hc' & He' & Hd' & _).
    rewrite Hr, Hd in He'. rewrite Hr in Hin'. rewrite Hd in Hos'. apply dsig_eq. rewrite Hd'.
    destruct (edge_spec v _ _ _ Hv (vcell_good s) Hos Hin Hc) as (e1 & He1 & Hg & _ & Hcase).
    assert (e1 = e) as -> by congruence.
    destruct (operators_spec v (e_state e) Hv Hg) as (os2 & Hos2 & Hiff). assert (os2 = os') as -> by congruence.
    destruct Hcase as [(_ & d & _ & _ & _ & _ & Hn)|(m & m' & Hop3 & Hm & Hst & Hrr & Hm' & Hx & Hy)].
    { rewrite Hn in Hin'. apply Hiff in Hin' as [[? _]|[[? _]|[? _]]]; unfold VNop, Suck, Charge in *; lia. }
    destruct (move_spec v (e_state e) _ m' Hv Hg Hrr Hm') as (r & m'' & _ & _ & _ & _ & He2).
    assert (e' = _) as -> by (apply (inj Some); rewrite <-He', He2; reflexivity). simpl.
    rewrite Hst. simpl. destruct (vcell_good s) as [_ Hen _ _]. destruct (proj1_sig s). simpl in *. subst.
    f_equal. unfold delta. simpl. rewrite Hx, Hy. lia.
  - intros s Hin. simpl in Hin. destruct (operators_spec v (proj1_sig s) Hv (vcell_good s)) as (os & Hos & Hiff).
    rewrite Hos in Hin. simpl in Hin.
    apply Hiff in Hin as [[? _]|[[? _]|[? _]]]; unfold VNop, Suck, Charge in *; lia.
Qed.

Lemma walk_plan (ss : list (St vac_domain)) os k (s t : St vac_domain) :
  walk ss os k → head ss = Some s → last ss = Some t →
  plan v (proj1_sig s) os (proj1_sig t) ∧ k = Z.of_nat (length os).
Proof.
  intros Hw. revert s. induction Hw as [s1|s1 op ss os k Hop Hw IH]; intros s Hh Hl; simpl in Hh; injection Hh as <-.
  - injection Hl as <-. split; [constructor|done].
  - destruct (IH (dest s1 op) eq_refl Hl) as (Hp & ->).
    destruct (vac_step s1 op Hop) as (os1 & e & Hos & Hin & _ & He & Hd & Hc & _).
    rewrite Hd in Hp. split; [by eapply plan_cons|]. rewrite Hc. cbn [length]. lia.
Qed.
Lemma plan_walk l os l' : plan v l os l' → ∀ s : St vac_domain, proj1_sig s = l →
  ∃ ss (t : St vac_domain), walk (D:=vac_domain) ss os (Z.of_nat (length os)) ∧ head ss = Some s ∧ last ss = Some t ∧ proj1_sig t = l'.
Proof.
  induction 1 as [l|l os op e rest l' Hos Hop He Hp IH]; intros s Hs.
  - exists [s], s. split_and!; try done. constructor.
  - assert (Hin : op ∈ ops s) by (simpl; by rewrite Hs, Hos).
    destruct (vac_step s op Hin) as (os1 & e1 & Hos1 & _ & _ & He1 & Hd & Hc & _).
    assert (e1 = e) as -> by congruence.
    destruct (IH (dest s op) Hd) as (ss & t & Hw & Hh & Hl & Ht).
    destruct ss as [|s1 ss]; [done|]. simpl in Hh. injection Hh as ->.
    exists (s :: dest s op :: ss), t. split_and!; try done.
    replace (Z.of_nat (length (op :: rest))) with (cost s op + Z.of_nat (length rest)) by (rewrite Hc; cbn [length]; lia).
    by constructor.
Qed.

Lemma vac_finite (s0 : St vac_domain) : finite_space s0.
Proof.
  exists ((λ p : Z * list bool, vstore (VState p.1 (-1) (left_over p.2) p.2) s0) <$>
    flat_map (λ l, map (λ b, (l, b)) (allbits (length (vlocs v)))) (seqZ 0 (size (vmap v)))).
  intros s _. pose proof (vcell_good s) as Hs. pose proof Hs as [Hin He Hlen Hleft].
  apply elem_of_list_fmap. exists (vloc (proj1_sig s), vbits (proj1_sig s)). simpl.
  assert (Heq : VState (vloc (proj1_sig s)) (-1) (left_over (vbits (proj1_sig s))) (vbits (proj1_sig s)) = proj1_sig s).
  { rewrite <-Hleft, <-He. by destruct (proj1_sig s). }
  split.
  - apply dsig_eq. unfold vstore. rewrite Heq. by destruct (decide (good_state v (proj1_sig s))).
  - apply flat_elem. exists (vloc (proj1_sig s)). split.
    + apply elem_of_seqZ. pose proof (inside_inrange _ _ Hin). lia.
    + apply map_elem. exists (vbits (proj1_sig s)). split; [|done]. rewrite <-Hlen. apply allbits_all.
Qed.
Context (stray : Z * Z).
(** The heuristic, with the memory behind the vector of dirt locations holding [stray]. *)
Definition vac_h (s : St vac_domain) : Z :=
  default 0 (hread (λ i, Some (default stray (vlocs v !! i))) (proj1_sig s)).

Lemma boxloop_ext r r' i bits a b c d :
  (∀ k, (k < length bits)%nat → r (i + k)%nat = r' (i + k)%nat) →
  boxloop r i bits a b c d = boxloop r' i bits a b c d.
Proof.
  revert i a b c d. induction bits as [|bt bits IH]; intros i a b c d Hext; [done|]. cbn [boxloop].
  assert (Hext' : ∀ k, (k < length bits)%nat → r (S i + k)%nat = r' (S i + k)%nat).
  { intros k Hk. rewrite !Nat.add_succ_l, <-!Nat.add_succ_r. apply Hext. simpl. lia. }
  destruct bt; simpl; [|by apply IH].
  pose proof (Hext 0%nat) as H0. rewrite Nat.add_0_r in H0. rewrite H0 by (simpl; lia).
  destruct (r' i) as [[x y]|]; [|done]. by apply IH.
Qed.

(** The heuristic of the search is the one of the code where that is defined, and zero at goals. *)
Lemma vac_h_spec (s : St vac_domain) :
  (isgoal s = true ∧ vac_h s = 0) ∨ (isgoal s = false ∧ h v (proj1_sig s) = Some (vac_h s)).
Proof.
  pose proof (vcell_good s) as Hs. pose proof Hs as [_ _ Hlen Hleft]. simpl.
  destruct (Vacuum.Model.isgoal (proj1_sig s)) eqn:Hg; [left|right]; (split; [done|]).
  - unfold vac_h, hread. unfold Vacuum.Model.isgoal in Hg.
    destruct (firstdirt_spec 0 (vbits (proj1_sig s))) as [(k & _ & Hk & _)|[-> _]].
    { exfalso. revert Hk. apply left_zero. lia. }
    rewrite lookup_ge_None_2 by lia. cbn [default]. destruct stray as [x y]. simpl.
    rewrite drop_ge by lia. simpl. lia.
  - destruct (h_spec v _ Hs Hg) as (x1 & y1 & x2 & y2 & x3 & y3 & x4 & y4 & _ & _ & _ & _ & _ & _ & Hh).
    rewrite Hh. f_equal. unfold vac_h. enough (hread (λ i, Some (default stray (vlocs v !! i))) (proj1_sig s) = h v (proj1_sig s)) as ->
      by by rewrite Hh. unfold h, hread in *. set (i := firstdirt 0 (vbits (proj1_sig s))) in *.
    destruct (vlocs v !! i) as [[x y]|] eqn:El; [|done]. simpl.
    rewrite (boxloop_ext _ (λ i, vlocs v !! i)); [done|]. intros k Hk. rewrite drop_length in Hk.
    destruct (lookup_lt_is_Some_2 (vlocs v) (S i + k)) as [p Hp]; [lia|]. simpl in Hp. simpl. by rewrite Hp.
Qed.

Lemma vac_h_nonneg (s : St vac_domain) : 0 ≤ vac_h s.
Proof.
  destruct (vac_h_spec s) as [[_ ->]|[Hg Hh]]; [done|].
  destruct (h_spec v _ (vcell_good s) Hg) as (x1 & y1 & x2 & y2 & x3 & y3 & x4 & y4 & _ & _ & _ & _ & ? & ? & Hh').
  rewrite Hh in Hh'. injection Hh' as ->.
  assert (Hn : 0 ≤ vndirt (proj1_sig s)) by (rewrite (gs_left v _ (vcell_good s)); apply left_nonneg).
  apply Z.add_nonneg_nonneg; [apply Z.add_nonneg_nonneg; [exact Hn|]|]; lia.
Qed.

Lemma vac_h_admissible : admissible vac_h.
Proof.
  intros s ss os k (Hw & Hh & t & Hl & Ht).
  destruct (walk_plan _ _ _ _ _ Hw Hh Hl) as (Hp & ->).
  destruct (vac_h_spec s) as [[_ ->]|[Hg Hhs]]; [lia|].
  destruct (h_spec v _ (vcell_good s) Hg) as (x1 & y1 & x2 & y2 & x3 & y3 & x4 & y4 & D1 & D2 & D3 & D4 & ? & ? & Hh').
  rewrite Hhs in Hh'. injection Hh' as ->.
  apply (plan_lower v _ os _ x1 y1 x2 y2 x3 y3 x4 y4 Hv (vcell_good s) Hp Ht); by left.
Qed.

End domain.

(** The states a plan visits. *)
Inductive trace (v : vacuum) : list vstate → list Z → Prop :=
  | trace_one s : trace v [s] []
  | trace_step s op e ss os : mkedge v s op = Some e → e_cost e = 1 → good_state v (e_state e) →
      trace v (e_state e :: ss) os → trace v (s :: e_state e :: ss) (op :: os).

Lemma walk_trace v (Hv : good_vacuum v) (Hnc : ∀ l c, rd (vchg v) l = Some c → c = 0)
    (ss : list (St (vac_domain v))) os k :
  walk ss os k → trace v (map (λ s : vcell v, proj1_sig s) ss) os.
Proof.
  induction 1 as [s1|s1 op ss os k Hop Hw IH]; simpl in *; [constructor|].
  destruct (vac_step v Hv Hnc s1 op Hop) as (os1 & e & Hos & Hin & Hc & He & Hd & _).
  destruct (edge_spec v _ _ _ Hv (vcell_good v Hv Hnc s1) Hos Hin Hc) as (e1 & He1 & Hg & Hc1 & _).
  assert (e1 = e) as -> by congruence. unfold vcell in *. rewrite Hd in *. by constructor.
Qed.

Lemma pathcost_trace v ss os s c pre preops : trace v ss os → head ss = Some s →
  (∃ t, last ss = Some t ∧ Vacuum.Model.isgoal t = true) →
  pathcost_from v (length os) s (reverse ss ++ pre) (reverse os ++ preops) c = Some (c + Z.of_nat (length os)).
Proof.
  intros Hw. revert s c pre preops.
  induction Hw as [s1|s1 op e ss os He Hc Hg Hw IH]; intros s c pre preops Hh (t & Hl & Ht); simpl in Hh; injection Hh as <-.
  - injection Hl as <-. cbn [length pathcost_from]. rewrite Ht. f_equal. simpl. lia.
  - cbn [length pathcost_from].
    assert (E1 : (reverse (op :: os) ++ preops) !! length os = Some op).
    { rewrite reverse_cons, <-app_assoc, lookup_app_r; rewrite reverse_length; [|done]. by rewrite Nat.sub_diag. }
    rewrite E1. cbn [mbind option_bind]. rewrite He. cbn [mbind option_bind].
    assert (Hwl : length ss = length os).
    { assert (Hgen : ∀ l o, trace v l o → length l = S (length o)) by (induction 1; simpl in *; lia).
      apply Hgen in Hw. simpl in Hw. lia. }
    assert (E2 : (reverse (s1 :: e_state e :: ss) ++ pre) !! length os = Some (e_state e)).
    { rewrite !reverse_cons, <-!app_assoc, lookup_app_r; rewrite reverse_length; [|lia].
      by rewrite Hwl, Nat.sub_diag. }
    rewrite E2. cbn [mbind option_bind].
    rewrite (veq_spec v _ _ Hg Hg), bool_decide_true by done. cbn [mbind option_bind].
    rewrite reverse_cons, <-app_assoc, (reverse_cons os), <-app_assoc.
    rewrite (IH (e_state e)); [|done|by exists t]. f_equal. lia.
Qed.

(** On every instance without chargers, whatever the memory behind the vector of dirt locations
    holds: A* ends; it reports a shortest plan, and Vacuum::pathcost accepts it and returns its
    length; or it reports that there is none, and then there is none. *)
Theorem C76_astar_cleans v (stray : Z * Z) o (s : vcell v) :
  good_vacuum v → (∀ l c, rd (vchg v) l = Some c → c = 0) → proj1_sig s = initialstate v →
  ol_ok astar_lt nonneg_key o →
  (∃ path os s', ends (astar (vac_domain v) (vac_h v stray) o no_limits s) (Some (path, os), s') ∧
     pathcost v (map (λ s : vcell v, proj1_sig s) path) os = Some (Z.of_nat (length os)) ∧
     (∃ t, plan v (initialstate v) (reverse os) t ∧ Vacuum.Model.isgoal t = true) ∧
     ∀ os' t', plan v (initialstate v) os' t' → Vacuum.Model.isgoal t' = true → (length os ≤ length os')%nat) ∨
  (∃ s', ends (astar (vac_domain v) (vac_h v stray) o no_limits s) (None, s') ∧
     ∀ os' t', plan v (initialstate v) os' t' → Vacuum.Model.isgoal t' = false).
Proof.
  intros Hv Hnc Hs OL.
  assert (Hsol : ∀ os' t', plan v (initialstate v) os' t' → Vacuum.Model.isgoal t' = true →
    ∃ ss, solution (D:=vac_domain v) s ss os' (Z.of_nat (length os'))).
  { intros os' t' Hp Ht. destruct (plan_walk v Hv Hnc _ _ _ Hp s Hs) as (ss & t & Hw & Hh & Hl & Htt).
    exists ss. split; [done|]. split; [done|]. exists t. split; [done|]. simpl. by rewrite Htt. }
  destruct (astar_solves (vac_domain v) (vac_h v stray) o
    (vac_domain_ok v Hv Hnc) OL (vac_h_nonneg v Hv Hnc stray)
    (vac_h_admissible v Hv Hnc stray) s (vac_finite v Hv Hnc s))
    as [(path & os & s' & k & He & (Hw & Hh & t & Hl & Ht) & Hmin)|(s' & He & Hno)].
  - left. destruct (walk_plan v Hv Hnc _ _ _ _ _ Hw Hh Hl) as (Hp & ->). rewrite Hs in Hp.
    rewrite reverse_length in *.
    exists path, os, s'. split_and!; [done| |by exists (proj1_sig t)|].
    + pose proof (walk_trace v Hv Hnc _ _ _ Hw) as Htr.
      pose proof (pathcost_trace v _ _ (initialstate v) 0 [] [] Htr) as Hpc.
      change (map (λ s : vcell v, proj1_sig s) (reverse path)) with ((λ s : vcell v, proj1_sig s) <$> reverse path) in Hpc.
      rewrite fmap_reverse, !app_nil_r, !reverse_involutive, reverse_length in Hpc.
      unfold pathcost. rewrite <-fmap_reverse in Hpc. simpl in *. revert Hpc Hh Hl. generalize (reverse path).
      intros rp Hpc Hh Hl. apply Hpc.
      * destruct rp; [done|]. simpl in *. injection Hh as ->. by rewrite Hs.
      * exists (proj1_sig t). split; [|done]. etrans; [apply fmap_last|]. by rewrite Hl.
    + intros os' t' Hp' Ht'. destruct (Hsol _ _ Hp' Ht') as [ss Hss]. apply Hmin in Hss. lia.
  - right. exists s'. split; [done|]. intros os' t' Hp. destruct (Vacuum.Model.isgoal t') eqn:E; [|done].
    destruct (Hsol _ _ Hp E) as [ss Hss]. by destruct (Hno _ _ _ Hss).
Qed.

(** ** Example *)
Definition ex2_chars (x y : Z) : Z :=
  default 95 ([[64; 35; 42]; [42; 95; 95]] !! Z.to_nat (y - 1) ≫= λ r, r !! Z.to_nat (x - 1)).
Definition ex2 : vacuum := default (Vacuum (GridMap 0 0 [] false []) 0 0 [] [] []) (load 3 2 ex2_chars).
Lemma ex2_good : good_vacuum ex2.
Proof. apply (C58_loaded_instances_good 3 2 ex2_chars); [lia|lia|done]. Qed.
Definition ex2_start : vcell ex2 := dexist (P:=λ s, good_state ex2 s) (initialstate ex2) (initial_good ex2 ex2_good).
Example ex2_astar :
  match astar (vac_domain ex2) (vac_h ex2 (17, -3)) (heap_ol astar_lt (0, 0)) no_limits ex2_start 1000 with
  | Some (Some (path, os), _) => Some (os, pathcost ex2 (map (λ s : vcell ex2, proj1_sig s) path) os)
  | _ => None
  end = Some ([4; 1; 3; 3; 4; 0], Some 6).
Proof. vm_compute. done. Qed.

Print Assumptions C76_astar_cleans.
