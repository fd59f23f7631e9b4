(** Property C132: searching again after each step. *)
From stdpp Require Import prelude.
From Coq Require Import ZArith Lia ZifyBool ZifyNat.
From Verif.Search Require Import Domain Props.
From Verif.Restart Require Import Model.
Local Open Scope Z_scope.

(** A search that returns a solution, goal first, or nothing. *)
Definition sound (D : domain) (srch : nat → St D → list (St D) * list (Op D)) : Prop :=
  ∀ k s p o, srch k s = (p, o) → p = [] ∧ o = [] ∨ ∃ c, solution s (reverse p) (reverse o) c.
(** It returns a cheapest solution wherever there is one. *)
Definition optimal (D : domain) (srch : nat → St D → list (St D) * list (Op D)) : Prop :=
  ∀ k s ss os c, solution s ss os c → ∃ p o c', srch k s = (p, o) ∧ solution s (reverse p) (reverse o) c' ∧ c' ≤ c.

Section props.
Context (D : domain) (srch : nat → St D → list (St D) * list (Op D)).

(** What the loop reads of a solution: its first state and operator, and its second state. *)
Lemma first_step (s : St D) (p : list (St D)) (o : list (Op D)) c x : solution s (reverse p) (reverse o) c → last o = Some x →
  last p = Some s ∧ x ∈ ops s ∧ p !! (length p - 2)%nat = Some (dest s x) ∧
  ∃ ss os, solution (dest s x) ss os (c - cost s x).
Proof.
  intros (Hw & Hh & t & Hl & Hg) Hx. rewrite <-(reverse_involutive o), last_reverse in Hx. rewrite <-(reverse_involutive p) at 1 2 3.
  remember (reverse p) as p' eqn:Ep. remember (reverse o) as o' eqn:Eo. clear Ep Eo. inversion Hw as [s1|s1 o1 ss os k Ho Hw']; subst; [done|].
  cbn in Hx, Hh. injection Hx as ->. injection Hh as ->. rewrite last_reverse. split; [done|]. split; [done|]. split.
  - rewrite reverse_length. cbn [length]. rewrite !reverse_cons. rewrite <-app_assoc. rewrite lookup_app_r by (rewrite reverse_length; lia).
    rewrite reverse_length. replace (S (S (length ss)) - 2 - length ss)%nat with 0%nat by lia. done.
  - exists (dest s x :: ss), os. replace (cost s x + k - cost s x) with k by lia. split; [done|]. split; [done|]. by exists t.
Qed.

Lemma walk_nil (ss : list (St D)) c : walk ss [] c → ∃ s, ss = [s] ∧ c = 0.
Proof. inversion 1. by eexists. Qed.

Lemma loop_spec (HS : sound D srch) fuel : ∀ k cur path os c s0 path' os', walk (path ++ [cur]) os c → head (path ++ [cur]) = Some s0 →
  loop D srch fuel k cur path os = Some (path', os') →
  ∃ t c' k', walk (path' ++ [t]) os' c' ∧ head (path' ++ [t]) = Some s0 ∧ (isgoal t = true ∨ srch k' t = ([], [])).
Proof.
  induction fuel as [|fuel IH]; intros k cur path os c s0 path' os' Hw Hh; cbn [loop]; [done|].
  destruct (srch k cur) as [p o] eqn:E. destruct (last o) as [x|] eqn:Ex.
  - destruct (HS k cur p o E) as [[-> ->]|[c1 Hs]]; [done|]. destruct (first_step _ _ _ _ _ Hs Ex) as (H1 & H2 & H3 & _).
    rewrite H1. cbn [mbind option_bind]. rewrite H3. cbn [mbind option_bind]. intros H. eapply IH in H; [exact H| |].
    + apply (walk_snoc _ _ _ _ cur x Hw); [by rewrite last_snoc|done].
    + destruct path; done.
  - intros [= <- <-]. exists cur, c, k. split; [done|]. split; [done|]. destruct (HS k cur p o E) as [[-> ->]|[c1 Hs]]; [by right|]. left.
    apply last_None in Ex. subst o. destruct Hs as (Hw' & Hh' & t & Hl & Hg). apply walk_nil in Hw' as (s1 & Hs1 & ->). rewrite Hs1 in Hh', Hl. cbn in Hh', Hl. congruence.
Qed.

(** C132: the operators lead from the initial state to a goal, or to a state from where the restarted search found nothing.
    The states are those of the way without the last one. *)
Theorem C132_result fuel s0 path os : sound D srch → search D srch fuel s0 = Some (path, os) →
  ∃ t c k, walk (reverse path ++ [t]) (reverse os) c ∧ head (reverse path ++ [t]) = Some s0 ∧ (isgoal t = true ∨ srch k t = ([], [])).
Proof.
  intros HS. unfold search. destruct (loop _ _ _ _ _ _ _) as [[path' os']|] eqn:E; [|done]. cbn [mbind option_bind]. intros [= <- <-].
  rewrite !reverse_involutive. by apply (loop_spec HS) with (c := 0) (s0 := s0) in E; [|constructor|].
Qed.

(** C132: with a search that is optimal, and operators that cost something, it ends and its operators are a cheapest
    solution. *)
Lemma loop_optimal (HS : sound D srch) (HO : optimal D srch) (Hpos : ∀ (s : St D) o, o ∈ ops s → 0 < cost s o) fuel :
  ∀ k cur path os c ss1 os1 c1, walk (path ++ [cur]) os c → solution cur ss1 os1 c1 →
  (∀ ss' os' c', solution cur ss' os' c' → c1 ≤ c') → c1 < Z.of_nat fuel →
  ∃ path' os' t, loop D srch fuel k cur path os = Some (path', os') ∧ walk (path' ++ [t]) os' (c + c1) ∧
    head (path' ++ [t]) = head (path ++ [cur]) ∧ isgoal t = true.
Proof.
  assert (Hnn : ∀ ss os c, walk (D := D) ss os c → 0 ≤ c).
  { induction 1 as [s|s o ss os c Ho Hw IH]; [lia|]. specialize (Hpos s o Ho). lia. }
  induction fuel as [|fuel IH]; intros k cur path os c ss1 os1 c1 Hw Hs Hmin Hf.
  { destruct Hs as [Hw1 _]. apply Hnn in Hw1. lia. }
  cbn [loop]. destruct (HO k cur _ _ _ Hs) as (p & o & c' & E & Hp & Hc). rewrite E.
  assert (c' = c1) as -> by (specialize (Hmin _ _ _ Hp); lia).
  destruct (last o) as [x|] eqn:Ex.
  - destruct (first_step _ _ _ _ _ Hp Ex) as (H1 & H2 & H3 & ss2 & os2 & Hs2). rewrite H1. cbn [mbind option_bind]. rewrite H3. cbn [mbind option_bind].
    specialize (Hpos _ _ H2).
    destruct (IH (S k) (dest cur x) (path ++ [cur]) (os ++ [x]) (c + cost cur x) ss2 os2 (c1 - cost cur x)) as (path' & os' & t & Hl & Hw' & Hh & Hg).
    + by apply walk_snoc; [|rewrite last_snoc|].
    + done.
    + intros ss' os' c' (Hw' & Hh' & t & Hl' & Hg'). destruct ss' as [|s1 ss']; [done|]. cbn in Hh'. injection Hh' as ->.
      enough (c1 ≤ cost cur x + c') by lia. apply (Hmin (cur :: dest cur x :: ss') (x :: os')). split; [by constructor|]. split; [done|]. by exists t.
    + lia.
    + exists path', os', t. split_and!; [done| |by rewrite Hh; destruct path|done]. by replace (c + c1) with (c + cost cur x + (c1 - cost cur x)) by lia.
  - apply last_None in Ex. subst o. destruct Hp as (Hw' & Hh' & t & Hl & Hg). apply walk_nil in Hw' as (s1 & Hs1 & ->). rewrite Hs1 in Hh', Hl.
    cbn in Hh', Hl. exists path, os, cur. split_and!; [done|by rewrite Z.add_0_r|done|congruence].
Qed.
Theorem C132_optimal s0 ss os c : sound D srch → optimal D srch → (∀ (s : St D) o, o ∈ ops s → 0 < cost s o) →
  solution s0 ss os c → (∀ ss' os' c', solution s0 ss' os' c' → c ≤ c') →
  ∃ N path os' t, (∀ fuel, (N ≤ fuel)%nat → search D srch fuel s0 = Some (path, os')) ∧ solution s0 (reverse path ++ [t]) (reverse os') c.
Proof.
  intros HS HO Hpos Hs Hmin.
  assert (0 ≤ c) as Hc. { destruct Hs as [Hw _]. clear -Hw Hpos. induction Hw as [s|s o ss os c Ho Hw IH]; [lia|]. specialize (Hpos s o Ho). lia. }
  assert (H : ∀ fuel, (S (Z.to_nat c) ≤ fuel)%nat → ∃ path os t, search D srch fuel s0 = Some (path, os) ∧ solution s0 (reverse path ++ [t]) (reverse os) c).
  { intros fuel Hf. destruct (loop_optimal HS HO Hpos fuel 0 s0 [] [] 0 ss os c) as (p & o & t & Hl & Hw & Hh & Hg); [constructor|done|done|lia|].
    exists (reverse p), (reverse o), t. unfold search. rewrite Hl. split; [done|]. rewrite !reverse_involutive. split; [done|]. split; [done|]. exists t. by rewrite last_snoc. }
  destruct (H _ (Nat.le_refl _)) as (path & os' & t & E & Hsol). exists (S (Z.to_nat c)), path, os', t. split; [|done].
  intros fuel Hf. revert E. unfold search.
  assert (Hmono : ∀ f k cur p o r, loop D srch f k cur p o = Some r → ∀ f', (f ≤ f')%nat → loop D srch f' k cur p o = Some r).
  { clear. induction f as [|f IH]; intros k cur p o r; cbn [loop]; [done|]. intros E [|f'] Hle; [lia|]. cbn [loop].
    destruct (srch k cur) as [p1 o1]. destruct (last o1); [|done]. destruct (last p1); [|done]. cbn [mbind option_bind] in *.
    destruct (p1 !! _); [|done]. cbn [mbind option_bind] in *. apply (IH _ _ _ _ _ E). lia. }
  destruct (loop D srch (S (Z.to_nat c)) 0 s0 [] []) as [r|] eqn:El; [|done]. by rewrite (Hmono _ _ _ _ _ _ El _ Hf).
Qed.
End props.

(** ** Examples *)
(** A way 0 - 1 - 2 with steps back; the goal is 2. *)
Definition rs_dom : domain := table_domain [(0%nat, 1%nat, 1); (1%nat, 0%nat, 1); (1%nat, 2%nat, 1); (0%nat, 2%nat, 5)] 2.
Definition rs_best (_ : nat) (s : St rs_dom) : list (St rs_dom) * list (Op rs_dom) :=
  match s with 0%nat => ([2; 1; 0]%nat, [2; 1]%nat) | 1%nat => ([2; 1]%nat, [2%nat]) | 2%nat => ([2%nat], []) | _ => ([], []) end.
(** A search that is sound but not optimal *)
Definition rs_bad (_ : nat) (s : St rs_dom) : list (St rs_dom) * list (Op rs_dom) :=
  match s with 0%nat => ([2; 1; 0]%nat, [2; 1]%nat) | 1%nat => ([2; 0; 1]%nat, [2; 0]%nat) | 2%nat => ([2%nat], []) | _ => ([], []) end.
Lemma rs_01 : (1%nat : Op rs_dom) ∈ ops (0%nat : St rs_dom). Proof. by apply elem_of_list_In; left. Qed.
Lemma rs_10 : (0%nat : Op rs_dom) ∈ ops (1%nat : St rs_dom). Proof. by apply elem_of_list_In; left. Qed.
Lemma rs_12 : (2%nat : Op rs_dom) ∈ ops (1%nat : St rs_dom). Proof. by apply elem_of_list_In; right; left. Qed.
Lemma rs_02 : (2%nat : Op rs_dom) ∈ ops (0%nat : St rs_dom). Proof. by apply elem_of_list_In; right; left. Qed.
Lemma rs_s2 : solution (D := rs_dom) 2%nat [2%nat] [] 0.
Proof. split; [constructor|]. split; [done|]. by exists 2%nat. Qed.
Lemma rs_s1 : solution (D := rs_dom) 1%nat [1; 2]%nat [2%nat] 1.
Proof. split; [apply (walk_step rs_dom 1%nat 2%nat [] [] 0 rs_12); constructor|]. split; [done|]. by exists 2%nat. Qed.
Lemma rs_s0 : solution (D := rs_dom) 0%nat [0; 1; 2]%nat [1; 2]%nat 2.
Proof. split; [apply (walk_step rs_dom 0%nat 1%nat [2%nat] [2%nat] 1 rs_01); apply rs_s1|]. split; [done|]. by exists 2%nat. Qed.
Lemma rs_s1' : solution (D := rs_dom) 1%nat [1; 0; 2]%nat [0; 2]%nat 6.
Proof.
  split; [apply (walk_step rs_dom 1%nat 0%nat [2%nat] [2%nat] 5 rs_10); apply (walk_step rs_dom 0%nat 2%nat [] [] 0 rs_02); constructor|].
  split; [done|]. by exists 2%nat.
Qed.
Lemma rs_pos (s : St rs_dom) o : o ∈ ops s → 0 < cost s o.
Proof.
  intros Ho. apply elem_of_list_fmap in Ho as (e & -> & He). apply elem_of_list_filter in He as [He Hi].
  repeat (apply elem_of_cons in Hi as [->|Hi]; [cbn in He; subst s; vm_compute; reflexivity|]). by apply elem_of_nil in Hi.
Qed.
Definition rs_dist (s : nat) : Z := match s with 0%nat => 2 | 1%nat => 1 | _ => 0 end.
Lemma rs_adm : admissible (D := rs_dom) rs_dist.
Proof.
  apply (consistent_admissible rs_dom rs_dist rs_dist); [|done]. split.
  - intros x Hx. by apply bool_decide_eq_true in Hx as ->.
  - intros x t Ht. apply elem_of_list_fmap in Ht as (e & -> & He). apply elem_of_list_filter in He as [He Hi].
    repeat (apply elem_of_cons in Hi as [->|Hi]; [cbn in He; subst x; vm_compute; discriminate|]). by apply elem_of_nil in Hi.
Qed.
Example rs_best_sound : sound rs_dom rs_best.
Proof.
  intros k [|[|[|s]]] p o [= <- <-]; [right..|by left]; eexists; [apply rs_s0|apply rs_s1|apply rs_s2].
Qed.
Example rs_best_optimal : optimal rs_dom rs_best.
Proof.
  intros k s ss os c Hs. pose proof (rs_adm _ _ _ _ Hs) as Hc. destruct s as [|[|[|s]]].
  - eexists _, _, _. split; [done|]. split; [apply rs_s0|done].
  - eexists _, _, _. split; [done|]. split; [apply rs_s1|done].
  - eexists _, _, _. split; [done|]. split; [apply rs_s2|done].
  - exfalso. destruct Hs as (Hw & Hh & t & Hl & Hg). inversion Hw as [|s1 o1 ss1 os1 k1 Ho Hw1]; subst; cbn in Hh.
    + injection Hh as ->. cbn in Hl. injection Hl as <-. done.
    + injection Hh as ->. by apply elem_of_nil in Ho.
Qed.
Lemma rs_search : search rs_dom rs_best 5 0%nat = Some ([1; 0]%nat, [2; 1]%nat).
Proof. vm_compute. reflexivity. Qed.

(** The last state of the way is missing: the path is not a solution. *)
Theorem C132_path_refuted : ¬ ∀ D srch fuel s0 path os, sound D srch → optimal D srch → search D srch fuel s0 = Some (path, os) →
  path = [] ∧ os = [] ∨ ∃ c, solution s0 (reverse path) (reverse os) c.
Proof.
  intros H. destruct (H _ _ _ _ _ _ rs_best_sound rs_best_optimal rs_search) as [[? _]|(c & Hw & _)]; [done|].
  apply walk_length in Hw. done.
Qed.

(** With a search that is not optimal it can go to and fro for ever. *)
Theorem C132_ends_refuted : ¬ ∀ D srch s0, sound D srch → (∀ (s : St D) o, o ∈ ops s → 0 < cost s o) →
  (∀ k s ss os c, solution (D := D) s ss os c → srch k s ≠ ([], [])) → ∃ fuel, search D srch fuel s0 ≠ None.
Proof.
  intros H. destruct (H rs_dom rs_bad 0%nat) as [fuel Hf].
  - intros k [|[|[|s]]] p o [= <- <-]; [right..|by left]; eexists; [apply rs_s0|apply rs_s1'|apply rs_s2].
  - apply rs_pos.
  - intros k [|[|[|s]]] ss os c Hs; [done..|]. exfalso. destruct (rs_best_optimal 0%nat _ _ _ _ Hs) as (p & o & c' & [= <- <-] & [Hw _] & _).
    by apply walk_nonempty in Hw.
  - apply Hf. unfold search. enough (∀ k cur p o, (cur = 0 ∨ cur = 1)%nat → loop rs_dom rs_bad fuel k cur p o = None) as -> by (try (by left); done).
    clear. induction fuel as [|fuel IH]; intros k cur p o Hc; [done|]. destruct Hc as [->| ->]; cbn; apply IH; tauto.
Qed.

Print Assumptions C132_result.
Print Assumptions C132_optimal.
Print Assumptions C132_path_refuted.
Print Assumptions C132_ends_refuted.
