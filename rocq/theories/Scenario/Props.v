(** Property C135: what a scenario run shows. *)
From stdpp Require Import prelude.
From Coq Require Import ZArith Lia ZifyBool ZifyNat QArith Qabs Lqa.
From Verif.Search Require Import Domain Model Props.
From Verif.Scenario Require Import Model.
Local Open Scope Z_scope.

Lemma walk_exec {D} (ss : list (St D)) (os : list (Op D)) k : walk ss os k → ∀ s0, head ss = Some s0 →
  ∃ t, last ss = Some t ∧ ∀ s1 (os1 : list (Op D)) k1, exec s1 os1 = (s0, k1) → exec s1 (reverse os ++ os1) = (t, k1 + k).
Proof.
  induction 1 as [s|s o ss os k Ho Hw IH]; intros s0 [= <-].
  - exists s. split; [done|]. intros s1 os1 k1 He. change (exec s1 os1 = (s, k1 + 0)). rewrite He. f_equal. lia.
  - destruct (IH _ eq_refl) as (t & Hl & Ht). exists t. split; [by rewrite last_cons_cons|]. intros s1 os1 k1 He.
    rewrite reverse_cons, <-app_assoc. cbn [app]. rewrite (Ht s1 (o :: os1) (k1 + cost s o)); [f_equal; lia|]. unfold exec in *. cbn. by rewrite He.
Qed.
Lemma solution_pathcost {D} (s0 : St D) ss os k : solution s0 ss os k → pathcost s0 (reverse os) = Some k.
Proof.
  intros (Hw & Hh & t & Hl & Hg). destruct (walk_exec _ _ _ Hw _ Hh) as (t' & Hl' & He). rewrite Hl in Hl'. injection Hl' as <-.
  specialize (He s0 [] 0 eq_refl). rewrite app_nil_r in He. unfold pathcost. by rewrite He, Hg.
Qed.

Section scenario.
Context {Map : Type} (load : list Z → option Map) (root : list Z).
Context (dom : Map → Z → Z → Z → Z → domain) (start : ∀ m x0 y0 x1 y1, St (dom m x0 y0 x1 y1)) (u : Q).
Context (srch : nat → ∀ D : domain, St D → option (list (St D) * list (Op D) * stats)).
Context (want : Z).
Notation run := (run load root dom start u srch want).
Notation run1 := (run1 load root dom start u srch).
Notation loop := (loop load root dom start u srch want).

(** The entries asked for: all, or the one with the number given. *)
Definition selected (n : nat) : Prop := want < 0 ∨ Z.of_nat n = want.
Global Instance selected_dec n : Decision (selected n). Proof. unfold selected. apply _. Defined.
(** The map and the instance of an entry. *)
Definition inst (e : entry) (m : Map) : domain := dom m (e_x0 e) (e_y0 e) (e_x1 e) (e_y1 e).
Definition inits (e : entry) (m : Map) : St (inst e m) := start m (e_x0 e) (e_y0 e) (e_x1 e) (e_y1 e).

(** The search returns a solution of such an instance, from the goal to the start, or nothing. *)
Definition sound : Prop :=
  ∀ k e m path os st, srch k (inst e m) (inits e m) = Some (path, os, st) →
    os = [] ∧ path = [] ∨ ∃ c, solution (inits e m) (reverse path) (reverse os) c.
(** It returns a cheapest solution if there is one. *)
Definition optimal : Prop :=
  ∀ k e m ss os c, solution (inits e m) ss os c → ∃ path os' c' st, srch k (inst e m) (inits e m) = Some (path, os', st) ∧
    solution (inits e m) (reverse path) (reverse os') c' ∧ ∀ ss os c, solution (inits e m) ss os c → c' ≤ c.

Definition cache_ok (c : option (list Z * Map)) : Prop := ∀ p m, c = Some (p, m) → load p = Some m.
Lemma getmap_ok c f : cache_ok c → match getmap load root c f with
  | Some (m, c') => load (root ++ f) = Some m ∧ cache_ok c'
  | None => load (root ++ f) = None end.
Proof.
  intros Hc. unfold getmap. destruct c as [[p m]|].
  - case_decide as Hd; [split; [rewrite <-Hd; by apply Hc|done]|]. destruct (load (root ++ f)) eqn:E; cbn; [|done]. split; [done|]. by intros ? ? [= <- <-].
  - destruct (load (root ++ f)) eqn:E; cbn; [|done]. split; [done|]. by intros ? ? [= <- <-].
Qed.

(** What a row says. *)
Definition row_ok (r : row) : Prop :=
  ∃ m k path os, load (root ++ e_file (w_ent r)) = Some m ∧ srch k (inst (w_ent r) m) (inits (w_ent r) m) = Some (path, os, w_stats r) ∧
    w_len r = length path ∧ pathcost (inits (w_ent r) m) os = Some (w_cost r) ∧
    ((Qabs (inject_Z (w_cost r) * u - e_opt (w_ent r)) <= Eps)%Q ∨ (e_opt (w_ent r) == 0)%Q ∧ (inject_Z (w_cost r) * u == -1)%Q).

Lemma run1_ok k n e c r c' : cache_ok c → run1 k n e c = Some (r, c') → cache_ok c' ∧ w_num r = n ∧ w_ent r = e ∧ row_ok r.
Proof.
  intros Hc H. unfold Model.run1 in H. pose proof (getmap_ok c (e_file e) Hc) as Hm. destruct (getmap _ _ _ _) as [[m c1]|]; [|done]. destruct Hm as [Hm Hc1].
  cbn [mbind option_bind] in H. destruct (srch _ _ _) as [[[path os] st]|] eqn:Es; [|done]. cbn [mbind option_bind] in H.
  destruct (pathcost _ os) as [k1|] eqn:Ep; [|done]. cbn [mbind option_bind] in H.
  destruct (negb _ && _) eqn:Eb; [done|]. injection H as <- <-. split_and!; try done.
  exists m, k, path, os. cbn. split_and!; try done. apply andb_false_iff in Eb as [Eb|Eb]; apply negb_false_iff in Eb.
  - left. by apply Qle_bool_iff.
  - right. apply andb_true_iff in Eb as [E1 E2]. by split; apply Qeq_bool_iff.
Qed.

Definition sum (f : stats → Z) (l : list row) : Z := foldr (λ r z, f (w_stats r) + z) 0 l.
Definition sumq (f : stats → Q) (l : list row) : Q := foldr (λ r z, f (w_stats r) + z)%Q 0%Q l.

Lemma loop_ok ents : ∀ k n c rows res rows' res' n', cache_ok c → loop ents k n c rows res = Some (rows', res', n') →
  n' = (n + length ents)%nat ∧ ∃ new, rows' = rows ++ new ∧ w_num <$> new = filter selected (seq n (length ents)) ∧
  (∀ r, r ∈ new → row_ok r ∧ (n ≤ w_num r)%nat ∧ ents !! (w_num r - n)%nat = Some (w_ent r)) ∧
  s_expd res' = s_expd res + sum s_expd new ∧ s_gend res' = s_gend res + sum s_gend new ∧
  s_reopnd res' = s_reopnd res + sum s_reopnd new ∧ s_dups res' = s_dups res + sum s_dups new ∧
  (s_wall1 res' - s_wall0 res' == s_wall1 res - s_wall0 res + sumq (λ s, s_wall1 s - s_wall0 s) new)%Q ∧
  (s_cpu1 res' - s_cpu0 res' == s_cpu1 res - s_cpu0 res + sumq (λ s, s_cpu1 s - s_cpu0 s) new)%Q.
Proof.
  induction ents as [|e ents IH]; intros k n c rows res rows' res' n' Hc H; cbn [Model.loop] in H.
  - injection H as <- <- <-. split; [cbn; lia|]. exists []. cbn. split_and!; try done; try lia; try ring; [by rewrite app_nil_r|]. intros r Hr. by apply elem_of_nil in Hr.
  - destruct (decide (0 ≤ want ∧ Z.of_nat n ≠ want)) as [Hd|Hd].
    + apply IH in H as (-> & new & -> & Hn & Hr & Hsum); [|done]. split; [cbn; lia|]. exists new. split; [done|]. cbn [length seq]. rewrite filter_cons, decide_False by (unfold selected; lia).
      split; [done|]. split; [|done]. intros r Hin. destruct (Hr r Hin) as (H1 & H2 & H3). split_and!; [done|lia|]. by replace (w_num r - n)%nat with (S (w_num r - S n)) by lia.
    + destruct (run1 k n e c) as [[r c1]|] eqn:E; [|done]. cbn [mbind option_bind] in H. apply run1_ok in E as (Hc1 & Hw & He & Hok); [|done].
      apply IH in H as (-> & new & -> & Hn & Hr & S1 & S2 & S3 & S4 & S5 & S6); [|done]. split; [cbn; lia|]. exists (r :: new).
      rewrite <-app_assoc. split; [done|]. cbn [length seq fmap list_fmap]. rewrite filter_cons, decide_True by (unfold selected; lia). split; [by rewrite Hw, Hn|].
      split.
      { intros r' [->|Hin]%elem_of_cons.
        - split_and!; [done|lia|]. rewrite Hw, He. by rewrite Nat.sub_diag.
        - destruct (Hr r' Hin) as (H1 & H2 & H3). split_and!; [done|lia|]. by replace (w_num r' - n)%nat with (S (w_num r' - S n)) by lia. }
      unfold add in *. cbn in *. fold (sum s_expd new) (sum s_gend new) (sum s_reopnd new) (sum s_dups new). split_and!; try lia.
      * rewrite S5. unfold sumq. cbn. ring.
      * rewrite S6. unfold sumq. cbn. ring.
Qed.

(** If the run ends then there is a row for each entry asked for, in their order; its cost is that of the operators found,
    which lead to the goal on the map of the entry; and it is the cost of the file but for [Eps].  The totals are sums. *)
Theorem C135_rows ents rows res n : (0 <= u)%Q → run ents = Some (rows, res, n) →
  n = length ents ∧ w_num <$> rows = filter selected (seq 0 n) ∧
  (∀ r, r ∈ rows → ents !! w_num r = Some (w_ent r) ∧
    ∃ m k path os, load (root ++ e_file (w_ent r)) = Some m ∧ srch k (inst (w_ent r) m) (inits (w_ent r) m) = Some (path, os, w_stats r) ∧
      w_len r = length path ∧ (∃ t, exec (inits (w_ent r) m) os = (t, w_cost r) ∧ isgoal t = true) ∧
      ((Qabs (inject_Z (w_cost r) * u - e_opt (w_ent r)) <= Eps)%Q ∨ w_cost r < 0)) ∧
  s_expd res = sum s_expd rows ∧ s_gend res = sum s_gend rows ∧ s_reopnd res = sum s_reopnd rows ∧ s_dups res = sum s_dups rows ∧
  (s_wall1 res - s_wall0 res == sumq (λ s, s_wall1 s - s_wall0 s) rows)%Q ∧ (s_cpu1 res - s_cpu0 res == sumq (λ s, s_cpu1 s - s_cpu0 s) rows)%Q.
Proof.
  intros Hu H. unfold Model.run in H. apply loop_ok in H as (-> & new & -> & Hn & Hr & S1 & S2 & S3 & S4 & S5 & S6); [|done]. cbn [app Nat.add] in *.
  split_and!; try done.
  - intros r Hin. destruct (Hr r Hin) as (Hok & _ & He). rewrite Nat.sub_0_r in He. split; [done|].
    destruct Hok as (m & k & path & os & H1 & H2 & H3 & H4 & H5). exists m, k, path, os. split_and!; try done.
    + unfold pathcost in H4. destruct (exec _ _) as [t c]. destruct (isgoal t) eqn:Eg; [|done]. injection H4 as ->. by exists t.
    + destruct H5 as [H5|[_ H5]]; [by left|right]. destruct (decide (w_cost r < 0)) as [Hd|Hd]; [done|exfalso].
      assert (0 <= inject_Z (w_cost r))%Q as Hc by (change 0%Q with (inject_Z 0); rewrite <-Zle_Qle; lia).
      pose proof (Qmult_le_0_compat _ _ Hc Hu). lra.
  - rewrite S5. cbn. ring.
  - rewrite S6. cbn. ring.
Qed.

(** With an optimal search the costs of the file are those of cheapest solutions. *)
Theorem C135_optimal ents rows res n : (0 <= u)%Q → (∀ e m (s : St (inst e m)) o, o ∈ ops s → 0 ≤ cost s o) → sound → optimal →
  run ents = Some (rows, res, n) → ∀ r, r ∈ rows → ∃ m ss os, load (root ++ e_file (w_ent r)) = Some m ∧
    solution (inits (w_ent r) m) ss os (w_cost r) ∧ (∀ ss os c, solution (inits (w_ent r) m) ss os c → w_cost r ≤ c) ∧
    (Qabs (inject_Z (w_cost r) * u - e_opt (w_ent r)) <= Eps)%Q.
Proof.
  intros Hu Hpos Hsd Hopt H r Hin. apply C135_rows in H as (_ & _ & Hr & _); [|done].
  destruct (Hr r Hin) as (_ & m & k & path & os & Hm & Hs & _ & (t & He & Hg) & Hq).
  assert (∃ ss os c, solution (inits (w_ent r) m) ss os c) as (ss1 & os1 & c1 & Hsol).
  { destruct (Hsd _ _ _ _ _ _ Hs) as [[-> ->]|[c Hc]]; [|by eexists _, _, c]. cbn in He. injection He as <- _.
    exists [inits (w_ent r) m], [], 0. split; [constructor|]. split; [done|]. by eexists. }
  destruct (Hopt k _ _ _ _ _ Hsol) as (path' & os' & c' & st' & Hs' & Hsol' & Hmin). rewrite Hs in Hs'. injection Hs' as <- <- <-.
  pose proof (solution_pathcost _ _ _ _ Hsol') as Hp. rewrite reverse_involutive in Hp. unfold pathcost in Hp. rewrite He, Hg in Hp. injection Hp as <-.
  exists m, (reverse path), (reverse os). split_and!; try done. destruct Hq as [Hq|Hq]; [done|exfalso].
  destruct Hsol' as [Hw _]. enough (0 ≤ w_cost r) by lia. clear -Hpos Hw. revert Hw. generalize (reverse path), (reverse os), (w_cost r).
  induction 1 as [|s o ss' os' k' Ho Hw' IH]; [done|]. pose proof (Hpos _ _ s o Ho). lia.
Qed.

(** The run ends if each entry asked for has a map and a solution, and its cost in the file is that of a cheapest one but
    for [Eps]. *)
Theorem C135_ends ents : optimal →
  (∀ n e, ents !! n = Some e → selected n → ∃ m ss os c, load (root ++ e_file e) = Some m ∧ solution (inits e m) ss os c ∧
    (∀ ss os c', solution (inits e m) ss os c' → c ≤ c') ∧ (Qabs (inject_Z c * u - e_opt e) <= Eps)%Q) →
  is_Some (run ents).
Proof.
  intros Hopt. unfold Model.run. assert (cache_ok None) as Hc by done. revert Hc. generalize (@None (list Z * Map)). intros cache.
  generalize ([] : list row), stats0, 0%nat at 1. intros rows res k Hc Hall.
  assert (∀ n e, ents !! n = Some e → selected (0 + n) → ∃ m ss os c, load (root ++ e_file e) = Some m ∧ solution (inits e m) ss os c ∧
    (∀ ss os c', solution (inits e m) ss os c' → c ≤ c') ∧ (Qabs (inject_Z c * u - e_opt e) <= Eps)%Q) as Hall' by exact Hall.
  clear Hall. revert Hall'. generalize 0%nat. intros n0. revert cache rows res k n0 Hc.
  induction ents as [|e ents IH]; intros cache rows res k n0 Hc Hall; cbn [Model.loop]; [by eexists|].
  assert (Hall' : ∀ n e, ents !! n = Some e → selected (S n0 + n) → ∃ m ss os c, load (root ++ e_file e) = Some m ∧ solution (inits e m) ss os c ∧
    (∀ ss os c', solution (inits e m) ss os c' → c ≤ c') ∧ (Qabs (inject_Z c * u - e_opt e) <= Eps)%Q).
  { intros n e1 Hn Hsel. apply (Hall (S n) e1 Hn). by replace (n0 + S n)%nat with (S n0 + n)%nat by lia. }
  destruct (decide (0 ≤ want ∧ Z.of_nat n0 ≠ want)) as [Hd|Hd]; [by apply IH|].
  destruct (Hall 0%nat e eq_refl) as (m & ss & os & c & Hm & Hsol & Hmin & Hq); [unfold selected; lia|].
  unfold Model.run1. pose proof (getmap_ok cache (e_file e) Hc) as Hg. destruct (getmap _ _ _ _) as [[m1 c1]|]; [|congruence]. destruct Hg as [Hm1 Hc1].
  rewrite Hm in Hm1. injection Hm1 as <-. cbn [mbind option_bind]. destruct (Hopt k _ _ _ _ _ Hsol) as (path & os' & c' & st & Hs & Hsol' & Hmin').
  unfold inst, inits in *. rewrite Hs. cbn [mbind option_bind].
  pose proof (solution_pathcost _ _ _ _ Hsol') as Hp. rewrite reverse_involutive in Hp. rewrite Hp. cbn [mbind option_bind].
  assert (c' = c) as ->. { pose proof (Hmin _ _ _ Hsol'). pose proof (Hmin' _ _ _ Hsol). lia. }
  apply Qle_bool_iff in Hq. rewrite Hq. cbn [negb andb mbind option_bind]. by apply IH.
Qed.

(** The run fails at an entry that has no solution, whatever the cost in the file is: the file says 0 for such entries
    (scenario.cc:90), but the path cost of no path is not -1, it fails an assertion. *)
Theorem C135_nopath ents n e m : sound → ents !! n = Some e → selected n → load (root ++ e_file e) = Some m →
  (∀ ss os c, ¬ solution (inits e m) ss os c) → run ents = None.
Proof.
  intros Hsd He Hsel Hm Hno. destruct (run ents) as [[[rows res] n']|] eqn:E; [exfalso|done].
  unfold Model.run in E. apply loop_ok in E as (-> & new & -> & Hn & Hr & _); [|done]. cbn [app Nat.add] in *.
  assert (n ∈ w_num <$> new) as Hin. { rewrite Hn. apply elem_of_list_filter. split; [done|]. apply elem_of_seq. apply lookup_lt_Some in He. lia. }
  apply elem_of_list_fmap in Hin as (r & -> & Hin). destruct (Hr r Hin) as (Hok & _ & He'). rewrite Nat.sub_0_r, He in He'. injection He' as ->.
  destruct Hok as (m' & k & path & os & Hm' & Hs & _ & Hp & _). rewrite Hm in Hm'. injection Hm' as <-.
  destruct (Hsd _ _ _ _ _ _ Hs) as [[-> ->]|[c Hc]]; [|by apply Hno in Hc]. unfold pathcost in Hp. cbn in Hp. destruct (isgoal _) eqn:Eg; [|done].
  apply (Hno [inits (w_ent r) m] [] 0). split; [constructor|]. split; [done|]. by eexists.
Qed.
End scenario.


(** ** Examples: a line of three places, searched by A*; on the second map the goal cannot be reached *)
Definition sc_tbl : list (nat * nat * Z) := [(0%nat, 1%nat, 2); (1%nat, 2%nat, 3)].
Definition sc_dom (m : bool) (x0 y0 x1 y1 : Z) : domain := table_domain sc_tbl (if m then 2 else 7).
Definition sc_start (m : bool) (x0 y0 x1 y1 : Z) : St (sc_dom m x0 y0 x1 y1) := 0%nat.
Definition sc_load (f : list Z) : option bool := Some (bool_decide (f = [])).
Definition sc_astar (D : domain) (s : St D) := astar D (λ _, 0) int_ol no_limits s 10.
Definition sc_srch (k : nat) (D : domain) (s : St D) : option (list (St D) * list (Op D) * stats) :=
  match sc_astar D s with
  | Some (Some (path, os), _) => Some (path, os, stats0)
  | Some (None, _) => Some ([], [], stats0)
  | None => None
  end.
Lemma sc_ok m x0 y0 x1 y1 : domain_ok (sc_dom m x0 y0 x1 y1).
Proof. destruct m; by apply table_ok. Qed.
Lemma sc_best e m path os st' : sc_astar (inst sc_dom e m) (inits sc_dom sc_start e m) = Some (Some (path, os), st') →
  ∃ k, solution (inits sc_dom sc_start e m) (reverse path) (reverse os) k ∧ ∀ ss os c, solution (inits sc_dom sc_start e m) ss os c → k ≤ c.
Proof.
  intros H. refine (C35_astar_optimal _ _ _ no_limits (sc_ok m _ _ _ _) astar_int_ok _ _ _ _ _ _ _ H); [done|].
  intros s ss os1 k [Hw _]. by apply walk_nonneg in Hw; [|apply sc_ok].
Qed.
Lemma sc_no e ss os c : ¬ solution (inits sc_dom sc_start e false) ss os c.
Proof.
  intros Hs. assert (H : ∀ s : nat, (s ≤ 2)%nat → ∀ ss os c, ¬ solution (D := inst sc_dom e false) s ss os c).
  { clear. intros s Hs ss os c (Hw & Hh & t & Hl & Hg). enough (t ≤ 2)%nat as Ht. { apply bool_decide_eq_true in Hg. cbn in *. lia. }
    revert s Hs Hh Hl. induction Hw as [s1|s1 o ss os k Ho Hw IH]; intros s Hs Hh Hl; cbn in Hh; injection Hh as ->.
    - cbn in Hl. by injection Hl as <-.
    - refine (IH (dest (D := inst sc_dom e false) s o) _ eq_refl _); [|exact Hl].
      apply elem_of_list_fmap in Ho as (x & -> & Hx). apply elem_of_list_filter in Hx as [_ Hx].
      repeat (apply elem_of_cons in Hx as [->|Hx]; [cbn; lia|]). by apply elem_of_nil in Hx. }
  exact (H 0%nat (Nat.le_0_l _) _ _ _ Hs).
Qed.
Example sc_sound : sound sc_dom sc_start sc_srch.
Proof.
  intros k e m path os st H. unfold sc_srch in H. destruct (sc_astar _ _) as [[[[p o]|] s']|] eqn:E; [|injection H as <- <- _; by left|done].
  injection H as -> -> _. right. destruct (sc_best _ _ _ _ _ E) as (c & Hc & _). by exists c.
Qed.
Definition sc_finds (e : entry) : bool := match sc_astar (inst sc_dom e true) (inits sc_dom sc_start e true) with Some (Some _, _) => true | _ => false end.
Lemma sc_true e : sc_finds e = true.
Proof. vm_compute. reflexivity. Qed.
Example sc_optimal : optimal sc_dom sc_start sc_srch.
Proof.
  intros k e [] ss os c Hs; [|by apply sc_no in Hs]. pose proof (sc_true e) as Ht. unfold sc_finds in Ht. unfold sc_srch.
  destruct (sc_astar (inst sc_dom e true) (inits sc_dom sc_start e true)) as [[[[p o]|] s']|] eqn:E.
  - destruct (sc_best _ _ _ _ _ E) as (c' & Hc & Hmin). exists p, o, c', stats0. split; [reflexivity|]. split; [exact Hc|exact Hmin].
  - discriminate Ht.
  - discriminate Ht.
Qed.
Definition sc_ent (file : list Z) (opt : Q) : entry := Entry 0 file 3 1 0 0 0 0 opt.
Definition sc_run := run sc_load [] sc_dom sc_start 1 sc_srch.
Example sc_ends : option_map (λ r, (w_cost <$> r.1.1, r.2)) (sc_run (-1) [sc_ent [] 5; sc_ent [] (5005 # 1000)]) = Some ([5; 5], 2%nat).
Proof. vm_compute. reflexivity. Qed.
Example sc_one : option_map (λ r, (w_num <$> r.1.1, r.2)) (sc_run 1 [sc_ent [] 4; sc_ent [] 5; sc_ent [1] 0]) = Some ([1%nat], 3%nat).
Proof. vm_compute. reflexivity. Qed.
Example sc_differs : sc_run (-1) [sc_ent [] 5; sc_ent [] (502 # 100)] = None.
Proof. vm_compute. reflexivity. Qed.

(** The entries for which the file gives no path fail. *)
Theorem C135_nopath_refuted : ¬ ∀ (Map : Type) (load : list Z → option Map) root dom start u srch want ents,
  (0 < u)%Q → sound dom start srch → optimal dom start srch →
  (∀ n e, ents !! n = Some e → ∃ m, load (root ++ e_file e) = Some m ∧ (e_opt e == 0)%Q ∧ ∀ ss os c, ¬ solution (inits dom start e m) ss os c) →
  is_Some (run load root dom start u srch want ents).
Proof.
  intros H. destruct (H bool sc_load [] sc_dom sc_start 1%Q sc_srch (-1) [sc_ent [1] 0]) as [x Hx]; [done|apply sc_sound|apply sc_optimal| |].
  - intros [|[|n]] e He; cbn in He; [|done|done]. injection He as <-. exists false. split; [done|]. split; [done|]. intros ss os c. apply sc_no.
  - clear H. assert (run sc_load [] sc_dom sc_start 1 sc_srch (-1) [sc_ent [1] 0] = None) as Hn by (vm_compute; reflexivity). rewrite Hn in Hx. discriminate Hx.
Qed.
Print Assumptions C135_rows.
Print Assumptions C135_optimal.
Print Assumptions C135_ends.
Print Assumptions C135_nopath.
Print Assumptions C135_nopath_refuted.
