(** fhatlrtastar.hpp: what holds of the search, of the errors it measures and of what it learns. *)
From stdpp Require Import prelude.
From Coq Require Import ZArith Lia ZifyBool ZifyNat QArith Lqa.
From Verif Require Import BinHeap.Model BinHeap.Proofs.
From Verif Require Import Search.Domain Search.Model Search.Props Rta.Model Lss.Model Lss.Learn Lss.Look Lss.Run Lss.Props.
From Verif Require Import Fhat.Model Fhat.Proofs Fhat.Learn.
Local Open Scope Z_scope.

(** ** C120: the result *)
(** What is returned is a way from the start to a goal: for any estimates, lookahead and limits, and whatever the
    uninitialised field holds. *)
Theorem C120_result_valid D h d onestep lim stop junk s0 fuel st path os :
  fhatlrta D h d onestep lim stop junk s0 fuel = Some (st, (path, os)) → path ≠ [] →
  ∃ c, solution s0 (reverse path) (reverse os) c.
Proof.
  intros Hr Hp. unfold fhatlrta in Hr.
  destruct (fsloop _ _ _ _ _ _ _ _ _ _ _ _ _) as [[[[M1 st1] cur] os1]|] eqn:El; [|done]. cbn [mbind option_bind] in Hr.
  apply (inj Some) in Hr. unfold answer in Hr. destruct (isgoal cur) eqn:Eg; [|by injection Hr as _ <- _].
  injection Hr as _ <- <-. rewrite !reverse_involutive.
  apply (fsloop_spec D h d onestep lim stop junk s0 fuel fuel 0 s0 [] _ _ [s0] 0) in El; [|constructor|done|done|done|].
  2:{ intros s. by exists s. }
  destruct El as (_ & _ & ss & c & Hw & Hs & Hl).
  exists c. rewrite (rebuild_walk _ _ _ _ _ Hw Hs). split_and!; [done..|]. by exists cur.
Qed.

(** A lookahead that is stopped after [N] expansions comes to its end, without a failed assertion or an access to a
    missing element, from whatever memory; all nodes made in it are in reach of the state it started from. *)
Theorem C120_lookahead_ends D lim stop junk k er dm m st cur N : isgoal cur = false → stop k N = true →
  ∃ m' L st' goal er', expandFss D lim stop junk (S N) k er dm m st cur = Some (m', L, st', goal, er') ∧
    (∀ i n, f_nodes L !! i = Some n → reachable cur (l_st D n)) ∧
    ∀ b, goal = Some b → ∃ n, f_nodes L !! b = Some n ∧ isgoal (l_st D n) = true.
Proof.
  intros Hg HN. destruct (expandFss D lim stop junk (S N) k er dm m st cur) as [[[[[m' L] st'] goal] er']|] eqn:E.
  - destruct (expandFss_spec D (λ _, 0) (λ _, 0%Q) _ _ _ _ _ _ _ _ _ _ _ _ _ _ _ Hg E) as [(L0 & goal0 & Hi & HL & Hgk & _) _].
    eexists _, _, _, _, _. split_and!; [done| |exact Hgk]. rewrite HL. apply (ni_reach _ _ _ _ _ _ _ Hi).
  - exfalso. unfold expandFss in E. destruct (finit_spec D junk m cur Hg) as (L0 & H0 & Hi). rewrite H0 in E. cbn [mbind option_bind] in E.
    destruct (floop_total D (λ _, 0) (λ _, 0%Q) lim stop cur er dm k N HN N 0 m L0 st None (Errs 0 0)) as [r Hr]; [lia|lia|done|done|congruence].
Qed.

(** ** C121: the errors *)
(** Throughout a search the two errors are not negative and the second one is less than 1, so nothing is divided by
    zero; and if no distance estimate is negative, then the corrected estimate is not below the sum of g and h. *)
Theorem C121_errors D h d onestep lim stop junk s0 fuel efuel st M st' cur os :
  fsloop D h onestep lim stop junk fuel efuel 0 s0 [] (fmem0 D h d) st = Some (M, st', cur, os) →
  let er := fm_errs M in
  (0 <= herror er)%Q ∧ (0 <= derror er)%Q ∧ (derror er < 1)%Q ∧
  ((∀ s, 0 <= d s)%Q → ∀ s g, (inject_Z (g + m_h D (fm_mem M) s) <= guess D er (fm_dist M) (fm_mem M) s g)%Q).
Proof.
  intros Hr er.
  apply (fsloop_spec D h d onestep lim stop junk s0 fuel efuel 0 s0 [] _ _ [s0] 0) in Hr as ((H1 & H2 & H3) & Hd & _); [|constructor|done|done|done|].
  2:{ intros s. by exists s. }
  split_and!; [done..|]. intros Hpos s g. unfold guess. rewrite inject_Z_plus.
  destruct (Hd s) as [t ->]. pose proof (Hpos t) as Ht.
  assert (0 <= d t / (1 - derror er))%Q as H4. { apply Qle_shift_div_l; unfold er; lra. }
  assert (0 <= herror (fm_errs M) * (d t / (1 - derror er)))%Q as H5 by (apply Qmult_le_0_compat; done).
  fold er in H5 |- *. lra.
Qed.
(** The first lookahead is led by g + h alone. *)
Theorem C121_first D h d m s g : (guess D (fm_errs (fmem0 D h d)) (fm_dist (fmem0 D h d)) m s g == inject_Z (g + m_h D m s))%Q.
Proof. unfold guess. cbn. rewrite inject_Z_plus. lra. Qed.
(** ** C122: learning *)
Lemma floop_mem D (OK : domain_ok D) lim stop er dm fuel k : ∀ n m L st goal nx m' L' st' goal' nx', mem_ok m →
  floop D lim stop er dm fuel k n m L st goal nx = Some (m', L', st', goal', nx') →
  mem_ok m' ∧ (cons_h D (m_h D m) → ∀ s, m_h D m' s = m_h D m s).
Proof.
  induction fuel as [|fuel IH]; intros n m L st goal nx m' L' st' goal' nx' Hm Hr; [done|]. cbn [floop] in Hr.
  destruct (empty (f_open L)). { apply (inj Some) in Hr. by injection Hr as <- <- <- <- <-. }
  destruct (stop k n). { apply (inj Some) in Hr. by injection Hr as <- <- <- <- <-. }
  destruct (rreached lim st). { apply (inj Some) in Hr. by injection Hr as <- <- <- <- <-. }
  destruct (pop fhatsort (f_open L)) as [[q [i|]]|]; [|done..]. cbn [mbind option_bind] in Hr.
  destruct (f_nodes L !! i) as [sn|]; [|done]. cbn [mbind option_bind] in Hr.
  destruct (expand_spec D OK lim stop (l_st D sn) m (rcalled st) Hm) as (m1 & st1 & Hx & Hm1 & _ & _ & Hh & _). rewrite Hx in Hr.
  destruct (frelaxes _ _ _ _ _ _ _ _ _ _) as [[[L1 goal1] best1]|]; [|done]. cbn [mbind option_bind] in Hr.
  destruct (observe _ _ _ _ _ _ _ _) as [nx1|]; [|done]. cbn [mbind option_bind] in Hr.
  destruct (isgoal (l_st D sn)).
  - destruct (push fhatsort (f_open L1) i); [|done]. cbn [mbind option_bind] in Hr. apply (inj Some) in Hr. by injection Hr as <- <- <- <- <-.
  - destruct (IH _ _ _ _ _ _ _ _ _ _ _ Hm1 Hr) as [H1 H2]. split; [done|]. intros Hc s. specialize (Hh Hc). rewrite H2; [done|].
    intros s' o Ho. rewrite !Hh. by apply Hc.
Qed.
Lemma expandFss_mem D (OK : domain_ok D) lim stop junk fuel k er dm m st cur m' L st' goal er' : mem_ok m →
  expandFss D lim stop junk fuel k er dm m st cur = Some (m', L, st', goal, er') →
  mem_ok m' ∧ (cons_h D (m_h D m) → ∀ s, m_h D m' s = m_h D m s).
Proof.
  intros Hm Hr. unfold expandFss in Hr. destruct (finit D junk m cur) as [L0|]; [|done]. cbn [mbind option_bind] in Hr. by eapply floop_mem.
Qed.

(** Provided that the lookahead ends with no closed node on the open list: the value of a closed state with a way out of
    the closed states becomes the least, over all ways out, of the cost of the way plus the value of the open state it
    ends in - or the heuristic estimate if that is larger.  The distance over which the error applies is taken over from
    the open state at the end of such a way, and d is its d plus the steps to it.  Nothing else changes.  The values of
    the memory need not be consistent. *)
Theorem C122_learned_values D (OK : domain_ok D) h lim stop junk cur fuel fuel' k er dm m st m' L st' er' m'' dm'' :
  mem_ok m → isgoal cur = false →
  expandFss D lim stop junk fuel k er dm m st cur = Some (m', L, st', None, er') →
  (∀ i n, i ∈ arr (f_open L) → f_nodes L !! i = Some n → l_cl D n = false) →
  fLearning D h fuel' m' dm L = Some (m'', dm'') →
  let C := closed_st (f_nodes L) in let O := frontier (f_nodes L) in let out := exits D C O (m_h D m') in
  ∀ s, (C s → (∃ w t n, out s w t n) → ∃ w t n, out s w t n ∧ (∀ w' t' n', out s w' t' n' → w ≤ w') ∧ m_h D m'' s = Z.max w (h s) ∧
          n_derr dm'' s = n_derr dm t ∧ (n_d dm'' s == n_d dm t + inject_Z (Z.of_nat n))%Q) ∧
       (¬ C s ∨ ¬ (∃ w t n, out s w t n) → m_h D m'' s = m_h D m' s ∧ n_d dm'' s = n_d dm s ∧ n_derr dm'' s = n_derr dm s).
Proof.
  intros Hm Hg Hr Hre Hl. destruct (expandFss_mem D OK _ _ _ _ _ _ _ _ _ _ _ _ _ _ _ Hm Hr) as [Hm' _].
  destruct (expandFss_spec D (λ _, 0) (λ _, 0%Q) _ _ _ _ _ _ _ _ _ _ _ _ _ _ _ Hg Hr) as [(L0 & goal0 & Hi & _ & _ & Hn) _]. destruct (Hn eq_refl) as [-> ->].
  apply (learn_spec' D OK h cur m' dm L0 fuel' m'' dm'' Hm' Hi Hre Hl).
Qed.

(** Under the same proviso, consistent values that are not below the heuristic stay so, and are not lowered, if a goal
    can be reached from all states. *)
Theorem C122_stays_consistent D (OK : domain_ok D) h lim stop junk cur fuel fuel' k er dm m st m' L st' er' m'' dm'' :
  mem_ok m → cons_h D (m_h D m) → (∀ s, h s ≤ m_h D m s) → isgoal cur = false →
  (∀ s, reachable cur s → ∃ ss os c, solution s ss os c) →
  expandFss D lim stop junk fuel k er dm m st cur = Some (m', L, st', None, er') →
  (∀ i n, i ∈ arr (f_open L) → f_nodes L !! i = Some n → l_cl D n = false) →
  fLearning D h fuel' m' dm L = Some (m'', dm'') →
  mem_ok m'' ∧ cons_h D (m_h D m'') ∧ (∀ s, m_h D m s ≤ m_h D m'' s) ∧ ∀ s, isgoal s = true → m_h D m'' s = m_h D m s.
Proof.
  intros Hm Hv Hle Hg Hsol Hr Hre Hl. destruct (expandFss_mem D OK _ _ _ _ _ _ _ _ _ _ _ _ _ _ _ Hm Hr) as [Hm' Hh]. specialize (Hh Hv).
  destruct (expandFss_spec D (λ _, 0) (λ _, 0%Q) _ _ _ _ _ _ _ _ _ _ _ _ _ _ _ Hg Hr) as [(L0 & goal0 & Hi & _ & _ & Hn) _]. destruct (Hn eq_refl) as [<- ->]. clear Hn.
  pose proof (learn_spec' D OK h cur m' dm L fuel' m'' dm'' Hm' Hi Hre Hl) as (Hp & Hx & Hs). cbv zeta in Hs.
  pose proof (plain_ok D _ _ _ _ Hi Hre) as HL.
  set (C := closed_st (f_nodes L)) in *. set (O := frontier (f_nodes L)) in *. set (v := m_h D m) in *.
  assert (Hab : ∀ s w t n, exits D C O (m_h D m') s w t n → v s ≤ w).
  { intros s w t n Ho. assert (leaves D 1 C O (m_h D m') s w) as Hlv by (apply exits_leaves; eauto).
    apply (leaves_ext D 1 C O (m_h D m') v) in Hlv; [|done]. by apply (leaves_above D OK h v Hv 1 C O s w). }
  assert (Hex : ∀ s, C s → ∃ w t n, exits D C O (m_h D m') s w t n).
  { intros s0 Hc0. assert (reachable cur s0) as Hre0. { destruct Hc0 as (i & n & Hn & _ & <-). by eapply (ni_reach _ _ _ _ _ _ _ Hi). }
    destruct (Hsol s0 Hre0) as (ss & os & k0 & Hw & Hhd & t & Hla & Ht). clear Hre0 Hsol. revert s0 Hc0 Hhd Hla.
    induction Hw as [s1|s1 o ss os k1 Ho Hw IH]; intros s Hc Hhd Hla; simpl in Hhd; injection Hhd as <-.
    - injection Hla as ->. destruct Hc as (i & n & Hn & _ & <-). rewrite (ni_nogoal _ _ _ _ _ _ _ Hi eq_refl i n Hn) in Ht. done.
    - destruct (lo_succ _ _ HL s1 o Hc Ho) as [Hc'|Hf'].
      + destruct (IH _ Hc' eq_refl Hla) as (w & t' & n & Hw'). eexists _, _, _. by apply exits_step.
      + eexists _, _, _. apply exits_step; [done|done|]. by apply exits_here. }
  assert (Hcl : ∀ s, C s → ∃ w t n, exits D C O (m_h D m') s w t n ∧ (∀ w' t' n', exits D C O (m_h D m') s w' t' n' → w ≤ w') ∧ m_h D m'' s = w).
  { intros s Hc. destruct (proj1 (Hs s) Hc (Hex s Hc)) as (w & t & n & Hw & Hmin & Heq & _). exists w, t, n. split_and!; [done|done|].
    pose proof (Hab s w t n Hw). specialize (Hle s). fold v in Hle. lia. }
  assert (Hno : ∀ s, ¬ C s → m_h D m'' s = v s). { intros s Hn. rewrite <-Hh. apply Hs. by left. }
  assert (Hdec : ∀ s, C s ∨ ¬ C s).
  { intros s. destruct (decide (Exists (λ n, l_cl D n = true ∧ l_st D n = s) (f_nodes L))) as [He'|Hn'].
    - left. apply Exists_exists in He' as (n & Hin & Hc & <-). apply elem_of_list_lookup in Hin as (i & Hin). by exists i, n.
    - right. intros (i & n & Hin & Hc & Hst). apply Hn', Exists_exists. exists n. split; [by eapply elem_of_list_lookup_2|done]. }
  assert (Hup : ∀ s, v s ≤ m_h D m'' s).
  { intros s. destruct (Hdec s) as [Hc|Hn]; [|rewrite Hno; [lia|done]]. destruct (Hcl s Hc) as (w & t & n & Hw & _ & ->). by eapply Hab. }
  split_and!.
  - split; [intros p c x; rewrite Hp; by apply (mo_sound _ Hm')|]. intros s o. rewrite Hp, Hx. by apply (mo_complete _ Hm').
  - intros s o Ho. destruct (Hdec s) as [Hc|Hn].
    + destruct (Hcl s Hc) as (w & t & n & Hw & Hmin & ->). destruct (lo_succ _ _ HL s o Hc Ho) as [Hc'|Hf'].
      * destruct (Hcl _ Hc') as (w' & t' & n' & Hw' & _ & ->). eapply Hmin. by apply exits_step.
      * pose proof (Hmin _ _ _ (exits_step D C O _ s o _ _ _ Hc Ho (exits_here D C O _ _ Hf'))) as H1. rewrite Hh in H1.
        specialize (Hup (dest s o)). fold v in H1. lia.
    + rewrite (Hno s Hn). pose proof (Hv s o Ho) as H1. specialize (Hup (dest s o)). fold v in H1. lia.
  - done.
  - intros s Hgs. apply Hno. intros (i & n & Hin & _ & <-). by rewrite (ni_nogoal _ _ _ _ _ _ _ Hi eq_refl i n Hin) in Hgs.
Qed.

(** ** Instances *)
(** One lookahead and what is learned from it. *)
Definition fround (D : domain) (h : St D → Z) (stop : nat → nat → bool) (fuel k : nat) (M : fmem D) (cur : St D) : option (fmem D * fss D * option nat) :=
  '(m, L, _, goal, er) ← expandFss D no_limits stop 0%Q fuel k (fm_errs M) (fm_dist M) (fm_mem M) (RCount 0 0 0) cur;
  '(m, dm) ← fLearning D h fuel m (fm_dist M) L;
  Some (FMem m dm er, L, goal).
(** The graph of the examples in Lss/Props.v. *)
Example fhat_run : (snd <$> fhatlrta lss_dom (λ _, 0) (λ _, 1%Q) false no_limits (nodes 1) 5 0%nat 30) = Some ([3; 2; 0; 1; 0], [3; 2; 0; 1])%nat.
Proof. vm_compute. reflexivity. Qed.
Example fhat_onestep : (snd <$> fhatlrta lss_dom (λ _, 0) (λ _, 1%Q) true no_limits (nodes 2) 5 0%nat 30) = Some ([3; 2; 0], [3; 2])%nat.
Proof. vm_compute. reflexivity. Qed.
(** The first lookahead of two nodes, 0 and 1: no closed node is open again; values 3 and 4, distances 2 and 3. *)
Definition none_open_again {D : domain} (L : fss D) : bool :=
  forallb (λ i, match f_nodes L !! i with Some n => negb (l_cl D n) | None => true end) (arr (f_open L)).
Lemma none_open_again_ok D (L : fss D) : none_open_again L = true → ∀ i n, i ∈ arr (f_open L) → f_nodes L !! i = Some n → l_cl D n = false.
Proof.
  unfold none_open_again. rewrite forallb_forall. intros H i n Hi%elem_of_list_In Hn. specialize (H i Hi). rewrite Hn in H. by apply negb_true_iff in H.
Qed.
Definition fsummary (D : domain) (r : option (fmem D * fss D * option nat)) (ss : list (St D)) : option (bool * option nat * list Z * list Q) :=
  '(M, L, goal) ← r; Some (none_open_again L, goal, m_h D (fm_mem M) <$> ss, n_d (fm_dist M) <$> ss).
Lemma fsummary_ok D r ss b goal hs ds : fsummary D r ss = Some (b, goal, hs, ds) →
  ∃ M L, r = Some (M, L, goal) ∧ none_open_again L = b ∧ (m_h D (fm_mem M) <$> ss) = hs ∧ (n_d (fm_dist M) <$> ss) = ds.
Proof. intros H. destruct r as [[[M L] g]|]; [|done]. injection H as <- <- <- <-. by exists M, L. Qed.
Example fhat_learn : ∃ M L, fround lss_dom (λ _, 0) (nodes 2) 10 0 (fmem0 lss_dom (λ _, 0) (λ _, 1%Q)) 0%nat = Some (M, L, None) ∧
  (∀ i n, i ∈ arr (f_open L) → f_nodes L !! i = Some n → l_cl lss_dom n = false) ∧
  (m_h lss_dom (fm_mem M) <$> [0; 1; 2; 3]%nat) = [3; 4; 0; 0] ∧ (n_d (fm_dist M) <$> [0; 1; 2; 3]%nat) = [2; 3; 1; 1]%Q.
Proof.
  assert (fsummary lss_dom (fround lss_dom (λ _, 0) (nodes 2) 10 0 (fmem0 lss_dom (λ _, 0) (λ _, 1%Q)) 0%nat) [0; 1; 2; 3]%nat
    = Some (true, None, [3; 4; 0; 0], [2; 3; 1; 1]%Q)) as H by (vm_compute; reflexivity).
  apply fsummary_ok in H as (M & L & Hr & Hn & H1 & H2). exists M, L. split_and!; [exact Hr| |exact H1|exact H2].
  by apply none_open_again_ok.
Qed.
(** ... and a goal is in reach of all states in reach, and the estimate is consistent. *)
Example fhat_hyps : domain_ok lss_dom ∧ consistent (D:=lss_dom) (λ _, 0) ∧ mem_ok (fm_mem (fmem0 lss_dom (λ _, 0) (λ _, 1%Q))) ∧
  ∀ s, s ∈ [0; 1; 2; 3]%nat → ∃ ss os k, solution (D:=lss_dom) s ss os k.
Proof. destruct lss_hyps as (H1 & H2 & _ & _ & H3 & _). split_and!; [done|done|apply mem0_ok|done]. Qed.

(** *** A closed node that is open again
    nclosed (fhatlrtastar.hpp:391) is decremented each time a closed node is popped.  State 4 is expanded at cost 200 and
    then reached again, from 5, at cost 101: it is on the open list when the second lookahead ends, and is popped once at
    its old value and once at its new one.  Learning stops before the open state 7 is popped.  The value of 5 becomes 100,
    but the goal is 6 away from it: the values are not admissible any more though the heuristic is consistent. *)
Definition re_dom : domain := table_domain
  [(0%nat, 1%nat, 1); (1%nat, 2%nat, 1); (2%nat, 3%nat, 1); (3%nat, 4%nat, 200); (3%nat, 5%nat, 1); (3%nat, 6%nat, 1);
   (5%nat, 4%nat, 100); (5%nat, 7%nat, 1); (4%nat, 6%nat, 1); (6%nat, 8%nat, 2); (7%nat, 8%nat, 5)] 8.
Definition re_h (s : nat) : Z := match s with 6%nat => 2 | 7%nat => 5 | _ => 0 end.
Definition re_d (s : nat) : Q := match s with 5%nat => 100%Q | 6%nat => 200%Q | _ => 0%Q end.

Lemma re_consistent : consistent (D:=re_dom) re_h.
Proof.
  split.
  - intros s Hs. apply bool_decide_eq_true in Hs as ->. done.
  - intros s o Ho. apply elem_of_list_fmap in Ho as (e & -> & He). apply elem_of_list_filter in He as [<- He].
    repeat (apply elem_of_cons in He as [->|He]; [vm_compute; congruence|]). by apply elem_of_nil in He.
Qed.

Lemma re_away : solution (D:=re_dom) 5%nat [5; 7; 8]%nat [7; 8]%nat 6.
Proof.
  split; [|split; [done|by exists 8%nat]]. apply (walk_step re_dom 5%nat 7%nat [8%nat] [8%nat] 5); [vm_compute; set_solver|].
  apply (walk_step re_dom 7%nat 8%nat [] [] 0); [vm_compute; set_solver|constructor].
Qed.

(** After the second lookahead of a run the values are not admissible. *)
Theorem C122_reopened_refuted : domain_ok re_dom ∧ consistent (D:=re_dom) re_h ∧
  ∃ lim M st cur os, fsloop re_dom re_h false lim (nodes 3) 0%Q 30 30 0 0%nat [] (fmem0 re_dom re_h re_d) (RCount 0 0 0) = Some (M, st, cur, os) ∧
    ¬ admissible (D:=re_dom) (m_h re_dom (fm_mem M)).
Proof.
  split; [by apply table_ok|]. split; [apply re_consistent|].
  destruct (fsloop re_dom re_h false no_limits (nodes 3) 0%Q 30 30 0 0%nat [] (fmem0 re_dom re_h re_d) (RCount 0 0 0)) as [[[[M st] cur] os]|] eqn:E.
  - exists no_limits, M, st, cur, os. split; [done|]. intros Ha.
    pose proof (Ha _ _ _ _ re_away) as H6.
    assert (m_h re_dom (fm_mem M) 5%nat = 100) as E5; [|rewrite E5 in H6; lia].
    clear -E. apply (f_equal (fmap (M:=option) (λ r : fmem re_dom * rcount * nat * list nat, m_h re_dom (fm_mem r.1.1.1) 5%nat))) in E.
    cbn [fmap option_fmap option_map fst] in E. apply (inj Some). rewrite <-E. vm_compute. reflexivity.
  - exfalso. apply (f_equal (λ r, bool_decide (is_Some r))) in E. vm_compute in E. done.
Qed.

(** *** The distances that errors are measured on
    The comment in fhatlrtastar.hpp:359 says that the error of d is measured on the original estimates.  It is measured on
    the values that learning has put in their place: the second lookahead of this run finds another error than with the
    original ones, from the same expansions. *)
Definition derr_of (D : domain) (k : nat) (M : fmem D) (dm : dist D) (cur : St D) : option Q :=
  '(_, _, _, _, er) ← expandFss D no_limits (nodes 1) 0%Q 10 k (fm_errs M) dm (fm_mem M) (RCount 0 0 0) cur; Some (derror er).
(** The state that is next after the first lookahead from [cur], and the error of d measured by a lookahead from it: with
    the learned and with the original distances. *)
Definition second (D : domain) (h : St D → Z) (d : St D → Q) (cur : St D) : option (St D * option Q * option Q) :=
  '(M, L, goal) ← fround D h (nodes 1) 10 0 (fmem0 D h d) cur;
  '(_, next) ← fmove D false L cur goal;
  Some (next, derr_of D 1 M (fm_dist M) next, derr_of D 1 M (Dist d (n_derr (fm_dist M))) next).
Theorem C121_original_d_refuted :
  ∃ a b, second lss_dom (λ _, 0) (λ s, if decide (s = 0%nat) then 0%Q else 1%Q) 0%nat = Some (1%nat, Some a, Some b) ∧ ¬ (a == b)%Q.
Proof. eexists _, _. split; [vm_compute; reflexivity|]. done. Qed.

Print Assumptions C120_result_valid.
Print Assumptions C120_lookahead_ends.
Print Assumptions C121_errors.
Print Assumptions C121_first.
Print Assumptions C121_original_d_refuted.
Print Assumptions C122_learned_values.
Print Assumptions C122_stays_consistent.
Print Assumptions C122_reopened_refuted.
