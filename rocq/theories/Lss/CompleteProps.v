(** LSS-LRTA-star with -complete: where it moves, that what it returns is a path, and that it reaches a goal. *)
From stdpp Require Import prelude.
From Coq Require Import ZArith Lia ZifyBool ZifyNat.
From Verif Require Import Common.Orders Common.Fuel BinHeap.Model BinHeap.Proofs.
From Verif Require Import Search.Domain Search.Model Search.Props Rta.Model Lss.Model Lss.Learn Lss.Look Lss.Run Lss.Props Lss.Complete.
Local Open Scope Z_scope.

(** ** Any values: the moves are walks *)
Section sound.
Context (D : domain) (h : St D → Z) (wt : Z) (onestep : bool) (lim : limits) (stop : nat → nat → bool).
Context (ord : nat → lss D → list nat).

(** [move_sound], for any node as the goal. *)
Lemma move_walk L cur goal os s' :
  pinv D (s_nodes D L) → move D onestep L cur goal = Some (os, s') →
  ∃ ss c, walk ss os c ∧ head ss = Some cur ∧ last ss = Some s'.
Proof.
  intros Hp Hm. unfold move in Hm.
  destruct (match goal with Some b => Some (Some b) | None => _ end) as [[b|]|] eqn:Hb; [|done..].
  cbn [mbind option_bind] in Hm. destruct (s_nodes D L !! b) as [bn|] eqn:Hbn; [|done]. cbn [mbind option_bind] in Hm.
  case_decide as Hne; [done|].
  destruct (upward D _ _ cur b None) as [[us r]|] eqn:Hu; [|done]. cbn [mbind option_bind] in Hm.
  destruct (upward_sound _ _ _ _ _ _ _ _ _ Hp Hbn Hu) as (ss & c & Hw & Hh & Hl & H0 & H1).
  assert (us ≠ []) as Hus.
  { intros ->. rewrite reverse_nil in Hw. inversion Hw; subst. simpl in *. by simplify_eq. }
  destruct onestep.
  - destruct (H1 Hus) as (o & ri & rn & Ho & Hr & Hrn & Hoo & Hd). rewrite Ho in Hm. cbn [mbind option_bind] in Hm.
    rewrite Hr in Hm. cbn [mbind option_bind] in Hm. rewrite Hrn in Hm. cbn [mbind option_bind] in Hm.
    apply (inj Some) in Hm. injection Hm as <- <-. exists [cur; l_st D rn], (cost cur o + 0).
    rewrite <-Hd. split_and!; try done. apply walk_step; [done|constructor].
  - apply (inj Some) in Hm. injection Hm as <- <-. by exists ss, c.
Qed.

Lemma movec_walk k L cur goal os s' :
  pinv D (s_nodes D L) → movec D onestep ord k L cur goal = Some (os, s') →
  ∃ ss c, walk ss os c ∧ head ss = Some cur ∧ last ss = Some s'.
Proof.
  intros Hp Hm. unfold movec in Hm. destruct (match goal with Some b => _ | None => _ end) as [best|]; [|done].
  by apply (move_walk L cur best).
Qed.

Lemma sloopc_sound s0 fuel efuel : ∀ k cur os m st ss c m' st' cur' os',
  walk ss os c → head ss = Some s0 → last ss = Some cur →
  sloopc D h wt onestep lim stop ord fuel efuel k cur os m st = Some (m', st', cur', os') →
  ∃ ss' c', walk ss' os' c' ∧ head ss' = Some s0 ∧ last ss' = Some cur'.
Proof.
  induction fuel as [|fuel IH]; intros k cur os m st ss c m' st' cur' os' Hw Hh Hl Hr; [done|]. cbn [sloopc] in Hr.
  destruct (isgoal cur). { apply (inj Some) in Hr. injection Hr as <- <- <- <-. eauto. }
  destruct (rreached lim st). { apply (inj Some) in Hr. injection Hr as <- <- <- <-. eauto. }
  destruct (expandLss D lim stop efuel k m (rcalled st) cur) as [[[[m1 L] st1] goal]|] eqn:Ee; [|done]. cbn [mbind option_bind] in Hr.
  destruct (rreached lim st1). { apply (inj Some) in Hr. injection Hr as <- <- <- <-. eauto. }
  destruct (match goal with Some _ => Some m1 | None => _ end) as [m2|]; [|done]. cbn [mbind option_bind] in Hr.
  destruct (movec D onestep ord k L cur goal) as [[os1 cur1]|] eqn:Em; [|done]. cbn [mbind option_bind] in Hr.
  destruct (expandLss_sound _ _ _ _ _ _ _ _ _ _ _ _ Ee) as [Hp _].
  destruct (movec_walk _ _ _ _ _ _ Hp Em) as (ss1 & c1 & Hw1 & Hh1 & Hl1).
  destruct ss1 as [|? ss1]; [done|]. injection Hh1 as ->.
  eapply (IH _ _ _ _ _ (ss ++ ss1) (c + c1)); [| | |exact Hr].
  - by eapply walk_app.
  - by destruct ss.
  - rewrite last_app. rewrite last_cons in Hl1. destruct (last ss1); [done|]. by rewrite Hl.
Qed.

Lemma sloopc_mono n : ∀ n' e e' k cur os m st r, sloopc D h wt onestep lim stop ord n e k cur os m st = Some r →
  (n ≤ n')%nat → (e ≤ e')%nat → sloopc D h wt onestep lim stop ord n' e' k cur os m st = Some r.
Proof.
  induction n as [|n IH]; intros n' e e' k cur os m st r Hr Hn He; [done|]. destruct n' as [|n']; [lia|].
  cbn [sloopc] in *. destruct (isgoal cur); [done|]. destruct (rreached lim st); [done|].
  destruct (expandLss D lim stop e k m (rcalled st) cur) as [[[[m1 L] st1] goal]|] eqn:Ee; [|done].
  rewrite (expandLss_mono _ _ _ _ _ _ _ _ _ _ Ee He). cbn [mbind option_bind] in *. destruct (rreached lim st1); [done|].
  assert (∀ m2, (match goal with Some _ => Some m1 | None => hCostLearning D h wt e m1 L end) = Some m2 →
    (match goal with Some _ => Some m1 | None => hCostLearning D h wt e' m1 L end) = Some m2) as Hl.
  { intros m2. destruct goal; [done|]. intros. by eapply learn_mono. }
  destruct (match goal with Some _ => Some m1 | None => hCostLearning D h wt e m1 L end) as [m2|]; [|done].
  rewrite (Hl _ eq_refl). cbn [mbind option_bind] in *.
  destruct (movec D onestep ord k L cur goal) as [[os1 cur1]|]; [|done]. cbn [mbind option_bind] in *. eapply IH; [done|lia|done].
Qed.

End sound.

(** ** The choice *)
Section choice.
Context (D : domain) (ns : list (lnode D)) (q : heap (Z * Z)) (cur : St D) (minf : Z).

(** A node that the loop does not pass over for good. *)
Definition cand e : Prop := ∃ n, ns !! e = Some n ∧ l_st D n ≠ cur ∧ l_cl D n = true ∧ (key q e).1 ≠ minf ∧ 0 ≤ (key q e).1.
(** [b] is as good as [e]. *)
Definition asgood b e : Prop := (key q e).1 < (key q b).1 ∨ (key q e).1 = (key q b).1 ∧ (key q e).2 ≤ (key q b).2.

Lemma layers_spec es : ∀ (dn : list nat) layer best,
  (∀ e, e ∈ es → is_Some (ns !! e)) → 0 ≤ layer →
  (∀ b, best = Some b → b ∈ dn ∧ cand b ∧ (key q b).1 = layer) → (best = None → layer = 0) →
  (∀ e, e ∈ dn → cand e → ∃ b, best = Some b ∧ asgood b e) →
  ∃ r, layers D ns q cur minf es layer best = Some r ∧
    (∀ b, r = Some b → (b ∈ dn ∨ b ∈ es) ∧ cand b) ∧
    (∀ e, e ∈ dn ∨ e ∈ es → cand e → ∃ b, r = Some b ∧ asgood b e).
Proof.
  induction es as [|e es IH]; intros dn layer best Hes Hl Hb Hn Hd; cbn [layers].
  { exists best. split_and!; [done|intros b Hbb; destruct (Hb b Hbb) as (? & ? & _); auto|].
    intros e [He|He%elem_of_nil]; [by apply Hd|done]. }
  destruct (Hes e ltac:(left)) as [n Hne]. rewrite Hne. cbn [mbind option_bind].
  assert (∀ e', e' ∈ es → is_Some (ns !! e')) as Hes' by (intros e' ?; apply Hes; by right).
  (* whatever is done with [e], the rest follows *)
  assert (∀ layer' best', 0 ≤ layer' →
    (∀ b, best' = Some b → b ∈ e :: dn ∧ cand b ∧ (key q b).1 = layer') → (best' = None → layer' = 0) →
    (∀ e', e' ∈ e :: dn → cand e' → ∃ b, best' = Some b ∧ asgood b e') →
    ∃ r, layers D ns q cur minf es layer' best' = Some r ∧
      (∀ b, r = Some b → (b ∈ dn ∨ b ∈ e :: es) ∧ cand b) ∧
      (∀ e', e' ∈ dn ∨ e' ∈ e :: es → cand e' → ∃ b, r = Some b ∧ asgood b e')) as Hgo.
  { intros layer' best' H1 H2 H3 H4. destruct (IH (e :: dn) layer' best' Hes' H1 H2 H3 H4) as (r & Hr & Ha & Hc).
    exists r. split_and!; [done| |].
    - intros b Hbb. destruct (Ha b Hbb) as [Hin Hcb]. split; [|done]. set_solver.
    - intros e' Hin. apply Hc. set_solver. }
  assert (¬ cand e → ∃ r, layers D ns q cur minf es layer best = Some r ∧
      (∀ b, r = Some b → (b ∈ dn ∨ b ∈ e :: es) ∧ cand b) ∧
      (∀ e', e' ∈ dn ∨ e' ∈ e :: es → cand e' → ∃ b, r = Some b ∧ asgood b e')) as Hskip.
  { intros Hnc. apply Hgo; [done| |done|].
    - intros b Hbb. destruct (Hb b Hbb) as (? & ? & ?). split_and!; [by right|done..].
    - intros e' [->|He']%elem_of_cons Hc; [done|by apply Hd]. }
  destruct (decide (l_st D n = cur)) as [Hs|Hs]. { apply Hskip. intros (n' & Hn' & ? & _). congruence. }
  destruct (l_cl D n) eqn:Hcl; cbn [negb]. 2:{ apply Hskip. intros (n' & Hn' & _ & ? & _). congruence. }
  destruct (decide ((key q e).1 = minf)) as [Hm|Hm]. { apply Hskip. by intros (n' & _ & _ & _ & ? & _). }
  destruct (decide ((key q e).1 < layer)) as [Hlt|Hlt].
  { apply Hgo; [done| |done|].
    - intros b Hbb. destruct (Hb b Hbb) as (? & ? & ?). split_and!; [by right|done..].
    - intros e' [->|He']%elem_of_cons Hc; [|by apply Hd]. destruct best as [b|].
      + exists b. split; [done|]. left. destruct (Hb b eq_refl) as (_ & _ & ->). done.
      + exfalso. rewrite (Hn eq_refl) in Hlt. destruct Hc as (_ & _ & _ & _ & _ & Hc). lia. }
  assert (cand e) as Hce. { exists n. split_and!; [done..|lia]. }
  destruct (decide (layer < (key q e).1)) as [Hgt|Hgt].
  - rewrite decide_True by done. unfold BinHeap.Model.pred.
    assert ((if astar_lt (key q e) (key q e) then Some e else Some e) = Some e) as -> by by destruct (astar_lt _ _).
    apply Hgo; [lia| |done|].
    + intros b [= <-]. split_and!; [left|done|done].
    + intros e' [->|He']%elem_of_cons Hc; exists e; (split; [done|]); [right; lia|].
      destruct (Hd e' He' Hc) as (b & -> & Hg). destruct (Hb b eq_refl) as (_ & _ & Hbl). left. unfold asgood in Hg. lia.
  - assert ((key q e).1 = layer) as Hel by lia. rewrite decide_True by done.
    destruct best as [b|].
    + destruct (Hb b eq_refl) as (Hbd & Hbc & Hbl). unfold BinHeap.Model.pred.
      destruct (astar_lt (key q e) (key q b)) eqn:Elt.
      * assert ((key q b).2 < (key q e).2) as Hgg.
        { unfold astar_lt in Elt. rewrite decide_True in Elt by lia. by apply bool_decide_eq_true in Elt. }
        apply Hgo; [lia| |done|].
        -- intros b' [= <-]. split_and!; [left|done|done].
        -- intros e' [->|He']%elem_of_cons Hc; exists e; (split; [done|]); [right; lia|].
           destruct (Hd e' He' Hc) as (b0 & [= <-] & Hg). unfold asgood in *. lia.
      * assert ((key q e).2 ≤ (key q b).2) as Hgg.
        { unfold astar_lt in Elt. rewrite decide_True in Elt by lia. apply bool_decide_eq_false in Elt. lia. }
        apply Hgo; [lia| |done|].
        -- intros b' [= <-]. split_and!; [by right|done|done].
        -- intros e' [->|He']%elem_of_cons Hc; [exists b; split; [done|right; lia]|by apply Hd].
    + apply Hgo; [lia| |done|].
      * intros b [= <-]. split_and!; [left|done|done].
      * intros e' [->|He']%elem_of_cons Hc; [exists e; split; [done|right; lia]|]. by destruct (Hd e' He' Hc) as (b & ? & _).
Qed.
End choice.

(** ** Consistent values: where it moves *)
Section live.
Context (D : domain) (OK : domain_ok D) (stop : nat → nat → bool) (ord : nat → lss D → list nat).
Context (v : St D → Z) (root : St D) (rc : Prop) (Hv : cons_h D v) (Hv0 : ∀ s, 0 ≤ v s).

Lemma choose_spec m L k :
  einv D v root rc m L None None [] → (∀ e, e ∈ ord k L → is_Some (s_nodes D L !! e)) → arr (s_open D L) ≠ [] →
  ∃ r minf, choose D ord k L root = Some r ∧
    (∃ j y gy, s_nodes D L !! j = Some y ∧ l_cl D y = false ∧ l_g D y = Some gy ∧ gy + v (l_st D y) = minf) ∧
    (∀ j y gy, s_nodes D L !! j = Some y → l_cl D y = false → l_g D y = Some gy → minf ≤ gy + v (l_st D y)) ∧
    (∀ b, r = Some b → ∃ n g, s_nodes D L !! b = Some n ∧ l_st D n ≠ root ∧ l_cl D n = true ∧ l_g D n = Some g ∧ g + v (l_st D n) < minf) ∧
    (∀ i a ga, i ∈ ord k L → s_nodes D L !! i = Some a → l_st D a ≠ root → l_cl D a = true → l_g D a = Some ga → ga + v (l_st D a) < minf →
      ∃ b n g, r = Some b ∧ s_nodes D L !! b = Some n ∧ l_g D n = Some g ∧
        (ga + v (l_st D a) < g + v (l_st D n) ∨ ga + v (l_st D a) = g + v (l_st D n) ∧ ga ≤ g)).
Proof using Hv0 stop.
  intros He Hord Hne. unfold choose.
  assert (∃ e, front (s_open D L) = Some e ∧ e ∈ arr (s_open D L)) as (e & Hf & Hein).
  { unfold front. destruct (arr (s_open D L)) as [|x l]; [done|]. exists x. split; [done|left]. }
  rewrite Hf. cbn [mbind option_bind].
  destruct (proj1 (ei_open _ _ _ _ _ _ _ _ _ He e) Hein) as (en & Hen & Hec).
  destruct (ei_g _ _ _ _ _ _ _ _ _ He e en Hen) as (eg & Heg & _).
  pose proof (ei_key _ _ _ _ _ _ _ _ _ He e en eg Hen Heg) as Hk. rewrite Hk. cbn [fst].
  set (minf := eg + v (l_st D en)).
  assert (∀ j y gy, s_nodes D L !! j = Some y → l_cl D y = false → l_g D y = Some gy → minf ≤ gy + v (l_st D y)) as Hmin.
  { intros j y gy Hy Hc Hgy. assert (j ∈ arr (s_open D L)) as Hj by (apply (ei_open _ _ _ _ _ _ _ _ _ He); by exists y).
    pose proof (pop_spec astar_lt (sw_asym _ astar_lt_sw) (sw_neg_trans _ astar_lt_sw) (λ _, True) _ (ei_heap _ _ _ _ _ _ _ _ _ He)) as Hp.
    unfold front in Hf. case_decide; [done|]. destruct (arr (s_open D L)) as [|x l]; [done|]. injection Hf as ->.
    destruct Hp as (q' & _ & _ & _ & _ & Hm). specialize (Hm j Hj).
    rewrite Hk, (ei_key _ _ _ _ _ _ _ _ _ He j y gy Hy Hgy) in Hm. apply astar_lt_false in Hm. unfold minf. lia. }
  destruct (layers_spec D (s_nodes D L) (s_open D L) root minf (ord k L) [] 0 None) as (r & Hr & Hb & Hc);
    [done|lia|done|done|by intros ? ?%elem_of_nil|].
  exists r, minf. split_and!; [done|by exists e, en, eg|done|..].
  - intros b ->. destruct (Hb b eq_refl) as (_ & n & Hn & Hs & Hcl & Hf1 & _).
    destruct (ei_g _ _ _ _ _ _ _ _ _ He b n Hn) as (g & Hg & _). exists n, g. split_and!; [done..|].
    rewrite (ei_key _ _ _ _ _ _ _ _ _ He b n g Hn Hg) in Hf1. cbn [fst] in Hf1.
    pose proof (ei_mono _ _ _ _ _ _ _ _ _ He b n g e en eg Hn Hcl Hg Hen Hec Heg). unfold minf in *. lia.
  - intros i a ga Hi Ha Hs Hcl Hga Hlt. pose proof (ei_key _ _ _ _ _ _ _ _ _ He i a ga Ha Hga) as Hki.
    destruct (ei_g _ _ _ _ _ _ _ _ _ He i a Ha) as (ga' & Hga' & Hga0). assert (ga' = ga) as -> by congruence.
    destruct (Hc i (or_intror Hi)) as (b & -> & Hg).
    { exists a. rewrite Hki. cbn [fst]. pose proof (Hv0 (l_st D a)). split_and!; [done..|lia|lia]. }
    destruct (Hb b eq_refl) as (_ & n & Hn & _). destruct (ei_g _ _ _ _ _ _ _ _ _ He b n Hn) as (g & Hgn & _).
    exists b, n, g. split_and!; [done..|]. unfold asgood in Hg. rewrite Hki, (ei_key _ _ _ _ _ _ _ _ _ He b n g Hn Hgn) in Hg. exact Hg.
Qed.

(** Moving to a given node other than the root. *)
Lemma move_to m L b n g :
  einv D v root rc m L None None [] → s_nodes D L !! b = Some n → l_st D n ≠ root → l_g D n = Some g →
  ∃ os ss, move D false L root (Some b) = Some (os, l_st D n) ∧ walk ss os g ∧ head ss = Some root ∧ last ss = Some (l_st D n).
Proof using OK stop Hv.
  clear ord Hv0.
  intros He Hn Hne Hg. unfold move. cbn [mbind option_bind]. rewrite Hn. cbn [mbind option_bind]. rewrite decide_False by done.
  destruct (ei_line _ _ _ _ _ _ _ _ _ He b n Hn) as (os & Hl & Hlen).
  destruct (upward_line D stop v root (s_nodes D L) b os Hv (ei_nodup _ _ _ _ _ _ _ _ _ He) Hl (S (length (s_nodes D L))) None n g)
    as (r & Hu & _); [|done|done|].
  - rewrite (ei_ncl _ _ _ _ _ _ _ _ _ He) in Hlen. pose proof (filter_length (λ n, l_cl D n = true) (s_nodes D L)). lia.
  - rewrite Hu. cbn [mbind option_bind].
    destruct (line_walk D OK no_limits stop v Hv root _ _ _ _ _ _ _ _ _ He Hl Hn) as (ss & g' & Hw & Hh & Hla & Hg').
    assert (g' = g) as -> by congruence. by exists (reverse os), ss.
Qed.

(** All that is below every open node has been expanded. *)
Lemma below_closed m L ss os c s :
  einv D v root rc m L None None [] → walk ss os c → head ss = Some root → last ss = Some s →
  (∀ j y gy, s_nodes D L !! j = Some y → l_cl D y = false → l_g D y = Some gy → c + v s < gy + v (l_st D y)) →
  closed_st (s_nodes D L) s.
Proof using Hv stop.
  clear OK ord Hv0.
  intros He Hw Hh Hl Hlt. destruct (ei_root _ _ _ _ _ _ _ _ _ He) as (r & Hr & Hrs & Hrg & _).
  assert (∀ ss os c t i n g pre, walk ss os c → head ss = Some t → last ss = Some s →
    s_nodes D L !! i = Some n → l_st D n = t → l_g D n = Some g → g ≤ pre →
    (∀ j y gy, s_nodes D L !! j = Some y → l_cl D y = false → l_g D y = Some gy → pre + c + v s < gy + v (l_st D y)) →
    closed_st (s_nodes D L) s) as Hgen.
  { clear ss os c Hw Hh Hl Hlt. intros ss os c t i n g pre Hw. revert t i n g pre.
    induction Hw as [s1|s1 o ss os c Ho Hw IH]; intros t i n g pre Hh Hl Hn Hs Hg Hle Hlt; simpl in Hh; injection Hh as <-.
    - injection Hl as <-. exists i, n. split_and!; [done| |done]. destruct (l_cl D n) eqn:Hc; [done|].
      specialize (Hlt i n g Hn Hc Hg). rewrite Hs in Hlt. lia.
    - assert (∀ ss os c t, walk ss os c → head ss = Some t → last ss = Some s → v t ≤ c + v s) as Hcw.
      { clear -Hv. intros ss os c t Hw. revert t. induction Hw as [s1|s1 o ss os c Ho Hw IH]; intros t Hh Hl; simpl in Hh; injection Hh as <-.
        - injection Hl as <-. lia.
        - pose proof (Hv _ _ Ho). specialize (IH _ eq_refl Hl). lia. }
      destruct (l_cl D n) eqn:Hc.
      + subst s1. destruct (ei_succ _ _ _ _ _ _ _ _ _ He i n o Hn Hc Ho) as (j & kn & g1 & g2 & Hj & Hjs & Hg1 & Hg2 & Hle2); [by left|].
        eapply (IH _ j kn g2 (pre + cost (l_st D n) o)); [reflexivity|exact Hl|exact Hj|exact Hjs|exact Hg2| |].
        * assert (g1 = g) as -> by congruence. lia.
        * intros j' y gy Hy Hcy Hgy. specialize (Hlt j' y gy Hy Hcy Hgy). lia.
      + exfalso. specialize (Hlt i n g Hn Hc Hg). rewrite Hs in Hlt. pose proof (Hv _ _ Ho).
        pose proof (Hcw _ _ _ _ Hw eq_refl Hl). lia. }
  apply (Hgen ss os c root 0%nat r 0 0); [done..|lia|]. intros j y gy ???. by apply (Hlt j).
Qed.
End live.

(** What is returned is a way from the start to a goal: for any heuristic, weight, lookahead, limits and order of the
    nodes, and with -onestep as well. *)
Theorem C136_result_valid D h wt onestep lim stop ord s0 fuel st path os :
  lsslrtac D h wt onestep lim stop ord s0 fuel = Some (st, (path, os)) → path ≠ [] →
  ∃ c, solution s0 (reverse path) (reverse os) c.
Proof.
  intros Hr Hp. unfold lsslrtac in Hr.
  destruct (sloopc _ _ _ _ _ _ _ _ _ _ _ _ _ _) as [[[[m1 st1] cur] os1]|] eqn:El; [|done]. cbn [mbind option_bind] in Hr.
  apply (inj Some) in Hr. unfold answer in Hr. destruct (isgoal cur) eqn:Eg; [|by injection Hr as _ <- _].
  injection Hr as _ <- <-. rewrite !reverse_involutive.
  apply (sloopc_sound D h wt onestep lim stop ord s0 fuel fuel 0 s0 [] _ _ [s0] 0) in El; [|constructor|done|done].
  destruct El as (ss & c & Hw & Hs & Hl).
  exists c. rewrite (rebuild_walk _ _ _ _ _ Hw Hs). split_and!; [done..|]. by exists cur.
Qed.

(** A lookahead from [cur] with consistent values [m_h D m] found no goal.  Every state [s] with a way of cost [c] from
    [cur] such that [c] plus the value of [s] is below that sum of every state left on the open list was expanded. *)
Theorem C136_below_expanded D (OK : domain_ok D) lim stop cur fuel k m st m' L st' ss os c s :
  mem_ok m → cons_h D (m_h D m) → isgoal cur = false →
  expandLss D lim stop fuel k m st cur = Some (m', L, st', None) →
  walk ss os c → head ss = Some cur → last ss = Some s →
  (∀ j y gy, s_nodes D L !! j = Some y → l_cl D y = false → l_g D y = Some gy → c + m_h D m s < gy + m_h D m (l_st D y)) →
  closed_st (s_nodes D L) s.
Proof.
  intros Hm Hv Hg Hr.
  destruct (expandLss_looked D OK lim stop (m_h D m) cur fuel k m st m' L st' None Hv Hm (λ _, eq_refl) Hg Hr)
    as (L0 & goal0 & He & _ & Hn & _). destruct (Hn eq_refl) as [-> ->].
  by apply (below_closed D stop (m_h D m) cur False Hv m' L).
Qed.

(** It then moves, along a way of the noted cost, to a node [n] other than [cur].  Call a node complete if its f - the
    noted cost plus the value - is below that of every open node.  If an expanded node other than [cur] is complete,
    [n] is one, of the largest f among them and of the largest cost among those; otherwise [n] is open and of least f. *)
Theorem C136_moves_to_last_layer D (OK : domain_ok D) lim stop ord cur fuel k m st m' L st' :
  mem_ok m → cons_h D (m_h D m) → (∀ s, 0 ≤ m_h D m s) → isgoal cur = false →
  expandLss D lim stop fuel k m st cur = Some (m', L, st', None) →
  closed_st (s_nodes D L) cur → (∃ s, frontier (s_nodes D L) s) →
  ord k L ≡ₚ seq 0 (length (s_nodes D L)) →
  let f (n : lnode D) (g : Z) := g + m_h D m (l_st D n) in
  let complete (a : lnode D) (ga : Z) := ∀ j y gy, s_nodes D L !! j = Some y → l_cl D y = false → l_g D y = Some gy → f a ga < f y gy in
  ∃ os i n g ss, movec D false ord k L cur None = Some (os, l_st D n) ∧
    s_nodes D L !! i = Some n ∧ l_st D n ≠ cur ∧ l_g D n = Some g ∧
    walk ss os g ∧ head ss = Some cur ∧ last ss = Some (l_st D n) ∧
    (l_cl D n = true ∧ complete n g ∧
       (∀ j a ga, s_nodes D L !! j = Some a → l_cl D a = true → l_st D a ≠ cur → l_g D a = Some ga → complete a ga →
          f a ga < f n g ∨ f a ga = f n g ∧ ga ≤ g) ∨
     l_cl D n = false ∧
       (∀ j y gy, s_nodes D L !! j = Some y → l_cl D y = false → l_g D y = Some gy → f n g < f y gy ∨ f n g = f y gy ∧ gy ≤ g) ∧
       (∀ j a ga, s_nodes D L !! j = Some a → l_cl D a = true → l_st D a ≠ cur → l_g D a = Some ga → ¬ complete a ga)).
Proof.
  intros Hm Hv Hv0 Hg Hr Hcc [fs Hfr] Hord f complete.
  destruct (expandLss_looked D OK lim stop (m_h D m) cur fuel k m st m' L st' None Hv Hm (λ _, eq_refl) Hg Hr)
    as (L0 & goal0 & He & _ & Hn & _). destruct (Hn eq_refl) as [-> ->]. clear Hn.
  pose proof (ei_nodup _ _ _ _ _ _ _ _ _ He) as Hnd.
  assert (arr (s_open D L) ≠ []) as Harr.
  { destruct Hfr as (j & y & Hy & Hc & _). intros Hnil.
    assert (j ∈ arr (s_open D L)) as Hin by (apply (ei_open _ _ _ _ _ _ _ _ _ He); by exists y). rewrite Hnil in Hin. by apply elem_of_nil in Hin. }
  assert (∀ e, e ∈ ord k L ↔ is_Some (s_nodes D L !! e)) as Hin.
  { intros e. rewrite Hord, elem_of_seq. rewrite lookup_lt_is_Some. lia. }
  destruct (choose_spec D stop ord (m_h D m) cur False Hv0 m' L k He) as (r & minf & Hch & (j0 & y0 & gy0 & Hy0 & Hc0 & Hg0 & Hf0) & Hmin & Hb & Hall);
    [intros e; apply Hin|done|].
  assert (∀ a ga, complete a ga ↔ f a ga < minf) as Hcomp.
  { intros a ga. split; [intros H; specialize (H j0 y0 gy0 Hy0 Hc0 Hg0); unfold f in *; lia|].
    intros H j y gy Hy Hc Hgy. specialize (Hmin j y gy Hy Hc Hgy). unfold f in *. lia. }
  unfold movec. rewrite Hch. cbn [mbind option_bind]. destruct r as [b|].
  - destruct (Hb b eq_refl) as (n & g & Hbn & Hs & Hcl & Hgn & Hlt).
    destruct (move_to D OK stop (m_h D m) cur False Hv m' L b n g He Hbn Hs Hgn) as (os & ss & Hmv & Hw & Hh & Hl).
    exists os, b, n, g, ss. split_and!; [done..|]. left. split_and!; [done|by apply Hcomp|].
    intros j a ga Ha Hca Hsa Hga Hcom. apply Hcomp in Hcom.
    destruct (Hall j a ga) as (b' & n' & g' & [= <-] & Hn' & Hg' & Hres); [by apply Hin|done..|].
    assert (n' = n) as -> by congruence. assert (g' = g) as -> by congruence. exact Hres.
  - assert (Hnotroot : ∀ e, e ∈ arr (s_open D L) → ∃ n, s_nodes D L !! e = Some n ∧ l_st D n ≠ cur ∧ l_cl D n = false).
    { intros e (n & Hn & Hc)%(ei_open _ _ _ _ _ _ _ _ _ He). exists n. split_and!; [done| |done]. intros Hs.
      destruct Hcc as (i & a & Ha & Hca & Hsa). assert (e = i) as -> by (eapply nodup_st; [exact Hnd|done..|congruence]). congruence. }
    destruct (bestopen_spec D (s_nodes D L) (s_open D L) cur (arr (s_open D L)) None) as (r & Hr' & H1 & _ & H3).
    { intros e He'. destruct (Hnotroot e He') as (n & Hn & _). eauto. }
    { done. }
    assert (∀ j y, s_nodes D L !! j = Some y → l_cl D y = false → j ∈ arr (s_open D L)) as Hop.
    { intros j y Hy Hc. apply (ei_open _ _ _ _ _ _ _ _ _ He). by exists y. }
    pose proof (Hop j0 y0 Hy0 Hc0) as Hj0. destruct (Hnotroot j0 Hj0) as (y0' & Hy0' & Hs0 & _). assert (y0' = y0) as -> by congruence.
    destruct (H1 j0 y0 Hj0 Hy0 Hs0) as (b & -> & _). destruct (H3 b eq_refl) as ([Hbi|?] & n & Hbn & Hs); [|done].
    destruct (Hnotroot b Hbi) as (n' & Hbn' & _ & Hcl). assert (n' = n) as -> by congruence.
    destruct (ei_g _ _ _ _ _ _ _ _ _ He b n Hbn) as (g & Hgn & _).
    destruct (move_to D OK stop (m_h D m) cur False Hv m' L b n g He Hbn Hs Hgn) as (os & ss & Hmv & Hw & Hh & Hl).
    assert (move D false L cur None = move D false L cur (Some b)) as Heq.
    { unfold move. rewrite Hr'. reflexivity. }
    exists os, b, n, g, ss. split_and!; [by rewrite Heq|done..|]. right. split_and!; [done|..].
    + intros j y gy Hy Hc Hgy. pose proof (Hop j y Hy Hc) as Hj. destruct (Hnotroot j Hj) as (y' & Hy' & Hsy & _). assert (y' = y) as -> by congruence.
      destruct (H1 j y Hj Hy Hsy) as (b' & [= <-] & Hlt).
      rewrite (ei_key _ _ _ _ _ _ _ _ _ He j y gy Hy Hgy), (ei_key _ _ _ _ _ _ _ _ _ He b n g Hbn Hgn) in Hlt.
      apply astar_lt_false in Hlt. unfold f. lia.
    + intros j a ga Ha Hca Hsa Hga Hcom. apply Hcomp in Hcom. destruct (Hall j a ga) as (b' & ? & ? & ? & _); [by apply Hin|done..].
Qed.

(** ** The search reaches a goal *)
Section ends.
Context (D : domain) (OK : domain_ok D) (h : St D → Z) (stop : nat → nat → bool) (ord : nat → lss D → list nat).
Context (U : list (St D)) (B : Z).
Context (HU : ∀ s o, s ∈ U → o ∈ ops s → dest s o ∈ U).
Context (Hsol : ∀ s, s ∈ U → ∃ ss os c, solution s ss os c ∧ c ≤ B).
Context (Hpos : ∀ (s : St D) o, o ∈ ops s → 0 < cost s o).
Context (Hstop : ∀ k, stop k 0%nat = false).
Context (Hh0 : ∀ s, 0 ≤ h s) (Hhg : ∀ s, isgoal s = true → h s ≤ 0).
Context (Hord : ∀ k L e, e ∈ ord k L → is_Some (s_nodes D L !! e)).

Lemma sloopc_goal efuel : (length U < efuel)%nat → ∀ a b k cur os m st,
  cur ∈ U → minv D h m → (room D U B (m_h D m) ≤ a)%nat → (Z.to_nat (m_h D m cur) ≤ b)%nat →
  ∃ fuel m' st' cur' os', sloopc D h 1 false no_limits stop ord fuel efuel k cur os m st = Some (m', st', cur', os') ∧ isgoal cur' = true.
Proof.
  intros Hef a. induction (lt_wf a) as [a _ IHa]. intros b. induction (lt_wf b) as [b _ IHb].
  intros k cur os m st Hcur Hmi Ha Hb. pose proof Hmi as (Hm & Hv & Hle & Hgo).
  destruct (isgoal cur) eqn:Hg. { exists 1%nat, m, st, cur, os. cbn [sloopc]. by rewrite Hg. }
  destruct (expandLss_spec D OK no_limits stop (m_h D m) cur U efuel k m (rcalled st) Hv Hm (λ _, eq_refl) Hg) as (m1 & L & st1 & goal & Hx & Hlk);
    [intros s; by apply (reach_U D U HU)|done|].
  destruct goal as [gb|].
  - destruct (move_goal D h stop _ _ _ _ _ _ Hv Hg Hlk) as (os1 & s1 & Hmv & Hg1).
    exists 2%nat, m1, (rcalled st1), s1, (os ++ os1). cbn [sloopc]. rewrite Hg. change (rreached no_limits st) with false. cbn iota.
    rewrite Hx. cbn [mbind option_bind]. change (rreached no_limits st1) with false. cbn iota. cbn [mbind option_bind].
    unfold movec. cbn [mbind option_bind]. rewrite Hmv. cbn [mbind option_bind]. by rewrite Hg1.
  - pose proof Hlk as (L0 & goal0 & He & _ & Hn & _). destruct (Hn eq_refl) as [-> ->].
    assert (einv D (m_h D m) cur True m1 L None None []) as He'.
    { eapply einv_rc; [exact He|]. intros _. apply (ei_rc _ _ _ _ _ _ _ _ _ He). split; [apply Hstop|done]. }
    clear He Hn Hlk. pose proof (ei_h _ _ _ _ _ _ _ _ _ He') as Hh.
    assert (0 ≤ 1) as H01 by lia.
    destruct (einv_length D OK no_limits stop _ Hv cur True U m1 L None None [] ltac:(intros s; by apply (reach_U D U HU)) He') as [HlU _].
    destruct (learn_spec D h 1 OK H01 m1 L efuel (ei_mem _ _ _ _ _ _ _ _ _ He')
      (einv_lss_ok D OK no_limits stop _ Hv _ _ _ _ _ He')) as (m2 & Hl & _ & _ & _); [lia|].
    destruct (learn_round D OK h no_limits stop (m_h D m) cur True m1 L efuel m2 Hv Hle He') as (Hm2 & Hv2 & Hup & Hgo2 & Hcl).
    { intros s Hs. destruct (Hsol s (reach_U D U HU _ _ Hcur Hs)) as (ss & os1 & c & Hs1 & _). by exists ss, os1, c. }
    { done. }
    destruct (ei_root _ _ _ _ _ _ _ _ _ He') as (r & Hr0 & Hrs & Hrg & _).
    destruct (ei_rc _ _ _ _ _ _ _ _ _ He' I) as (r' & Hr0' & Hrc). assert (r' = r) as -> by congruence.
    destruct (Hcl cur) as (w & Hw & Hwle); [by exists 0%nat, r|].
    destruct (leaves_open D stop h (m_h D m) cur True m1 L None cur w 0%nat r 0 He' Hw Hr0 Hrs Hrg) as (j & y & gy & Hy & Hcy & Hgy & Hfy).
    assert (arr (s_open D L) ≠ []) as Hne.
    { assert (j ∈ arr (s_open D L)) as Hin by (apply (ei_open _ _ _ _ _ _ _ _ _ He'); by exists y). intros Hnil. rewrite Hnil in Hin. by apply elem_of_nil in Hin. }
    assert (minv D h m2) as Hmi2.
    { split_and!; [done|done|intros s; specialize (Hle s); specialize (Hup s); lia|intros s Hs; rewrite (Hgo2 s Hs); by apply Hgo]. }
    assert (∀ s, s ∈ U → m_h D m2 s ≤ B) as HB.
    { intros s Hs. destruct (Hsol s Hs) as (ss & os2 & c & Hso & Hc).
      assert (consistent (m_h D m2)) as Hc2. { split; [|done]. intros t Ht. destruct Hmi2 as (_ & _ & _ & ->); [|done]. by apply Hhg. }
      pose proof (consistent_admissible D (m_h D m2) (m_h D m2) Hc2 ltac:(done) s ss os2 c Hso). lia. }
    (* the move: the value of [cur] has risen, or the value of the next state is smaller *)
    assert (∃ os1 s1, movec D false ord k L cur None = Some (os1, s1) ∧ s1 ∈ U ∧
      (m_h D m cur < m_h D m2 cur ∨ m_h D m s1 < m_h D m2 cur)) as (os1 & s1 & Hmv & Hs1 & Hprog).
    { destruct (choose_spec D stop ord (m_h D m) cur True) with (m := m1) (L := L) (k := k)
        as (cr & minf & Hch & _ & Hmin & Hcb & _); [intros s; specialize (Hle s); specialize (Hh0 s); lia|done|apply Hord|done|].
      specialize (Hmin j y gy Hy Hcy Hgy). unfold movec. rewrite Hch. cbn [mbind option_bind]. destruct cr as [cb|].
      - destruct (Hcb cb eq_refl) as (n & g & Hbn & Hs & Hc & Hgn & Hlt).
        destruct (move_to D OK stop (m_h D m) cur True Hv m1 L cb n g He' Hbn Hs Hgn) as (os1 & ss & Hmv & Hwk & Hhd & Hla).
        exists os1, (l_st D n). split_and!; [done| |].
        + apply (reach_U D U HU cur); [done|]. by exists ss, os1, g.
        + left. pose proof (line_f D stop (m_h D m) cur True m1 L None None [] cb n g Hv He' Hbn Hgn). lia.
      - destruct (move_spec D OK no_limits stop (m_h D m) cur false m1 L Hv He' Hne) as (os1 & s1 & g & Hmv & Hre & Hmn & Hg0).
        specialize (Hg0 Hpos). specialize (Hmn j y gy Hy Hcy Hgy).
        exists os1, s1. split_and!; [done|by eapply (reach_U D U HU)|]. right. lia. }
    assert (∃ fuel m' st' cur' os', sloopc D h 1 false no_limits stop ord fuel efuel (S k) s1 (os ++ os1) m2 (rcalled st1) = Some (m', st', cur', os') ∧ isgoal cur' = true)
      as (fuel & m' & st' & cur' & os' & Hrun & Hgc).
    { destruct (decide (Forall (λ s, m_h D m2 s = m_h D m s) U)) as [Hsame|Hdiff].
      - rewrite Forall_forall in Hsame. pose proof (Hsame _ Hcur) as Hsc. pose proof (Hsame _ Hs1) as Hss.
        apply (IHb (Z.to_nat (m_h D m2 s1))); [|done|done| |lia].
        + pose proof (Hle s1). pose proof (Hh0 s1). lia.
        + pose proof (room_le D h U B _ _ Hup). lia.
      - apply not_Forall_Exists in Hdiff; [|intros s; apply _]. apply Exists_exists in Hdiff as (s & Hs & Hne').
        apply (IHa (room D U B (m_h D m2))) with (b := Z.to_nat (m_h D m2 s1)); [|done|done|lia|lia].
        pose proof (Hup s). assert (room D U B (m_h D m2) < room D U B (m_h D m))%nat; [|lia].
        apply (room_lt D h U B _ _ s); [done|done| |by apply HB]. simpl in Hne'. lia. }
    exists (S fuel), m', st', cur', os'. split; [|done]. cbn [sloopc]. rewrite Hg. change (rreached no_limits st) with false. cbn iota.
    rewrite Hx. cbn [mbind option_bind]. change (rreached no_limits st1) with false. cbn iota. rewrite Hl. cbn [mbind option_bind].
    rewrite Hmv. cbn [mbind option_bind]. done.
Qed.
End ends.

(** Where there are finitely many states, in each of which a goal can be reached, every step costs something, and the
    heuristic is consistent, the search finds a way to a goal: however little it looks ahead, as long as it expands
    something each time, and in whatever order it meets the nodes. *)
Theorem C136_ends D (OK : domain_ok D) h stop ord (U : list (St D)) s0 :
  consistent h → (∀ s, 0 ≤ h s) → (∀ (s : St D) o, o ∈ ops s → 0 < cost s o) →
  s0 ∈ U → (∀ s o, s ∈ U → o ∈ ops s → dest s o ∈ U) → (∀ s, s ∈ U → ∃ ss os c, solution s ss os c) →
  (∀ k, stop k 0%nat = false) → (∀ k L, ord k L ≡ₚ seq 0 (length (s_nodes D L))) →
  ∃ st path os c, ends (lsslrtac D h 1 false no_limits stop ord s0) (st, (path, os)) ∧ solution s0 (reverse path) (reverse os) c.
Proof.
  intros [Hhg Hc] Hh0 Hpos H0 HU Hsol Hstop Hord.
  assert (∃ B, ∀ s, s ∈ U → ∃ ss os c, solution s ss os c ∧ c ≤ B) as (B & HB).
  { clear -Hsol. induction U as [|s l IH]; [exists 0; by intros s ?%elem_of_nil|].
    destruct IH as (B & HB); [intros t Ht; apply Hsol; by right|]. destruct (Hsol s ltac:(left)) as (ss & os & c & Hs).
    exists (Z.max B c). intros t [->|Ht]%elem_of_cons; [exists ss, os, c; split; [done|lia]|].
    destruct (HB t Ht) as (ss' & os' & c' & Hs' & Hc'). exists ss', os', c'. split; [done|lia]. }
  assert (∀ k L e, e ∈ ord k L → is_Some (s_nodes D L !! e)) as Hin.
  { intros k L e. rewrite Hord, elem_of_seq, lookup_lt_is_Some. lia. }
  destruct (sloopc_goal D OK h stop ord U B HU HB Hpos Hstop Hh0 Hhg Hin (S (length U)) ltac:(lia)
    (room D U B h) (Z.to_nat (h s0)) 0 s0 [] (mem0 D h) (RCount 0 0 0)) as (fuel & m & st & cur & os & Hr & Hg); [done| |done|done|].
  { split_and!; [apply mem0_ok|exact Hc|done|done]. }
  set (n := (fuel + S (length U))%nat).
  assert (∀ n', (n ≤ n')%nat → lsslrtac D h 1 false no_limits stop ord s0 n' = Some (st, (reverse (rebuild D s0 os), reverse os))) as Hn.
  { intros n' Hn'. unfold lsslrtac. rewrite (sloopc_mono D h 1 false no_limits stop ord fuel n' (S (length U)) n' _ _ _ _ _ _ Hr) by lia.
    cbn [mbind option_bind]. unfold answer. by rewrite Hg. }
  assert (reverse (rebuild D s0 os) ≠ []) as Hne. { intros He%(f_equal length). rewrite reverse_length in He. by destruct os. }
  destruct (C136_result_valid D h 1 false no_limits stop ord s0 n _ _ _ (Hn n ltac:(lia)) Hne) as (c & Hs).
  eexists _, _, _, c. split; [|exact Hs]. by exists n.
Qed.

(** ** Instances *)
Definition inorder {D} (k : nat) (L : lss D) : list nat := seq 0 (length (s_nodes D L)).

(** The hypotheses of [C136_ends] are those of [C80_lss_complete], of which [lss_hyps] is an instance; and the order. *)
Example order_hyp {D} k (L : lss D) : inorder k L ≡ₚ seq 0 (length (s_nodes D L)).
Proof. done. Qed.

(** In the graph of [lss_dom] the first lookahead of two nodes expands 0 and 1 and leaves 2 open: f is 0, 1 and 3.  So
    state 1 is in the last complete layer; without the flag the search moves to 2. *)
Example complete_moves :
  ('(m, L, _, g) ← expandLss lss_dom no_limits (nodes 2) 10 0 (mem0 lss_dom (λ _, 0)) (RCount 0 0 0) 0%nat;
   Some (l_st lss_dom <$> s_nodes lss_dom L, l_cl lss_dom <$> s_nodes lss_dom L, l_g lss_dom <$> s_nodes lss_dom L, g,
         snd <$> movec lss_dom false inorder 0 L 0%nat None, snd <$> move lss_dom false L 0%nat None)) =
  Some ([0; 1; 2]%nat, [true; true; false], [Some 0; Some 1; Some 3], None, Some 1%nat, Some 2%nat).
Proof. vm_compute. reflexivity. Qed.
Example complete_run : lshow (lsslrtac lss_dom (λ _, 0) 1 false no_limits (nodes 2) inorder 0%nat 30) = Some ([3; 2; 0; 1; 0], [3; 2; 0; 1])%nat.
Proof. vm_compute. reflexivity. Qed.

Print Assumptions C136_result_valid.
Print Assumptions C136_below_expanded.
Print Assumptions C136_moves_to_last_layer.
Print Assumptions C136_ends.
